(** Property theorem C50: derived code together with hand-written [Deserialize] implementations.

    [read_mixed o alg env P dbg t]: reading a document as type [t] in a program with the derived types
    [env] and the hand-written code [P] (DeriveMixed.v). [program env P Q]: it compiles, and the
    hand-written code panics, if at all, with [Q] (MixedSpec.v). *)
From Verif Require Import Base Normalize Text TextProofs Find Types Reader ReaderSpec ReaderRel DeriveDe DeSpec
  DeriveMixed MixedSpec MixedProofs MixedReads MixedUser PropReader PropDe.

(** ** C50: memory safety next to hand-written code *)

(** Whatever the hand-written code does (swallow errors, ignore elements, return anything, panic) and
    whatever the parser reports (also ill-formed streams), with or without debug assertions: derived
    code neither uses uninitialized memory nor overwrites a live value, and finds what rustc promises. *)
Theorem C50_memory_safe : forall U o alg env (P : user U) dbg t src fin x,
  program env P harmless -> oracles_total o -> has_deserialize env P t ->
  read_mixed o alg env P dbg t src fin = Abort x -> harmless x.
Proof. intros U. exact memory_safe. Qed.
Print Assumptions C50_memory_safe.

(** In general, a read does not return only because of a panic of the hand-written code or one of the
    reader's own listed panics. *)
Theorem C50_only_own_panics : forall U o alg env (P : user U) dbg t src fin x Q,
  program env P Q -> oracles_total o -> has_deserialize env P t ->
  read_mixed o alg env P dbg t src fin = Abort x -> Q x \/ reader_abort x.
Proof. intros U. exact only_own_panics. Qed.
Print Assumptions C50_only_own_panics.

(** Hand-written code that does not panic, and, if debug assertions are on, hands on errors of reading:
    reading ends with a value or an error. *)
Theorem C50_total : forall U o alg env (P : user U) dbg t src fin,
  program env P (fun _ => False) -> oracles_total o -> has_deserialize env P t ->
  (dbg = true -> strict P) -> deliverable src fin ->
  no_abort (read_mixed o alg env P dbg t src fin).
Proof. intros U. exact mixed_total. Qed.
Print Assumptions C50_total.

(** Derived types that do not use hand-written ones are read as before. *)
Theorem C50_conservative : forall U o alg env (P : user U) dbg t src fin,
  compiles env -> oracles_total o -> known_ty env t ->
  read_mixed o alg env P dbg t src fin = read_as o alg env dbg t src fin.
Proof. intros U. exact mixed_conservative. Qed.
Print Assumptions C50_conservative.

(** Hand-written visitors are called as they would be without any derived code (C11-C17 say how). *)
Theorem C50_hand_written_alone : forall U o alg env (V : visitors U) D id dbg src fin, env id = None ->
  read_mixed o alg env (hand V D id) dbg (ERef id) src fin = read dbg V D (reader_new src fin).
Proof. intros U. exact hand_alone. Qed.
Print Assumptions C50_hand_written_alone.

(** Hand-written code that calls [T::deserialize] of another type sees exactly what that returns, value
    or error, and decides about it. *)
Theorem C50_delegation : forall U o alg env (P : user U) id D t n parents, env id = None -> known_ty env t ->
  u_type P id = Some (fun _ => UDeserialize t D) ->
  result_of o alg env P (ERef id) n parents =
  option_map (fun r => match r with Ok v => D (inl v) | Err e => D (inr e) | Abort x => Abort x end)
    (result_of o alg env P t n parents).
Proof. intros U. exact delegation. Qed.
Print Assumptions C50_delegation.

(** ** Examples *)

(** [struct Team { lead: Lenient, name: String, members: Vec<Bag> }]; [Lenient]: a [Person], or
    nothing if it cannot be read; [Bag]: any number of [Person]s, whatever the elements are called. *)
Definition team_fields : list field :=
  [ Field (un "lead") (MElement KOne (ERef 5)) None;
    Field (un "name") (MElement KOne str_ty) None;
    Field (un "members") (MElement KVec (ERef 7)) None ].

Definition env1 : tenv := fun id =>
  if Nat.eqb id 6 then Some (TDStruct "Team" (ln "team") [] team_fields) else env0 id.

Definition bag : user (list value) := {|
  u_type := fun id =>
    match id with
    | 5 => Some (fun _ => UDeserialize (ERef 0) (fun x => match x with inl v => Ok v | inr _ => Ok VNone end))
    | 7 => Some (fun _ => UReadTo [] (fun x u => match x with inl _ => Ok (VVec u) | inr e => Err e end))
    | _ => None
    end;
  u_attribute := fun u _ v => (Ok (Some v), u);
  u_characters := fun u s _ => (Ok (Some s), u);
  u_element := fun u _ => UDeserialize (ERef 0)
    (fun x => match x with inl v => (Ok false, u ++ [v]) | inr e => (Err e, u) end);
|}.

Lemma bag_program : program env1 bag (fun _ => False).
Proof.
  split.
  - intros [|[|[|[|[|[|[|id]]]]]]] d [= <-]; repeat constructor; cbn;
      try (left; discriminate); try (right; discriminate); try discriminate; try exact I;
      unfold mfield_compiles; cbn; do 5 eexists; reflexivity.
  - intros [|[|[|[|[|[|[|[|id]]]]]]]] D i; try discriminate; intros [= <-]; cbn.
    + split; [discriminate|]. intros [v|e] x; discriminate.
    + intros [v|e] u x; discriminate.
  - intros u n v x. discriminate.
  - intros u s p x. discriminate.
  - intros u i. split; [discriminate|]. intros [v|e] x; discriminate.
Qed.

Definition team_doc (id : string) (more : list node) : doc := doc_of []
  [ uel "p" "lead" [Attr (nm "id") id] (uel "p" "nothing" [] [] :: uel "p" "name" [] [tx "Bo"] :: more);
    uel "p" "name" [] [tx "A"];
    uel "p" "members" [] [friend "p"; friend "q"] ].

Definition bo : value := VStruct [VText (TVBool false); s_ "Bo"; VNone; VVec []; VVec []; VEnum 1 None].

Definition read1 (dbg : bool) (d : doc) : res error value :=
  read_mixed oracles0 Bisect env1 bag dbg (ERef 6) (doc_events d) end0.

(** [Lenient] recovers from a bad [id] and from an incomplete friend. In the second case the reader's
    debug assertions fail (C14). *)
Example C50_example : has_deserialize env1 bag (ERef 6) /\ program env1 bag harmless /\
  read1 true (team_doc "false" []) = Ok (VStruct [bo; s_ "A"; VVec [VVec [bo; bo]]]) /\
  read1 true (team_doc "x" []) = Ok (VStruct [VNone; s_ "A"; VVec [VVec [bo; bo]]]) /\
  read1 false (team_doc "false" [uel "p" "friend" [] []]) = Ok (VStruct [VNone; s_ "A"; VVec [VVec [bo; bo]]]) /\
  read1 true (team_doc "false" [uel "p" "friend" [] []]) = Abort (Panic "assertion failed: stack.len() == depth").
Proof.
  split; [left; discriminate|]. split; [|vm_compute; repeat split; reflexivity].
  eapply program_mono; [|exact bag_program]. intros x [].
Qed.

(** Hand-written code that lists the attributes of the root and the names of its children. *)
Definition lister : visitors (list value) := {|
  v_attribute := fun u n v => (Ok None, u ++ [s_ (xn_local n); s_ v]);
  v_characters := fun u s _ => (Ok (Some s), u);
  v_element := fun u i => ANoRead (Ok false, u ++ [s_ (on_local (ei_name i))]);
|}.
Definition list_root (_ : einfo) : action (list value) (res verr value) :=
  AReadTo [] (fun x u => match x with inl _ => Ok (VVec u) | inr e => Err e end).

Example C50_lister_example : env1 9 = None /\
  read_mixed oracles0 Bisect env1 (hand lister list_root 9) true (ERef 9)
    (doc_events (doc_of [Attr (nm "id") "false"] [uel "p" "lead" [] []; tx "x"; uel "q" "name" [] [tx "A"]])) end0 =
  Ok (VVec [s_ "id"; s_ "false"; s_ "lead"; s_ "name"]).
Proof. split; [reflexivity|]. rewrite hand_alone by reflexivity. vm_compute. reflexivity. Qed.

(** [Lenient] above: the error of [Person], and the value instead. *)
Example C50_delegation_example : env1 5 = None /\ known_ty env1 (ERef 0) /\
  let n := uel "p" "lead" [] [uel "p" "friend" [] []] in
  (exists e, result_of oracles0 Bisect env1 bag (ERef 0) n [] = Some (Err e)) /\
  result_of oracles0 Bisect env1 bag (ERef 5) n [] = Some (Ok VNone).
Proof.
  split; [reflexivity|]. split; [discriminate|]. split; [eexists|]; vm_compute; reflexivity.
Qed.
