(** Property theorem C66: what is leaked in programs with hand-written [Deserialize] implementations.

    [leaked_mixed o alg env P dbg t src fin]: the values leaked while reading [src] as [t], by derived visitors wherever
    they are used: at the root, in fields, or by hand-written code that may swallow their errors (MixedLeak.v).
    [leaks], [leaked_by]: what derived code alone leaks (C55). *)
From Coq Require Import Lia.
From Verif Require Import Base Normalize Text TextProofs Find Types Reader ReaderSpec ReaderProofs DeriveDe DeSpec DeTotal DeProps
  DeriveMixed MixedSpec MixedProofs LeakSpec ErrProofs MixedLeak MixedLeakProofs PropReader PropDe PropMixed PropLeak.

(** ** C66: leaks next to hand-written code *)

(** Keeping the record of what is leaked does not change what is read. *)
Theorem C66_recording : forall U o alg env (P : user U) dbg t src fin,
  lread o alg env P dbg t src fin = read_mixed o alg env P dbg t src fin.
Proof. intros U. exact recorded. Qed.
Print Assumptions C66_recording.

(** Hand-written code that hands on the errors of reading: a read that succeeds has leaked nothing, whatever the
    parser reported and whether or not debug assertions are on. *)
Theorem C66_success : forall U o alg env (P : user U), strict P -> forall dbg t src fin v,
  read_mixed o alg env P dbg t src fin = Ok v -> leaked_mixed o alg env P dbg t src fin = [].
Proof. intros U. exact strict_no_leak. Qed.
Print Assumptions C66_success.

(** Derived types that do not use hand-written ones leak as before: what C55 says. *)
Theorem C66_conservative : forall U o alg env (P : user U), compiles env -> oracles_total o ->
  forall dbg t src fin, known_ty env t ->
  leaked_mixed o alg env P dbg t src fin = leaked_by o alg env dbg t src fin.
Proof. intros U. exact leaks_conservative. Qed.
Print Assumptions C66_conservative.

(** Hand-written code that calls [T::deserialize] leaks what that leaks, whatever it does about the error. *)
Theorem C66_delegation : forall U o alg env (P : user U) dbg id t D src fin, env id = None -> known_ty env t ->
  u_type P id = Some (fun _ => UDeserialize t D) ->
  leaked_mixed o alg env P dbg (ERef id) src fin = leaked_mixed o alg env P dbg t src fin.
Proof. intros U. exact delegated_leaks. Qed.
Print Assumptions C66_delegation.

(** A hand-written list that reads every child as [t] and decides what to do about its errors. If it succeeds, it has
    leaked what the children that could not be read leaked, each of them, one after the other. *)
Theorem C66_collection : forall U o alg env (P : user U), names_ok env -> compiles env -> oracles_total o ->
  forall t kont, known_ty env t -> (forall u i, u_element P u i = UDeserialize t (kont u i)) ->
  forall id u0 fin d pe v, env id = None -> u_type P id = Some (fun _ => UReadTo u0 fin) ->
  (forall e u w, fin (inr e) u <> Ok w) ->
  read_mixed o alg env P false (ERef id) (doc_events d) (FEndDocument pe) = Ok v ->
  exists ls, leaked_mixed o alg env P false (ERef id) (doc_events d) (FEndDocument pe) = concat ls /\
    Forall2 (fun c l => (exists w, reads o env t c w) /\ l = [] \/ leaks o env t c l) (filter is_elem (d_kids d)) ls.
Proof. intros U. exact collector_leaks. Qed.
Print Assumptions C66_collection.

(** ** Errors that are swallowed *)

(** [Persons]: a list of the children that can be read as a [Person]; the others are passed over. *)
Definition forgiving : user (list value) := {|
  u_type := fun id =>
    if Nat.eqb id 7 then Some (fun _ => UReadTo [] (fun x u => match x with inl _ => Ok (VVec u) | inr e => Err e end))
    else None;
  u_attribute := fun u _ v => (Ok (Some v), u);
  u_characters := fun u s _ => (Ok (Some s), u);
  u_element := fun u _ => UDeserialize (ERef 0)
    (fun x => match x with inl v => (Ok false, u ++ [v]) | inr e => (Ok false, u) end);
|}.

Definition no_name : node := uel "p" "friend" [Attr (nm "id") "true"] [uel "p" "tag" [] [tx "x"]].

(** A read that succeeds has leaked nothing: only if no error was swallowed. *)
Theorem C66_success_refuted : exists env (P : user (list value)) t d pe v,
  names_ok env /\ compiles env /\ program env P (fun _ => False) /\ has_deserialize env P t /\ forall dbg,
  read_mixed oracles0 Bisect env P dbg t (doc_events d) (FEndDocument pe) = Ok v /\
  leaked_mixed oracles0 Bisect env P dbg t (doc_events d) (FEndDocument pe) <> [].
Proof.
  exists env0, forgiving, (ERef 7), (doc_of [] [friend "p"; no_name]), (at_ 200). eexists.
  split; [exact env0_ok|]. split; [exact env0_compiles|]. split; [|split; [right; discriminate|]].
  - split.
    + intros [|[|[|[|[|id]]]]] d [= <-]; repeat constructor; cbn;
        try (left; discriminate); try discriminate; try exact I;
        unfold mfield_compiles; cbn; do 5 eexists; reflexivity.
    + intros id D i. cbn. destruct (Nat.eqb id 7); [|discriminate]. intros [= <-] [v|e] u x; discriminate.
    + intros u n v x. discriminate.
    + intros u s p x. discriminate.
    + intros u i. split; [discriminate|]. intros [v|e] x; discriminate.
  - intros []; (split; [vm_compute; reflexivity|vm_compute; discriminate]).
Qed.
Print Assumptions C66_success_refuted.

(** There is no bound on what a successful read leaks. *)
Theorem C66_unbounded : forall n, exists d v,
  read_mixed oracles0 Bisect env0 forgiving false (ERef 7) (doc_events d) end0 = Ok v /\
  n <= List.length (leaked_mixed oracles0 Bisect env0 forgiving false (ERef 7) (doc_events d) end0).
Proof.
  intro n. exists (doc_of [] (repeat no_name n)), (VVec []).
  assert (C : exists e pl, sem_act (sem_read (lmixed oracles0 Bisect env0 forgiving) no_name [SElem (nm "root") (at_ 1)])
    [SElem (nm "root") (at_ 1); SElem (uq "p" "friend") (at_ 1)] (at_ 1) [uel "p" "tag" [] [tx "x"]] (at_ 2)
    (known_deserialize odd oracles0 env0 (ERef 0) (EInfo (uq "p" "friend") [] 2)) =
    (inl (Err e, [VText (TVBool true); VVec [s_ "x"]]), pl)).
  { do 2 eexists. vm_compute. reflexivity. }
  destruct C as (e & pl & C).
  destruct (repeat_leaks oracles0 Bisect env0 forgiving (ERef 0) _ (fun _ _ => eq_refl) 7 _ _
    (uq "p" "friend") [Attr (nm "id") "true"] [] (at_ 1) [uel "p" "tag" [] [tx "x"]] (at_ 2) e _ pl n
    (doc_of [] (repeat no_name n)) (at_ 200) _ eq_refl eq_refl eq_refl eq_refl C (ex_intro _ false eq_refl) eq_refl) as [E1 E2].
  split; [exact E1|]. unfold end0. rewrite E2. clear. induction n as [|n IH]; cbn in *; lia.
Qed.
Print Assumptions C66_unbounded.

(** ** Examples *)

(** [Bag] of C50, without [Lenient]. *)
Definition strict_bag : user (list value) := {|
  u_type := fun id => if Nat.eqb id 7 then u_type bag 7 else None;
  u_attribute := u_attribute bag; u_characters := u_characters bag; u_element := u_element bag;
|}.

Definition bag_doc (more : list node) : doc := doc_of [] (friend "p" :: tx "x" :: more ++ [friend "q"]).

Example C66_success_example : strict strict_bag /\
  read_mixed oracles0 Bisect env0 strict_bag true (ERef 7) (doc_events (bag_doc [])) end0 = Ok (VVec [bo; bo]) /\
  (exists e, read_mixed oracles0 Bisect env0 strict_bag true (ERef 7) (doc_events (bag_doc [no_name])) end0 = Err e) /\
  leaked_mixed oracles0 Bisect env0 strict_bag true (ERef 7) (doc_events (bag_doc [no_name])) end0 =
    [VText (TVBool true); VVec [s_ "x"]].
Proof.
  split.
  - split.
    + intros id D i. cbn. destruct (Nat.eqb id 7); [|discriminate]. intros [= <-] e u v. discriminate.
    + intros u i e b. discriminate.
  - split; [vm_compute; reflexivity|]. split; [eexists|]; vm_compute; reflexivity.
Qed.

(** [Lenient] of C50 returns a value and leaks what [Person] leaks. *)
Example C66_delegation_example : env0 5 = None /\ known_ty env0 (ERef 0) /\
  read_mixed oracles0 Bisect env0 bag true (ERef 5) (doc_events (doc_of [Attr (nm "id") "true"] [uel "p" "tag" [] [tx "x"]])) end0 = Ok VNone /\
  leaked_mixed oracles0 Bisect env0 bag true (ERef 5) (doc_events (doc_of [Attr (nm "id") "true"] [uel "p" "tag" [] [tx "x"]])) end0 =
    [VText (TVBool true); VVec [s_ "x"]].
Proof.
  split; [reflexivity|]. split; [discriminate|]. split; vm_compute; reflexivity.
Qed.

(** Two children of four can be read. The last leak is of a friend within a friend. *)
Example C66_collection_example : let d := bag_doc [no_name; uel "p" "x" [] [friend "p"; no_name; friend "p"]] in
  read_mixed oracles0 Bisect env0 forgiving false (ERef 7) (doc_events d) end0 = Ok (VVec [bo; bo]) /\
  leaked_mixed oracles0 Bisect env0 forgiving false (ERef 7) (doc_events d) end0 =
    [VText (TVBool true); VVec [s_ "x"]; VVec [bo]; VText (TVBool true); VVec [s_ "x"]].
Proof. split; vm_compute; reflexivity. Qed.
