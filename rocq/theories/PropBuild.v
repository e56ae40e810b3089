(** Property theorems C79: how the program is built does not matter.

    [alg], [alg']: the two implementations of binary search the standard library has had (Find.v);
    [dbg], [dbg']: whether debug assertions are compiled in. *)
From Verif Require Import Base Normalize Text TextProofs Find FindProofs Types Ser SerSpec Reader ReaderSpec DeSpec DeriveDe DeTotal DeCut DeProps ReaderOk
  DeriveSer DSerSpec DeriveMixed MixedSpec BuildProofs PropReader PropDe PropMixed PropDeriveSer.

(** ** C79: reading *)

(** The same result, be it a value or an error, for everything xml-rs delivers, also if it ends in an error. *)
Theorem C79_reading : forall o alg alg' env dbg dbg' t src fin,
  names_ok env -> compiles env -> oracles_total o -> known_ty env t -> deliverable src fin ->
  read_as o alg env dbg t src fin = read_as o alg' env dbg' t src fin.
Proof. exact build_same. Qed.
Print Assumptions C79_reading.

(** The search alone: also for types and parsers that may panic. *)
Theorem C79_search : forall o alg alg' env, names_ok env -> forall dbg t src fin,
  read_as o alg env dbg t src fin = read_as o alg' env dbg t src fin.
Proof. exact search_same. Qed.
Print Assumptions C79_search.

Example C79_reading_example : names_ok env0 /\ compiles env0 /\ oracles_total oracles0 /\ known_ty env0 (ERef 0) /\
  deliverable (doc_events (person_doc "p")) end0 /\
  read_as oracles0 Branchless env0 false (ERef 0) (doc_events (person_doc "p")) end0 = Ok person_value /\
  deliverable (firstn 6 (doc_events (person_doc "p"))) (FError (XErr (at_ 3) "eof")).
Proof.
  split; [exact env0_ok|]. split; [exact env0_compiles|]. split; [exact oracles0_total|]. split; [discriminate|].
  split; [apply doc_deliverable|]. split; [vm_compute; reflexivity|].
  apply cut_deliverable with (fin := end0). apply doc_deliverable.
Qed.

(** ** C79: reading with hand-written code *)

(** The search makes no difference, and debug assertions can only panic (C14: if an error is swallowed). *)
Theorem C79_mixed : forall U o alg alg' env (P : user U) dbg t src fin, names_ok env ->
  read_mixed o alg env P dbg t src fin = read_mixed o alg' env P dbg t src fin /\
  (no_abort (read_mixed o alg env P true t src fin) ->
   read_mixed o alg' env P dbg t src fin = read_mixed o alg env P true t src fin).
Proof.
  intros. split; [now apply mixed_search_same|now apply mixed_build_same].
Qed.
Print Assumptions C79_mixed.

Lemma team_names : names_ok PropMixed.env1.
Proof.
  intros [|[|[|[|[|[|[|id]]]]]]] d [= <-]; split; try (vm_compute; nodup; fail);
    intros v Hv; vm_compute in Hv; intuition subst; discriminate.
Qed.

(** The hand-written code of C50: with an error that it swallows, debug assertions do make a difference. *)
Example C79_mixed_example : names_ok PropMixed.env1 /\
  no_abort (read_mixed oracles0 Bisect PropMixed.env1 bag true (ERef 6) (doc_events (team_doc "x" [])) end0) /\
  ~ no_abort (read_mixed oracles0 Bisect PropMixed.env1 bag true (ERef 6)
      (doc_events (team_doc "false" [uel "p" "friend" [] []])) end0).
Proof.
  split; [exact team_names|]. split.
  - intros x. vm_compute. discriminate.
  - intros H. eapply H. vm_compute. reflexivity.
Qed.

(** ** C79: writing *)

(** Every [Serialize] implementation, every destination: debug assertions can only panic, on a prefix that starts with
    "xml"; otherwise they make no difference. *)
Theorem C79_writing : forall w n v,
  to true w n v = inr (Panic "prefix must not start with xml") \/ to true w n v = to false w n v.
Proof. exact to_debug. Qed.
Print Assumptions C79_writing.

(** For derived types whose declared prefixes are allowed they make none. *)
Theorem C79_writing_derived : forall o env w id v dbg dbg', typed o env (ERef id) v ->
  names_declared env -> prefixes_ok env -> no_default env ->
  serialize_root o env dbg w id v = serialize_root o env dbg' w id v.
Proof. exact root_debug. Qed.
Print Assumptions C79_writing_derived.

Example C79_writing_example : typed oracles1 env1 (ERef 0) al /\ names_declared env1 /\ prefixes_ok env1 /\ no_default env1 /\
  exists k, serialize_root oracles1 env1 false steady 0 al = inl (None, k).
Proof.
  destruct C35_example as (A & B & C & D & _). split; [exact A|]. split; [exact B|]. split; [exact C|]. split; [exact D|].
  vm_compute. eexists. reflexivity.
Qed.

(** ** The conditions are needed *)

(** [struct S { #[static_xml(rename = "a")] x: Option<String>, #[static_xml(rename = "a")] y: …, #[static_xml(rename = "a")] z: … }]:
    which field an element [a] is read into depends on the standard library. *)
Definition env_same : tenv := fun id =>
  match id with
  | 0 => Some (TDStruct "S" (ln "s") [] [ Field (ln "a") (MElement KOpt str_ty) None; Field (ln "a") (MElement KOpt str_ty) None;
                                          Field (ln "a") (MElement KOpt str_ty) None ])
  | _ => None
  end.

Theorem C79_same_names_refuted : exists env d v v', compiles env /\ v <> v' /\ forall dbg,
  read_as oracles0 Bisect env dbg (ERef 0) (doc_events d) end0 = Ok v /\
  read_as oracles0 Branchless env dbg (ERef 0) (doc_events d) end0 = Ok v'.
Proof.
  exists env_same, (doc_of [] [NElem (nm "a") [] [] (at_ 1) [tx "x"] (at_ 2)]).
  exists (VStruct [VNone; VSome (s_ "x"); VNone]), (VStruct [VNone; VNone; VSome (s_ "x")]).
  split; [intros [|id] d [= <-]; repeat constructor; cbn; discriminate|].
  split; [discriminate|]. intros dbg. destruct dbg; split; vm_compute; reflexivity.
Qed.
Print Assumptions C79_same_names_refuted.

(** [#[static_xml(namespace(xmlx = "urn:x"))]]: panics with debug assertions, is written without. *)
Definition env_xml : tenv := fun id =>
  match id with
  | 0 => Some (TDStruct "S" (ln "s") [("xmlx", "urn:x")]%string [])
  | _ => None
  end.

Theorem C79_xml_prefix_refuted : exists env v, typed oracles1 env (ERef 0) v /\ names_declared env /\ no_default env /\
  serialize_root oracles1 env true steady 0 v = inr (Panic "prefix must not start with xml") /\
  exists k, serialize_root oracles1 env false steady 0 v = inl (None, k).
Proof.
  exists env_xml, (VStruct []). split; [typing|].
  split; [intros [|id] d [= <-]; declares|].
  split; [left; intros [|id] d u [= <-] [[= ]|[]]|].
  split; [vm_compute; reflexivity|]. vm_compute. eexists. reflexivity.
Qed.
Print Assumptions C79_xml_prefix_refuted.
