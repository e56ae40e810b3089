(** Property theorem C46: which error derived deserialization reports.

    [doc_error o env t d e]: [e] is the first fault of the document [d], read as type [t], in document
    order, with its message, element stack and position (ErrSpec.v). *)
From Verif Require Import Base Normalize Text TextProofs Find Types Reader ReaderSpec DeriveDe DeSpec DeTotal DeProps
  ErrSpec ErrProofs PropReader PropDe.

(** ** C46: the first fault *)

Theorem C46_first_fault : forall o alg env dbg t d pe e, names_ok env -> compiles env ->
  read_as o alg env dbg t (doc_events d) (FEndDocument pe) = Err e <-> doc_error o env t d e.
Proof. exact first_fault. Qed.
Print Assumptions C46_first_fault.

(** A document has at most one first fault. *)
Theorem C46_fault_unique : forall o env t d e1 e2, names_ok env -> compiles env ->
  doc_error o env t d e1 -> doc_error o env t d e2 -> e1 = e2.
Proof. exact fault_unique. Qed.
Print Assumptions C46_fault_unique.

(** It has one exactly if it does not read as a value. *)
Theorem C46_fault_or_value : forall o env t d, names_ok env -> compiles env -> oracles_total o -> known_ty env t ->
  (exists e, doc_error o env t d e) <-> ~ exists v, reads o env t (d_root d) v.
Proof. exact fault_or_value. Qed.
Print Assumptions C46_fault_or_value.

(** ** Examples *)

(** As [uel], with distinguishable positions. *)
Definition pel (l : nat) (s : string) (attrs : list attr) (kids : list node) : node :=
  NElem (uq "p" s) attrs [] (at_ l) kids (at_ (l + 1)).

Definition read0 (attrs : list attr) (kids : list node) : res error value :=
  read_as oracles0 Bisect env0 true (ERef 0) (doc_events (doc_of attrs kids)) end0.

Definition id_true : attr := Attr (nm "id") "true".

(** A second contact of another kind, after a complete friend whose own contact is of that kind. *)
Definition doc_unexpected : doc := doc_of [id_true]
  [ pel 10 "email" [] [tx "a"];
    pel 20 "friend" [id_true] [pel 22 "name" [] [tx "Bo"]; pel 24 "phone" [] [tx "2"]];
    pel 30 "phone" [] [tx "1"]; pel 40 "name" [] [tx "Al"]; pel 50 "name" [] [tx "Al"] ].

Definition root_at : selem := SElem (d_name doc_unexpected) (d_pos doc_unexpected).

Definition error_unexpected : error :=
  Error (EDeserializer "Got unexpected element {urn:u}phone after {urn:u}email")
    [root_at; SElem (uq "p" "phone") (at_ 30)] (at_ 30).

Example C46_example : names_ok env0 /\ compiles env0 /\
  read_as oracles0 Bisect env0 true (ERef 0) (doc_events doc_unexpected) end0 = Err error_unexpected /\
  doc_error oracles0 env0 (ERef 0) doc_unexpected error_unexpected.
Proof.
  assert (H : read_as oracles0 Bisect env0 true (ERef 0) (doc_events doc_unexpected) end0 = Err error_unexpected)
    by (vm_compute; reflexivity).
  split; [exact env0_ok|]. split; [exact env0_compiles|]. split; [exact H|].
  apply C46_first_fault in H; auto using env0_ok, env0_compiles.
Qed.

(** The attribute comes first, then the child without a name (reported at its start, although noticed
    at its end), then the second name. *)
Definition bad_friend : node := pel 20 "friend" [id_true] [pel 22 "nick" [] [tx "B"]; pel 24 "nothing" [] []].

Example C46_example_order :
  read0 [Attr (nm "id") "x"] [bad_friend] =
    Err (Error (EDeserializer "invalid bool x") [root_at] (d_pos doc_unexpected)) /\
  read0 [id_true] [pel 10 "name" [] []; bad_friend; pel 30 "name" [] []] =
    Err (Error (EDeserializer "Missing expected element {urn:u}name")
      [root_at; SElem (uq "p" "friend") (at_ 20)] (at_ 20)) /\
  read0 [id_true] [pel 10 "name" [] []; pel 30 "name" [] []; bad_friend] =
    Err (Error (EDeserializer "Duplicate element {urn:u}name")
      [root_at; SElem (uq "p" "name") (at_ 30)] (at_ 30)) /\
  read0 [id_true] [pel 10 "name" [] [tx "a"; pel 12 "b" [] []]] =
    Err (Error (EMsg (MUnexpectedElement (uq "p" "b")))
      [root_at; SElem (uq "p" "name") (at_ 10); SElem (uq "p" "b") (at_ 12)] (at_ 12)) /\
  read0 [id_true] [pel 10 "name" [] []] =
    Err (Error (EDeserializer "Contact can't be empty") [root_at] (d_pe doc_unexpected)) /\
  read0 [] [] = Err (Error (EDeserializer "Missing expected attribute id") [root_at] (d_pe doc_unexpected)).
Proof. vm_compute. repeat split; reflexivity. Qed.

Example C46_example_none : ~ exists e, doc_error oracles0 env0 (ERef 0) (person_doc "p") e.
Proof.
  intro H. apply C46_fault_or_value in H; auto using env0_ok, env0_compiles, oracles0_total.
  - apply H. exists person_value. apply C23_example.
  - discriminate.
Qed.
