(** Property theorems for C48: truncated and malformed input.

    A stream [pre], [FError x]: the parser delivers the events [pre] and then fails with [x] (the input
    is malformed there, ends too early, or cannot be read).  [opened [] pre]: the elements open after
    [pre].  User code is [transparent] if it hands on the errors of reading (ReaderSpec.v); derived code
    is.  [doc_error o env t d e]: [e] is the first fault of the document [d] read as type [t]
    (ErrSpec.v, C46). *)
From Coq Require Import Lia.
From Verif Require Import Base Normalize Text TextProofs Find Types Reader ReaderSpec DeriveDe DeSpec DeTotal DeProps
  ErrSpec DeCut PropReader PropDe PropErr.

(** ** C48: what is reported for input that cannot be parsed to its end *)

(** An error of the parser is reported as it is, with the elements open and the parser's position. *)
Theorem C48_parser_error : forall St T dbg (V : visitors St) (D : einfo -> action St (res verr T)) pre x e,
  transparent V -> transparent_root D ->
  read dbg V D (reader_new pre (FError x)) = Err e -> (exists y, er_kind e = EXml y) ->
  e = Error (EXml x) (opened [] pre) (xe_pos x).
Proof. exact @read_undecided. Qed.
Print Assumptions C48_parser_error.

(** Any other error is the one reported for every way the input could go on. *)
Theorem C48_decided : forall St T dbg (V : visitors St) (D : einfo -> action St (res verr T)) pre x e,
  transparent V -> transparent_root D ->
  read dbg V D (reader_new pre (FError x)) = Err e -> ~ (exists y, er_kind e = EXml y) ->
  forall post fin, read dbg V D (reader_new (pre ++ post) fin) = Err e.
Proof. exact @read_decided. Qed.
Print Assumptions C48_decided.

(** Errors are reported at once: after the events [pre] that decide, the innermost element of the error
    is the innermost open one, or has just ended.  What follows, however malformed, changes nothing. *)
Theorem C48_fail_fast : forall St T dbg (V : visitors St) (D : einfo -> action St (res verr T)) d pe e,
  transparent V -> transparent_root D ->
  read dbg V D (reader_new (doc_events d) (FEndDocument pe)) = Err e ->
  exists pre post, doc_events d = pre ++ post /\
    (er_stack e = opened [] pre \/ exists el, er_stack e = opened [] pre ++ [el]) /\
    forall post' fin', read dbg V D (reader_new (pre ++ post') fin') = Err e.
Proof. exact @doc_stops. Qed.
Print Assumptions C48_fail_fast.

(** *** Derived types *)

Theorem C48_fault_fail_fast : forall o alg env, names_ok env -> compiles env -> forall dbg t d e,
  doc_error o env t d e ->
  exists pre post, doc_events d = pre ++ post /\
    (er_stack e = opened [] pre \/ exists el, er_stack e = opened [] pre ++ [el]) /\
    forall post' fin', read_as o alg env dbg t (pre ++ post') fin' = Err e.
Proof. exact fault_stops. Qed.
Print Assumptions C48_fault_fail_fast.

(** A document cut off anywhere: the parser's error, or the document's first fault if that came before. *)
Theorem C48_cut_document : forall o alg env, names_ok env -> compiles env -> oracles_total o ->
  forall dbg t d n x, known_ty env t ->
  let pre := firstn n (doc_events d) in
  read_as o alg env dbg t pre (FError x) = Err (Error (EXml x) (opened [] pre) (xe_pos x)) \/
  exists e, doc_error o env t d e /\ ~ (exists y, er_kind e = EXml y) /\
    read_as o alg env dbg t pre (FError x) = Err e /\
    forall post fin, read_as o alg env dbg t (pre ++ post) fin = Err e.
Proof. exact cut_document. Qed.
Print Assumptions C48_cut_document.

(** A valid document cut off anywhere: the parser's error.  No prefix of it is read as a value or
    rejected for its content. *)
Theorem C48_cut_valid : forall o alg env, names_ok env -> compiles env -> oracles_total o ->
  forall dbg t d n x pe v, known_ty env t ->
  read_as o alg env dbg t (doc_events d) (FEndDocument pe) = Ok v ->
  let pre := firstn n (doc_events d) in
  read_as o alg env dbg t pre (FError x) = Err (Error (EXml x) (opened [] pre) (xe_pos x)).
Proof. exact cut_valid. Qed.
Print Assumptions C48_cut_valid.

(** ** Examples *)

Definition eof : xerr := XErr (at_ 99) "Unexpected end of stream".

Definition cut_at (d : doc) (n : nat) : res error value :=
  read_as oracles0 Bisect env0 true (ERef 0) (firstn n (doc_events d)) (FError eof).

(** The fault of [doc_unexpected] is in the fourth child of the root: it is reported as soon as that child
    has started. *)
Example C48_example : names_ok env0 /\ compiles env0 /\ oracles_total oracles0 /\ known_ty env0 (ERef 0) /\
  doc_error oracles0 env0 (ERef 0) doc_unexpected error_unexpected /\
  (forall n, n < 15 -> cut_at doc_unexpected n =
     Err (Error (EXml eof) (opened [] (firstn n (doc_events doc_unexpected))) (at_ 99))) /\
  opened [] (firstn 15 (doc_events doc_unexpected)) = er_stack error_unexpected /\
  forall n, 15 <= n -> cut_at doc_unexpected n = Err error_unexpected.
Proof.
  split; [exact env0_ok|]. split; [exact env0_compiles|]. split; [exact oracles0_total|].
  split; [discriminate|]. split; [apply C46_example|]. split.
  { intros n Hn. do 15 (destruct n as [|n]; [vm_compute; reflexivity|]). lia. }
  split; [vm_compute; reflexivity|].
  assert (E : cut_at doc_unexpected 15 = Err error_unexpected) by (vm_compute; reflexivity).
  intros n Hn. unfold cut_at in *.
  replace (firstn n _) with (firstn 15 (doc_events doc_unexpected) ++ firstn (n - 15) (skipn 15 (doc_events doc_unexpected))).
  - eapply C48_decided in E; [exact E|apply derived_transparent|apply de_root_transparent|].
    intros (y & K). discriminate.
  - rewrite <- (firstn_skipn 15 (doc_events doc_unexpected)) at 3. rewrite firstn_app.
    rewrite (firstn_all2 (n := n)) by (vm_compute in Hn |- *; lia). reflexivity.
Qed.

(** A valid document, cut off after its second start tag. *)
Example C48_example_valid :
  read_as oracles0 Bisect env0 true (ERef 0) (doc_events (person_doc "p")) end0 = Ok person_value /\
  exists el1 el2, cut_at (person_doc "p") 4 = Err (Error (EXml eof) [el1; el2] (at_ 99)).
Proof. split; [apply C23_example|]. vm_compute. eauto. Qed.
