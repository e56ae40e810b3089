(** Property theorem C69: the counters of the library do not overflow. *)
From Verif Require Import Base Text Find Types Reader ReaderSpec DeriveDe Word WordSpec WordProofs WordExact PropReader.
From Verif Require Ser.

(** ** C69: counters *)

(** The reader with [usize] counters up to [umax], which panic or wrap around when they overflow, does what the reader
    that counts without limits does: for all user code and all streams in which at most [umax] elements are open at once.
    (No memory holds more: the reader keeps their names on a stack.) *)
Theorem C69_usize : forall dbg umax St (V : visitors St) T (D : einfo -> action St (res verr T)) src fin,
  deliverable src fin -> nesting 0 src <= umax ->
  wread dbg umax V D (reader_new src fin) = read dbg V D (reader_new src fin).
Proof. intros dbg umax St V T D src fin. exact (wread_same dbg umax V D src fin). Qed.
Print Assumptions C69_usize.

(** The bound is exact: on every document in which more elements are open at once, for every [umax], even a deserializer
    that looks at nothing panics in a debug build and reports an error in a release build.  (Without limits it succeeds.) *)
Theorem C69_exact : forall umax St (V : visitors St) d pe, umax < nesting 0 (doc_events d) ->
  wread true umax V skipper (reader_new (doc_events d) (FEndDocument pe)) =
    Abort (Panic "attempt to add with overflow") /\
  (exists e, wread false umax V skipper (reader_new (doc_events d) (FEndDocument pe)) = Err e) /\
  (forall dbg, (dbg = true -> propagating V) ->
   read dbg V skipper (reader_new (doc_events d) (FEndDocument pe)) = Ok tt).
Proof. exact over_exact. Qed.
Print Assumptions C69_exact.

(** The search for free prefixes, which counts in an [i32], does what the search that counts without limits does: for
    all sets of fewer than 2^31 - 3 namespaces. *)
Theorem C69_i32 : forall dbg b, (Z.of_nat (List.length b) < 2 ^ 31 - 3)%Z ->
  i32_finalize dbg b = match Ser.finalize b with Some x => Ok x | None => Abort Diverge end.
Proof. exact i32_same. Qed.
Print Assumptions C69_i32.

(** ** Examples *)

Definition events1 : list (xevent * position) := doc_events doc1.

(** Three elements are open at most; a limit of two is not enough, in either build. *)
Example C69_example :
  deliverable events1 (FEndDocument (at_ 103)) /\ nesting 0 events1 = 3 /\
  wread true 3 logger log_root (reader_new events1 (FEndDocument (at_ 103))) =
    Ok ["@id=7"; "a"; "skipped"; "sub"; "@x=y"; "text tu"; "/sub"; "z"]%string /\
  wread true 2 logger log_root (reader_new events1 (FEndDocument (at_ 103))) =
    Abort (Panic "attempt to add with overflow") /\
  wread false 2 logger log_root (reader_new events1 (FEndDocument (at_ 103))) <>
    read false logger log_root (reader_new events1 (FEndDocument (at_ 103))).
Proof.
  split; [apply C13_documents_deliverable|]. repeat split; try (vm_compute; reflexivity). vm_compute. discriminate.
Qed.

(** Three namespaces that ask for the same prefix. *)
Definition three : Ser.nsbuilder :=
  [("urn:a", Ser.NsEntry "p" None true false); ("urn:b", Ser.NsEntry "p" None true false);
   ("urn:c", Ser.NsEntry "p" None true true)]%string.

Example C69_example_i32 :
  match i32_finalize true three with
  | Ok n => map (fun x => (fst x, Ser.q_assigned (snd x))) (Ser.by_url n) =
      [("urn:a", Some "p"); ("urn:b", Some "p2"); ("urn:c", Some "p3")]%string
  | _ => False
  end.
Proof. vm_compute. reflexivity. Qed.
