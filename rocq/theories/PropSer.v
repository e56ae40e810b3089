(** Serialization: what a successful run has written, and failures. *)
From Verif Require Import Base Ser SerSpec SerProofs SerTree SerPoison.

(** ** C29: success means that the document asked for has been written *)

Theorem C29_success_writes_what_was_asked : forall dbg o n v k,
  to dbg o n v = inl (None, k) ->
  exists t, asked n v = Some t /\
    map ev_sev (k_out k) = tree_sevs (tree_of t) /\
    k_log k = map NWrote (k_out k) /\
    (forall i, i < List.length (k_out k) -> o i = None).
Proof. exact to_writes. Qed.
Print Assumptions C29_success_writes_what_was_asked.

(** Conversely a program that uses the API properly succeeds, unless a name's namespace is not
    declared (a panic) or a write fails. *)
Theorem C29_proper_use_succeeds : forall dbg o n v t r k,
  asked n v = Some t -> (forall i, o i = None) -> to dbg o n v = inl (r, k) -> r = None.
Proof. exact asked_to. Qed.
Print Assumptions C29_proper_use_succeeds.

(** ** C30: failures *)

Theorem C30_first_failure_is_final : forall dbg o n v r k,
  to dbg o n v = inl (r, k) ->
  exists err, history (k_log k) err /\
    (* success is reported exactly if nothing failed *)
    (r = None <-> err = None) /\
    (* the first failure is reported, if the program itself returns no error *)
    (returns_ok_a (s_attrs v) -> returns_ok_w (s_kids v) -> r = err) /\
    (* what was written is what was written before it *)
    (exists rest, k_log k = map NWrote (k_out k) ++ rest /\ forall x, In x rest -> wrote x = false) /\
    (forall i, i < List.length (k_out k) -> o i = None).
Proof. exact to_history. Qed.
Print Assumptions C30_first_failure_is_final.

(** Which error a drop is, if nothing failed before it. *)
Theorem C30_dropped_writer : forall dbg o d (p : wprog d) nss k r k', k_poison k = None ->
  run_w dbg o (WDrop p) nss k = inl (r, k') -> k_poison k' = Some (SMsg "ElementWriter dropped before finish").
Proof. exact writer_dropped_error. Qed.
Print Assumptions C30_dropped_writer.

Theorem C30_dropped_builder : forall dbg o d (p : wprog d) b nss k r k', k_poison k = None ->
  run_b dbg o (BDrop p) b nss k = inl (r, k') -> k_poison k' = Some (SMsg "ElementBuilder dropped before start").
Proof. exact builder_dropped_error. Qed.
Print Assumptions C30_dropped_builder.

(** ** Examples *)

Definition x_name (l : string) : xname := XName "" l.

(** A program that writes an element with two attributes, a text and a child, and looks at no
    result. *)
Definition x_good : serialize :=
  Ser (AAttr (x_name "a") "1" (fun _ => AAttr (x_name "b") "2" (fun _ => ARet None)))
      (WText "hello" (fun _ => WElem (x_name "kid") (BStart (WText "x" (fun _ => WFinish (fun _ => WRet None)))
         (fun _ => WRet None)))).

Example C29_example :
  to true (fun _ => None) (x_name "root") x_good =
  inl (None, Sink
    [WStart (PName None "root") [(PName None "a", "1"%string); (PName None "b", "2"%string)] [];
     WChars "hello"; WStart (PName None "kid") [] []; WChars "x"; WEnd; WEnd]
    6 None
    [NWrote (WStart (PName None "root") [(PName None "a", "1"%string); (PName None "b", "2"%string)] []);
     NWrote (WChars "hello"); NWrote (WStart (PName None "kid") [] []); NWrote (WChars "x"); NWrote WEnd; NWrote WEnd]).
Proof. vm_compute. reflexivity. Qed.

Example C29_example_asked :
  asked (x_name "root") x_good =
  Some (RElem (x_name "root") [ReqAttr (x_name "a") "1"; ReqAttr (x_name "b") "2"]
    [RText "hello"; RElem (x_name "kid") [] [RText "x"]]).
Proof. vm_compute. reflexivity. Qed.

(** Its fourth write fails: nothing is attempted any more, and although the program ignores it, the
    error is reported. *)
Example C30_example_io :
  match to true (fun i => if Nat.eqb i 3 then Some "disk full"%string else None) (x_name "root") x_good with
  | inl (r, k) => r = Some (SMsg "disk full") /\ List.length (k_out k) = 3 /\ k_tries k = 4 /\
      k_log k = map NWrote (k_out k) ++ [NFailed (SMsg "disk full"); NRefused (SMsg "disk full"); NRefused (SMsg "disk full")]
  | inr _ => False
  end.
Proof. vm_compute. repeat split. Qed.

(** Dropping a child's writer, and then going on. *)
Definition x_drop : serialize :=
  Ser (ARet None) (WElem (x_name "kid") (BStart (WDrop (WText "more" (fun _ => WRet None))) (fun _ => WRet None))).
Example C30_example_drop :
  match to true (fun _ => None) (x_name "root") x_drop with
  | inl (r, k) => r = Some (SMsg "ElementWriter dropped before finish") /\ List.length (k_out k) = 2 /\
      returns_ok_a (s_attrs x_drop) /\ returns_ok_w (s_kids x_drop)
  | inr _ => False
  end.
Proof. vm_compute. repeat split. Qed.

(** The condition on reporting the first failure is needed: after a failed write, a program that
    returns its own error has that error reported. *)
Definition x_own_error : serialize := Ser (ARet None) (WText "x" (fun _ => WRet (Some (SMsg "own")))).
Theorem C30_first_error_reported_refuted : exists dbg o n v r k e,
  to dbg o n v = inl (r, k) /\ history (k_log k) (Some e) /\ r <> Some e.
Proof.
  exists true, (fun i => if Nat.eqb i 1 then Some "disk full"%string else None), (x_name "root"), x_own_error.
  do 2 eexists. exists (SMsg "disk full"). split; [vm_compute; reflexivity|]. split; [|discriminate].
  apply (h_failed [WStart (PName None "root") [] []] (NFailed (SMsg "disk full")) (SMsg "disk full")
    [NDropped writer_dropped]); cbn; auto.
  intros x [<- | []]. right. eexists. reflexivity.
Qed.
Print Assumptions C30_first_error_reported_refuted.
