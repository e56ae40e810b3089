(** Property theorem C75: failing outputs. *)
From Verif Require Import Base Text Types Ser DeriveSer DeriveMixedSer FailSpec FailProofs.
From Verif Require PropDeriveSer.

(** ** C75: a write that fails is the last one, and its error is returned *)

(** Any implementation that follows every call with [?].  [k_out k]: what is written if no write fails. *)
Theorem C75_stops : forall dbg w n m name v r k, prompt v -> fails_first w n m ->
  to dbg never name v = inl (r, k) -> n < List.length (k_out k) ->
  to dbg w name v = inl (Some (SMsg m), failed_at n m (k_out k)).
Proof. exact stops. Qed.
Print Assumptions C75_stops.

(** Failures that would come later make no difference, to any implementation. *)
Theorem C75_not_reached : forall dbg w name v r k, to dbg never name v = inl (r, k) ->
  (forall i, i < List.length (k_out k) -> w i = None) -> to dbg w name v = inl (r, k).
Proof. exact same_before. Qed.
Print Assumptions C75_not_reached.

(** A failing write does not lead to a panic. *)
Theorem C75_no_new_panic : forall dbg w name v x, prompt v -> to dbg w name v = inr x -> to dbg never name v = inr x.
Proof. exact no_new_panic. Qed.
Print Assumptions C75_no_new_panic.

(** Derived implementations are like that, also next to hand-written ones that are. *)
Theorem C75_derived : forall o env hand, (forall id h, hand id = Some h -> forall v, prompt (h v)) ->
  forall t v, prompt (mser_value o env hand t v).
Proof. exact mixed_prompt. Qed.
Print Assumptions C75_derived.

(** All of it for a derived type. *)
Theorem C75_serialize : forall o env dbg w n m t v name r k, fails_first w n m ->
  serialize_with_name o env dbg never t v name = inl (r, k) ->
  serialize_with_name o env dbg w t v name =
  (if n <? List.length (k_out k) then inl (Some (SMsg m), failed_at n m (k_out k)) else inl (r, k)).
Proof. exact derived_stops. Qed.
Print Assumptions C75_serialize.

(** The person of PropDeriveSer.v on an output that is full after [n] writes: there are 27, and the third is the text
    of [name], with two elements open. *)
Definition full_after (n : nat) : io := fun i => if i <? n then None else Some "disk full"%string.

Example C75_example :
  (exists k, serialize_root PropDeriveSer.oracles1 PropDeriveSer.env1 true never 0 PropDeriveSer.al = inl (None, k) /\
     List.length (k_out k) = 27) /\
  fails_first (full_after 2) 2 "disk full" /\
  exists k, serialize_root PropDeriveSer.oracles1 PropDeriveSer.env1 true (full_after 2) 0 PropDeriveSer.al =
    inl (Some (SMsg "disk full"), k) /\ List.length (k_out k) = 2 /\ k_tries k = 3 /\
    skipn 2 (k_log k) = [NFailed (SMsg "disk full"); NDropped writer_dropped; NDropped writer_dropped].
Proof.
  split; [|split].
  - eexists. split; vm_compute; reflexivity.
  - split; [intros [|[|i]] H; try reflexivity; exfalso; apply Nat.lt_nge in H; apply H; auto with arith|reflexivity].
  - eexists. split; [vm_compute; reflexivity|]. repeat split.
Qed.

(** An implementation that ignores the error of a write: the error is still returned (C30), but the code goes on, here
    until it panics. *)
Definition careless : serialize :=
  Ser (ARet None) (WText "a" (fun _ => WText "b" (fun r => match r with Some _ => WPanic "unexpected" | None => WRet None end))).

(** One that does not. *)
Definition careful : serialize :=
  Ser (ARet None)
    (WElem (XName "" "b") (BStart
       (WText "c" (fun r => match r with Some e => WDrop (WRet (Some e)) | None => WFinish WRet end))
       (fun e => WRet (Some e)))).

Example C75_example_prompt : prompt careful /\ ~ prompt careless.
Proof. split; [now repeat split|]. intros [_ H]. exact (H builder_dropped). Qed.

Theorem C75_ignored_refuted : exists dbg w name v x k, fails_first w 1 "disk full" /\
  to dbg never name v = inl (None, k) /\ 1 < List.length (k_out k) /\ to dbg w name v = inr x.
Proof.
  exists true, (full_after 1), (XName "" "a"), careless. do 2 eexists. split; [|split; [vm_compute; reflexivity|split]].
  - split; [intros [|i] H; [reflexivity|]; exfalso; apply Nat.lt_nge in H; apply H; auto with arith|reflexivity].
  - cbn. auto with arith.
  - vm_compute. reflexivity.
Qed.
Print Assumptions C75_ignored_refuted.
