(** Failures are never lost. *)
From Verif Require Import Base Find FindProofs BMap Ser SerSpec SerProofs SerTree.
From Coq Require Import Lia.

Lemma run_a_returns dbg a : forall b r b', returns_ok_a a -> run_a dbg a b = inl (r, b') -> r = None.
Proof.
  induction a as [r | p u a IH | x v f IH | m]; cbn [run_a returns_ok_a]; intros b r0 b' H R.
  - congruence.
  - destruct (builder_namespace dbg p u b); [|discriminate]. eauto.
  - destruct (builder_attribute x v b) as [[r b1]|]; [|discriminate]. eauto.
  - discriminate.
Qed.

Lemma run_returns dbg o :
  (forall d (p : wprog d) nss k r k', returns_ok_w p -> run_w dbg o p nss k = inl (r, k') -> r = None) /\
  (forall d (q : bprog d) b nss k r k', returns_ok_b q -> run_b dbg o q b nss k = inl (r, k') -> r = None).
Proof.
  apply prog_mut; cbn [run_w run_b returns_ok_w returns_ok_b]; intros; try discriminate.
  - congruence.
  - destruct (write o (WChars s) k0) as [? ?]. eauto.
  - destruct nss; [discriminate|]. eauto.
  - destruct (write o WEnd k0) as [? ?]. eauto.
  - eauto.
  - destruct (builder_namespace dbg p u b0); [|discriminate]. eauto.
  - destruct (builder_attribute n v b) as [[? ?]|]; [|discriminate]. eauto.
  - eauto.
  - destruct H1. destruct (builder_start o b k0) as [[[?|?] ?]|]; [| |discriminate]; eauto.
Qed.

Lemma write_result o ev k r k' : write o ev k = (r, k') -> r = k_poison k' .
Proof.
  unfold write. destruct (k_poison k) as [e|].
  - intros [= <- <-]. reflexivity.
  - destruct (o (k_tries k)); intros [= <- <-]; reflexivity.
Qed.

Lemma start_result o b k r k' : builder_start o b k = inl (r, k') ->
  k_poison k' = match r with inl _ => None | inr e => Some e end.
Proof.
  unfold builder_start.
  destruct (finalize (b_ns b)); [|discriminate].
  destruct (resolve_element n (b_name b)); [|discriminate].
  destruct (resolve_attributes n (b_attrs b)); [|discriminate].
  match goal with |- context [write o ?ev k] => destruct (write o ev k) as [[e|] k0] eqn:W end;
    apply write_result in W; intros [= <- <-]; congruence.
Qed.

Lemma poison_some e k : exists e', k_poison (poison e k) = Some e'.
Proof. unfold poison. cbn. destruct (k_poison k); eauto. Qed.

Lemma to_history dbg o n v r k : to dbg o n v = inl (r, k) ->
  exists err, history (k_log k) err /\ (r = None <-> err = None) /\
  (returns_ok_a (s_attrs v) -> returns_ok_w (s_kids v) -> r = err) /\
  (exists rest, k_log k = map NWrote (k_out k) ++ rest /\ forall x, In x rest -> wrote x = false) /\
  (forall i, i < List.length (k_out k) -> o i = None).
Proof.
  intro H. pose proof (to_sink_ok _ _ _ _ _ _ H) as K.
  exists (k_poison k). split; [apply K|].
  cut ((r = None <-> k_poison k = None) /\
       (returns_ok_a (s_attrs v) -> returns_ok_w (s_kids v) -> r = k_poison k)).
  { intros [H1 H2]. split; [exact H1|]. split; [exact H2|]. split; apply K. }
  clear K. unfold to in H.
  destruct (run_a dbg (s_attrs v) (BState n [] [] [])) as [[[e|] b]|] eqn:A; [| |discriminate].
  - inversion H; subst. cbn. split; [split; discriminate|].
    intros Ra _. apply (run_a_returns _ _ _ _ _ Ra) in A. discriminate.
  - destruct (builder_start o b sink0) as [[[m|e] k0]|] eqn:S; [| |discriminate].
    + destruct (run_w dbg o (s_kids v) [m] k0) as [[[e|] k1]|] eqn:R; [| |discriminate].
      * inversion H; subst. destruct (poison_some writer_dropped k1) as [e' Pe]. rewrite Pe.
        split; [split; discriminate|].
        intros _ Rw. apply (proj1 (run_returns dbg o) _ _ _ _ _ _ Rw) in R. discriminate.
      * inversion H as [W]. apply write_result in W. subst r. split; [split; auto|auto].
    + inversion H; subst. apply start_result in S. rewrite S. split; [split; discriminate|auto].
Qed.

Lemma to_writes dbg o n v k : to dbg o n v = inl (None, k) ->
  exists t, asked n v = Some t /\
    map ev_sev (k_out k) = tree_sevs (tree_of t) /\
    k_log k = map NWrote (k_out k) /\
    (forall i, i < List.length (k_out k) -> o i = None).
Proof.
  intro H. destruct (to_asked dbg o n v k H) as (t & A & L & R). exists t. split; [assumption|].
  split; [|assumption]. eapply layout_sevs; exact L.
Qed.

(** What a drop leaves behind, if nothing failed before. *)
Lemma writer_dropped_error dbg o d (p : wprog d) nss k r k' : k_poison k = None ->
  run_w dbg o (WDrop p) nss k = inl (r, k') -> k_poison k' = Some (SMsg "ElementWriter dropped before finish").
Proof.
  intros H R. cbn [run_w] in R. apply (proj1 (dead_run dbg o)) with (e := writer_dropped) in R; [apply R|].
  unfold poison. cbn. now rewrite H.
Qed.

Lemma builder_dropped_error dbg o d (p : wprog d) b nss k r k' : k_poison k = None ->
  run_b dbg o (BDrop p) b nss k = inl (r, k') -> k_poison k' = Some (SMsg "ElementBuilder dropped before start").
Proof.
  intros H R. cbn [run_b] in R. apply (proj1 (dead_run dbg o)) with (e := builder_dropped) in R; [apply R|].
  unfold poison. cbn. now rewrite H.
Qed.
