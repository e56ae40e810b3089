(** The serialization API against the trees programs ask for. *)
From Verif Require Import Base Find FindProofs BMap Ser SerSpec.
From Coq Require Import Lia.

Scheme wprog_mut := Induction for wprog Sort Prop
with bprog_mut := Induction for bprog Sort Prop.
Combined Scheme prog_mut from wprog_mut, bprog_mut.

(** ** Poison sticks *)

(** What happens to a poisoned sink. *)
Definition dead_step (e : serr) (k k' : sink) : Prop :=
  k_poison k' = Some e /\ k_out k' = k_out k /\ k_tries k' = k_tries k /\
  exists rest, k_log k' = k_log k ++ rest /\
    forall x, In x rest -> x = NRefused e \/ exists e', x = NDropped e'.

Lemma dead_refl e k : k_poison k = Some e -> dead_step e k k.
Proof. intro H. repeat split; auto. exists []. rewrite app_nil_r. split; [reflexivity|]. intros ? []. Qed.

Lemma dead_trans e k1 k2 k3 : dead_step e k1 k2 -> dead_step e k2 k3 -> dead_step e k1 k3.
Proof.
  intros (P2 & O2 & T2 & r2 & L2 & R2) (P3 & O3 & T3 & r3 & L3 & R3).
  repeat split; try congruence. exists (r2 ++ r3). split; [rewrite L3, L2, app_assoc; reflexivity|].
  intros x Hx. apply in_app_iff in Hx. destruct Hx; auto.
Qed.

Lemma dead_write o e ev k : k_poison k = Some e ->
  fst (write o ev k) = Some e /\ dead_step e k (snd (write o ev k)).
Proof.
  intro H. unfold write. rewrite H. cbn. split; [reflexivity|]. repeat split; auto.
  exists [NRefused e]. split; [reflexivity|]. intros x [<- | []]. auto.
Qed.

Lemma dead_poison e e' k : k_poison k = Some e -> dead_step e k (poison e' k).
Proof.
  intro H. unfold poison. rewrite H. repeat split; auto. exists [NDropped e'].
  split; [reflexivity|]. intros x [<- | []]. eauto.
Qed.

Lemma dead_start o e b k r k' : k_poison k = Some e -> builder_start o b k = inl (r, k') ->
  r = inr e /\ dead_step e k k'.
Proof.
  unfold builder_start. intro H.
  destruct (finalize (b_ns b)) as [m|]; [|discriminate].
  destruct (resolve_element m (b_name b)); [|discriminate].
  destruct (resolve_attributes m (b_attrs b)); [|discriminate].
  match goal with |- context [write o ?ev k] => destruct (dead_write o e ev k H) as [Hr Hd];
    destruct (write o ev k) as [r0 k0] end.
  cbn in Hr, Hd. subst r0. intros [= <- <-]. auto.
Qed.

Lemma dead_run dbg o :
  (forall d (p : wprog d) nss k e r k', k_poison k = Some e -> run_w dbg o p nss k = inl (r, k') ->
     dead_step e k k') /\
  (forall d (q : bprog d) b nss k e r k', k_poison k = Some e -> run_b dbg o q b nss k = inl (r, k') ->
     dead_step e k k').
Proof.
  apply prog_mut; cbn [run_w run_b].
  - intros r nss k e r' k' H [= <- <-]. now apply dead_refl.
  - intros d s f IH nss k e r k' H R.
    destruct (dead_write o e (WChars s) k H) as [Hr Hd].
    destruct (write o (WChars s) k) as [r0 k0]. cbn in Hr, Hd. subst r0.
    eapply dead_trans; [exact Hd|]. eapply IH; [apply Hd|exact R].
  - intros d n b IH nss k e r k' H R. destruct nss as [|m nss]; [discriminate|]. eauto.
  - intros d f IH nss k e r k' H R.
    destruct (dead_write o e WEnd k H) as [Hr Hd].
    destruct (write o WEnd k) as [r0 k0]. cbn in Hr, Hd. subst r0.
    eapply dead_trans; [exact Hd|]. eapply IH; [apply Hd|exact R].
  - intros d p IH nss k e r k' H R.
    pose proof (dead_poison e writer_dropped k H) as Hd.
    eapply dead_trans; [exact Hd|]. eapply IH; [apply Hd|exact R].
  - discriminate.
  - intros d p u q IH b nss k e r k' H R.
    destruct (builder_namespace dbg p u b); [|discriminate]. eauto.
  - intros d n v f IH b nss k e r k' H R.
    destruct (builder_attribute n v b) as [[r0 b']|]; [|discriminate]. eauto.
  - intros d p IH b nss k e r k' H R.
    pose proof (dead_poison e builder_dropped k H) as Hd.
    eapply dead_trans; [exact Hd|]. eapply IH; [apply Hd|exact R].
  - intros d p IHp pe IHe b nss k e r k' H R.
    destruct (builder_start o b k) as [[r0 k0]|] eqn:E; [|discriminate].
    destruct (dead_start o e b k r0 k0 H E) as [-> Hd].
    eapply dead_trans; [exact Hd|]. eapply IHe; [apply Hd|exact R].
  - discriminate.
Qed.

(** ** Histories *)

(** The sink agrees with its history. *)
Definition sink_ok (o : io) (k : sink) : Prop :=
  history (k_log k) (k_poison k) /\
  (exists rest, k_log k = map NWrote (k_out k) ++ rest /\ forall x, In x rest -> wrote x = false) /\
  (forall i, i < List.length (k_out k) -> o i = None) /\
  (k_poison k = None -> k_tries k = List.length (k_out k) /\ k_log k = map NWrote (k_out k)).

Lemma sink0_ok o : sink_ok o sink0.
Proof.
  split; [apply (h_fine [])|]. split; [exists []; split; [reflexivity|intros ? []]|].
  split; [cbn; lia|]. auto.
Qed.

Lemma alive_write o ev k : sink_ok o k -> k_poison k = None ->
  match write o ev k with
  | (None, k') => k_poison k' = None /\ k_out k' = k_out k ++ [ev] /\ sink_ok o k'
  | (Some e, k') => k_poison k' = Some e /\ k_out k' = k_out k /\ sink_ok o k' /\
      exists m, o (List.length (k_out k)) = Some m
  end.
Proof.
  intros (Hh & Hl & Ho & Ht) H. destruct (Ht H) as [Tr Lg]. unfold write. rewrite H.
  destruct (o (k_tries k)) as [m|] eqn:E.
  - repeat split; cbn; try discriminate.
    + rewrite Lg. now apply (h_failed (k_out k) _ (SMsg m) []).
    + exists [NFailed (SMsg m)]. rewrite Lg. split; [reflexivity|]. intros x [<- | []]. reflexivity.
    + assumption.
    + rewrite <- Tr. eauto.
  - repeat split; cbn.
    + rewrite Lg. change [NWrote ev] with (map NWrote [ev]). rewrite <- map_app. constructor.
    + exists []. rewrite Lg, map_app. split; [now rewrite app_nil_r|intros ? []].
    + rewrite app_length. cbn. intros i Hi.
      destruct (Nat.eq_dec i (List.length (k_out k))) as [-> | Hne]; [now rewrite <- Tr|].
      apply Ho. lia.
    + rewrite app_length. cbn. lia.
    + now rewrite Lg, map_app.
Qed.

Lemma alive_poison o e k : sink_ok o k -> k_poison k = None ->
  k_poison (poison e k) = Some e /\ k_out (poison e k) = k_out k /\ sink_ok o (poison e k).
Proof.
  intros (Hh & Hl & Ho & Ht) H. destruct (Ht H) as [Tr Lg]. unfold poison. rewrite H.
  repeat split; cbn; try discriminate; try assumption.
  - rewrite Lg. now apply (h_failed (k_out k) _ e []).
  - exists [NDropped e]. rewrite Lg. split; [reflexivity|]. intros x [<- | []]. reflexivity.
Qed.

Lemma history_dead l e rest : history l (Some e) ->
  (forall x, In x rest -> x = NRefused e \/ exists e', x = NDropped e') -> history (l ++ rest) (Some e).
Proof.
  intros H Hr. remember (Some e) as oe eqn:E. destruct H as [evs | evs n e0 r Hb He Hr0]; [discriminate|].
  inversion E; subst e0. rewrite <- app_assoc. cbn. constructor; auto.
  intros x Hx. apply in_app_iff in Hx. destruct Hx; auto.
Qed.

Lemma dead_sink_ok o e k k' : sink_ok o k -> dead_step e k k' -> k_poison k = Some e -> sink_ok o k'.
Proof.
  intros (Hh & (r0 & Hl & Hw) & Ho & Ht) (P & O & T & rest & L & R) H.
  rewrite H in *. split; [|split; [|split]].
  - rewrite P, L. now apply history_dead.
  - exists (r0 ++ rest). rewrite L, Hl, O, app_assoc. split; [reflexivity|].
    intros x Hx. apply in_app_iff in Hx. destruct Hx as [Hx | Hx]; [auto|].
    destruct (R _ Hx) as [-> | [e' ->]]; reflexivity.
  - now rewrite O.
  - rewrite P. discriminate.
Qed.

Lemma write_sink_ok o ev k : sink_ok o k -> sink_ok o (snd (write o ev k)).
Proof.
  intro H. destruct (k_poison k) as [e|] eqn:E.
  - eapply dead_sink_ok; [exact H| |exact E]. now apply dead_write.
  - pose proof (alive_write o ev k H E) as A. destruct (write o ev k) as [[e|] k']; cbn; tauto.
Qed.

Lemma poison_sink_ok o e k : sink_ok o k -> sink_ok o (poison e k).
Proof.
  intro H. destruct (k_poison k) as [e0|] eqn:E.
  - eapply dead_sink_ok; [exact H| |exact E]. now apply dead_poison.
  - now apply alive_poison.
Qed.

Lemma start_sink_ok o b k r k' : sink_ok o k -> builder_start o b k = inl (r, k') -> sink_ok o k'.
Proof.
  unfold builder_start. intro H.
  destruct (finalize (b_ns b)) as [m|]; [|discriminate].
  destruct (resolve_element m (b_name b)); [|discriminate].
  destruct (resolve_attributes m (b_attrs b)); [|discriminate].
  match goal with |- context [write o ?ev k] => pose proof (write_sink_ok o ev k H) as W;
    destruct (write o ev k) as [[e|] k0] end; cbn in W; intros [= <- <-]; assumption.
Qed.

Lemma run_sink_ok dbg o :
  (forall d (p : wprog d) nss k r k', sink_ok o k -> run_w dbg o p nss k = inl (r, k') -> sink_ok o k') /\
  (forall d (q : bprog d) b nss k r k', sink_ok o k -> run_b dbg o q b nss k = inl (r, k') -> sink_ok o k').
Proof.
  apply prog_mut; cbn [run_w run_b]; intros; try discriminate.
  - congruence.
  - match goal with Hk : sink_ok o ?k, R : context [write o ?ev ?k] |- _ =>
      pose proof (write_sink_ok o ev k Hk) as W; destruct (write o ev k) as [? ?]; cbn in W end. eauto.
  - destruct nss; [discriminate|]. eauto.
  - match goal with Hk : sink_ok o ?k, R : context [write o ?ev ?k] |- _ =>
      pose proof (write_sink_ok o ev k Hk) as W; destruct (write o ev k) as [? ?]; cbn in W end. eauto.
  - eauto using poison_sink_ok.
  - destruct (builder_namespace dbg p u b0); [|discriminate]. eauto.
  - destruct (builder_attribute n v b) as [[r0 b']|]; [|discriminate]. eauto.
  - eauto using poison_sink_ok.
  - destruct (builder_start o b k0) as [[[m|e] k1]|] eqn:E; [| |discriminate];
      pose proof (start_sink_ok _ _ _ _ _ H1 E); eauto.
Qed.

Lemma to_sink_ok dbg o n v r k : to dbg o n v = inl (r, k) -> sink_ok o k.
Proof.
  unfold to. destruct (run_a dbg (s_attrs v) _) as [[[e|] b]|]; [| |discriminate].
  - intros [= <- <-]. apply poison_sink_ok, sink0_ok.
  - destruct (builder_start o b sink0) as [[[m|e] k0]|] eqn:E; [| |discriminate];
      pose proof (start_sink_ok _ _ _ _ _ (sink0_ok o) E) as K0.
    + destruct (run_w dbg o (s_kids v) [m] k0) as [[[e|] k1]|] eqn:R; [| |discriminate];
        pose proof (proj1 (run_sink_ok dbg o) _ _ _ _ _ _ K0 R) as K1.
      * intros [= <- <-]. now apply poison_sink_ok.
      * intros [= H]. pose proof (write_sink_ok o WEnd k1 K1) as W. rewrite H in W. exact W.
    + intros [= <- <-]. assumption.
Qed.
