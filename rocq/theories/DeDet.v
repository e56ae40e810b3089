(** Properties of [reads]: it is a function, and what it depends on. *)
From Verif Require Import Base Normalize Text Find FindProofs Types Reader ReaderSpec ReaderProofs
  DeSpec.

(** ** A type reads at most one value from an element *)

Section Det.
  Context (o : oracles) (env : tenv) (R : ety -> node -> value -> Prop).

  Definition det (c : node) : Prop := forall t v1 v2, R t c v1 -> R t c v2 -> v1 = v2.

  Lemma Forall2_det t cs : Forall det cs -> forall vs1 vs2,
    Forall2 (R t) cs vs1 -> Forall2 (R t) cs vs2 -> vs1 = vs2.
  Proof.
    induction 1 as [|c cs Hc _ IH]; intros vs1 vs2 H1 H2; inversion H1; inversion H2; subst; auto.
    f_equal; [eapply Hc; eauto|auto].
  Qed.

  Lemma occurs_det t k cs v1 v2 : Forall det cs -> occurs (R t) k cs v1 -> occurs (R t) k cs v2 -> v1 = v2.
  Proof.
    intros Hd H1 H2. inversion H1; subst; inversion H2; subst.
    - inversion Hd; subst. eauto.
    - inversion Hd; subst. f_equal. eauto.
    - f_equal. eapply Forall2_det; eauto.
  Qed.

  Lemma absent_det f v1 v2 : absent f v1 -> absent f v2 -> v1 = v2.
  Proof. intros H1 H2. inversion H1; inversion H2; subst; congruence. Qed.

  Lemma Forall_filter {A} (P : A -> Prop) f l : Forall P l -> Forall P (filter f l).
  Proof. rewrite !Forall_forall. intros H x Hx. apply filter_In in Hx as [Hx _]. auto. Qed.

  Lemma before_first_incl ns l : incl (before_first ns l) l.
  Proof.
    induction l as [|k l IH]; cbn; [apply incl_refl|]. destruct (name_in ns k).
    - intros x [].
    - intros x [->|Hx]; [now left|right; auto].
  Qed.

  Lemma Forall_incl' {A} (P : A -> Prop) l1 l2 : incl l1 l2 -> Forall P l2 -> Forall P l1.
  Proof. rewrite !Forall_forall. auto. Qed.

  Lemma occurs_nil t k v : ~ occurs (R t) k [] v.
  Proof. intro H. inversion H; congruence. Qed.

  Lemma field_holds_det attrs kids f v1 v2 : Forall det kids ->
    field_holds o R attrs kids f v1 -> field_holds o R attrs kids f v2 -> v1 = v2.
  Proof.
    intros Hd H1 H2.
    inversion H1 as [k t v Hm Ho|k t v Hm Hn Ha|opt t s x Hm Hv Hp|opt t v Hm Hn Ha];
    inversion H2 as [k' t' v' Hm' Ho'|k' t' v' Hm' Hn' Ha'|opt' t' s' x' Hm' Hv' Hp'|opt' t' v' Hm' Hn' Ha'];
      try congruence; try subst.
    - rewrite Hm in Hm'. inversion Hm'; subst. eapply occurs_det; [|exact Ho|exact Ho']. now apply Forall_filter.
    - exfalso. rewrite Hn' in Ho. eapply occurs_nil; eauto.
    - exfalso. rewrite Hn in Ho'. eapply occurs_nil; eauto.
    - eapply absent_det; eauto.
    - rewrite Hm in Hm'. inversion Hm'; subst. rewrite Hv in Hv'. inversion Hv'; subst.
      rewrite Hp in Hp'. inversion Hp'; subst. auto.
    - eapply absent_det; eauto.
  Qed.

  Lemma choice_det vs kids v1 v2 : no_empty_ns vs -> NoDup (variant_names vs) -> Forall det kids ->
    choice R vs kids v1 -> choice R vs kids v2 -> v1 = v2.
  Proof.
    intros Hns Hnd Hd H1 H2.
    assert (Hidx : forall i j vi vj, nth_error (sorted_variants vs) i = Some vi ->
      nth_error (sorted_variants vs) j = Some vj ->
      named (expanded (v_name vi)) kids <> [] ->
      named (expanded (v_name vi)) kids = named (expanded (v_name vj)) kids -> i = j).
    { intros i j vi vj Hi Hj Hne Heq.
      destruct (named (expanded (v_name vi)) kids) as [|c l] eqn:E; [congruence|].
      assert (Hc1 : has_name (expanded (v_name vi)) c = true).
      { assert (In c (named (expanded (v_name vi)) kids)) by (rewrite E; now left). now apply filter_In in H as []. }
      assert (Hc2 : has_name (expanded (v_name vj)) c = true).
      { assert (In c (named (expanded (v_name vj)) kids)) by (rewrite <- Heq; now left). now apply filter_In in H as []. }
      unfold has_name in Hc1, Hc2. destruct c; try discriminate.
      apply xn_eqb_eq in Hc1, Hc2.
      assert (Hn : NoDup (variant_table vs)).
      { eapply Permutation.Permutation_NoDup; [apply Permutation.Permutation_sym, variant_table_perm|exact Hnd]. }
      eapply (NoDup_nth_error (variant_table vs)) ; eauto.
      - unfold variant_table. rewrite map_length. apply nth_error_Some. congruence.
      - unfold variant_table. rewrite !nth_error_map, Hi, Hj. cbn. congruence. }
    inversion H1 as [i v Hi Hv Hne Heq|i v k t x Hi Hv Heq Ho]; subst;
    inversion H2 as [i' v' Hi' Hv' Hne' Heq'|i' v' k' t' x' Hi' Hv' Heq' Ho']; subst.
    - f_equal. eapply Hidx; eauto; congruence.
    - assert (i = i') by (eapply Hidx; eauto; congruence). subst. congruence.
    - assert (i = i').
      { eapply Hidx; eauto; [|congruence]. intro E. rewrite E in Ho. eapply occurs_nil; eauto. }
      subst. congruence.
    - assert (i = i').
      { eapply Hidx; eauto; [|congruence]. intro E. rewrite E in Ho. eapply occurs_nil; eauto. }
      subst. assert (v' = v) by congruence. subst. assert (E : Some (k, t) = Some (k', t')) by congruence.
      inversion E; subst. do 2 f_equal. eapply occurs_det; [|exact Ho|exact Ho']. now apply Forall_filter.
  Qed.

  Lemma fields_hold_det attrs kids l fs v1 v2 : names_ok env -> Forall det kids -> Forall det l ->
    fields_hold o env R attrs kids l fs v1 -> fields_hold o env R attrs kids l fs v2 -> v1 = v2.
  Proof.
    intros Hok Hd Hl H1. revert v2.
    induction H1 as [|l f fs v vs Hf Hh Hr IH|l f fs id ident root nss variants sk v vs Hm Hid Hc Hr IH];
      intros v2 H2.
    - inversion H2. auto.
    - inversion H2 as [|? ? ? v' vs' Hf' Hh' Hr'|? ? ? ? ? ? ? ? ? ? ? Hm']; subst.
      + f_equal; [exact (field_holds_det _ _ _ _ _ Hd Hh Hh')|apply IH; auto].
      + unfold is_flatten in Hf. rewrite Hm' in Hf. discriminate.
    - inversion H2 as [|? ? ? v' vs' Hf' Hh' Hr'|? ? ? id' ident' root' nss' variants' sk' v' vs' Hm' Hid' Hc' Hr']; subst.
      + unfold is_flatten in Hf'. rewrite Hm in Hf'. discriminate.
      + rewrite Hm in Hm'. inversion Hm'; subst. rewrite Hid in Hid'. inversion Hid'; subst.
        destruct (Hok _ _ Hid). f_equal.
        * eapply choice_det; eauto.
        * apply IH; auto. eapply Forall_incl'; [apply before_first_incl|exact Hl].
  Qed.
End Det.

Theorem reads_det o env : names_ok env -> forall n t v1 v2, reads o env t n v1 -> reads o env t n v2 -> v1 = v2.
Proof.
  intros Hok n. induction n as [name attrs ns p kids pe IH| | |] using node_ind'; intros t v1 v2 H1 H2;
    try now inversion H1.
  assert (Hd : Forall (det (reads o env)) kids) by exact IH.
  inversion H1; subst; inversion H2; subst; try congruence.
  - assert (Hids : Some (TDStruct ident0 root0 nss0 fs0) = Some (TDStruct ident root nss fs)) by congruence.
    inversion Hids; subst. f_equal. eapply (fields_hold_det o env); [exact Hok|exact Hd| |eassumption|eassumption]. now apply Forall_filter.
  - assert (Hids : Some (TDEnum ident0 root0 nss0 variants0 sk0) = Some (TDEnum ident root nss variants sk)) by congruence.
    inversion Hids; subst. match goal with Hx : env _ = Some (TDEnum _ _ _ _ _) |- _ => destruct (Hok _ _ Hx) end. eapply choice_det; eauto.
Qed.
