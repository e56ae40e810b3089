(** Derived code asks only for names and texts that are well-formed, if the declarations and the values are. *)
From Verif Require Import Base NormalizeSpec Text DisplaySpec DisplayProofs Find FindProofs BMap Types Ser SerSpec SerProofs SerTree
  NsProofs DeriveSer DSerSpec DSerProofs NamesSpec Names.
From Coq Require Import Lia.

Section Derived.
  Context (o : oracles) (env : tenv).
  Hypothesis NW : names_wf env.

  Definition texts_wf (t : ety) (v : value) : Prop :=
    forall t' x s, holds env t v t' x -> to_text o t' x = Some s -> xml_text s.

  Lemma a_then_proper a b : proper_a a -> proper_a b -> proper_a (a_then a b).
  Proof.
    induction a as [[e|]|p u a IH|n v f IH|m]; cbn; auto.
    - intros (H1 & H2 & H3) Hb. auto.
    - intros (H1 & H2 & H3) Hb. auto.
  Qed.

  Lemma write_namespaces_proper l a : (forall p u, In (p, u) l -> prefix_wf p /\ xml_text u) -> proper_a a ->
    proper_a (write_namespaces l a).
  Proof.
    induction l as [|[p u] l IH]; cbn; intros H Ha; [assumption|].
    destruct (H p u (or_introl eq_refl)) as [H1 H2]. split; [assumption|]. split; [assumption|]. apply IH; auto.
  Qed.

  Lemma write_attr_proper n (opt : bool) t v : ncname (xn_local n) ->
    (forall x s, v = (if opt then VSome (VText x) else VText x) -> to_text o t x = Some s -> xml_text s) ->
    proper_a (write_attr o n opt t v).
  Proof.
    intros Hn Hv. unfold write_attr.
    assert (ONE : forall x, v = (if opt then VSome (VText x) else VText x) -> proper_a (match to_text o t x with Some s => AAttr n s ARet
      | None => match text_error o t x with Some m => ARet (Some (SMsg m)) | None => APanic ill_typed end end)).
    { intros x Hx. destruct (to_text o t x) as [s|] eqn:E; [|destruct (text_error o t x); exact I].
      cbn. split; [assumption|]. split; [|auto]. eapply Hv; eauto. }
    destruct opt, v as [x| | | | |[x| | | | | |]|]; try exact I; apply ONE; reflexivity.
  Qed.

  Lemma a_each_proper sel w vs : forall fs,
    (forall j v f, nth_error vs j = Some v -> nth_error fs j = Some f -> sel f = true -> proper_a (w f v)) ->
    proper_a (a_each sel w vs fs).
  Proof.
    induction vs as [|v vs IH]; intros [|f fs] H; cbn; auto.
    assert (proper_a (a_each sel w vs fs)) by (apply IH; intros j; apply (H (S j))).
    destruct (sel f) eqn:E; [|assumption]. apply a_then_proper; [|assumption]. now apply (H 0).
  Qed.

  Lemma in_field {A} P j (l : list A) v : Forall P l -> nth_error l j = Some v -> P v.
  Proof. intros H E. rewrite Forall_forall in H. apply H. eapply nth_error_In; eauto. Qed.

  Lemma ser_attrs_proper v : forall t, texts_wf t v -> proper_a (ser_attrs o env v t).
  Proof.
    induction v as [x|vs IH|i p IH| | |v IH|l IH] using value_ind''; intros [t|id] H; try exact I; cbn [ser_attrs];
      destruct (env id) as [d|] eqn:E; try exact I; destruct (NW id d E) as (Hr & Hn & Hd); destruct d; try exact I;
      apply write_namespaces_proper; try assumption; try exact I.
    apply a_then_proper; apply a_each_proper; intros j v f Hv Hf S.
    - destruct (f_mode f) as [|opt t| |] eqn:M; try exact I. apply write_attr_proper.
      + exact (Hd f (nth_error_In _ _ Hf)).
      + intros x s -> Hs. eapply H; [|exact Hs]. eapply ho_attribute; eauto.
    - destruct (f_mode f) eqn:M; try exact I. apply (proj1 (in_field _ _ _ _ IH Hv)). intros t' x s Hx. apply H.
      eapply ho_flatten; eauto.
  Qed.

  Lemma embed_proper {d} a (k : option serr -> bprog d) : proper_a a -> (forall r, proper_b (k r)) -> proper_b (embed a k).
  Proof.
    induction a as [r|p u a IH|n v f IH|m]; cbn; auto.
    - intros (H1 & H2 & H3) Hb. auto.
    - intros (H1 & H2 & H3) Hb. auto.
  Qed.

  Definition one_proper {d} (P : value -> Prop) (one : value -> (option serr -> wprog d) -> wprog d) : Prop :=
    forall v k, P v -> (forall r, proper_w (k r)) -> proper_w (one v k).

  Lemma write_one_proper {d} n attrs kids (k : option serr -> wprog d) : ncname (xn_local n) -> proper_a attrs ->
    (forall k', (forall r, proper_w (k' r)) -> proper_w (kids k')) -> (forall r, proper_w (k r)) ->
    proper_w (write_one n attrs kids k).
  Proof.
    intros Hn Ha Hk H. unfold write_one. cbn. split; [assumption|]. apply embed_proper; [assumption|]. intros [e|]; cbn; [apply H|].
    split; [|auto]. apply Hk. intros [e|]; cbn; auto.
  Qed.

  Lemma for_each_proper {d} P (one : value -> (option serr -> wprog d) -> wprog d) l : one_proper P one -> Forall P l ->
    forall k, (forall r, proper_w (k r)) -> proper_w (for_each one l k).
  Proof.
    intros H F. induction F as [|v l Hv _ IH]; intros k Hk; cbn; [apply Hk|]. apply H; [assumption|].
    intros [e|]; cbn; [apply Hk|]. now apply IH.
  Qed.

  Lemma w_each_proper {d} sel (w : field -> value -> (option serr -> wprog d) -> wprog d) vs : forall fs,
    (forall j v f k, nth_error vs j = Some v -> nth_error fs j = Some f -> sel f = true -> (forall r, proper_w (k r)) ->
       proper_w (w f v k)) ->
    forall k, (forall r, proper_w (k r)) -> proper_w (w_each sel w vs fs k).
  Proof.
    induction vs as [|v vs IH]; intros [|f fs] H k Hk; cbn; auto.
    assert (proper_w (w_each sel w vs fs k)) by (apply IH; [intros j; apply (H (S j))|assumption]).
    destruct (sel f) eqn:E; [|assumption]. apply (H 0); [reflexivity|reflexivity|assumption|]. intros [e|]; cbn; auto.
  Qed.

  (** What is known of the values below. *)
  Definition kids_proper (v : value) : Prop := forall t, texts_wf t v ->
    forall d (k : option serr -> wprog d), (forall r, proper_w (k r)) -> proper_w (ser_kids o env v t k).

  Lemma write_items_proper {d} P (one : value -> (option serr -> wprog d) -> wprog d) kd v k : one_proper P one ->
    (forall l, items kd v l -> Forall P l) -> (forall r, proper_w (k r)) -> proper_w (write_field one kd v k).
  Proof.
    intros H HI Hk. destruct kd; cbn.
    - apply H; [|assumption]. apply (Forall_inv (HI _ (it_one v))).
    - destruct v; try exact I; cbn; [apply Hk|]. apply H; [|assumption]. apply (Forall_inv (HI _ (it_some v))).
    - destruct v; try exact I. eapply for_each_proper; eauto. apply HI. constructor.
  Qed.

  Lemma element_proper n t v kd {d} (k : option serr -> wprog d) : ncname (xn_local n) ->
    below kids_proper v -> (forall l w, items kd v l -> In w l -> texts_wf t w) -> (forall r, proper_w (k r)) ->
    proper_w (write_field (fun v k => write_one n (ser_attrs o env v t) (fun k' => ser_kids o env v t k') k) kd v k).
  Proof.
    intros Hn B H Hk. apply (write_items_proper (fun v => kids_proper v /\ texts_wf t v)); [| |assumption].
    - intros w k0 [W1 W2] Hk0. apply write_one_proper; [assumption|now apply ser_attrs_proper| |assumption].
      intros k' Hk'. now apply W1.
    - intros l HI. apply Forall_forall. intros w Hw. split; [|eauto]. pose proof (below_items _ _ _ _ B HI) as F.
      rewrite Forall_forall in F. auto.
  Qed.

  Lemma ser_kids_proper v : kids_proper v.
  Proof.
    induction v as [x|vs IH|i p IH| | |v IH|l IH] using value_ind''; intros [t|id] H d k Hk; try exact I; cbn [ser_kids];
      try (destruct (env id) as [[]|]; exact I).
    - destruct (to_text o t x) as [s|] eqn:E; [|destruct (text_error o t x); [apply Hk|exact I]].
      split; [|assumption]. eapply H; [constructor|exact E].
    - destruct (env id) as [[st root nss fs|]|] eqn:E; try exact I. destruct (NW _ _ E) as (Hr & Hn & Hd).
      apply w_each_proper; [intros j v f k0 Hv Hf S Hk0|intros [e|]; cbn; [apply Hk|];
        apply w_each_proper; [intros j v f k0 Hv Hf S Hk0|assumption]].
      + destruct (f_mode f) as [kd t| | |] eqn:M; try exact I. apply element_proper; auto.
        * exact (Hd f (nth_error_In _ _ Hf)).
        * exact (in_field _ _ _ _ IH Hv).
        * intros l w HI Hw t' x s Hx. apply H. eapply ho_element; eauto.
      + destruct (f_mode f) as [| |id'|] eqn:M; try exact I. apply (proj1 (in_field _ _ _ _ IH Hv)); [|assumption].
        intros t' x s Hx. apply H. eapply ho_flatten; eauto.
    - destruct (env id) as [[|st root nss vs sk]|] eqn:E; try exact I. destruct (NW _ _ E) as (Hr & Hn & Hd).
      destruct (nth_error (sorted_variants vs) i) as [w|] eqn:N; [|exact I].
      assert (In w vs) as Hw.
      { pose proof (nth_error_In _ _ N) as N'. eapply Permutation.Permutation_in; [|exact N']. apply sort_perm. }
      destruct (v_ty w) as [[kd t]|] eqn:M, p as [v|]; try exact I.
      + apply element_proper; auto.
        * exact (Hd w Hw).
        * intros l u HI Hu t' x s Hx. apply H. eapply ho_variant; eauto.
      + cbn. split; [exact (Hd w Hw)|]. split; auto.
    - destruct (env id) as [[|st root nss vs []]|]; try exact I. apply Hk.
  Qed.

  Theorem with_name_wf dbg w t v n r k : ncname (xn_local n) -> texts_wf t v ->
    serialize_with_name o env dbg w t v n = inl (r, k) -> Forall event_wf (k_out k).
  Proof.
    intros Hn H. unfold serialize_with_name, ser_value. apply written_wf; cbn; [assumption|now apply ser_attrs_proper|].
    apply ser_kids_proper; auto. intros r'. exact I.
  Qed.
End Derived.

Theorem root_wf o env dbg w id v r k : names_wf env ->
  (forall t x s, holds env (ERef id) v t x -> to_text o t x = Some s -> xml_text s) ->
  serialize_root o env dbg w id v = inl (r, k) -> Forall event_wf (k_out k).
Proof.
  intros NW H. unfold serialize_root, root_name. destruct (env id) as [d|] eqn:E; [|discriminate].
  destruct (NW id d E) as (Hr & _). destruct d; apply (with_name_wf o env NW); try exact Hr; exact H.
Qed.
