(** Derived deserializers implement [reads]: loops over attributes and children, [finalize], and the
    induction over the document. *)
From Coq Require Import Lia.
From Verif Require Import Base Normalize Text Find FindProofs Types Reader ReaderSpec ReaderProofs ReaderMore DeriveDe DeSpec DeProofs.

(** ** Prefixes *)

Lemma filter_eq_prefix {A} (f g : A -> bool) l1 l2 : (forall x, g x = true -> f x = true) ->
  filter f (l1 ++ l2) = filter g (l1 ++ l2) -> filter f l1 = filter g l1.
Proof.
  intros Hgf. induction l1 as [|x l1 IH]; cbn; auto. intro H.
  destruct (f x) eqn:Ef, (g x) eqn:Eg.
  - inversion H. f_equal. auto.
  - exfalso. assert (Hin : In x (filter g (l1 ++ l2))) by (rewrite <- H; now left).
    apply filter_In in Hin as [_ Hg]. congruence.
  - apply Hgf in Eg. congruence.
  - auto.
Qed.

Lemma before_first_prefix ns l1 l2 : exists l', before_first ns (l1 ++ l2) = before_first ns l1 ++ l'.
Proof.
  induction l1 as [|x l1 (l' & IH)]; cbn; [eauto|].
  destruct (name_in ns x); [exists []; reflexivity|]. exists l'. cbn. now f_equal.
Qed.

Lemma attr_values_app n a1 a2 : attr_values n (a1 ++ a2) = attr_values n a1 ++ attr_values n a2.
Proof. unfold attr_values. now rewrite filter_app, map_app. Qed.

Lemma named_app n k1 k2 : named n (k1 ++ k2) = named n k1 ++ named n k2.
Proof. apply filter_app. Qed.

Lemma app_single {A} (l1 l2 : list A) x : l1 ++ l2 = [x] -> l1 = [] \/ l1 = [x] /\ l2 = [].
Proof. destruct l1 as [|y [|z l1]]; cbn; intro H; auto; inversion H; auto. Qed.

Section Struct.
  Context (o : oracles) (alg : bs_alg) (env : tenv).
  Context (R : ety -> node -> value -> Prop).

  Notation slots_after := (slots_after o env R).
  Notation field_after := (field_after R).
  Notation attr_after := (attr_after o).
  Notation estate_after := (estate_after R).

  Lemma occurs_app k t l1 l2 v : occurs (R t) k (l1 ++ l2) v -> l1 = [] \/ exists v', occurs (R t) k l1 v'.
  Proof.
    intro H. remember (l1 ++ l2) as L eqn:E. destruct H as [c x Hx|c x Hx|cs vs Hn HF].
    - symmetry in E. apply app_single in E as [E|[E _]]; [now left|]. right. rewrite E. eexists. constructor. eauto.
    - symmetry in E. apply app_single in E as [E|[E _]]; [now left|]. right. rewrite E. eexists. constructor. eauto.
    - subst cs. destruct l1 as [|x l1]; [now left|]. right. apply Forall2_app_inv_l in HF as (v1 & v2 & H1 & _ & _).
      exists (VVec v1). constructor; [discriminate|auto].
  Qed.

  Lemma slots_prefix a1 a2 k1 k2 fs : forall l1 l2 ss,
    slots_after (a1 ++ a2) (k1 ++ k2) (l1 ++ l2) fs ss -> exists ss', slots_after a1 k1 l1 fs ss'.
  Proof.
    induction fs as [|f fs IH]; intros l1 l2 ss H.
    - exists []. constructor.
    - inversion H as [|? ? ? k t pr mem ss0 Hm Hf Hr|? ? ? opt t pr mem ss0 Hm Hf Hr
                      |? ? ? id ident root nss vs sk e ss0 Hm Hid He Hr]; subst.
      + destruct (IH _ _ _ Hr) as (ss1 & H1). rewrite named_app in Hf.
        destruct Hf as [(E & _)|(_ & v & _ & Ho)].
        * apply app_eq_nil in E as [E _]. exists (SField false None :: ss1). apply sa_element with k t; auto. left. auto.
        * apply occurs_app in Ho as [E|(v' & Ho)].
          -- exists (SField false None :: ss1). apply sa_element with k t; auto. left. auto.
          -- exists (SField true (Some v') :: ss1). apply sa_element with k t; auto. right. eauto.
      + destruct (IH _ _ _ Hr) as (ss1 & H1). rewrite attr_values_app in Hf.
        destruct Hf as [(E & _)|(_ & s & x & E & Hx & _)].
        * apply app_eq_nil in E as [E _]. exists (SField false None :: ss1). apply sa_attribute with opt t; auto. left. auto.
        * apply app_single in E as [E|[E _]].
          -- exists (SField false None :: ss1). apply sa_attribute with opt t; auto. left. auto.
          -- eexists (SField true (Some _) :: ss1). apply sa_attribute with opt t; auto. right. split; auto.
             exists s, x. repeat split; eauto.
      + destruct (before_first_prefix (variant_names vs) l1 l2) as (l' & Hb). rewrite Hb in Hr.
        destruct (IH _ _ _ Hr) as (ss1 & H1).
        assert (He' : filter (name_in (variant_names vs)) l1 = [] \/ exists v, choice R vs l1 v).
        { apply estate_possible in He. destruct He as [E|(v & Hch)].
          - left. rewrite filter_app in E. now apply app_eq_nil in E.
          - inversion Hch as [j w Hj Hty Hne Hall|j w k t y Hj Hty Hall Ho]; subst.
            + apply filter_eq_prefix in Hall.
              * destruct (filter (name_in (variant_names vs)) l1) eqn:E; [now left|]. right. eexists.
                apply choice_unit with w; eauto; rewrite E; [discriminate|auto].
              * intros x Hx. apply name_in_spec. exists (expanded (v_name w)). split; auto. eapply variant_in; eauto.
            + apply filter_eq_prefix in Hall.
              * rewrite named_app in Ho. apply occurs_app in Ho as [E|(v' & Ho)].
                -- left. unfold named in E. now rewrite Hall.
                -- right. eexists. apply choice_field with w k t; eauto.
              * intros x Hx. apply name_in_spec. exists (expanded (v_name w)). split; auto. eapply variant_in; eauto. }
        destruct He' as [E|(v & Hch)].
        * exists (SFlat (EState ident vs false None) :: ss1). eapply sa_flatten; eauto. split; auto.
        * exists (SFlat (EState ident vs true (Some v)) :: ss1). eapply sa_flatten; eauto. split; auto. right. split; [reflexivity|]. exists v. split; [reflexivity|assumption].
  Qed.

  (** ** finalize *)

  Lemma missing_absent f v : is_flatten f = false ->
    (match f_default f with Some v => Ok v | None => missing f end) = Ok v <->
    absent f v /\ match f_mode f with MText _ => f_default f <> None | _ => True end.
  Proof.
    unfold missing, is_flatten. intro Hf. destruct (f_default f) as [d|] eqn:Ed.
    - split.
      + intros [= <-]. split; [now constructor|]. destruct (f_mode f); auto. discriminate.
      + intros [H _]. inversion H; congruence.
    - destruct (f_mode f) as [[] t|[] t|id|t] eqn:Em; split; try discriminate.
      all: try (intros [H _]; inversion H; congruence).
      all: try (intros [= <-]; split; auto; econstructor; eassumption).
  Qed.

  Lemma finalize_sound attrs kids l fs ss : slots_after attrs kids l fs ss ->
    forall ss', finalize_slots fs ss = (Ok tt, ss') ->
    exists vs, assume_init ss' = Ok vs /\ fields_hold o env R attrs kids l fs vs.
  Proof.
    induction 1 as [l|l f fs k t pr mem ss Hm Hf Hr IH|l f fs opt t pr mem ss Hm Hf Hr IH
                    |l f fs id ident root nss vs sk e ss Hm Hid He Hr IH]; intros ss' HF; cbn in HF.
    - inversion HF; subst. exists []. split; [reflexivity|constructor].
    - assert (Hfl : is_flatten f = false) by (unfold is_flatten; now rewrite Hm).
      destruct Hf as [(E & -> & ->)|(-> & v & -> & Ho)].
      + destruct (match f_default f with Some v => Ok v | None => missing f end) as [d| |] eqn:Ed; cbn in HF; try discriminate.
        destruct (finalize_slots fs ss) as [[[]| |] ss1] eqn:E1; try discriminate. inversion HF; subst.
        destruct (IH ss1 eq_refl) as (vs & Ha & Hv). exists (d :: vs). cbn. rewrite Ha. split; auto.
        apply fhs_own; auto. eapply fh_no_element; eauto. apply missing_absent in Ed; tauto.
      + destruct (finalize_slots fs ss) as [[[]| |] ss1] eqn:E1; try discriminate. inversion HF; subst.
        destruct (IH ss1 eq_refl) as (vs & Ha & Hv). exists (v :: vs). cbn. rewrite Ha. split; auto.
        apply fhs_own; auto. eapply fh_element; eauto.
    - assert (Hfl : is_flatten f = false) by (unfold is_flatten; now rewrite Hm).
      destruct Hf as [(E & -> & ->)|(-> & s & x & E & Hx & ->)].
      + destruct (match f_default f with Some v => Ok v | None => missing f end) as [d| |] eqn:Ed; cbn in HF; try discriminate.
        destruct (finalize_slots fs ss) as [[[]| |] ss1] eqn:E1; try discriminate. inversion HF; subst.
        destruct (IH ss1 eq_refl) as (vs & Ha & Hv). exists (d :: vs). cbn. rewrite Ha. split; auto.
        apply fhs_own; auto. eapply fh_no_attribute; eauto. apply missing_absent in Ed; tauto.
      + destruct (finalize_slots fs ss) as [[[]| |] ss1] eqn:E1; try discriminate. inversion HF; subst.
        destruct (IH ss1 eq_refl) as (vs & Ha & Hv). eexists. cbn. rewrite Ha. split; [reflexivity|].
        apply fhs_own; auto. eapply fh_attribute; eauto.
    - unfold enum_finalize in HF. destruct He as [Hv [(E & Hi & Hmem)|(Hi & v & Hmem & Hch)]]; rewrite Hi in HF; cbn in HF; [discriminate|].
      destruct (finalize_slots fs ss) as [[[]| |] ss1] eqn:E1; try discriminate. inversion HF; subst.
      destruct (IH ss1 eq_refl) as (vs' & Ha & Hv'). exists (v :: vs'). cbn. rewrite Hmem, Ha. split; auto.
      eapply fhs_flatten; eauto.
  Qed.

  Lemma finalize_complete attrs kids l fs ss : slots_after attrs kids l fs ss ->
    forall vs, fields_hold o env R attrs kids l fs vs ->
    exists ss', finalize_slots fs ss = (Ok tt, ss').
  Proof.
    induction 1 as [l|l f fs k t pr mem ss Hm Hf Hr IH|l f fs opt t pr mem ss Hm Hf Hr IH
                    |l f fs id ident root nss vs sk e ss Hm Hid He Hr IH]; intros ws HF; cbn.
    - eauto.
    - assert (Hfl : is_flatten f = false) by (unfold is_flatten; now rewrite Hm).
      inversion HF as [|? ? ? w ws' _ Hw HF'|]; subst; [|congruence].
      destruct (IH _ HF') as (ss1 & E1).
      destruct Hf as [(E & -> & ->)|(-> & v & -> & Ho)].
      + assert (Ha : absent f w).
        { inversion Hw; subst; auto; try congruence. rewrite E in H0. inversion H0. congruence. }
        assert (Ed : (match f_default f with Some v => Ok v | None => missing f end) = Ok w).
        { apply missing_absent; auto. rewrite Hm. auto. }
        cbn. rewrite Ed. cbn. rewrite E1. eauto.
      + cbn. rewrite E1. eauto.
    - assert (Hfl : is_flatten f = false) by (unfold is_flatten; now rewrite Hm).
      inversion HF as [|? ? ? w ws' _ Hw HF'|]; subst; [|congruence].
      destruct (IH _ HF') as (ss1 & E1).
      destruct Hf as [(E & -> & ->)|(-> & s & x & E & Hx & ->)].
      + assert (Ha : absent f w) by (inversion Hw; subst; auto; congruence).
        assert (Ed : (match f_default f with Some v => Ok v | None => missing f end) = Ok w).
        { apply missing_absent; auto. rewrite Hm. auto. }
        cbn. rewrite Ed. cbn. rewrite E1. eauto.
      + cbn. rewrite E1. eauto.
    - inversion HF as [|? ? ? w ws' Hfl _ HF'|? ? ? id' ident' root' nss' vs' sk' w ws' Hm' Hid' Hch HF']; subst.
      { unfold is_flatten in Hfl. rewrite Hm in Hfl. discriminate. }
      assert (id' = id) by congruence. subst id'. assert (vs' = vs) by congruence. subst vs'.
      destruct (IH _ HF') as (ss1 & E1).
      unfold enum_finalize. destruct He as [Hv [(E & Hi & Hmem)|(Hi & v & Hmem & _)]].
      + exfalso. inversion Hch; subst; auto. rewrite E in H1. rewrite <- H1 in H2. inversion H2. congruence.
      + rewrite Hi. cbn. rewrite E1. eauto.
  Qed.

  Lemma holds_possible attrs kids l fs vs : fields_hold o env R attrs kids l fs vs ->
    exists ss, slots_after attrs kids l fs ss.
  Proof.
    induction 1 as [|l f fs v vs Hfl Hf Hr (ss & IH)|l f fs id ident root nss variants sk v vs Hm Hid Hch Hr (ss & IH)].
    - exists []. constructor.
    - inversion Hf; subst.
      + exists (SField true (Some v) :: ss). eapply sa_element; eauto. right. eauto.
      + exists (SField false None :: ss). eapply sa_element; eauto. left. auto.
      + eexists (SField true (Some _) :: ss). eapply sa_attribute; eauto. right. split; auto. eauto.
      + exists (SField false None :: ss). eapply sa_attribute; eauto. left. auto.
    - exists (SFlat (EState ident variants true (Some v)) :: ss). eapply sa_flatten; eauto.
      split; auto. right. split; [reflexivity|]. exists v. split; [reflexivity|assumption].
  Qed.

  (** ** Fresh visitors *)

  Lemma new_slots_after fs ss : new_slots env fs = Some ss -> slots_after [] [] [] fs ss.
  Proof.
    revert ss. induction fs as [|f fs IH]; cbn; intros ss H.
    - inversion H. constructor.
    - destruct (new_slots env fs) as [ss0|]; [|discriminate]. specialize (IH _ eq_refl).
      destruct (f_mode f) as [k t|opt t|id|t] eqn:Hm.
      + inversion H. eapply sa_element; eauto. left. auto.
      + inversion H. eapply sa_attribute; eauto. left. auto.
      + destruct (env id) as [[|ident root nss vs sk]|] eqn:Hid; try discriminate. inversion H.
        eapply sa_flatten; eauto. split; auto.
      + discriminate.
  Qed.

  Lemma new_slots_some fs vs attrs kids l : fields_hold o env R attrs kids l fs vs -> new_slots env fs <> None.
  Proof.
    induction 1 as [|l f fs v vs Hfl Hf Hr IH|l f fs id ident root nss variants sk v vs Hm Hid Hch Hr IH]; cbn.
    - discriminate.
    - destruct (new_slots env fs); [|congruence]. inversion Hf; subst; rewrite H; discriminate.
    - destruct (new_slots env fs); [|congruence]. rewrite Hm, Hid. discriminate.
  Qed.

  (** ** Attributes *)

  Lemma delegate_pass {E A} (f : estate -> A -> res E (option A) * estate) ss a :
    (forall e a, f e a = (Ok (Some a), e)) -> delegate f ss a = (Ok (Some a), ss).
  Proof.
    intro Hf. induction ss as [|s ss IH]; cbn; auto. destruct s as [pr m|e].
    - now rewrite IH.
    - now rewrite Hf, IH.
  Qed.

  Lemma set_nth_self {A} (l : list A) p x : nth_error l p = Some x -> set_nth p x l = l.
  Proof. revert p. induction l as [|y l IH]; intros [|p]; cbn; try congruence. intro. f_equal. auto. Qed.

  Lemma slots_after_attrs a1 a2 ks l fs ss :
    (forall f, In f fs -> is_attribute f = true ->
       attr_values (expanded (f_name f)) a1 = attr_values (expanded (f_name f)) a2) ->
    slots_after a1 ks l fs ss -> slots_after a2 ks l fs ss.
  Proof.
    intros Hn H. induction H as [l|l f fs k t pr mem ss Hm Hf Hr IH|l f fs opt t pr mem ss Hm Hf Hr IH
                    |l f fs id ident root nss vs sk e ss Hm Hid He Hr IH].
    - constructor.
    - eapply sa_element; eauto. apply IH. intros f' Hf'. apply Hn. now right.
    - apply sa_attribute with opt t; auto.
      + rewrite <- Hn; auto; [now left|]. unfold is_attribute. now rewrite Hm.
      + apply IH. intros f' Hf'. apply Hn. now right.
    - eapply sa_flatten; eauto. apply IH. intros f' Hf'. apply Hn. now right.
  Qed.

  Lemma attr_values_snoc a n attrs : from_xml_name (a_name a) = n ->
    attr_values n (attrs ++ [a]) = attr_values n attrs ++ [a_value a].
  Proof.
    intro H. rewrite attr_values_app. unfold attr_values at 2. cbn.
    now rewrite (proj2 (xn_eqb_eq _ _) H).
  Qed.

  Lemma attr_values_same a n attrs : from_xml_name (a_name a) <> n ->
    attr_values n (attrs ++ [a]) = attr_values n attrs.
  Proof.
    intro H. rewrite attr_values_app. unfold attr_values at 2. cbn.
    destruct (xn_eqb (from_xml_name (a_name a)) n) eqn:E; [apply xn_eqb_eq in E; contradiction|apply app_nil_r].
  Qed.

  (** An attribute for the field at position [q]. *)
  Lemma slots_attribute attrs ks l fs ss q f opt t a :
    NoDup (field_names is_attribute fs) ->
    nth_error fs q = Some f -> f_mode f = MAttribute opt t -> expanded (f_name f) = from_xml_name (a_name a) ->
    slots_after attrs ks l fs ss ->
    exists pr mem, nth_error ss q = Some (SField pr mem) /\
      attr_after opt t (attr_values (from_xml_name (a_name a)) attrs) pr mem /\
      (forall pr' mem', attr_after opt t (attr_values (from_xml_name (a_name a)) attrs ++ [a_value a]) pr' mem' ->
         slots_after (attrs ++ [a]) ks l fs (set_nth q (SField pr' mem') ss)) /\
      (forall ss', slots_after (attrs ++ [a]) ks l fs ss' ->
         exists pr' mem', attr_after opt t (attr_values (from_xml_name (a_name a)) attrs ++ [a_value a]) pr' mem').
  Proof.
    intros Hnd Hq Hm Hname Hs. revert q Hq.
    induction Hs as [l|l f0 fs k0 t0 pr mem ss Hm0 Hf0 Hr IH|l f0 fs opt0 t0 pr mem ss Hm0 Hf0 Hr IH
                    |l f0 fs id ident root nss vs sk e ss Hm0 Hid He Hr IH]; intros q Hq.
    - destruct q; discriminate.
    - assert (Hnd' : NoDup (field_names is_attribute fs)).
      { unfold field_names in *. cbn in Hnd. unfold is_attribute at 1 in Hnd. rewrite Hm0 in Hnd. exact Hnd. }
      destruct q as [|q]; cbn in Hq; [inversion Hq; subst; congruence|].
      destruct (IH Hnd' q Hq) as (pr' & mem' & G1 & G2 & G3 & G4).
      exists pr', mem'. cbn. repeat split; auto.
      + intros pr1 mem1 H1. eapply sa_element; eauto.
      + intros ss' Hss'. inversion Hss'; subst; try congruence; eauto.
    - assert (Hnd' : NoDup (field_names is_attribute fs)).
      { unfold field_names in *. cbn in Hnd. unfold is_attribute at 1 in Hnd. rewrite Hm0 in Hnd. now inversion Hnd. }
      assert (Hni : ~ In (expanded (f_name f0)) (field_names is_attribute fs)).
      { unfold field_names in *. cbn in Hnd. unfold is_attribute at 1 in Hnd. rewrite Hm0 in Hnd. now inversion Hnd. }
      destruct q as [|q]; cbn in Hq.
      + inversion Hq; subst f0. rewrite Hm in Hm0. inversion Hm0; subst opt0 t0. rewrite Hname in Hf0, Hni.
        exists pr, mem. cbn. repeat split; auto.
        * intros pr1 mem1 H1. apply sa_attribute with opt t; auto.
          { rewrite Hname. now rewrite attr_values_snoc. }
          eapply slots_after_attrs; [|exact Hr]. intros f' Hf' He'. symmetry. apply attr_values_same.
          intro E. apply Hni. unfold field_names. apply in_map_iff. exists f'. split; [now rewrite E|]. now apply filter_In.
        * intros ss' Hss'. inversion Hss' as [|? ? ? k' t' pr' mem' ss0 Hm' Hf'|? ? ? opt' t' pr' mem' ss0 Hm' Hf'|? ? ? id' ident' root' nss' vs' sk' e' ss0 Hm']; subst; try congruence.
          rewrite Hm in Hm'. inversion Hm'; subst. rewrite Hname in Hf'. rewrite attr_values_snoc in Hf' by auto. eauto.
      + destruct (IH Hnd' q Hq) as (pr' & mem' & G1 & G2 & G3 & G4).
        exists pr', mem'. cbn. repeat split; auto.
        * intros pr1 mem1 H1. apply sa_attribute with opt0 t0; auto. rewrite attr_values_same; auto.
          intro E. apply Hni. rewrite <- E, <- Hname. unfold field_names. apply in_map_iff. exists f. split; auto.
          apply filter_In. split; [eapply nth_error_In; eauto|]. unfold is_attribute. now rewrite Hm.
        * intros ss' Hss'. inversion Hss'; subst; try congruence; eauto.
    - assert (Hnd' : NoDup (field_names is_attribute fs)).
      { unfold field_names in *. cbn in Hnd. unfold is_attribute at 1 in Hnd. rewrite Hm0 in Hnd. exact Hnd. }
      destruct q as [|q]; cbn in Hq; [inversion Hq; subst; congruence|].
      destruct (IH Hnd' q Hq) as (pr' & mem' & G1 & G2 & G3 & G4).
      exists pr', mem'. cbn. repeat split; auto.
      + intros pr1 mem1 H1. eapply sa_flatten; eauto.
      + intros ss' Hss'. inversion Hss'; subst; try congruence.
        assert (vs0 = vs) by congruence. subst. eauto.
  Qed.

  Lemma attribute_field_step n opt t values pr mem v : attr_after opt t values pr mem ->
    match attribute_field o n opt t pr mem v with
    | (Ok _, SField pr' mem') => attr_after opt t (values ++ [v]) pr' mem'
    | (Ok _, SFlat _) => False
    | (_, _) => forall pr' mem', ~ attr_after opt t (values ++ [v]) pr' mem'
    end.
  Proof.
    unfold attribute_field. intros [(-> & -> & ->)|(-> & s & x & -> & Hx & ->)].
    - unfold attr_init. destruct (parse_text o t v) as [y|m|ab] eqn:E; cbn.
      + right. split; auto. exists v, y. auto.
      + intros pr' mem' [(H & _)|(_ & s & x & [= <-] & Hx & _)]; [discriminate|congruence].
      + intros pr' mem' [(H & _)|(_ & s & x & [= <-] & Hx & _)]; [discriminate|congruence].
    - cbn. intros pr' mem' [(H & _)|(_ & s' & x' & H & _)]; discriminate.
  Qed.

  Lemma find_field_lookup sel fs n : find_field alg sel fs n = lookup alg sel fs n.
  Proof. reflexivity. Qed.

  Lemma put_struct fs ss lk ss' l : put (VState (VkStruct fs ss) lk) ss' l = VState (VkStruct fs ss') (l ++ lk).
  Proof. reflexivity. Qed.

  Lemma attrs_struct fs path p : NoDup (field_names is_attribute fs) ->
    forall attrs attrs1 ss lk,
    slots_after attrs1 [] [] fs ss ->
    let r := sem_attrs (derived o alg env) path p attrs (VState (VkStruct fs ss) lk) in
    (forall s', r = (Ok tt, s') -> exists ss' lk', s' = VState (VkStruct fs ss') lk' /\
        slots_after (attrs1 ++ attrs) [] [] fs ss') /\
    ((exists ss', slots_after (attrs1 ++ attrs) [] [] fs ss') -> exists s', r = (Ok tt, s')).
  Proof.
    intros Hnd. induction attrs as [|a attrs IH]; intros attrs1 ss lk Hs r; subst r; cbn [sem_attrs].
    - split.
      + intros s' [= <-]. rewrite app_nil_r. eauto.
      + eauto.
    - cbn [derived v_attribute vs_kind]. unfold struct_attribute. rewrite find_field_lookup.
      destruct (lookup alg is_attribute fs (from_xml_name (a_name a))) as [q|] eqn:El.
      + apply lookup_spec in El as (f & Hq & Hsel & Hname); auto.
        unfold is_attribute in Hsel. destruct (f_mode f) as [|opt t| |] eqn:Hm; try discriminate.
        destruct (slots_attribute attrs1 [] [] fs ss q f opt t a Hnd Hq Hm Hname Hs) as (pr & mem & G1 & G2 & G3 & G4).
        rewrite Hq, G1. destruct f as [fn fm fd]. cbn in Hm. subst fm.
        pose proof (attribute_field_step (from_xml_name (a_name a)) opt t _ pr mem (a_value a) G2) as Hst.
        destruct (attribute_field o (from_xml_name (a_name a)) opt t pr mem (a_value a)) as [[[]|e|x] [pr' mem'|e']]; cbn [map_ok].
        * rewrite put_struct. apply G3 in Hst. specialize (IH (attrs1 ++ [a]) _ ([] ++ lk) Hst). cbn zeta in IH.
          rewrite <- app_assoc in IH. exact IH.
        * contradiction.
        * split; [discriminate|]. intros (ss' & Hss'). exfalso.
          replace (attrs1 ++ a :: attrs) with ((attrs1 ++ [a]) ++ attrs) in Hss' by now rewrite <- app_assoc.
          apply (slots_prefix (attrs1 ++ [a]) attrs [] [] fs [] []) in Hss' as (ss1 & H1).
          apply G4 in H1 as (pr1 & mem1 & H1). now apply Hst in H1.
        * split; [discriminate|]. intros (ss' & Hss'). exfalso.
          replace (attrs1 ++ a :: attrs) with ((attrs1 ++ [a]) ++ attrs) in Hss' by now rewrite <- app_assoc.
          apply (slots_prefix (attrs1 ++ [a]) attrs [] [] fs [] []) in Hss' as (ss1 & H1).
          apply G4 in H1 as (pr1 & mem1 & H1). now apply Hst in H1.
        * split; [discriminate|]. intros (ss' & Hss'). exfalso.
          replace (attrs1 ++ a :: attrs) with ((attrs1 ++ [a]) ++ attrs) in Hss' by now rewrite <- app_assoc.
          apply (slots_prefix (attrs1 ++ [a]) attrs [] [] fs [] []) in Hss' as (ss1 & H1).
          apply G4 in H1 as (pr1 & mem1 & H1). now apply Hst in H1.
        * split; [discriminate|]. intros (ss' & Hss'). exfalso.
          replace (attrs1 ++ a :: attrs) with ((attrs1 ++ [a]) ++ attrs) in Hss' by now rewrite <- app_assoc.
          apply (slots_prefix (attrs1 ++ [a]) attrs [] [] fs [] []) in Hss' as (ss1 & H1).
          apply G4 in H1 as (pr1 & mem1 & H1). now apply Hst in H1.
      + rewrite delegate_pass by reflexivity. rewrite put_struct. cbn [app].
        assert (Hs' : slots_after (attrs1 ++ [a]) [] [] fs ss).
        { eapply slots_after_attrs; [|exact Hs]. intros f Hf He. symmetry. apply attr_values_same.
          apply lookup_none in El; auto. intro E. apply El. unfold field_names. apply in_map_iff.
          exists f. split; auto. now apply filter_In. }
        specialize (IH (attrs1 ++ [a]) ss lk Hs'). cbn zeta in IH. rewrite <- app_assoc in IH. exact IH.
  Qed.
End Struct.

(** ** Children *)

Section Kids.
  Context (o : oracles) (alg : bs_alg) (env : tenv).
  Notation R := (reads o env).
  Notation V := (derived o alg env).
  Notation slots_after := (slots_after o env R).
  Hypothesis Hok : names_ok env.

  Definition get_st {A} (x : res verr A * vstate) : option vstate :=
    match x with (Ok _, s) => Some s | _ => None end.

  Definition struct_at (fs : list field) (attrs : list attr) (ks : list node) (s : vstate) : Prop :=
    exists ss lk, s = VState (VkStruct fs ss) lk /\ slots_after attrs ks (unclaimed fs ks) fs ss.

  Definition enum_at (vs : list variant) (ks : list node) (s : vstate) : Prop :=
    exists e lk, s = VState (VkEnum e) lk /\ estate_after R vs ks e.

  Lemma not_in_names fs n : ~ In n (field_names is_element fs) ->
    forall f, In f fs -> is_element f = true -> n <> expanded (f_name f).
  Proof.
    intros H f Hf He ->. apply H. unfold field_names. apply in_map_iff. exists f. split; auto. now apply filter_In.
  Qed.

  Section Child.
    Context (name : oname) (cattrs : list attr) (cns : nsmap) (cp : position) (ck : list node) (cpe : position).
    Notation c := (NElem name cattrs cns cp ck cpe).
    Context (parents : list selem) (i : einfo) (Hi : ei_name i = name).
    Notation path := (parents ++ [SElem name cp]).
    Notation computes := (computes (sem_read V c parents) path cp ck cpe).
    Hypothesis IH : forall t, computes (deserialize o env t i) get_ok (R t c).

    Let Hc : forall n, has_name n c = xn_eqb (from_xml_name (ei_name i)) n.
    Proof. intro n. rewrite Hi. reflexivity. Qed.

    Lemma step_struct fs attrs ks s : NoDup (field_names is_element fs) ->
      struct_at fs attrs ks s -> computes (v_element V s i) get_st (struct_at fs attrs (ks ++ [c])).
    Proof.
      intros Hnd (ss & lk & -> & Hs). cbn [derived v_element vs_kind]. unfold struct_element.
      rewrite find_field_lookup.
      destruct (lookup alg is_element fs (from_xml_name (ei_name i))) as [q|] eqn:El.
      - apply lookup_spec in El as (f & Hq & Hsel & Hname); auto.
        unfold is_element in Hsel. destruct (f_mode f) as [k t| | |] eqn:Hm; try discriminate.
        assert (Hu : unclaimed fs (ks ++ [c]) = unclaimed fs ks).
        { unfold unclaimed. rewrite filter_app_one.
          assert (E : name_in (field_names is_element fs) c = true).
          { apply (c_name_in c i Hc). rewrite <- Hname. unfold field_names. apply in_map_iff. exists f. split; auto.
            apply filter_In. split; [eapply nth_error_In; eauto|]. unfold is_element. now rewrite Hm. }
          rewrite E. cbn. apply app_nil_r. }
        destruct (slots_element o env R c i Hc attrs ks (unclaimed fs ks) fs ss q f k t Hnd Hq Hm Hname Hs)
          as (pr & mem & G1 & G2 & G3 & G4).
        rewrite Hq, G1. destruct f as [fn fm fd]. cbn in Hm. subst fm.
        eapply computes_amap; [apply (element_field_step o env _ _ _ _ _ R c i IH k t _ pr mem G2)|..].
        + intros [[[[]|e|x] sl] l'] d; cbn; try discriminate. intros [= <-]. exists sl. split; auto.
          intro Hsl. exists (set_nth q sl ss), (l' ++ lk). split; auto. rewrite Hu. auto.
        + intros [[[[]|e|x] sl] l'] b; cbn; try discriminate. eauto.
        + intros (s' & ss' & lk' & -> & Hss'). rewrite Hu in Hss'. eauto.
      - assert (Hn : ~ In (from_xml_name (ei_name i)) (field_names is_element fs)) by (apply lookup_none in El; auto).
        assert (Hu : unclaimed fs (ks ++ [c]) = unclaimed fs ks ++ [c]).
        { unfold unclaimed. rewrite filter_app_one.
          destruct (name_in (field_names is_element fs) c) eqn:E; auto.
          exfalso. apply Hn. now apply (c_name_in c i Hc). }
        pose proof (slots_delegate o alg env _ _ _ _ _ R c i Hc IH attrs ks (unclaimed fs ks) fs ss Hok
          (not_in_names fs _ Hn) Hs) as Hd.
        destruct (delegate_element o alg env ss i) as [act|].
        + eapply computes_amap; [exact Hd|..].
          * intros [[[[]|e|x] ss'] l'] d; cbn; try discriminate. intros [= <-]. exists ss'. split; auto.
            intro G. exists ss', (l' ++ lk). split; auto. now rewrite Hu.
          * intros [[[[]|e|x] ss'] l'] b; cbn; try discriminate. eauto.
          * intros (s' & ss' & lk' & -> & Hss'). rewrite Hu in Hss'. eauto.
        + eapply computes_ok; [reflexivity|]. exists ss, lk. split; auto. now rewrite Hu.
    Qed.

    Lemma step_enum vs ks s : no_empty_ns vs -> NoDup (variant_names vs) ->
      enum_at vs ks s -> computes (v_element V s i) get_st (enum_at vs (ks ++ [c])).
    Proof.
      intros Hns Hnd (e & lk & -> & He). cbn [derived v_element vs_kind].
      destruct (enum_element o alg env e i) as [act|] eqn:Ee.
      - pose proof (enum_step o alg env _ _ _ _ _ R c i Hc IH vs Hns Hnd ks e act He Ee) as Hst.
        eapply computes_amap; [exact Hst|..].
        + intros [[[[]|er|x] e'] l'] d; cbn; try discriminate. intros [= <-]. exists e'. split; auto.
          intro G. exists e', (l' ++ lk). split; auto.
        + intros [[[[]|er|x] e'] l'] b; cbn; try discriminate. eauto.
        + intros (s' & e' & lk' & -> & G). eauto.
      - eapply computes_ok; [reflexivity|]. exists e, lk. split; auto.
        apply (estate_after_pass o alg env R c i Hc vs Hns Hnd ks e He Ee).
    Qed.
  End Child.

  Definition reads_ok (n : node) : Prop :=
    match n with
    | NElem name attrs ns p kids pe => forall parents i t, ei_name i = name ->
        computes (sem_read V n parents) (parents ++ [SElem name p]) p kids pe
          (deserialize o env t i) get_ok (R t n)
    | _ => True
    end.

  (** The loop over children, for states described by [At]. *)
  Lemma kids_loop (At : list node -> vstate -> Prop) :
    (forall ks s name cattrs cns cp ck cpe parents i, ei_name i = name ->
       let c := NElem name cattrs cns cp ck cpe in
       (forall t, computes (sem_read V c parents) (parents ++ [SElem name cp]) cp ck cpe
          (deserialize o env t i) get_ok (R t c)) ->
       At ks s ->
       computes (sem_read V c parents) (parents ++ [SElem name cp]) cp ck cpe
         (v_element V s i) get_st (At (ks ++ [c]))) ->
    (forall ks s k, is_elem k = false -> At (ks ++ [k]) s <-> At ks s) ->
    (forall ks s str p, At ks s -> exists x s', v_characters V s str p = (Ok x, s') /\ At ks s') ->
    (forall k1 k2 s, At (k1 ++ k2) s -> exists s', At k1 s') ->
    forall kids, Forall reads_ok kids ->
    forall ks path fin s, At ks s ->
    (forall x s' pl, sem_kids V (sem_read V) path fin kids s = ((Ok x, s'), pl) -> At (ks ++ kids) s') /\
    ((exists s', At (ks ++ kids) s') ->
     exists x s' pl, sem_kids V (sem_read V) path fin kids s = ((Ok x, s'), pl)).
  Proof.
    intros Hel Hne Hch Hpre kids Hk. induction Hk as [|k kids Hk _ IH]; intros ks path fin s Hs.
    - rewrite app_nil_r. cbn. split.
      + intros x s' pl [= _ <- _]. exact Hs.
      + eauto.
    - assert (Happ : ks ++ k :: kids = (ks ++ [k]) ++ kids) by now rewrite <- app_assoc.
      rewrite Happ.
      assert (Hskip : is_elem k = false -> forall s, At ks s -> At (ks ++ [k]) s) by (intros E s1 H1; now apply Hne).
      destruct k as [name cattrs cns cp ck cpe|cd str p|m p|b p]; cbn [sem_kids].
      + set (c := NElem name cattrs cns cp ck cpe) in *.
        set (i := EInfo name cns (List.length (path ++ [SElem name cp]))).
        destruct (Hel ks s name cattrs cns cp ck cpe path i eq_refl (fun t => Hk path i t eq_refl) Hs) as [G1 G2].
        fold c in G1, G2. unfold run in G1, G2.
        destruct (sem_act (sem_read V c path) (path ++ [SElem name cp]) cp ck cpe (v_element V s i)) as [[[r s']|x] pl] eqn:Ea; cbn [fst] in G1, G2.
        * destruct r as [b|e|x].
          -- assert (Hs' : At (ks ++ [c]) s') by (apply (G1 (Ok b, s')); reflexivity). apply IH. exact Hs'.
          -- split; [discriminate|]. intros (s1 & H1). apply Hpre in H1. apply G2 in H1 as (a & b & [= <-] & H1). discriminate.
          -- split; [discriminate|]. intros (s1 & H1). apply Hpre in H1. apply G2 in H1 as (a & b & [= <-] & H1). discriminate.
        * split; [discriminate|]. intros (s1 & H1). apply Hpre in H1. apply G2 in H1 as (a & b & H1 & _). discriminate.
      + destruct (Hch ks s str p Hs) as (x & s' & -> & Hs'). apply IH. apply Hskip; auto.
      + apply IH. apply Hskip; auto.
      + apply IH. apply Hskip; auto.
  Qed.

  (** ** The main result *)

  Lemma named_skip n ks k : is_elem k = false -> named n (ks ++ [k]) = named n ks.
  Proof. intro H. unfold named. rewrite filter_app_one. destruct k; try discriminate; apply app_nil_r. Qed.

  Lemma unclaimed_skip fs ks k : is_elem k = false -> unclaimed fs (ks ++ [k]) = unclaimed fs ks.
  Proof. intro H. unfold unclaimed. rewrite filter_app_one, H. apply app_nil_r. Qed.

  Lemma recognized_skip ns ks k : is_elem k = false -> filter (name_in ns) (ks ++ [k]) = filter (name_in ns) ks.
  Proof.
    intro H. rewrite filter_app_one. destruct (name_in ns k) eqn:E; [|apply app_nil_r].
    apply name_in_is_elem in E. congruence.
  Qed.

  Lemma choice_skip vs ks k v : is_elem k = false -> choice R vs (ks ++ [k]) v <-> choice R vs ks v.
  Proof.
    intro H. split; intro Hch; inversion Hch; subst.
    - rewrite recognized_skip, ?named_skip in * by auto. eapply choice_unit; eauto.
    - rewrite recognized_skip, ?named_skip in * by auto. eapply choice_field; eauto.
    - eapply choice_unit; rewrite ?recognized_skip, ?named_skip; eauto.
    - eapply choice_field; rewrite ?recognized_skip, ?named_skip; eauto.
  Qed.

  Lemma struct_at_skip fs attrs ks s k : is_elem k = false ->
    struct_at fs attrs (ks ++ [k]) s <-> struct_at fs attrs ks s.
  Proof.
    intro H. unfold struct_at. rewrite unclaimed_skip by auto.
    split; intros (ss & lk & -> & Hs); exists ss, lk; (split; [reflexivity|]);
      (eapply slots_after_kids; [|exact Hs]); intros f _ _; rewrite named_skip; auto.
  Qed.

  Lemma enum_at_skip vs ks s k : is_elem k = false -> enum_at vs (ks ++ [k]) s <-> enum_at vs ks s.
  Proof.
    intro H. unfold enum_at, estate_after. rewrite recognized_skip by auto.
    split; intros (e & lk & -> & Hv & Hs); exists e, lk; (split; [reflexivity|]); (split; [exact Hv|]);
      (destruct Hs as [Hs|(Hi & v & Hm & Hs)]; [now left|right; split; auto; exists v; split; auto; eapply choice_skip; eauto]).
  Qed.

  Lemma struct_prefix fs attrs k1 k2 s : struct_at fs attrs (k1 ++ k2) s -> exists s', struct_at fs attrs k1 s'.
  Proof.
    intros (ss & lk & -> & Hs). unfold unclaimed in Hs. rewrite filter_app in Hs.
    rewrite <- (app_nil_r attrs) in Hs. apply slots_prefix in Hs as (ss' & Hs').
    exists (VState (VkStruct fs ss') []). exists ss', []. split; auto.
  Qed.

  Lemma enum_prefix vs k1 k2 s : enum_at vs (k1 ++ k2) s -> exists s', enum_at vs k1 s'.
  Proof.
    intros (e & lk & -> & He).
    (* as a flattened field of a struct *)
    pose (envx := fun n : nat => match n with O => Some (TDEnum "" (DName None "") [] vs false) | _ => env n end).
    pose (f := Field (DName None "") (MFlatten 0) None).
    assert (Hs : DeProofs.slots_after o envx R ([] ++ []) ([] ++ []) (k1 ++ k2) [f] [SFlat e]).
    { eapply sa_flatten; [reflexivity|reflexivity|exact He|constructor]. }
    apply slots_prefix in Hs as (ss' & Hs'). inversion Hs' as [|? ? ? ? ? ? ? ? Hm|? ? ? ? ? ? ? ? Hm|? ? ? id ident root nss vs' sk e' ss0 Hm Hid He' Hr]; subst; try discriminate.
    cbn in Hm. inversion Hm; subst id. cbn in Hid. inversion Hid; subst.
    exists (VState (VkEnum e') []). exists e', []. split; auto.
  Qed.

  Theorem reads_all : forall n, reads_ok n.
  Proof.
    induction n as [name attrs ns p kids pe IH| | |] using node_ind'; cbn [reads_ok]; auto.
    intros parents i t Hi.
    set (n := NElem name attrs ns p kids pe).
    destruct t as [t|id].
    - (* text *)
      unfold deserialize. eapply (computes_amap (sem_read V n parents) (parents ++ [SElem name p]) p kids pe
        _ (fun r => match r with Ok v => Some v | _ => None end)
        (fun x => existsb is_elem kids = false /\ parse_text o t (text_of kids) = Ok x)).
      + unfold deserialize_text. split; unfold run; cbn [sem_act].
        * intros a b. destruct (existsb is_elem kids) eqn:Ee.
          -- apply sem_string_elem with (path := parents ++ [SElem name p]) (acc := ""%string) (pe := pe) in Ee as (k1 & nm & at_ & nss & pp & kk & pk & k2 & _ & _ & ->).
             cbn. intros [= <-]. discriminate.
          -- rewrite sem_string_text by auto. cbn. intros [= <-].
             destruct (parse_text o t (text_of kids)) as [x| |] eqn:E; cbn; try discriminate. intros [= <-]. auto.
        * intros (x & Hn & Hx). rewrite sem_string_text by auto. cbn. rewrite Hx. cbn. eauto.
      + intros [x| |] d; cbn; try discriminate. intros [= <-]. exists x. split; auto. intros [H1 H2]. now constructor.
      + intros [x| |] b; cbn; try discriminate. eauto.
      + intros (v & Hv). inversion Hv; subst. eauto.
    - unfold deserialize, new_visitor. destruct (env id) as [[ident root nss fs|ident root nss vs sk]|] eqn:Hid.
      + (* struct *)
        destruct (Hok id _ Hid) as [Hnde Hnda].
        destruct (new_slots env fs) as [ss0|] eqn:Hnew; cbn [option_map].
        2:{ apply computes_err; [reflexivity|]. intros v Hv. inversion Hv as [|? ? ? ? fs' ? ? ? ? ? ? vs Hid' HF|]; try subst v; [|congruence].
            assert (fs' = fs) by congruence. subst fs'. apply new_slots_some in HF. congruence. }
        pose proof (new_slots_after o env R fs ss0 Hnew) as H0.
        destruct (attrs_struct o alg env R fs (parents ++ [SElem name p]) p Hnda attrs [] ss0 [] H0) as [A1 A2].
        cbn [app] in A1, A2. set (s0 := VState (VkStruct fs ss0) []) in *.
        assert (K : forall s1, struct_at fs attrs [] s1 -> forall fin,
          (forall x s' pl, sem_kids V (sem_read V) (parents ++ [SElem name p]) fin kids s1 = ((Ok x, s'), pl) -> struct_at fs attrs kids s') /\
          ((exists s', struct_at fs attrs kids s') ->
           exists x s' pl, sem_kids V (sem_read V) (parents ++ [SElem name p]) fin kids s1 = ((Ok x, s'), pl))).
        { intros s1 Hs1 fin. apply (kids_loop (struct_at fs attrs)) with (ks := []); auto.
          - intros. apply step_struct; auto.
          - intros. now apply struct_at_skip.
          - intros ks s str q (ss & lk & -> & Hs). cbn. unfold struct_characters. rewrite delegate_pass by reflexivity.
            rewrite put_struct. do 2 eexists. split; [reflexivity|]. exists ss, ([] ++ lk). auto.
          - intros k1 k2 s. apply struct_prefix. }
        split.
        * intros a v. unfold run; cbn [sem_act]. unfold n. cbn [sem_read].
          destruct (sem_attrs V (parents ++ [SElem name p]) p attrs s0) as [[[]|e|x] s1] eqn:Ea.
          -- destruct (A1 s1 eq_refl) as (ss1 & lk1 & -> & Hs1).
             assert (Hat : struct_at fs attrs [] (VState (VkStruct fs ss1) lk1)) by (exists ss1, lk1; auto).
             destruct (K _ Hat (name, ns, pe)) as [K1 _].
             destruct (sem_kids V (sem_read V) (parents ++ [SElem name p]) (name, ns, pe) kids _) as [[[x|e|x] s2] pl] eqn:Ek.
             ++ destruct (K1 x s2 pl eq_refl) as (ss2 & lk2 & -> & Hs2). cbn. intros [= <-].
                destruct (finalize_slots fs ss2) as [[[]|e|y] ss3] eqn:Ef; cbn; try discriminate.
                destruct (finalize_sound o env R attrs kids _ fs ss2 Hs2 ss3 Ef) as (vs & Ha & Hv). rewrite Ha. cbn.
                intros [= <-]. eapply reads_struct; eauto.
             ++ cbn. intros [= <-]. discriminate.
             ++ discriminate.
          -- cbn. intros [= <-]. discriminate.
          -- discriminate.
        * intros (v & Hv). inversion Hv as [|? ? ? ? fs' ? ? ? ? ? ? vs Hid' HF|]; try subst v; [|congruence].
          assert (fs' = fs) by congruence. subst fs'. clear Hid'.
          destruct (holds_possible o env R _ _ _ _ _ HF) as (ssf & Hsf).
          assert (P0 : exists ss', slots_after attrs [] [] fs ss').
          { rewrite <- (app_nil_r attrs) in Hsf.
            apply (slots_prefix o env R attrs [] [] kids fs [] (unclaimed fs kids)) in Hsf. exact Hsf. }
          destruct (A2 P0) as (s1 & Ea). destruct (A1 s1 Ea) as (ss1 & lk1 & -> & Hs1).
          assert (Hat : struct_at fs attrs [] (VState (VkStruct fs ss1) lk1)) by (exists ss1, lk1; auto).
          destruct (K _ Hat (name, ns, pe)) as [K1 K2].
          destruct K2 as (x & s2 & pl & Ek). { exists (VState (VkStruct fs ssf) []). exists ssf, []. auto. }
          destruct (K1 x s2 pl Ek) as (ss2 & lk2 & -> & Hs2).
          destruct (finalize_complete o env R _ _ _ _ _ Hs2 _ HF) as (ss3 & Ef).
          destruct (finalize_sound o env R attrs kids _ fs ss2 Hs2 ss3 Ef) as (vs' & Ha & _).
          unfold run; cbn [sem_act]. unfold n. cbn [sem_read]. rewrite Ea, Ek. cbn. rewrite Ef, Ha. cbn. do 2 eexists. split; reflexivity.
      + (* enum *)
        destruct (Hok id _ Hid) as [Hns Hnd].
        set (s0 := VState (VkEnum (new_enum ident vs)) []).
        assert (A0 : forall attrs path q, sem_attrs V path q attrs s0 = (Ok tt, s0)).
        { intros attrs' path q. induction attrs' as [|a attrs' IHa]; cbn; auto. }
        assert (K : forall fin,
          (forall x s' pl, sem_kids V (sem_read V) (parents ++ [SElem name p]) fin kids s0 = ((Ok x, s'), pl) -> enum_at vs kids s') /\
          ((exists s', enum_at vs kids s') ->
           exists x s' pl, sem_kids V (sem_read V) (parents ++ [SElem name p]) fin kids s0 = ((Ok x, s'), pl))).
        { intros fin. apply (kids_loop (enum_at vs)) with (ks := []); auto.
          - intros. apply step_enum; auto.
          - intros. now apply enum_at_skip.
          - intros ks s str q (e & lk & -> & Hs). cbn. do 2 eexists. split; [reflexivity|]. exists e, lk. auto.
          - intros k1 k2 s. apply enum_prefix.
          - exists (new_enum ident vs), []. split; auto. split; auto. }
        split.
        * intros a v. unfold run; cbn [sem_act]. unfold n. cbn [sem_read]. rewrite A0.
          destruct (K (name, ns, pe)) as [K1 _].
          destruct (sem_kids V (sem_read V) (parents ++ [SElem name p]) (name, ns, pe) kids _) as [[[x|e|x] s2] pl] eqn:Ek.
          -- destruct (K1 x s2 pl eq_refl) as (e & lk & -> & He). cbn. intros [= <-].
             unfold enum_finalize. destruct He as [Hv [(Ef & Hini & Hm)|(Hini & w & Hm & Hch)]]; rewrite Hini, Hm; cbn; [discriminate|].
             intros [= <-]. eapply reads_enum; eauto.
          -- cbn. intros [= <-]. discriminate.
          -- discriminate.
        * intros (v & Hv). assert (Hch : choice R vs kids v).
          { inversion Hv as [| |? ? ? ? vs' ? ? ? ? ? ? ? ? Hid' Hch]; [congruence|].
            assert (vs' = vs) by congruence. subst vs'. exact Hch. }
          destruct (K (name, ns, pe)) as [K1 K2].
          destruct K2 as (x & s2 & pl & Ek).
          { exists (VState (VkEnum (EState ident vs true (Some v))) []). eexists _, []. split; [reflexivity|].
            split; auto. right. split; auto. exists v. auto. }
          destruct (K1 x s2 pl Ek) as (e & lk & -> & He).
          unfold run; cbn [sem_act]. unfold n. cbn [sem_read]. rewrite A0, Ek. cbn.
          unfold enum_finalize. destruct He as [Hvv [(Ef & Hini & Hm)|(Hini & w & Hm & _)]]; rewrite Hini, Hm; cbn; [|do 2 eexists; split; reflexivity].
          exfalso. inversion Hch; subst; auto. rewrite Ef in H1. rewrite <- H1 in H2. inversion H2. congruence.
      + apply computes_err; [reflexivity|]. intros v Hv. inversion Hv; congruence.
  Qed.
End Kids.
