(** Writing and reading with hand-written implementations: a value is read back from its tree exactly
    if it survives. *)
From Verif Require Import Base Normalize Text Find FindProofs Types Ser SerSpec DeriveSer DSerSpec DSerProofs
  DeriveMixedSer MixedSerSpec MixedSer Reader ReaderSpec ReaderMore DeSpec DeriveMixed MixedSpec RTSpec RTProofs RTProps
  MixedRTSpec.
From Verif Require ReaderProofs SerPoison MixedReads MixedDe NsSpec NsMeaning.

Section RT.
  Context {U : Type} (o : oracles) (env : tenv) (P : user U) (hand : nat -> option (value -> serialize))
    (R : ety -> node -> value -> Prop) (M : ety -> value -> Prop).
  Notation content := (mcontent o env hand).
  Notation faithful := (faithful o env hand R M).
  Hypothesis Hden : MixedReads.denotes o env P R.
  Hypothesis Hsur : survival o env M.

  Definition faithful_all (c : node) : Prop := forall t, faithful t c.

  Lemma melems_elem n t xs l : elems_are content n t xs l -> Forall (fun t => exists n rs ks, t = RElem n rs ks) l.
  Proof. induction 1; constructor; eauto. Qed.

  Lemma melems_named n t xs l E : elems_are content n t xs l -> shown l E ->
    Forall (fun k => has_name n k = true) E.
  Proof.
    intros H. revert E. induction H as [|v vs reqs kids l _ _ IH]; intros E HE; inversion HE as [|? c ? E' Hc HE']; subst.
    - constructor.
    - constructor; [|now apply IH]. inversion Hc; subst. cbn. now apply xn_eqb_eq.
  Qed.

  Lemma melems_rt n t xs l E : Forall faithful_all E -> elems_are content n t xs l -> shown l E ->
    (Forall2 (R t) E xs <-> Forall (M t) xs).
  Proof.
    intros F H. revert E F. induction H as [|v vs reqs kids l C _ IH]; intros E F HE; inversion HE as [|? c ? E' Hc HE']; subst.
    - split; constructor.
    - inversion F as [|? ? Fv Fvs]; subst. specialize (IH _ Fvs HE').
      specialize (Fv _ _ _ _ _ C Hc). split; intros X; inversion X; subst; constructor; tauto.
  Qed.

  Lemma melems_length n t xs l E : elems_are content n t xs l -> shown l E -> (E = [] <-> xs = []).
  Proof. intros H HE. destruct H; inversion HE; subst; split; easy. Qed.

  Lemma moccurs_rt k t v xs n l E : items k v xs -> Forall faithful_all E -> elems_are content n t xs l -> shown l E ->
    (occurs (R t) k E v <-> xs <> [] /\ Forall (M t) xs).
  Proof.
    intros I F H HE. pose proof (melems_rt _ _ _ _ _ F H HE) as Hrt. pose proof (melems_length _ _ _ _ _ H HE) as Hl.
    destruct I.
    - split.
      + intros X. inversion X; subst. split; [easy|]. apply Hrt. repeat constructor; auto.
      + intros [_ X]. apply Hrt in X. inversion X as [|c ? E' ? Hc X']; subst. inversion X'; subst. now constructor.
    - split; [|easy]. intros X. inversion X.
    - split.
      + intros X. inversion X; subst. split; [easy|]. apply Hrt. repeat constructor; auto.
      + intros [_ X]. apply Hrt in X. inversion X as [|c ? E' ? Hc X']; subst. inversion X'; subst. now constructor.
    - split.
      + intros X. inversion X; subst. split; [tauto|]. now apply Hrt.
      + intros [X1 X2]. constructor; [tauto|]. now apply Hrt.
  Qed.

  (** ** Enums *)

  Lemma menum_named id ident root nss ws sk v reqs kids E : env id = Some (TDEnum ident root nss ws sk) ->
    content (ERef id) v reqs kids -> shown kids E ->
    reqs = mappings nss /\
    (v = VSkipped /\ kids = [] \/ exists i p w, v = VEnum i p /\ nth_error (sorted_variants ws) i = Some w /\
       Forall (fun k => has_name (expanded (v_name w)) k = true) E).
  Proof.
    intros En C HE. inversion C; subst; try congruence;
      match goal with E' : env id = Some _ |- _ => rewrite En in E'; injection E' as <- <- <- <- <- end.
    - split; [reflexivity|right]. do 3 eexists. split; [reflexivity|]. split; [eassumption|].
      inversion HE as [|? c ? E' Hc HE']; subst. inversion HE'; subst. inversion Hc; subst. repeat constructor.
      cbn. now apply xn_eqb_eq.
    - split; [reflexivity|right]. do 3 eexists. split; [reflexivity|]. split; [eassumption|].
      eapply melems_named; eauto.
    - split; [reflexivity|left]. auto.
  Qed.

  Lemma menum_rt id ident root nss ws sk v reqs kids E : env id = Some (TDEnum ident root nss ws sk) ->
    Forall faithful_all E ->
    content (ERef id) v reqs kids -> shown kids E -> (choice R ws E v <-> M (ERef id) v).
  Proof.
    intros En IH C HE. rewrite (s_enum _ _ _ Hsur _ _ _ _ _ _ v En).
    destruct (menum_named _ _ _ _ _ _ _ _ _ _ En C HE) as [-> [[-> ->]|(i & p & w & -> & Hw & HF)]].
    - split; [intros H; inversion H|]. intros (i & w & _ & [[H _]|(k & t & x & l & H & _)]); discriminate.
    - assert (Hall : filter (name_in (variant_names ws)) E = E).
      { apply filter_all. eapply Forall_impl; [|exact HF]. intros k. apply has_name_in. eapply variant_in; eauto. }
      assert (Hnam : named (expanded (v_name w)) E = E) by now apply filter_all.
      inversion C as [| |id' ident' root' nss' ws' sk' i' w' En' Hw' Ht|id' ident' root' nss' ws' sk' i' w' k t x xs l En' Hw' Ht I El| |id' h' v' r' k' En']; subst;
        rewrite En in En'; try discriminate En'; injection En' as <- <- <- <- <-; rewrite Hw in Hw'; injection Hw' as <-.
      + split; intros _; [exists i, w; auto|]. eapply choice_unit; eauto; rewrite ?Hall, ?Hnam; auto.
        inversion HE; subst. easy.
      + pose proof (moccurs_rt k t x xs _ _ E I IH El HE) as Ho.
        split.
        * intros H. inversion H as [|i' w' k' t' x' Hw' Ht' H3 H4]; subst.
          rewrite Hw in Hw'. injection Hw' as <-. rewrite Ht in Ht'. injection Ht' as <- <-.
          rewrite Hnam in H4. apply Ho in H4. destruct H4. exists i, w. split; auto. right. exists k, t, x, xs. auto.
        * intros (i' & w' & Hw' & [[H _]|(k' & t' & x' & l' & Ev & Ht' & I' & Hne & HFl)]); [discriminate|].
          injection Ev as <- <-. rewrite Hw in Hw'; injection Hw' as <-.
          rewrite Ht in Ht'. injection Ht' as <- <-. rewrite (items_det _ _ _ _ I' I) in *.
          eapply choice_field; eauto; rewrite ?Hall, ?Hnam; auto. now apply Ho.
  Qed.

  (** ** Own element fields *)

  Lemma mown_names fs vs T E : own_kids content fs vs T -> shown T E ->
    Forall (fun k => name_in (field_names is_element fs) k = true) E.
  Proof.
    intros H. revert E. induction H as [|f fs k t v xs l vs l2 Mf I El _ IH|f fs v vs l Mf _ IH]; intros E HE.
    - inversion HE. constructor.
    - apply shown_app in HE. destruct HE as (E1 & E2 & -> & H1 & H2).
      assert (Me : is_element f = true) by (unfold is_element; now rewrite Mf).
      rewrite element_names_cons, Me. apply Forall_app. split.
      + eapply Forall_impl; [|eapply melems_named; eauto]. intros c Hc. cbn beta in Hc. eapply has_name_in; [|exact Hc]. now left.
      + eapply Forall_impl; [|apply IH; auto]. unfold name_in. intros c Hc. cbn [existsb]. rewrite Hc.
        apply orb_true_r.
    - rewrite element_names_cons, Mf. auto.
  Qed.

  Lemma mown_rt attrs claimed fs vs T E : Forall faithful_all E -> own_kids content fs vs T -> shown T E ->
    NoDup (field_names is_element fs) ->
    forall K, (forall n, In n (field_names is_element fs) -> named n K = named n E) ->
    Forall2 (fun f v => is_element f = true ->
      (field_holds o R attrs K f v <-> survives_field o env M claimed f v)) fs vs.
  Proof.
    intros Hb H. revert E Hb. induction H as [|f fs k t v xs l vs l2 Mf I El Ho IH|f fs v vs l Mf _ IH]; intros E Hb HE Hn K HK.
    - constructor.
    - apply shown_app in HE. destruct HE as (E1 & E2 & -> & H1 & H2).
      apply Forall_app in Hb as [Hb1 Hb2]. rewrite element_names_cons in *.
      assert (Me : is_element f = true) by (unfold is_element; now rewrite Mf). rewrite Me in *.
      inversion Hn as [|? ? Hni Hn']; subst.
      pose proof (melems_named _ _ _ _ _ El H1) as N1. pose proof (mown_names _ _ _ _ Ho H2) as N2.
      constructor.
      + intros _. assert (EK : named (expanded (f_name f)) K = E1).
        { rewrite HK by now left. rewrite named_app, (other_names _ _ _ Hni N2), app_nil_r. now apply filter_all. }
        pose proof (moccurs_rt k t v xs _ _ E1 I Hb1 El H1) as Hocc.
        pose proof (melems_length _ _ _ _ _ El H1) as Hlen.
        split; intros X.
        * inversion X as [k' t' v' M' O'|k' t' v' M' N' A'|opt' t' s' x' M' A' P'|opt' t' v' M' A' B'];
            rewrite Mf in M'; try discriminate; injection M' as <- <-; rewrite EK in *.
          -- apply Hocc in O'. destruct O' as [O1 O2]. eapply sf_element; eauto. easy.
          -- eapply sf_element; eauto. replace xs with (@nil value) by (symmetry; now apply Hlen). constructor.
        * inversion X as [k' t' v' l' M' I' F' A'|opt' t' x' s' M' T' P'|t' M' A'|id' v' M' R' C']; rewrite Mf in M'; try discriminate.
          injection M' as <- <-. rewrite (items_det _ _ _ _ I' I) in *.
          destruct xs as [|x xs'] eqn:Ex.
          -- eapply fh_no_element; eauto. rewrite EK. now apply Hlen.
          -- eapply fh_element; eauto. rewrite EK. apply Hocc. split; [easy|auto].
      + apply (IH E2); auto. intros n Hin. rewrite HK by now right. rewrite named_app.
        assert (named n E1 = []) as ->; [|reflexivity]. apply named_nil.
        eapply Forall_impl; [|exact N1]. intros c Hc. destruct (has_name n c) eqn:Ec; [|reflexivity].
        exfalso. apply Hni. now rewrite (has_name_inj _ _ _ Hc Ec).
    - rewrite element_names_cons, Mf in *. constructor; [congruence|]. eapply IH; eauto.
  Qed.

  (** ** Attribute fields *)

  Lemma mattrs_rt attrs K claimed fs vs L : attrs_are o fs vs L -> NoDup (field_names is_attribute fs) ->
    (forall n, In n (field_names is_attribute fs) -> attr_values n attrs = values_of n L) ->
    Forall2 (fun f v => is_attribute f = true ->
      (field_holds o R attrs K f v <-> survives_field o env M claimed f v)) fs vs.
  Proof.
    induction 1 as [|f fs opt t x s vs l Mf T HL IH|f fs t vs l Mf HL IH|f fs v vs l Mf HL IH]; intros Hn HA.
    - constructor.
    - assert (Ma : is_attribute f = true) by (unfold is_attribute; now rewrite Mf).
      rewrite attribute_names_cons, Ma in *. inversion Hn as [|? ? Hni Hn']; subst.
      assert (EA : attr_values (expanded (f_name f)) attrs = [s]).
      { rewrite HA by now left. unfold values_of. cbn [req_attrs filter fst].
        replace (xn_eqb (expanded (f_name f)) (expanded (f_name f))) with true by (symmetry; now apply xn_eqb_eq).
        cbn [map snd]. f_equal. now apply (attrs_names _ _ _ _ HL). }
      constructor.
      + intros _. split; intros X.
        * inversion X as [k' t' v' M' O' Ev|k' t' v' M' N' A' Ev|opt' t' s' x' M' A' P' Ev|opt' t' v' M' A' B' Ev];
            rewrite Mf in M'; try discriminate; injection M' as <- <-; rewrite EA in A'; try discriminate.
          injection A' as <-. assert (x' = x) by (destruct opt; congruence). subst x'. eapply sf_attribute; eauto.
        * inversion X as [k' t' v' l' M' I' F' A' Ev|opt' t' x' s' M' T' P' Ev|t' M' A' Ev|id' v' M' R' C' Ev];
            rewrite Mf in M'; try discriminate; injection M' as Eo Et; subst opt t.
          -- assert (x' = x) by (destruct opt'; congruence). subst x'. rewrite T in T'. injection T' as <-.
             eapply fh_attribute; eauto.
          -- discriminate.
      + apply IH; auto. intros n Hin. rewrite HA by now right. unfold values_of. cbn [req_attrs filter fst].
        destruct (xn_eqb (expanded (f_name f)) n) eqn:E; [|reflexivity]. apply xn_eqb_eq in E. now subst.
    - assert (Ma : is_attribute f = true) by (unfold is_attribute; now rewrite Mf).
      rewrite attribute_names_cons, Ma in *. inversion Hn as [|? ? Hni Hn']; subst.
      assert (EA : attr_values (expanded (f_name f)) attrs = []).
      { rewrite HA by now left. now apply (attrs_names _ _ _ _ HL). }
      constructor.
      + intros _. split; intros X.
        * inversion X as [k' t' v' M' O' Ev|k' t' v' M' N' A' Ev|opt' t' s' x' M' A' P' Ev|opt' t' v' M' A' B' Ev];
            rewrite Mf in M'; try discriminate; injection M' as <- <-; rewrite EA in A'; try discriminate.
          eapply sf_no_attribute; eauto.
        * inversion X as [k' t' v' l' M' I' F' A' Ev|opt' t' x' s' M' T' P' Ev|t' M' A' Ev|id' v' M' R' C' Ev];
            rewrite Mf in M'; try discriminate.
          -- injection M' as <- <-. discriminate.
          -- eapply fh_no_attribute; eauto.
      + apply IH; auto. intros n Hin. apply HA. now right.
    - rewrite attribute_names_cons, Mf in *. constructor; [congruence|]. auto.
  Qed.

  (** ** Flattened fields *)

  Definition rt_field (f : field) : Prop :=
    match f_mode f with
    | MFlatten id' => exists ident' root' nss' vs sk, env id' = Some (TDEnum ident' root' nss' vs sk)
    | MText _ => False
    | _ => True
    end.

  Lemma mflat_none fs vs reqs T : flattened content fs vs reqs T -> filter is_flatten fs = [] ->
    T = [] /\ reqs = [].
  Proof.
    induction 1 as [|f fs id v vs reqs kids reqs' kids' Mf C _ IH|f fs v vs reqs kids Mf _ IH]; auto.
    - cbn. unfold is_flatten at 1. rewrite Mf. discriminate.
    - cbn. now rewrite Mf.
  Qed.

  Lemma mhold_none attrs K l fs vs : filter is_flatten fs = [] ->
    Forall2 (fun f v => is_flatten f = false -> field_holds o R attrs K f v) fs vs ->
    fields_hold o env R attrs K l fs vs.
  Proof.
    intros Hf H. induction H as [|f v fs vs Hv _ IH]; [constructor|].
    cbn in Hf. destruct (is_flatten f) eqn:Ef; [discriminate|]. apply fhs_own; auto.
  Qed.

  Lemma mhold_nil attrs K fs vs : fields_hold o env R attrs K [] fs vs -> filter is_flatten fs = [].
  Proof.
    intros H. remember [] as l eqn:El. induction H as [|l f fs v vs Hf _ _ IH|l f fs id ident root nss ws sk v vs Mf En Ch _ IH]; auto.
    - cbn. now rewrite Hf, IH.
    - subst. inversion Ch as [i w H1 H2 H3 H4|i w k t x H1 H2 H3 H4]; subst; [easy|]. inversion H4; subst; easy.
  Qed.

  Lemma menum_reqs id ident root nss ws sk v reqs kids : env id = Some (TDEnum ident root nss ws sk) ->
    content (ERef id) v reqs kids -> reqs = mappings nss.
  Proof. intros En C. inversion C; subst; congruence. Qed.

  Lemma mflat_reqs fs vs reqs T : Forall rt_field fs -> flattened content fs vs reqs T -> req_attrs reqs = [].
  Proof.
    intros Hc H. revert Hc. induction H as [|f fs id v vs reqs kids reqs' kids' Mf C _ IH|f fs v vs reqs kids Mf _ IH]; intros Hc; auto.
    - inversion Hc as [|? ? Hf Hc']; subst. rewrite req_attrs_app, IH, app_nil_r by auto.
      unfold rt_field in Hf. rewrite Mf in Hf. destruct Hf as (ident & root & nss & ws & sk & En).
      rewrite (menum_reqs _ _ _ _ _ _ _ _ _ En C). apply mappings_no_attrs.
    - inversion Hc; subst. auto.
  Qed.

  (** Elements of flattened fields that survive are not claimed. *)
  Lemma mflat_free claimed fs vs reqs T E : Forall rt_field fs -> flattened content fs vs reqs T ->
    shown T E -> Forall2 (survives_field o env M claimed) fs vs ->
    Forall (fun k => name_in claimed k = false) E.
  Proof.
    intros Hc H. revert E Hc. induction H as [|f fs id v vs reqs kids reqs' kids' Mf C _ IH|f fs v vs reqs kids Mf _ IH]; intros E Hc HE HS.
    - inversion HE. constructor.
    - inversion Hc as [|? ? Hf Hc']; subst. inversion HS as [|? ? ? ? Sf HS']; subst.
      apply shown_app in HE. destruct HE as (E1 & E2 & -> & H1 & H2). apply Forall_app. split; [|eapply IH; eauto].
      unfold rt_field in Hf. rewrite Mf in Hf. destruct Hf as (ident & root & nss & ws & sk & En).
      destruct (menum_named _ _ _ _ _ _ _ _ _ _ En C H1) as [_ [[-> ->]|(i & p & w & -> & Hw & HF)]].
      { inversion H1. constructor. }
      eapply Forall_impl; [|exact HF]. intros k Hk. destruct (name_in claimed k) eqn:Ek; [|reflexivity]. exfalso.
      inversion Sf as [k' t' v' l' M' I' F' A' Ev|opt' t' x' s' M' T' P' Ev|t' M' A' Ev|id' v' M' R' C' Ev];
        rewrite Mf in M'; try discriminate. injection M' as <-.
      apply (C' (expanded (v_name w))).
      { do 8 eexists. split; [exact En|]. split; [exact (eq_refl)|]. split; [exact Hw|reflexivity]. }
      unfold name_in in Ek. apply existsb_exists in Ek. destruct Ek as (m & Hm & Em).
      now rewrite (has_name_inj _ _ _ Hk Em).
    - inversion Hc; subst. inversion HS; subst. eauto.
  Qed.

  Lemma mown_elem fs vs T : own_kids content fs vs T -> Forall (fun t => exists n rs ks, t = RElem n rs ks) T.
  Proof.
    induction 1 as [|f fs k t v xs l vs l2 Mf I El _ IH|f fs v vs l Mf _ IH]; auto.
    apply Forall_app. split; auto. eapply melems_elem; eauto.
  Qed.
  Lemma menum_elem id ident root nss ws sk v reqs kids : env id = Some (TDEnum ident root nss ws sk) ->
    content (ERef id) v reqs kids -> Forall (fun t => exists n rs ks, t = RElem n rs ks) kids.
  Proof.
    intros En C. inversion C; subst; try congruence; [repeat constructor; eauto|eapply melems_elem; eauto|constructor].
  Qed.
  Lemma mflat_elem fs vs reqs T : Forall rt_field fs -> flattened content fs vs reqs T ->
    Forall (fun t => exists n rs ks, t = RElem n rs ks) T.
  Proof.
    intros Hc H. revert Hc. induction H as [|f fs id v vs reqs kids reqs' kids' Mf C _ IH|f fs v vs reqs kids Mf _ IH]; intros Hc; auto.
    - inversion Hc as [|? ? Hf Hc']; subst. apply Forall_app. split; auto.
      unfold rt_field in Hf. rewrite Mf in Hf. destruct Hf as (ident & root & nss & ws & sk & En).
      eapply menum_elem; eauto.
    - inversion Hc; subst. auto.
  Qed.

  (** Survivors: the fields hold. *)
  Lemma mflat_in attrs K claimed fs vs reqs T E : Forall faithful_all E -> Forall rt_field fs ->
    flattened content fs vs reqs T -> shown T E -> List.length (filter is_flatten fs) <= 1 ->
    Forall2 (survives_field o env M claimed) fs vs ->
    Forall2 (fun f v => is_flatten f = false -> field_holds o R attrs K f v) fs vs ->
    fields_hold o env R attrs K E fs vs.
  Proof.
    intros Hb Hc H. revert E Hb Hc.
    induction H as [|f fs id v vs reqs kids reqs' kids' Mf C Hfl IH|f fs v vs reqs kids Mf _ IH]; intros E Hb Hc HE Hlen HS HH;
      [constructor| |].
    - inversion Hc as [|? ? Hf Hc']; subst.
      inversion HS as [|? ? ? ? Sf HS']; subst. inversion HH as [|? ? ? ? Hf' HH']; subst.
      assert (Ef : is_flatten f = true) by (unfold is_flatten; now rewrite Mf).
      assert (Hno : filter is_flatten fs = []).
      { cbn in Hlen. rewrite Ef in Hlen. cbn in Hlen. destruct (filter is_flatten fs); [reflexivity|]. cbn in Hlen.
        apply le_S_n in Hlen. inversion Hlen. }
      destruct (mflat_none _ _ _ _ Hfl Hno) as [-> ->]. rewrite app_nil_r in HE.
      unfold rt_field in Hf. rewrite Mf in Hf. destruct Hf as (ident & root & nss & ws & sk & En).
      eapply fhs_flatten; [eassumption|eassumption| |now apply mhold_none].
      apply (menum_rt _ _ _ _ _ _ _ _ _ _ En Hb C HE).
      inversion Sf as [k' t' v' l' M' I' F' A' Ev|opt' t' x' s' M' T' P' Ev|t' M' A' Ev|id' v' M' R' C' Ev];
        rewrite Mf in M'; try discriminate. injection M' as <-. exact R'.
    - inversion Hc as [|? ? Hf Hc']; subst.
      inversion HS as [|? ? ? ? Sf HS']; subst. inversion HH as [|? ? ? ? Hf' HH']; subst.
      apply fhs_own; auto. apply IH; auto. cbn in Hlen. now rewrite Mf in Hlen.
  Qed.

  Lemma flat_less (Q : field -> value -> Prop) attrs K l fs vs : filter is_flatten fs = [] ->
    fields_hold o env R attrs K l fs vs ->
    Forall2 (fun f v => is_flatten f = true -> Q f v) fs vs /\
    Forall2 (fun f v => is_flatten f = false -> field_holds o R attrs K f v) fs vs.
  Proof.
    intros Hno H. induction H as [|l f fs v vs Hf Hh _ IH|l f fs id ident root nss ws sk v vs Mf En Ch _ IH]; [now split| |];
      cbn in Hno; destruct (is_flatten f) eqn:Ef; try discriminate.
    - destruct (IH Hno). split; constructor; auto. congruence.
    - unfold is_flatten in Ef. rewrite Mf in Ef. discriminate.
  Qed.

  (** What the flattened fields of a struct that was read look like. *)
  Lemma mflat_out attrs K all fs vs reqs T E : Forall faithful_all E -> Forall rt_field fs ->
    flattened content fs vs reqs T -> shown T E ->
    fields_hold o env R attrs K (unclaimed all E) fs vs ->
    List.length (filter is_flatten fs) <= 1 /\
    Forall (fun k => name_in (field_names is_element all) k = false) E /\
    Forall2 (fun f v => is_flatten f = true -> survives_field o env M (field_names is_element all) f v) fs vs /\
    Forall2 (fun f v => is_flatten f = false -> field_holds o R attrs K f v) fs vs.
  Proof.
    intros Hb Hc H. revert E Hb Hc.
    induction H as [|f fs id v vs reqs kids reqs' kids' Mf C Hfl IH|f fs v vs reqs kids Mf _ IH]; intros E Hb Hc HE HH.
    - inversion HE; subst. split; [now repeat constructor|]. repeat split; constructor.
    - inversion Hc as [|? ? Hf Hc']; subst.
      unfold rt_field in Hf. rewrite Mf in Hf. destruct Hf as (ident & root & nss & ws & sk & En).
      assert (Ef : is_flatten f = true) by (unfold is_flatten; now rewrite Mf).
      apply shown_app in HE. destruct HE as (E1 & E2 & -> & H1 & H2). rewrite unclaimed_app in HH.
      inversion HH as [|? ? ? ? ? Hff|? ? ? id' ident' root' nss' ws' sk' ? ? M' En' Ch HH']; subst; [congruence|].
      rewrite Mf in M'. injection M' as <-. rewrite En in En'. injection En' as <- <- <- <- <-.
      destruct (menum_named _ _ _ _ _ _ _ _ _ _ En C H1) as [_ [[-> ->]|(i & p & w & -> & Hw & HF)]]; [inversion Ch|].
      (* the variant is not claimed, and something was written for it *)
      assert (Hnn : exists k, In k (unclaimed all E1 ++ unclaimed all E2) /\ has_name (expanded (v_name w)) k = true).
      { inversion Ch as [i' w' Hw' H3 H4 H5|i' w' k' t' x' Hw' H3 H4 H5]; subst; rewrite Hw in Hw'; injection Hw' as <-.
        - rewrite H5 in H4. destruct (named _ _) as [|k l] eqn:El in H4; [easy|]. exists k.
          assert (Hin : In k (k :: l)) by now left. rewrite <- El in Hin. apply filter_In in Hin. exact Hin.
        - destruct (named _ _) as [|k l] eqn:El in H5; [inversion H5; now subst|]. exists k.
          assert (Hin : In k (k :: l)) by now left. rewrite <- El in Hin. apply filter_In in Hin. exact Hin. }
      assert (Hcl : ~ In (expanded (v_name w)) (field_names is_element all)).
      { destruct Hnn as (k & Hk & Hn). rewrite <- unclaimed_app in Hk. apply filter_In in Hk.
        destruct Hk as [_ Hk]. apply andb_true_iff in Hk. destruct Hk as [_ Hk]. intros Hin.
        rewrite (has_name_in _ _ _ Hin Hn) in Hk. discriminate. }
      assert (F1 : Forall (fun k => name_in (field_names is_element all) k = false) E1).
      { eapply Forall_impl; [|exact HF]. intros k Hk. destruct (name_in _ k) eqn:Ek; [|reflexivity]. exfalso.
        unfold name_in in Ek. apply existsb_exists in Ek. destruct Ek as (m & Hm & Em).
        apply Hcl. now rewrite (has_name_inj _ _ _ Hk Em). }
      rewrite (free_all all E1) in * by (eauto using shown_elems).
      assert (Hne : E1 <> []).
      { intros ->. inversion H1 as [HT|]; subst. symmetry in HT. apply map_eq_nil in HT. subst kids.
        inversion Ch as [i' w' Hw' H3 H4 H5|i' w' k' t' x' Hw' H3 H4 H5]; subst; rewrite Hw in Hw'; injection Hw' as <-.
        - inversion C; subst. congruence.
        - inversion C as [| | |id' ident' root' nss' ws' sk' i' w' k t x xs l En' Hw' Ht I El| |id' h' v' r' k'' En'];
            subst; [|congruence].
          rewrite En in En'; injection En' as <- <- <- <- <-; rewrite Hw in Hw'; injection Hw' as <-.
          rewrite Ht in H3. injection H3 as <- <-. pose proof (occurs_items _ _ _ _ _ H5 I) as X.
          inversion El; subst. now apply X. }
      assert (Hbf : before_first (variant_names ws) (E1 ++ unclaimed all E2) = []).
      { destruct E1 as [|k E1']; [easy|]. cbn. inversion HF as [|? ? Hk _]; subst.
        rewrite (has_name_in _ _ _ (variant_in _ _ _ Hw) Hk). reflexivity. }
      rewrite Hbf in HH'. pose proof (mhold_nil _ _ _ _ HH') as Hno.
      destruct (mflat_none _ _ _ _ Hfl Hno) as [-> ->]. inversion H2; subst. cbn [unclaimed filter] in Ch.
      rewrite app_nil_r in *.
      destruct (flat_less (survives_field o env M (field_names is_element all)) _ _ _ _ _ Hno HH') as [L1 L2].
      split; [|split; [exact F1|split]].
      + cbn. rewrite Ef, Hno. constructor.
      + constructor; [|exact L1].
        intros _. eapply sf_flatten; [eassumption| |].
        * apply (menum_rt _ _ _ _ _ _ _ _ _ _ En Hb C H1). exact Ch.
        * intros n (ident' & root' & nss' & ws' & sk' & i' & p' & w' & En' & Ev & Hw' & <-).
          rewrite En in En'. injection En' as <- <- <- <- <-. injection Ev as <- <-. rewrite Hw in Hw'.
          injection Hw' as <-. exact Hcl.
      + constructor; [congruence|exact L2].
    - inversion Hc as [|? ? Hf Hc']; subst.
      inversion HH as [|? ? ? ? ? Hff Hfh HH'|? ? ? id' ident' root' nss' ws' sk' ? ? M' En' Ch HH']; subst.
      2: { unfold is_flatten in Mf. rewrite M' in Mf. discriminate. }
      destruct (IH E) as (A1 & A2 & A3 & A4); auto.
      split; [cbn; now rewrite Mf|]. split; [exact A2|]. split; constructor; auto. congruence.
  Qed.

  (** ** Everything *)

  Lemma mcombine3 (Q Q' : field -> value -> Prop) fs vs : Forall rt_field fs ->
    Forall2 (fun f v => is_element f = true -> (Q f v <-> Q' f v)) fs vs ->
    Forall2 (fun f v => is_attribute f = true -> (Q f v <-> Q' f v)) fs vs ->
    Forall2 (fun f v => is_flatten f = false -> (Q f v <-> Q' f v)) fs vs.
  Proof.
    intros Hc H. revert Hc. induction H as [|f v fs vs He _ IH]; intros Hc H'; inversion H'; inversion Hc; subst; constructor; auto.
    intros Hf. unfold is_element, is_attribute, is_flatten, rt_field in *. destruct (f_mode f); auto; easy.
  Qed.

  Hypothesis Hfe : flattens_enums env.
  Hypothesis Hok : names_ok env.

  Lemma struct_fields id ident root nss fs : env id = Some (TDStruct ident root nss fs) -> Forall rt_field fs.
  Proof. intros E. apply Forall_forall. intros f Hf. exact (Hfe _ _ _ _ _ _ E Hf). Qed.

  (** Text types and derived types, given the children. *)
  Lemma known_faithful name attrs ns p kids pe : Forall faithful_all kids ->
    forall t, known_ty env t -> faithful t (NElem name attrs ns p kids pe).
  Proof.
    intros IH t Hk v n reqs ks C Sh.
    assert (IHe : Forall faithful_all (filter is_elem kids)) by (apply incl_Forall with (2 := IH); apply incl_filter).
    inversion Sh as [n' attrs' kids' name' a2 ns' p' K pe' E1 E2 E3 E4]; subst.
    destruct t as [t|id].
    - inversion C as [t' x s Hx| | | | |]; subst.
      cbn [map tree_of filter is_telem texts onto] in *. rewrite append_nil in E4.
      assert (E3' : filter is_elem kids = []) by now inversion E3.
      pose proof (no_elems_texts _ E3') as Et. rewrite Et in E4. injection E4 as E4.
      rewrite (MixedReads.d_text _ _ _ _ Hden), (s_text _ _ _ Hsur). split.
      + intros (y & [= <-] & _ & Hp). exists x, s. rewrite E4 in Hp. auto.
      + intros (y & s' & [= <-] & Hs & Hp). exists x. split; [reflexivity|]. split; [now apply no_elems_existsb|].
        rewrite Hx in Hs. injection Hs as <-. now rewrite E4.
    - destruct (env id) as [[ident root nss fs|ident root nss ws sk]|] eqn:En; [| |cbn in Hk; congruence].
      + (* struct *)
        rewrite (MixedReads.d_struct _ _ _ _ Hden _ _ _ _ _ _ _ _ _ _ _ v En), (s_struct _ _ _ Hsur _ _ _ _ _ v En).
        inversion C as [|id' ident' root' nss' fs' vs L T reqs' T' En' HL Hown Hfl| | | |id' h' v' r' k' En']; subst; try congruence.
        rewrite En in En'. injection En' as <- <- <- <-.
        pose proof (struct_fields _ _ _ _ _ En) as Hc. destruct (Hok _ _ En) as [Nel Nat].
        assert (Helem : Forall (fun t => exists n rs ks, t = RElem n rs ks) (T ++ T')).
        { apply Forall_app. split; [eapply mown_elem; eauto|eapply mflat_elem; eauto]. }
        rewrite all_telems in E3 by auto. change (shown (T ++ T') (filter is_elem kids)) in E3.
        apply shown_app in E3. destruct E3 as (EO & EF & EE & HO & HF). rewrite EE in IHe.
        apply Forall_app in IHe as [IO IF].
        rewrite !req_attrs_app, mappings_no_attrs, (mflat_reqs _ _ _ _ Hc Hfl), app_nil_r in E2. cbn [app] in E2.
        assert (Hat := mattrs_rt attrs kids (field_names is_element fs) fs vs L HL Nat).
        assert (Hav : forall n, In n (field_names is_attribute fs) -> attr_values n attrs = values_of n L).
        { intros m _. rewrite attr_values_map, E2. reflexivity. }
        specialize (Hat Hav). clear Hav.
        assert (Hunc : unclaimed fs kids = unclaimed fs EF).
        { rewrite <- unclaimed_elems, EE, unclaimed_app. rewrite (free_none fs EO); [reflexivity|]. eapply mown_names; eauto. }
        assert (Hel : Forall (fun k => name_in (field_names is_element fs) k = false) EF ->
          Forall2 (fun f v => is_element f = true ->
            (field_holds o R attrs kids f v <-> survives_field o env M (field_names is_element fs) f v)) fs vs).
        { intros HN. apply (mown_rt attrs (field_names is_element fs) fs vs T EO IO Hown HO Nel kids). intros m Hm. rewrite <- named_elems, EE, named_app.
          assert (named m EF = []) as ->; [|apply app_nil_r]. apply named_nil. eapply Forall_impl; [|exact HN].
          intros k Hk'. destruct (has_name m k) eqn:Em; [|reflexivity]. cbn beta in Hk'; now rewrite (has_name_in _ _ _ Hm Em) in Hk'. }
        split.
        * intros (vs' & [= <-] & FH). rewrite Hunc in FH.
          destruct (mflat_out _ _ _ _ _ _ _ _ IF Hc Hfl HF FH) as (A1 & A2 & A3 & A4).
          pose proof (mcombine3 _ _ _ _ Hc (Hel A2) Hat) as Hcomb.
          exists vs. split; [reflexivity|]. split; [|exact A1]. eapply merge; eauto.
        * intros (vs' & [= <-] & FS & Hlen).
          pose proof (mflat_free _ _ _ _ _ _ Hc Hfl HF FS) as A2.
          pose proof (mcombine3 _ _ _ _ Hc (Hel A2) Hat) as Hcomb.
          exists vs. split; [reflexivity|]. rewrite Hunc, free_all by (eauto using shown_elems).
          eapply mflat_in; eauto. eapply merge_back; eauto.
      + (* enum *)
        rewrite (MixedReads.d_enum _ _ _ _ Hden _ _ _ _ _ _ _ _ _ _ _ _ v En).
        rewrite all_telems in E3 by (eapply menum_elem; eauto).
        rewrite <- (menum_rt _ _ _ _ _ _ _ _ _ _ En IHe C E3). symmetry. apply choice_elems.
  Qed.

  Hypothesis Hhand : hand_written_faithful o env hand R M.

  Theorem all_faithful c : forall t, faithful t c.
  Proof.
    assert (G : (forall m t, MixedReads.below m c -> faithful t m) /\ forall t, faithful t c).
    { induction c as [name attrs ns p kids pe IH| | |] using ReaderProofs.node_ind'.
      2-4: split; [intros m0 t H; inversion H|intros t v n1 reqs ks C Sh; inversion Sh].
      assert (Hb : forall m t, MixedReads.below m (NElem name attrs ns p kids pe) -> faithful t m).
      { intros m1 t H. inversion H as [c ? ? ? ? ? ? Hin|m' c ? ? ? ? ? ? Hin Hbel]; subst;
          rewrite Forall_forall in IH; destruct (IH _ Hin); auto. }
      split; [exact Hb|].
      assert (Hkn : forall t, known_ty env t -> faithful t (NElem name attrs ns p kids pe)).
      { apply known_faithful. apply Forall_forall. intros c Hin t. apply Hb. now constructor. }
      intros [t|id]; [now apply Hkn|].
      destruct (env id) eqn:Ee; [apply Hkn; cbn; congruence|]. now apply Hhand. }
    apply G.
  Qed.
End RT.

Lemma enums_hand_on env hand : flattens_enums env -> flattens_hand_on env hand.
Proof.
  intros H id ident root nss fs f id' h v E I Mf E' _. specialize (H _ _ _ _ _ _ E I). rewrite Mf in H.
  destruct H as (? & ? & ? & ? & ? & H). congruence.
Qed.

(** ** The round trip *)
Theorem mixed_round_trip {U} o alg env (P : user U) hand R M :
  flattens_enums env -> names_ok env ->
  MixedReads.denotes o env P R -> MixedReads.hand_written_ok o alg env P R ->
  survival o env M -> hand_written_faithful o env hand R M ->
  forall dbg w t v n k pol,
  (forall reqs kids, mcontent o env hand t v reqs kids ->
     NsSpec.legal_mappings (RElem n reqs kids) /\ NsSpec.default_ok (RElem n reqs kids) /\
     (pol = NsSpec.SkipIfAnywhere -> NsSpec.coherent (RElem n reqs kids))) ->
  to dbg w n (mser_value o env hand t v) = inl (None, k) ->
  exists t0, NsSpec.meaning [] (NsSpec.emit pol [] (k_out k)) = Some (NsSpec.tree_events t0) /\ is_telem t0 = true /\
    forall t' d, indented t0 t' -> shows t' (d_root d) -> forall dbg' pe, (dbg' = true -> strict P) ->
      read_mixed o alg env P dbg' t (doc_events d) (FEndDocument pe) = Ok v <-> M t v.
Proof.
  intros Hfe Hok Hd Hh Hs Hf dbg w t v n k pol L H.
  pose proof (enums_hand_on env hand Hfe) as Hho.
  destruct (SerPoison.to_writes dbg w n _ k H) as (T0 & A & _). pose proof A as A'.
  apply (masked_iff o env hand Hho t v n T0) in A'. destruct A' as (rs & ks & C & -> & D).
  destruct (L rs ks C) as (L1 & L2 & L3).
  exists (tree_of (RElem n rs ks)). split; [eapply NsMeaning.to_meaning; eauto|]. split; [reflexivity|].
  intros t' d HI HS dbg' pe St. rewrite (MixedDe.mixed_iff o alg env P R Hok Hd Hh dbg' t d pe v St).
  apply (all_faithful o env P hand R M Hd Hs Hfe Hok Hf (d_root d) t v n rs ks C). eapply shows_indented; eauto.
Qed.

(** If all types are derived this is [survives]. *)
Lemma survives_survival o env : survival o env (survives o env).
Proof.
  constructor.
  - intros t v. split.
    + intros H. inversion H; subst. eauto.
    + intros (x & s & -> & H1 & H2). econstructor; eauto.
  - intros id ident root nss fs v E. split.
    + intros H. inversion H; subst; try congruence.
      match goal with G : env id = Some _ |- _ => rewrite E in G; injection G as <- <- <- <- end. eauto.
    + intros (vs & -> & H1 & H2). econstructor; eauto.
  - intros id ident root nss ws sk v E. split.
    + intros H. inversion H; subst; try congruence;
        match goal with G : env id = Some _ |- _ => rewrite E in G; injection G as <- <- <- <- <- end.
      * do 2 eexists. split; [eassumption|]. now left.
      * do 2 eexists. split; [eassumption|]. right. do 4 eexists. eauto.
    + intros (i & w & Hw & [[-> Ht]|(k & t & x & l & -> & Ht & I & Hl & HF)]).
      * eapply su_unit; eauto.
      * eapply su_payload; eauto.
Qed.
