(** Writing and reading: a value is read back from its tree exactly if it survives. *)
From Verif Require Import Base Normalize Text Find FindProofs Types Ser SerSpec DSerSpec DSerProofs
  Reader ReaderSpec DeSpec RTSpec.

(** ** Only child elements matter *)

Lemma has_name_elem n k : has_name n k = true -> is_elem k = true.
Proof. destruct k; easy. Qed.
Lemma name_in_elem ns k : name_in ns k = true -> is_elem k = true.
Proof.
  unfold name_in. intros H. apply existsb_exists in H. destruct H as (n & _ & H).
  eapply has_name_elem; eauto.
Qed.

Lemma filter_elems (p : node -> bool) l : (forall k, p k = true -> is_elem k = true) ->
  filter p (filter is_elem l) = filter p l.
Proof.
  intros H. induction l as [|k l IH]; [reflexivity|]. cbn [filter].
  destruct (is_elem k) eqn:Ek; cbn [filter]; rewrite ?IH; [reflexivity|].
  destruct (p k) eqn:Ep; [|reflexivity]. apply H in Ep. congruence.
Qed.

Lemma named_elems n l : named n (filter is_elem l) = named n l.
Proof. apply filter_elems. apply has_name_elem. Qed.
Lemma unclaimed_elems fs l : unclaimed fs (filter is_elem l) = unclaimed fs l.
Proof. apply filter_elems. intros k H. now apply andb_true_iff in H. Qed.

Lemma choice_elems R ws l v : choice R ws (filter is_elem l) v <-> choice R ws l v.
Proof.
  split; intros H; inversion H as [i w H1 H2 H3 H4|i w k t x H1 H2 H3 H4]; subst;
    rewrite ?named_elems, ?(filter_elems (name_in _)) in * by apply name_in_elem.
  - eapply choice_unit; eauto.
  - eapply choice_field; eauto.
  - eapply choice_unit; rewrite ?named_elems, ?(filter_elems (name_in _)) by apply name_in_elem; eauto.
  - eapply choice_field; rewrite ?named_elems, ?(filter_elems (name_in _)) by apply name_in_elem; eauto.
Qed.

Lemma field_holds_elems o R attrs l f v :
  field_holds o R attrs (filter is_elem l) f v <-> field_holds o R attrs l f v.
Proof.
  split; intros H; inversion H; subst; rewrite ?named_elems in *.
  all: first [ eapply fh_element; rewrite ?named_elems; eassumption
             | eapply fh_no_element; rewrite ?named_elems; eassumption
             | eapply fh_attribute; eassumption
             | eapply fh_no_attribute; eassumption ].
Qed.

Lemma fields_hold_elems o env R attrs l off fs vs :
  fields_hold o env R attrs (filter is_elem l) off fs vs <-> fields_hold o env R attrs l off fs vs.
Proof.
  split; intros H; induction H; try (now constructor);
    try (eapply fhs_flatten; eassumption); constructor; auto; now apply field_holds_elems.
Qed.

(** ** The text of an element without child elements *)
Lemma concat_cons s l : String.concat "" (s :: l) = (s ++ String.concat "" l)%string.
Proof. destruct l; cbn; [|reflexivity]. induction s as [|c s IH]; cbn; congruence. Qed.

Lemma no_elems_texts l : filter is_elem l = [] -> node_texts l = [text_of l].
Proof.
  unfold text_of. induction l as [|k l IH]; [reflexivity|]. cbn [filter]. destruct k; cbn [is_elem]; try discriminate;
    intros H; specialize (IH H); cbn [node_texts map]; rewrite IH, concat_cons; reflexivity.
Qed.

Lemma no_elems_existsb l : filter is_elem l = [] <-> existsb is_elem l = false.
Proof.
  induction l as [|k l IH]; [easy|]. cbn. destruct (is_elem k); [easy|exact IH].
Qed.

Lemma append_nil s : (s ++ "")%string = s.
Proof. induction s; cbn; congruence. Qed.

(** ** Trees of values *)

Lemma all_telems l : Forall (fun t => exists n rs ks, t = RElem n rs ks) l ->
  filter is_telem (map tree_of l) = map tree_of l.
Proof. induction 1 as [|t l (n & rs & ks & ->) _ IH]; [reflexivity|]. cbn. now rewrite IH. Qed.

Lemma req_attrs_app l1 l2 : req_attrs (l1 ++ l2) = req_attrs l1 ++ req_attrs l2.
Proof. induction l1 as [|[p u|n v] l1 IH]; cbn; congruence. Qed.

Section RT.
  Context (o : oracles) (env : tenv).
  Notation content := (content o env).
  Notation reads := (reads o env).
  Notation survives := (survives o env).

  (** [l] shown as [E]. *)
  Definition shown (l : list rtree) (E : list node) : Prop := Forall2 shows (map tree_of l) E.

  Lemma shown_app l1 l2 E : shown (l1 ++ l2) E ->
    exists E1 E2, E = E1 ++ E2 /\ shown l1 E1 /\ shown l2 E2.
  Proof.
    unfold shown. rewrite map_app. intros H. apply Forall2_app_inv_l in H.
    destruct H as (E1 & E2 & H1 & H2 & ->). eauto.
  Qed.

  Lemma shown_elems l E : shown l E -> Forall (fun k => is_elem k = true) E.
  Proof.
    unfold shown. remember (map tree_of l) as T. clear HeqT. induction 1 as [|t k T E H _ IH]; constructor; auto.
    now destruct H.
  Qed.

  (** A value is read back from its element iff it survives. *)
  Definition rt (v : value) : Prop := forall t n reqs kids c, content t v reqs kids ->
    shows (tree_of (RElem n reqs kids)) c -> (reads t c v <-> survives t v).

  Lemma elems_elem n t xs l : elems_are content n t xs l -> Forall (fun t => exists n rs ks, t = RElem n rs ks) l.
  Proof. induction 1; constructor; eauto. Qed.

  Lemma elems_named n t xs l E : elems_are content n t xs l -> shown l E ->
    Forall (fun k => has_name n k = true) E.
  Proof.
    intros H. revert E. induction H as [|v vs reqs kids l _ _ IH]; intros E HE; inversion HE as [|? c ? E' Hc HE']; subst.
    - constructor.
    - constructor; [|now apply IH]. inversion Hc; subst. cbn. now apply xn_eqb_eq.
  Qed.

  Lemma elems_rt n t xs l E : Forall rt xs -> elems_are content n t xs l -> shown l E ->
    (Forall2 (reads t) E xs <-> Forall (survives t) xs).
  Proof.
    intros F H. revert E F. induction H as [|v vs reqs kids l C _ IH]; intros E F HE; inversion HE as [|? c ? E' Hc HE']; subst.
    - split; constructor.
    - inversion F as [|? ? Fv Fvs]; subst. specialize (IH _ Fvs HE').
      specialize (Fv _ _ _ _ _ C Hc). split; intros X; inversion X; subst; constructor; tauto.
  Qed.

  Lemma elems_length n t xs l E : elems_are content n t xs l -> shown l E -> (E = [] <-> xs = []).
  Proof.
    intros H HE. destruct H; inversion HE; subst; split; easy.
  Qed.

  Lemma Forall2_det {A B} (R1 : A -> B -> Prop) l xs ys : Forall2 R1 l xs -> Forall2 R1 l ys ->
    (forall a x y, R1 a x -> R1 a y -> x = y) -> xs = ys.
  Proof.
    intros H. revert ys. induction H; intros ys Hy D; inversion Hy; subst; [reflexivity|].
    f_equal; eauto.
  Qed.

  (** The occurrences of a field that holds [xs]. *)
  Lemma occurs_rt k t v xs n l E : items k v xs -> Forall rt xs -> elems_are content n t xs l -> shown l E ->
    (occurs (reads t) k E v <-> xs <> [] /\ Forall (survives t) xs).
  Proof.
    intros I F H HE. pose proof (elems_rt _ _ _ _ _ F H HE) as Hrt. pose proof (elems_length _ _ _ _ _ H HE) as Hl.
    destruct I.
    - split.
      + intros X. inversion X; subst. split; [easy|]. apply Hrt. repeat constructor; auto.
      + intros [_ X]. apply Hrt in X. inversion X as [|c ? E' ? Hc X']; subst. inversion X'; subst. now constructor.
    - split; [|easy]. intros X. inversion X.
    - split.
      + intros X. inversion X; subst. split; [easy|]. apply Hrt. repeat constructor; auto.
      + intros [_ X]. apply Hrt in X. inversion X as [|c ? E' ? Hc X']; subst. inversion X'; subst. now constructor.
    - split.
      + intros X. inversion X; subst. split; [tauto|]. now apply Hrt.
      + intros [X1 X2]. constructor; [tauto|]. now apply Hrt.
  Qed.

  (** ** Enums *)

  Lemma filter_all {A} (p : A -> bool) l : Forall (fun x => p x = true) l -> filter p l = l.
  Proof. induction 1 as [|x l H _ IH]; [reflexivity|]. cbn. now rewrite H, IH. Qed.

  Lemma variant_in ws i w : nth_error (sorted_variants ws) i = Some w ->
    In (expanded (v_name w)) (variant_names ws).
  Proof.
    intros H. apply nth_error_In in H. unfold variant_names. apply in_map_iff. exists w. split; auto.
    eapply Permutation.Permutation_in; [|exact H]. apply sort_perm.
  Qed.

  Lemma has_name_in ns n k : In n ns -> has_name n k = true -> name_in ns k = true.
  Proof. intros H1 H2. unfold name_in. apply existsb_exists. eauto. Qed.

  Lemma enum_named id ident root nss ws sk v reqs kids E : env id = Some (TDEnum ident root nss ws sk) ->
    content (ERef id) v reqs kids -> shown kids E ->
    reqs = mappings nss /\
    (v = VSkipped /\ kids = [] \/ exists i p w, v = VEnum i p /\ nth_error (sorted_variants ws) i = Some w /\
       Forall (fun k => has_name (expanded (v_name w)) k = true) E).
  Proof.
    intros En C HE. inversion C; subst; try congruence;
      match goal with E' : env id = Some _ |- _ => rewrite En in E'; injection E' as <- <- <- <- <- end.
    - split; [reflexivity|right]. do 3 eexists. split; [reflexivity|]. split; [eassumption|].
      inversion HE as [|? c ? E' Hc HE']; subst. inversion HE'; subst. inversion Hc; subst. repeat constructor.
      cbn. now apply xn_eqb_eq.
    - split; [reflexivity|right]. do 3 eexists. split; [reflexivity|]. split; [eassumption|].
      eapply elems_named; eauto.
    - split; [reflexivity|left]. auto.
  Qed.

  Lemma occurs_items R k cs x xs : occurs R k cs x -> items k x xs -> xs <> [].
  Proof.
    intros H I. destruct I; inversion H; subst; try easy.
    match goal with H : Forall2 _ _ _ |- _ => inversion H; subst end; easy.
  Qed.

  Lemma enum_rt id ident root nss ws sk v reqs kids E : env id = Some (TDEnum ident root nss ws sk) ->
    (forall i x, v = VEnum i (Some x) -> below rt x) ->
    content (ERef id) v reqs kids -> shown kids E -> (choice reads ws E v <-> survives (ERef id) v).
  Proof.
    intros En IH C HE. destruct (enum_named _ _ _ _ _ _ _ _ _ _ En C HE) as [-> [[-> ->]|(i & p & w & -> & Hw & HF)]].
    - split; intros H; inversion H.
    - assert (Hall : filter (name_in (variant_names ws)) E = E).
      { apply filter_all. eapply Forall_impl; [|exact HF]. intros k. apply has_name_in. eapply variant_in; eauto. }
      assert (Hnam : named (expanded (v_name w)) E = E) by now apply filter_all.
      inversion C as [| |id' ident' root' nss' ws' sk' i' w' En' Hw' Ht|id' ident' root' nss' ws' sk' i' w' k t x xs l En' Hw' Ht I El|]; subst;
        rewrite En in En'; injection En' as <- <- <- <- <-; rewrite Hw in Hw'; injection Hw' as <-.
      + split; intros _; [eapply su_unit; eauto|]. eapply choice_unit; eauto; rewrite ?Hall, ?Hnam; auto.
        inversion HE; subst. easy.
      + pose proof (occurs_rt k t x xs _ _ E I (below_items _ _ _ _ (IH _ _ eq_refl) I) El HE) as Ho.
        split.
        * intros H. inversion H as [|i' w' k' t' x' Hw' Ht' H3 H4]; subst.
          rewrite Hw in Hw'. injection Hw' as <-. rewrite Ht in Ht'. injection Ht' as <- <-.
          rewrite Hnam in H4. apply Ho in H4. destruct H4. eapply su_payload; eauto.
        * intros H. inversion H as [| | |id' ident' root' nss' ws' sk' i' w' k' t' x' l' En' Hw' Ht' I' Hne HFl]; subst.
          rewrite En in En'; injection En' as <- <- <- <- <-; rewrite Hw in Hw'; injection Hw' as <-.
          rewrite Ht in Ht'. injection Ht' as <- <-. rewrite (items_det _ _ _ _ I' I) in *.
          eapply choice_field; eauto; rewrite ?Hall, ?Hnam; auto. now apply Ho.
  Qed.

  (** ** Own element fields *)

  Lemma has_name_inj n m k : has_name n k = true -> has_name m k = true -> n = m.
  Proof. destruct k; try easy. cbn. rewrite !xn_eqb_eq. congruence. Qed.

  Lemma named_nil n E : Forall (fun k => has_name n k = false) E -> named n E = [].
  Proof. induction 1 as [|k E H _ IH]; [reflexivity|]. cbn. now rewrite H. Qed.

  Lemma element_names_cons f fs : field_names is_element (f :: fs) =
    if is_element f then expanded (f_name f) :: field_names is_element fs else field_names is_element fs.
  Proof. unfold field_names. cbn. now destruct (is_element f). Qed.
  Lemma attribute_names_cons f fs : field_names is_attribute (f :: fs) =
    if is_attribute f then expanded (f_name f) :: field_names is_attribute fs else field_names is_attribute fs.
  Proof. unfold field_names. cbn. now destruct (is_attribute f). Qed.

  Lemma own_names fs vs T E : own_kids content fs vs T -> shown T E ->
    Forall (fun k => name_in (field_names is_element fs) k = true) E.
  Proof.
    intros H. revert E. induction H as [|f fs k t v xs l vs l2 M I El _ IH|f fs v vs l M _ IH]; intros E HE.
    - inversion HE. constructor.
    - apply shown_app in HE. destruct HE as (E1 & E2 & -> & H1 & H2).
      assert (Mf : is_element f = true) by (unfold is_element; now rewrite M).
      rewrite element_names_cons, Mf. apply Forall_app. split.
      + eapply Forall_impl; [|eapply elems_named; eauto]. intros c Hc. cbn beta in Hc. eapply has_name_in; [|exact Hc]. now left.
      + eapply Forall_impl; [|apply IH; auto]. unfold name_in. intros c Hc. cbn [existsb]. rewrite Hc.
        apply orb_true_r.
    - rewrite element_names_cons, M. auto.
  Qed.

  Lemma other_names n ns E : ~ In n ns -> Forall (fun k => name_in ns k = true) E -> named n E = [].
  Proof.
    intros Hn H. apply named_nil. eapply Forall_impl; [|exact H]. intros k Hk.
    destruct (has_name n k) eqn:En; [|reflexivity]. exfalso. unfold name_in in Hk.
    apply existsb_exists in Hk. destruct Hk as (m & Hm & Em). rewrite (has_name_inj _ _ _ En Em) in Hn. auto.
  Qed.

  Lemma named_app n E1 E2 : named n (E1 ++ E2) = named n E1 ++ named n E2.
  Proof. apply filter_app. Qed.

  Lemma own_rt attrs claimed fs vs T E : Forall (below rt) vs -> own_kids content fs vs T -> shown T E ->
    NoDup (field_names is_element fs) ->
    forall K, (forall n, In n (field_names is_element fs) -> named n K = named n E) ->
    Forall2 (fun f v => is_element f = true ->
      (field_holds o reads attrs K f v <-> survives_field o env survives claimed f v)) fs vs.
  Proof.
    intros Hb H. revert E Hb. induction H as [|f fs k t v xs l vs l2 M I El Ho IH|f fs v vs l M _ IH]; intros E Hb HE Hn K HK.
    - constructor.
    - apply shown_app in HE. destruct HE as (E1 & E2 & -> & H1 & H2).
      inversion Hb as [|? ? Hv Hb']; subst. rewrite element_names_cons in *.
      assert (Mf : is_element f = true) by (unfold is_element; now rewrite M). rewrite Mf in *.
      inversion Hn as [|? ? Hni Hn']; subst.
      pose proof (elems_named _ _ _ _ _ El H1) as N1. pose proof (own_names _ _ _ _ Ho H2) as N2.
      constructor.
      + intros _. assert (EK : named (expanded (f_name f)) K = E1).
        { rewrite HK by now left. rewrite named_app, (other_names _ _ _ Hni N2), app_nil_r. now apply filter_all. }
        pose proof (occurs_rt k t v xs _ _ E1 I (below_items _ _ _ _ Hv I) El H1) as Hocc.
        pose proof (elems_length _ _ _ _ _ El H1) as Hlen.
        split; intros X.
        * inversion X as [k' t' v' M' O'|k' t' v' M' N' A'|opt' t' s' x' M' A' P'|opt' t' v' M' A' B'];
            rewrite M in M'; try discriminate; injection M' as <- <-; rewrite EK in *.
          -- apply Hocc in O'. destruct O' as [O1 O2]. eapply sf_element; eauto. easy.
          -- eapply sf_element; eauto. replace xs with (@nil value) by (symmetry; now apply Hlen). constructor.
        * inversion X as [k' t' v' l' M' I' F' A'|opt' t' x' s' M' T' P'|t' M' A'|id' v' M' R' C']; rewrite M in M'; try discriminate.
          injection M' as <- <-. rewrite (items_det _ _ _ _ I' I) in *.
          destruct xs as [|x xs'] eqn:Ex.
          -- eapply fh_no_element; eauto. rewrite EK. now apply Hlen.
          -- eapply fh_element; eauto. rewrite EK. apply Hocc. split; [easy|auto].
      + apply (IH E2); auto. intros n Hin. rewrite HK by now right. rewrite named_app.
        assert (named n E1 = []) as ->; [|reflexivity]. apply named_nil.
        eapply Forall_impl; [|exact N1]. intros c Hc. destruct (has_name n c) eqn:Ec; [|reflexivity].
        exfalso. apply Hni. now rewrite (has_name_inj _ _ _ Hc Ec).
    - inversion Hb as [|? ? Hv Hb']; subst. rewrite element_names_cons, M in *. constructor; [congruence|].
      eapply IH; eauto.
  Qed.

  (** ** Attribute fields *)

  Lemma attr_values_map n attrs : attr_values n attrs =
    map snd (filter (fun a => xn_eqb (fst a) n) (map (fun a => (from_xml_name (a_name a), a_value a)) attrs)).
  Proof.
    unfold attr_values. induction attrs as [|a attrs IH]; [reflexivity|]. cbn [map filter fst].
    destruct (xn_eqb (from_xml_name (a_name a)) n); cbn [map snd]; now rewrite IH.
  Qed.

  Definition values_of (n : xname) (l : list req) : list string :=
    map snd (filter (fun a => xn_eqb (fst a) n) (req_attrs l)).

  Lemma attrs_names fs vs L : attrs_are o fs vs L -> forall n, ~ In n (field_names is_attribute fs) -> values_of n L = [].
  Proof.
    induction 1 as [|f fs opt t x s vs l M T _ IH|f fs t vs l M _ IH|f fs v vs l M _ IH]; intros n Hn.
    - reflexivity.
    - assert (Mf : is_attribute f = true) by (unfold is_attribute; now rewrite M).
      rewrite attribute_names_cons, Mf in Hn.
      unfold values_of. cbn [req_attrs filter fst]. destruct (xn_eqb (expanded (f_name f)) n) eqn:E.
      + apply xn_eqb_eq in E. exfalso. apply Hn. now left.
      + apply IH. intros Hin. apply Hn. now right.
    - assert (Mf : is_attribute f = true) by (unfold is_attribute; now rewrite M).
      apply IH. rewrite attribute_names_cons, Mf in Hn. intros Hin. apply Hn. now right.
    - apply IH. now rewrite attribute_names_cons, M in Hn.
  Qed.

  Lemma attrs_rt attrs K claimed fs vs L : attrs_are o fs vs L -> NoDup (field_names is_attribute fs) ->
    (forall n, In n (field_names is_attribute fs) -> attr_values n attrs = values_of n L) ->
    Forall2 (fun f v => is_attribute f = true ->
      (field_holds o reads attrs K f v <-> survives_field o env survives claimed f v)) fs vs.
  Proof.
    induction 1 as [|f fs opt t x s vs l M T HL IH|f fs t vs l M HL IH|f fs v vs l M HL IH]; intros Hn HA.
    - constructor.
    - assert (Mf : is_attribute f = true) by (unfold is_attribute; now rewrite M).
      rewrite attribute_names_cons, Mf in *. inversion Hn as [|? ? Hni Hn']; subst.
      assert (EA : attr_values (expanded (f_name f)) attrs = [s]).
      { rewrite HA by now left. unfold values_of. cbn [req_attrs filter fst].
        replace (xn_eqb (expanded (f_name f)) (expanded (f_name f))) with true by (symmetry; now apply xn_eqb_eq).
        cbn [map snd]. f_equal. now apply (attrs_names _ _ _ HL). }
      constructor.
      + intros _. split; intros X.
        * inversion X as [k' t' v' M' O' Ev|k' t' v' M' N' A' Ev|opt' t' s' x' M' A' P' Ev|opt' t' v' M' A' B' Ev];
            rewrite M in M'; try discriminate; injection M' as <- <-; rewrite EA in A'; try discriminate.
          injection A' as <-. assert (x' = x) by (destruct opt; congruence). subst x'. eapply sf_attribute; eauto.
        * inversion X as [k' t' v' l' M' I' F' A' Ev|opt' t' x' s' M' T' P' Ev|t' M' A' Ev|id' v' M' R' C' Ev];
            rewrite M in M'; try discriminate; injection M' as Eo Et; subst opt t.
          -- assert (x' = x) by (destruct opt'; congruence). subst x'. rewrite T in T'. injection T' as <-.
             eapply fh_attribute; eauto.
          -- discriminate.
      + apply IH; auto. intros n Hin. rewrite HA by now right. unfold values_of. cbn [req_attrs filter fst].
        destruct (xn_eqb (expanded (f_name f)) n) eqn:E; [|reflexivity]. apply xn_eqb_eq in E. now subst.
    - assert (Mf : is_attribute f = true) by (unfold is_attribute; now rewrite M).
      rewrite attribute_names_cons, Mf in *. inversion Hn as [|? ? Hni Hn']; subst.
      assert (EA : attr_values (expanded (f_name f)) attrs = []).
      { rewrite HA by now left. now apply (attrs_names _ _ _ HL). }
      constructor.
      + intros _. split; intros X.
        * inversion X as [k' t' v' M' O' Ev|k' t' v' M' N' A' Ev|opt' t' s' x' M' A' P' Ev|opt' t' v' M' A' B' Ev];
            rewrite M in M'; try discriminate; injection M' as <- <-; rewrite EA in A'; try discriminate.
          eapply sf_no_attribute; eauto.
        * inversion X as [k' t' v' l' M' I' F' A' Ev|opt' t' x' s' M' T' P' Ev|t' M' A' Ev|id' v' M' R' C' Ev];
            rewrite M in M'; try discriminate.
          -- injection M' as <- <-. discriminate.
          -- eapply fh_no_attribute; eauto.
      + apply IH; auto. intros n Hin. apply HA. now right.
    - rewrite attribute_names_cons, M in *. constructor; [congruence|]. auto.
  Qed.

  (** ** Flattened fields *)

  Notation free fs := (fun k => is_elem k && negb (name_in (field_names is_element fs) k)).

  Lemma flat_none fs vs reqs T : flattened content fs vs reqs T -> filter is_flatten fs = [] ->
    T = [] /\ reqs = [].
  Proof.
    induction 1 as [|f fs id v vs reqs kids reqs' kids' M C _ IH|f fs v vs reqs kids M _ IH]; auto.
    - cbn. unfold is_flatten at 1. rewrite M. discriminate.
    - cbn. now rewrite M.
  Qed.

  Lemma hold_none attrs K l fs vs : filter is_flatten fs = [] ->
    Forall2 (fun f v => is_flatten f = false -> field_holds o reads attrs K f v) fs vs ->
    fields_hold o env reads attrs K l fs vs.
  Proof.
    intros Hf H. induction H as [|f v fs vs Hv _ IH]; [constructor|].
    cbn in Hf. destruct (is_flatten f) eqn:Ef; [discriminate|]. apply fhs_own; auto.
  Qed.

  Lemma hold_nil attrs K fs vs : fields_hold o env reads attrs K [] fs vs -> filter is_flatten fs = [].
  Proof.
    intros H. remember [] as l eqn:El. induction H as [|l f fs v vs Hf _ _ IH|l f fs id ident root nss ws sk v vs M En Ch _ IH]; auto.
    - cbn. now rewrite Hf, IH.
    - subst. inversion Ch as [i w H1 H2 H3 H4|i w k t x H1 H2 H3 H4]; subst; [easy|]. inversion H4; subst; easy.
  Qed.

  Lemma flatten_is_enum fs f id : Forall (field_compiles env) fs -> In f fs -> f_mode f = MFlatten id ->
    exists ident root nss ws sk, env id = Some (TDEnum ident root nss ws sk).
  Proof.
    rewrite Forall_forall. intros H Hin M. specialize (H f Hin). unfold field_compiles in H. now rewrite M in H.
  Qed.

  Lemma mappings_no_attrs nss : req_attrs (mappings nss) = [].
  Proof. unfold mappings. induction nss as [|d nss IH]; [reflexivity|exact IH]. Qed.

  Lemma enum_reqs id ident root nss ws sk v reqs kids : env id = Some (TDEnum ident root nss ws sk) ->
    content (ERef id) v reqs kids -> reqs = mappings nss.
  Proof. intros En C. inversion C; subst; congruence. Qed.

  Lemma flat_reqs fs vs reqs T : Forall (field_compiles env) fs -> flattened content fs vs reqs T -> req_attrs reqs = [].
  Proof.
    intros Hc H. revert Hc. induction H as [|f fs id v vs reqs kids reqs' kids' M C _ IH|f fs v vs reqs kids M _ IH]; intros Hc; auto.
    - inversion Hc as [|? ? Hf Hc']; subst. rewrite req_attrs_app, IH, app_nil_r by auto.
      unfold field_compiles in Hf. rewrite M in Hf. destruct Hf as (ident & root & nss & ws & sk & En).
      rewrite (enum_reqs _ _ _ _ _ _ _ _ _ En C). apply mappings_no_attrs.
    - inversion Hc; subst. auto.
  Qed.

  (** Elements of flattened fields that survive are not claimed. *)
  Lemma flat_free claimed fs vs reqs T E : Forall (field_compiles env) fs -> flattened content fs vs reqs T ->
    shown T E -> Forall2 (survives_field o env survives claimed) fs vs ->
    Forall (fun k => name_in claimed k = false) E.
  Proof.
    intros Hc H. revert E Hc. induction H as [|f fs id v vs reqs kids reqs' kids' M C _ IH|f fs v vs reqs kids M _ IH]; intros E Hc HE HS.
    - inversion HE. constructor.
    - inversion Hc as [|? ? Hf Hc']; subst. inversion HS as [|? ? ? ? Sf HS']; subst.
      apply shown_app in HE. destruct HE as (E1 & E2 & -> & H1 & H2). apply Forall_app. split; [|eapply IH; eauto].
      unfold field_compiles in Hf. rewrite M in Hf. destruct Hf as (ident & root & nss & ws & sk & En).
      destruct (enum_named _ _ _ _ _ _ _ _ _ _ En C H1) as [_ [[-> ->]|(i & p & w & -> & Hw & HF)]].
      { inversion H1. constructor. }
      eapply Forall_impl; [|exact HF]. intros k Hk. destruct (name_in claimed k) eqn:Ek; [|reflexivity]. exfalso.
      inversion Sf as [k' t' v' l' M' I' F' A' Ev|opt' t' x' s' M' T' P' Ev|t' M' A' Ev|id' v' M' R' C' Ev];
        rewrite M in M'; try discriminate. injection M' as <-.
      apply (C' (expanded (v_name w))).
      { do 8 eexists. split; [exact En|]. split; [exact (eq_refl)|]. split; [exact Hw|reflexivity]. }
      unfold name_in in Ek. apply existsb_exists in Ek. destruct Ek as (m & Hm & Em).
      now rewrite (has_name_inj _ _ _ Hk Em).
    - inversion Hc; subst. inversion HS; subst. eauto.
  Qed.

  Lemma free_all fs E : Forall (fun k => is_elem k = true) E ->
    Forall (fun k => name_in (field_names is_element fs) k = false) E -> unclaimed fs E = E.
  Proof.
    intros H1 H2. unfold unclaimed. apply filter_all. rewrite Forall_forall in *. intros k Hk.
    now rewrite H1, H2.
  Qed.
  Lemma free_none fs E : Forall (fun k => name_in (field_names is_element fs) k = true) E -> unclaimed fs E = [].
  Proof.
    unfold unclaimed. induction 1 as [|k E H _ IH]; [reflexivity|]. cbn. rewrite H, andb_false_r. exact IH.
  Qed.
  Lemma unclaimed_app fs E1 E2 : unclaimed fs (E1 ++ E2) = unclaimed fs E1 ++ unclaimed fs E2.
  Proof. apply filter_app. Qed.

  (** A flattened enum reads its children as it would an element with these children. *)
  Lemma elem_texts E : Forall (fun k => is_elem k = true) E -> node_texts E = map (fun _ => ""%string) (tt :: map (fun _ => tt) E).
  Proof.
    induction 1 as [|k E H _ IH]; [reflexivity|]. destruct k; try discriminate. cbn [node_texts map]. now rewrite IH.
  Qed.
  Lemma telem_texts l : Forall (fun t => exists n rs ks, t = RElem n rs ks) l ->
    texts (map tree_of l) = map (fun _ => ""%string) (tt :: map (fun _ => tt) l).
  Proof.
    induction 1 as [|k l (n & rs & ks & ->) _ IH]; [reflexivity|]. cbn [map tree_of texts]. now rewrite IH.
  Qed.
  Lemma shown_texts l E : Forall (fun t => exists n rs ks, t = RElem n rs ks) l -> shown l E ->
    node_texts E = map seen (texts (map tree_of l)).
  Proof.
    intros H1 H2. rewrite (elem_texts E) by (eapply shown_elems; eauto). rewrite telem_texts by auto.
    rewrite map_map. cbn [map]. f_equal.
    revert E H2. induction H1 as [|t l _ _ IH]; intros E H2; inversion H2; subst; [reflexivity|]. cbn [map]. f_equal.
    now apply IH.
  Qed.

  Lemma own_elem fs vs T : own_kids content fs vs T -> Forall (fun t => exists n rs ks, t = RElem n rs ks) T.
  Proof.
    induction 1 as [|f fs k t v xs l vs l2 M I El _ IH|f fs v vs l M _ IH]; auto.
    apply Forall_app. split; auto. eapply elems_elem; eauto.
  Qed.
  Lemma enum_elem id ident root nss ws sk v reqs kids : env id = Some (TDEnum ident root nss ws sk) ->
    content (ERef id) v reqs kids -> Forall (fun t => exists n rs ks, t = RElem n rs ks) kids.
  Proof.
    intros En C. inversion C; subst; try congruence; [repeat constructor; eauto|eapply elems_elem; eauto|constructor].
  Qed.
  Lemma flat_elem fs vs reqs T : Forall (field_compiles env) fs -> flattened content fs vs reqs T ->
    Forall (fun t => exists n rs ks, t = RElem n rs ks) T.
  Proof.
    intros Hc H. revert Hc. induction H as [|f fs id v vs reqs kids reqs' kids' M C _ IH|f fs v vs reqs kids M _ IH]; intros Hc; auto.
    - inversion Hc as [|? ? Hf Hc']; subst. apply Forall_app. split; auto.
      unfold field_compiles in Hf. rewrite M in Hf. destruct Hf as (ident & root & nss & ws & sk & En).
      eapply enum_elem; eauto.
    - inversion Hc; subst. auto.
  Qed.

  Lemma flat_rt id ident root nss ws sk v reqs kids E : env id = Some (TDEnum ident root nss ws sk) ->
    rt v -> content (ERef id) v reqs kids -> shown kids E -> (choice reads ws E v <-> survives (ERef id) v).
  Proof.
    intros En IH C HE. destruct (enum_named _ _ _ _ _ _ _ _ _ _ En C HE) as [-> _].
    pose (c := NElem (OName None None ""%string) [] [] (0%N, 0%N) E (0%N, 0%N)).
    rewrite <- (IH (ERef id) (XName "" ""%string) (mappings nss) kids c C).
    - split.
      + intros H. eapply reads_enum; eauto.
      + intros H. inversion H as [| |id' ident' root' nss' ws' sk' name attrs ns p kids' pe v' En' Ch]; subst; [congruence|].
        rewrite En in En'. injection En' as <- <- <- <- <-. exact Ch.
    - cbn [tree_of]. rewrite mappings_no_attrs. pose proof (enum_elem _ _ _ _ _ _ _ _ _ En C) as He. constructor; try reflexivity.
      + rewrite all_telems by auto. rewrite filter_all by (eapply shown_elems; eauto). exact HE.
      + now apply shown_texts.
  Qed.

  (** Survivors: the fields hold. *)
  Lemma flat_in attrs K claimed fs vs reqs T E : Forall rt vs -> Forall (field_compiles env) fs ->
    flattened content fs vs reqs T -> shown T E -> List.length (filter is_flatten fs) <= 1 ->
    Forall2 (survives_field o env survives claimed) fs vs ->
    Forall2 (fun f v => is_flatten f = false -> field_holds o reads attrs K f v) fs vs ->
    fields_hold o env reads attrs K E fs vs.
  Proof.
    intros Hb Hc H. revert E Hb Hc.
    induction H as [|f fs id v vs reqs kids reqs' kids' M C Hfl IH|f fs v vs reqs kids M _ IH]; intros E Hb Hc HE Hlen HS HH;
      [constructor| |].
    - inversion Hb as [|? ? Bv Bvs]; subst. inversion Hc as [|? ? Hf Hc']; subst.
      inversion HS as [|? ? ? ? Sf HS']; subst. inversion HH as [|? ? ? ? Hf' HH']; subst.
      assert (Ef : is_flatten f = true) by (unfold is_flatten; now rewrite M).
      assert (Hno : filter is_flatten fs = []).
      { cbn in Hlen. rewrite Ef in Hlen. cbn in Hlen. destruct (filter is_flatten fs); [reflexivity|]. cbn in Hlen.
        apply le_S_n in Hlen. inversion Hlen. }
      destruct (flat_none _ _ _ _ Hfl Hno) as [-> ->]. rewrite app_nil_r in HE.
      unfold field_compiles in Hf. rewrite M in Hf. destruct Hf as (ident & root & nss & ws & sk & En).
      eapply fhs_flatten; [eassumption|eassumption| |now apply hold_none].
      apply (flat_rt _ _ _ _ _ _ _ _ _ _ En Bv C HE).
      inversion Sf as [k' t' v' l' M' I' F' A' Ev|opt' t' x' s' M' T' P' Ev|t' M' A' Ev|id' v' M' R' C' Ev];
        rewrite M in M'; try discriminate. injection M' as <-. exact R'.
    - inversion Hb as [|? ? Bv Bvs]; subst. inversion Hc as [|? ? Hf Hc']; subst.
      inversion HS as [|? ? ? ? Sf HS']; subst. inversion HH as [|? ? ? ? Hf' HH']; subst.
      apply fhs_own; auto. apply IH; auto. cbn in Hlen. now rewrite M in Hlen.
  Qed.

  (** What the flattened fields of a struct that was read look like. *)
  Lemma flat_out attrs K all fs vs reqs T E : Forall rt vs -> Forall (field_compiles env) fs ->
    flattened content fs vs reqs T -> shown T E ->
    fields_hold o env reads attrs K (unclaimed all E) fs vs ->
    List.length (filter is_flatten fs) <= 1 /\
    Forall (fun k => name_in (field_names is_element all) k = false) E /\
    Forall2 (fun f v => is_flatten f = true -> survives_field o env survives (field_names is_element all) f v) fs vs /\
    Forall2 (fun f v => is_flatten f = false -> field_holds o reads attrs K f v) fs vs.
  Proof.
    intros Hb Hc H. revert E Hb Hc.
    induction H as [|f fs id v vs reqs kids reqs' kids' M C Hfl IH|f fs v vs reqs kids M _ IH]; intros E Hb Hc HE HH.
    - inversion HE; subst. split; [now repeat constructor|]. repeat split; constructor.
    - inversion Hb as [|? ? Bv Bvs]; subst. inversion Hc as [|? ? Hf Hc']; subst.
      unfold field_compiles in Hf. rewrite M in Hf. destruct Hf as (ident & root & nss & ws & sk & En).
      assert (Ef : is_flatten f = true) by (unfold is_flatten; now rewrite M).
      apply shown_app in HE. destruct HE as (E1 & E2 & -> & H1 & H2). rewrite unclaimed_app in HH.
      inversion HH as [|? ? ? ? ? Hff|? ? ? id' ident' root' nss' ws' sk' ? ? M' En' Ch HH']; subst; [congruence|].
      rewrite M in M'. injection M' as <-. rewrite En in En'. injection En' as <- <- <- <- <-.
      destruct (enum_named _ _ _ _ _ _ _ _ _ _ En C H1) as [_ [[-> ->]|(i & p & w & -> & Hw & HF)]]; [inversion Ch|].
      (* the variant is not claimed, and something was written for it *)
      assert (Hnn : exists k, In k (unclaimed all E1 ++ unclaimed all E2) /\ has_name (expanded (v_name w)) k = true).
      { inversion Ch as [i' w' Hw' H3 H4 H5|i' w' k' t' x' Hw' H3 H4 H5]; subst; rewrite Hw in Hw'; injection Hw' as <-.
        - rewrite H5 in H4. destruct (named _ _) as [|k l] eqn:El in H4; [easy|]. exists k.
          assert (Hin : In k (k :: l)) by now left. rewrite <- El in Hin. apply filter_In in Hin. exact Hin.
        - destruct (named _ _) as [|k l] eqn:El in H5; [inversion H5; now subst|]. exists k.
          assert (Hin : In k (k :: l)) by now left. rewrite <- El in Hin. apply filter_In in Hin. exact Hin. }
      assert (Hcl : ~ In (expanded (v_name w)) (field_names is_element all)).
      { destruct Hnn as (k & Hk & Hn). rewrite <- unclaimed_app in Hk. apply filter_In in Hk.
        destruct Hk as [_ Hk]. apply andb_true_iff in Hk. destruct Hk as [_ Hk]. intros Hin.
        rewrite (has_name_in _ _ _ Hin Hn) in Hk. discriminate. }
      assert (F1 : Forall (fun k => name_in (field_names is_element all) k = false) E1).
      { eapply Forall_impl; [|exact HF]. intros k Hk. destruct (name_in _ k) eqn:Ek; [|reflexivity]. exfalso.
        unfold name_in in Ek. apply existsb_exists in Ek. destruct Ek as (m & Hm & Em).
        apply Hcl. now rewrite (has_name_inj _ _ _ Hk Em). }
      rewrite (free_all all E1) in * by (eauto using shown_elems).
      assert (Hne : E1 <> []).
      { intros ->. inversion H1 as [HT|]; subst. symmetry in HT. apply map_eq_nil in HT. subst kids.
        inversion Ch as [i' w' Hw' H3 H4 H5|i' w' k' t' x' Hw' H3 H4 H5]; subst; rewrite Hw in Hw'; injection Hw' as <-.
        - inversion C; subst.
        - inversion C as [| | |id' ident' root' nss' ws' sk' i' w' k t x xs l En' Hw' Ht I El|]; subst.
          rewrite En in En'; injection En' as <- <- <- <- <-; rewrite Hw in Hw'; injection Hw' as <-.
          rewrite Ht in H3. injection H3 as <- <-. pose proof (occurs_items _ _ _ _ _ H5 I) as X.
          inversion El; subst. now apply X. }
      assert (Hbf : before_first (variant_names ws) (E1 ++ unclaimed all E2) = []).
      { destruct E1 as [|k E1']; [easy|]. cbn. inversion HF as [|? ? Hk _]; subst.
        rewrite (has_name_in _ _ _ (variant_in _ _ _ Hw) Hk). reflexivity. }
      rewrite Hbf in HH'. pose proof (hold_nil _ _ _ _ HH') as Hno.
      destruct (flat_none _ _ _ _ Hfl Hno) as [-> ->]. inversion H2; subst. cbn [unclaimed filter] in Ch.
      rewrite app_nil_r in *.
      split; [|split; [exact F1|split]].
      + cbn. rewrite Ef, Hno. constructor.
      + constructor.
        * intros _. eapply sf_flatten; [eassumption| |].
          -- eapply flat_rt; eauto.
          -- intros n (ident' & root' & nss' & ws' & sk' & i' & p' & w' & En' & Ev & Hw' & <-).
             rewrite En in En'. injection En' as <- <- <- <- <-. injection Ev as <- <-. rewrite Hw in Hw'.
             injection Hw' as <-. exact Hcl.
        * clear - Hno HH'. induction HH' as [|? ? ? ? ? ? ? ? IH|]; [constructor| |]; cbn in Hno; destruct (is_flatten f) eqn:Ef; try discriminate.
          -- constructor; [congruence|]. now apply IH.
          -- unfold is_flatten in Ef. rewrite H in Ef. discriminate.
      + constructor; [congruence|].
        clear - Hno HH'. induction HH' as [|? ? ? ? ? ? ? ? IH|]; [constructor| |]; cbn in Hno; destruct (is_flatten f) eqn:Ef; try discriminate.
        * constructor; [now intros _|]. now apply IH.
        * unfold is_flatten in Ef. rewrite H in Ef. discriminate.
    - inversion Hb as [|? ? Bv Bvs]; subst. inversion Hc as [|? ? Hf Hc']; subst.
      inversion HH as [|? ? ? ? ? Hff Hfh HH'|? ? ? id' ident' root' nss' ws' sk' ? ? M' En' Ch HH']; subst.
      2: { unfold is_flatten in M. rewrite M' in M. discriminate. }
      destruct (IH E) as (A1 & A2 & A3 & A4); auto.
      split; [cbn; now rewrite M|]. split; [exact A2|]. split; constructor; auto. congruence.
  Qed.

  (** ** Everything *)

  Lemma combine3 (P Q : field -> value -> Prop) fs vs : Forall (field_compiles env) fs ->
    Forall2 (fun f v => is_element f = true -> (P f v <-> Q f v)) fs vs ->
    Forall2 (fun f v => is_attribute f = true -> (P f v <-> Q f v)) fs vs ->
    Forall2 (fun f v => is_flatten f = false -> (P f v <-> Q f v)) fs vs.
  Proof.
    intros Hc H. revert Hc. induction H as [|f v fs vs He _ IH]; intros Hc H'; inversion H'; inversion Hc; subst; constructor; auto.
    intros Hf. unfold is_element, is_attribute, is_flatten, field_compiles in *. destruct (f_mode f); auto; easy.
  Qed.

  Lemma merge (P Q : field -> value -> Prop) fs vs :
    Forall2 (fun f v => is_flatten f = false -> (P f v <-> Q f v)) fs vs ->
    Forall2 (fun f v => is_flatten f = true -> Q f v) fs vs ->
    Forall2 (fun f v => is_flatten f = false -> P f v) fs vs -> Forall2 Q fs vs.
  Proof.
    induction 1 as [|f v fs vs Hf _ IH]; intros A3 A4; inversion A3; inversion A4; subst; constructor; auto.
    destruct (is_flatten f); [auto|]. apply Hf; auto.
  Qed.
  Lemma merge_back (P Q : field -> value -> Prop) fs vs :
    Forall2 (fun f v => is_flatten f = false -> (P f v <-> Q f v)) fs vs ->
    Forall2 Q fs vs -> Forall2 (fun f v => is_flatten f = false -> P f v) fs vs.
  Proof.
    induction 1 as [|f v fs vs Hf _ IH]; intros FS; inversion FS; subst; constructor; auto.
    intros Ef. apply Hf; auto.
  Qed.

  Lemma below_self P vs : Forall (below P) vs -> Forall P vs.
  Proof. apply Forall_impl. now intros v [H _]. Qed.

  Theorem rt_all : compiles env -> names_ok env -> forall v, rt v.
  Proof.
    intros Hcomp Hok. induction v using value_ind''; intros t n reqs kids c C Sh.
    - (* text *)
      inversion C as [t' x' s Hx| | | |]; subst. cbn [tree_of] in Sh.
      inversion Sh as [n' attrs' kids' name a2 ns p K pe E1 E2 E3 E4]; subst.
      cbn [map tree_of filter is_telem texts onto] in *. rewrite append_nil in E4.
      assert (E3' : filter is_elem K = []) by now inversion E3. pose proof (no_elems_texts _ E3') as Et. rewrite Et in E4. injection E4 as E4.
      split; intros X.
      + inversion X; subst. eapply su_text; eauto. now rewrite <- E4.
      + inversion X as [t2 x2 s2 T2 P2| | |]; subst. rewrite Hx in T2. injection T2 as <-.
        apply reads_text; [now apply no_elems_existsb|]. now rewrite E4.
    - (* struct *)
      inversion C as [|id ident root nss fs vs' L T reqs' T' En HL Hown Hfl| | |]; subst.
      pose proof (Hcomp _ _ En) as Hc. destruct (Hok _ _ En) as [Nel Nat]. cbn beta iota in Hc.
      inversion Sh as [n' attrs' kids' name a2 ns p K pe E1 E2 E3 E4]; subst.
      assert (Helem : Forall (fun t => exists n rs ks, t = RElem n rs ks) (T ++ T')).
      { apply Forall_app. split; [eapply own_elem; eauto|eapply flat_elem; eauto]. }
      rewrite all_telems in E3 by auto. change (shown (T ++ T') (filter is_elem K)) in E3.
      apply shown_app in E3. destruct E3 as (EO & EF & EE & HO & HF).
      rewrite !req_attrs_app, mappings_no_attrs, (flat_reqs _ _ _ _ Hc Hfl), app_nil_r in E2. cbn [app] in E2.
      assert (Hat := attrs_rt a2 K (field_names is_element fs) fs vs L HL Nat).
      assert (Hav : forall n, In n (field_names is_attribute fs) -> attr_values n a2 = values_of n L).
      { intros m _. rewrite attr_values_map, E2. reflexivity. }
      specialize (Hat Hav). clear Hav.
      assert (Hunc : unclaimed fs K = unclaimed fs EF).
      { rewrite <- unclaimed_elems, EE, unclaimed_app. rewrite (free_none fs EO); [reflexivity|]. eapply own_names; eauto. }
      assert (Hel : Forall (fun k => name_in (field_names is_element fs) k = false) EF ->
        Forall2 (fun f v => is_element f = true ->
          (field_holds o reads a2 K f v <-> survives_field o env survives (field_names is_element fs) f v)) fs vs).
      { intros HN. eapply own_rt; eauto. intros m Hm. rewrite <- named_elems, EE, named_app.
        assert (named m EF = []) as ->; [|apply app_nil_r]. apply named_nil. eapply Forall_impl; [|exact HN].
        intros k Hk. destruct (has_name m k) eqn:Em; [|reflexivity]. cbn beta in Hk; now rewrite (has_name_in _ _ _ Hm Em) in Hk. }
      pose proof (below_self _ _ H) as Hrt.
      split; intros X.
      + inversion X as [|id' ident' root' nss' fs' ? ? ? ? ? ? ? En' FH|]; subst; [|congruence].
        rewrite En in En'. injection En' as <- <- <- <-. rewrite Hunc in FH.
        destruct (flat_out _ _ _ _ _ _ _ _ Hrt Hc Hfl HF FH) as (A1 & A2 & A3 & A4).
        pose proof (combine3 _ _ _ _ Hc (Hel A2) Hat) as Hcomb.
        eapply su_struct; [exact En| |exact A1]. eapply merge; eauto.
      + inversion X as [|id' ident' root' nss' fs' ? En' FS Hlen| |]; subst.
        rewrite En in En'. injection En' as <- <- <- <-.
        pose proof (flat_free _ _ _ _ _ _ Hc Hfl HF FS) as A2.
        pose proof (combine3 _ _ _ _ Hc (Hel A2) Hat) as Hcomb.
        eapply reads_struct; [exact En|]. rewrite Hunc, free_all by (eauto using shown_elems).
        eapply flat_in; eauto. eapply merge_back; eauto.
    - (* enum *)
      assert (Hb : forall i' x, VEnum i p = VEnum i' (Some x) -> below rt x).
      { intros i' x [= _ E]. eauto. }
      assert (exists id ident root nss ws sk, t = ERef id /\ env id = Some (TDEnum ident root nss ws sk)) as (id & ident & root & nss & ws & sk & -> & En).
      { inversion C; subst; do 6 eexists; eauto. }
      inversion Sh as [n' attrs' kids' name a2 ns p' K pe E1 E2 E3 E4]; subst.
      rewrite all_telems in E3 by (eapply enum_elem; eauto).
      rewrite <- (enum_rt _ _ _ _ _ _ _ _ _ _ En Hb C E3), choice_elems. split.
      + intros X. inversion X as [| |id' ident' root' nss' ws' sk' ? ? ? ? ? ? ? En' Ch]; subst.
        rewrite En in En'. injection En' as <- <- <- <- <-. exact Ch.
      + intros X. eapply reads_enum; eauto.
    - (* skipped *)
      assert (exists id ident root nss ws sk, t = ERef id /\ env id = Some (TDEnum ident root nss ws sk)) as (id & ident & root & nss & ws & sk & -> & En).
      { inversion C; subst; do 6 eexists; eauto. }
      split; intros X; inversion X; subst.
      match goal with H : choice _ _ _ VSkipped |- _ => inversion H end.
    - inversion C.
    - inversion C.
    - inversion C.
  Qed.
End RT.
