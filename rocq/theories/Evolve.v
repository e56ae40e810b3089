(** Compatible changes of types, on [reads]. *)
From Verif Require Import Base Normalize Text Find FindProofs Types Reader ReaderSpec ReaderProofs DeSpec DeDet DeriveDe DeProps DSerSpec
  DSerProofs EvolveSpec.
From Coq Require Import Lia.

Section Evolve.
  Context (o : oracles) (env env' : tenv) (new : list xname) (fill : field -> value -> Prop).
  Notation is_new := (is_new new).
  Notation up := (up env env' new fill).
  Notation R := (reads o env).
  Notation R' := (reads o env').

  Lemma name_in_spec' ns c : name_in ns c = true <-> exists n, In n ns /\ has_name n c = true.
  Proof. unfold name_in. apply existsb_exists. Qed.

  Lemma name_in_false ns c : name_in ns c = false <-> forall n, In n ns -> has_name n c = false.
  Proof.
    split.
    - intros H n Hn. destruct (has_name n c) eqn:E; [|reflexivity]. rewrite <- H. symmetry. apply name_in_spec'. eauto.
    - intros H. destruct (name_in ns c) eqn:E; [|reflexivity]. apply name_in_spec' in E as (n & Hn & E). now rewrite H in E.
  Qed.

  Lemma has_name_unique n m c : has_name n c = true -> has_name m c = true -> n = m.
  Proof. destruct c; cbn; try discriminate. rewrite !xn_eqb_eq. congruence. Qed.

  Lemma name_in_app a b c : name_in (a ++ b) c = name_in a c || name_in b c.
  Proof. apply existsb_app. Qed.

  (** ** Old documents *)

  Definition good (c : node) : Prop := forall t v, R t c v -> exists v', R' t c v' /\ up t v v'.

  Lemma Forall2_up t cs vs : Forall good cs -> Forall2 (R t) cs vs -> exists vs', Forall2 (R' t) cs vs' /\ Forall2 (up t) vs vs'.
  Proof.
    intros G H. induction H as [|c v cs vs Hc _ IH]; [exists []; auto|]. inversion G as [|? ? Gc Gs]; subst.
    destruct (IH Gs) as (vs' & H1 & H2). destruct (Gc t v Hc) as (v' & H3 & H4). exists (v' :: vs'). auto.
  Qed.

  Lemma occurs_up t k k' cs v : Forall good cs -> widens k k' -> occurs (R t) k cs v ->
    exists v' l l', occurs (R' t) k' cs v' /\ items k v l /\ items k' v' l' /\ Forall2 (up t) l l'.
  Proof.
    intros G W H. inversion H as [c u HR|c u HR|cs' us Hne HR]; subst.
    - destruct (Forall_inv G t v HR) as (u' & H1 & H2).
      inversion W; subst; eexists _, [v], [u']; (split; [|split; [constructor|split; [constructor|auto]]]);
        [now constructor|now constructor|constructor; [discriminate|auto]].
    - destruct (Forall_inv G t u HR) as (u' & H1 & H2).
      inversion W; subst; eexists _, [u], [u']; (split; [|split; [constructor|split; [constructor|auto]]]);
        [now constructor|constructor; [discriminate|auto]].
    - destruct (Forall2_up t cs us G HR) as (us' & H1 & H2). inversion W; subst.
      exists (VVec us'), us, us'. split; [now constructor|]. split; [constructor|]. split; [constructor|assumption].
  Qed.

  Definition fresh (kids : list node) : Prop := Forall (fun c => name_in new c = false) kids.

  Lemma fresh_named n kids : fresh kids -> In n new -> named n kids = [].
  Proof.
    intros F Hn. unfold named. induction F as [|c kids Hc _ IH]; cbn; [reflexivity|]. rewrite name_in_false in Hc. now rewrite (Hc n Hn).
  Qed.

  Lemma fresh_attr n attrs : Forall (fun a => ~ In (from_xml_name (a_name a)) new) attrs -> In n new -> attr_values n attrs = [].
  Proof.
    intros F Hn. unfold attr_values. induction F as [|a attrs Ha _ IH]; cbn; [reflexivity|].
    destruct (xn_eqb (from_xml_name (a_name a)) n) eqn:E; [|assumption]. apply xn_eqb_eq in E. congruence.
  Qed.

  Lemma keep_field attrs kids f f' v : Forall good kids -> field_evolves new f f' ->
    (forall v, absent f v -> exists v', absent f' v' /\ field_up up f f' v v') ->
    field_holds o R attrs kids f v -> exists v', field_holds o R' attrs kids f' v' /\ field_up up f f' v v'.
  Proof.
    intros G (EN & _ & HM) HA H.
    inversion H as [k t u M HO|k t u M HN HB|opt t s x M HV HP|opt t u M HN HB]; subst; rewrite M in HM; inversion HM as [? k' ? W E1 E2|? opt' ? W E1 E2|]; subst.
    - destruct (occurs_up t k k' _ v (Forall_filter _ (has_name (expanded (f_name f))) _ G) W HO) as (v' & l & l' & H1 & H2 & H3 & H4).
      exists v'. split; [eapply fh_element; [eauto|]; now rewrite <- EN|]. eapply fu_element; eauto.
    - destruct (HA v HB) as (v' & A' & U). exists v'. split; [|assumption]. eapply fh_no_element; eauto. now rewrite <- EN.
    - eexists. split; [eapply fh_attribute; eauto; rewrite <- EN; exact HV|]. eapply fu_attribute; eauto.
    - destruct (HA v HB) as (v' & A' & U). exists v'. split; [|assumption]. eapply fh_no_attribute; eauto. now rewrite <- EN.
  Qed.

  Lemma new_field attrs kids f' : fresh kids -> Forall (fun a => ~ In (from_xml_name (a_name a)) new) attrs ->
    is_new (f_name f') -> (is_element f' || is_attribute f') = true -> (exists v, absent f' v) ->
    exists v', field_holds o R' attrs kids f' v' /\ absent f' v'.
  Proof.
    intros F FA HN HF (v & HA). exists v. split; [|assumption]. unfold is_element, is_attribute in HF.
    destruct (f_mode f') as [k t|opt t|id|t] eqn:M; try discriminate.
    - eapply fh_no_element; eauto. now apply fresh_named.
    - eapply fh_no_attribute; eauto. now apply fresh_attr.
  Qed.

  (** Names of variants *)

  Lemma variants_names ws ws' c : variants_evolve new ws ws' -> name_in new c = false ->
    name_in (variant_names ws') c = name_in (variant_names ws) c.
  Proof.
    intros [V1 V2] Hc. apply eq_true_iff_eq. rewrite !name_in_spec'. split; intros (n & Hn & E).
    - apply in_map_iff in Hn as (w' & <- & Hw'). destruct (V2 w' Hw') as [N|N]; [|eauto].
      rewrite name_in_false in Hc. rewrite (Hc _ N) in E. discriminate.
    - apply in_map_iff in Hn as (w & <- & Hw). destruct (V1 w Hw) as (_ & w' & Hw' & EN & _). rewrite EN in E.
      exists (expanded (v_name w')). split; [|assumption]. apply in_map_iff. eauto.
  Qed.

  Lemma fresh_filter ws ws' l : variants_evolve new ws ws' -> fresh l ->
    filter (name_in (variant_names ws')) l = filter (name_in (variant_names ws)) l.
  Proof.
    intros V F. apply filter_ext_in. intros c Hc. apply variants_names; [assumption|]. unfold fresh in F. rewrite Forall_forall in F. auto.
  Qed.

  Lemma fresh_before ws ws' l : variants_evolve new ws ws' -> fresh l ->
    before_first (variant_names ws') l = before_first (variant_names ws) l.
  Proof.
    intros V F. induction F as [|c l Hc _ IH]; cbn; [reflexivity|]. rewrite (variants_names ws ws' c V Hc). now rewrite IH.
  Qed.

  Lemma sorted_at ws w : In w ws -> exists i, nth_error (sorted_variants ws) i = Some w.
  Proof.
    intros H. apply In_nth_error. eapply Permutation.Permutation_in; [apply Permutation.Permutation_sym, sort_perm|exact H].
  Qed.

  Lemma sorted_in' ws i w : nth_error (sorted_variants ws) i = Some w -> In w ws.
  Proof. intros H. apply nth_error_In in H. eapply Permutation.Permutation_in; [apply sort_perm|exact H]. Qed.

  Lemma choice_up id i r n ws sk i' r' n' ws' sk' l v : env id = Some (TDEnum i r n ws sk) -> env' id = Some (TDEnum i' r' n' ws' sk') ->
    variants_evolve new ws ws' -> Forall good l -> fresh l -> choice R ws l v ->
    exists v', choice R' ws' l v' /\ up (ERef id) v v'.
  Proof.
    intros E E' V G F H. inversion H as [j w Hj HT HF HN|j w k t x Hj HT HN HO]; subst.
    - destruct (proj1 V w (sorted_in' _ _ _ Hj)) as (_ & w' & Hw' & EN & HP). rewrite HT in HP. inversion HP as [Y|]; subst.
      destruct (sorted_at _ _ Hw') as (j' & Hj'). exists (VEnum j' None). split.
      + eapply choice_unit; eauto; rewrite (fresh_filter _ _ _ V F); [assumption|]. now rewrite <- EN.
      + eapply up_unit; eauto.
    - destruct (proj1 V w (sorted_in' _ _ _ Hj)) as (_ & w' & Hw' & EN & HP). rewrite HT in HP. inversion HP as [|? k' ? W E1 Y]; subst.
      destruct (sorted_at _ _ Hw') as (j' & Hj').
      destruct (occurs_up t k k' _ x (Forall_filter _ (has_name (expanded (v_name w))) _ G) W HO) as (x' & lx & lx' & H1 & H2 & H3 & H4).
      exists (VEnum j' (Some x')). split.
      + eapply choice_field; eauto; [rewrite (fresh_filter _ _ _ V F)|]; now rewrite <- EN.
      + eapply up_payload; eauto.
  Qed.

  (** ** Structs *)

  Lemma element_names fs fs' c : fields_evolve new fs fs' -> name_in new c = false ->
    name_in (field_names is_element fs') c = name_in (field_names is_element fs) c.
  Proof.
    intros H Hc. unfold field_names. induction H as [|f f' fs fs' (EN & _ & M) _ IH|f' fs fs' HN HF HA _ IH]; cbn [filter map]; [reflexivity| |].
    - assert (is_element f' = is_element f) as -> by (unfold is_element; now destruct M).
      destruct (is_element f); [|assumption]. cbn [map]. change (?a :: ?l) with ([a] ++ l). rewrite !name_in_app, IH. now rewrite EN.
    - destruct (is_element f'); [|assumption]. cbn [map]. rewrite <- IH.
      match goal with |- name_in (?a :: ?l) c = _ => change (name_in (a :: l) c) with (has_name a c || name_in l c) end.
      rewrite name_in_false in Hc. now rewrite (Hc _ HN).
  Qed.

  Lemma unclaimed_eq fs fs' kids : fields_evolve new fs fs' -> fresh kids -> unclaimed fs' kids = unclaimed fs kids.
  Proof.
    intros H F. unfold unclaimed. apply filter_ext_in. intros c Hc. unfold fresh in F. rewrite Forall_forall in F.
    now rewrite (element_names fs fs' c H (F c Hc)).
  Qed.

  Hypothesis EV : evolves env env' new.

  Lemma flatten_evolves id i r n ws sk : env id = Some (TDEnum i r n ws sk) ->
    exists i' r' n' ws' sk', env' id = Some (TDEnum i' r' n' ws' sk') /\ variants_evolve new ws ws'.
  Proof.
    intros E. destruct (EV id _ E) as (d' & E' & D). destruct d' as [|i' r' n' ws' sk']; [destruct D|]. exists i', r', n', ws', sk'. auto.
  Qed.

  Lemma fields_old attrs kids : Forall good kids -> fresh kids -> Forall (fun a => ~ In (from_xml_name (a_name a)) new) attrs ->
    (forall f v, absent f v -> fill f v) ->
    forall fs fs', fields_evolve new fs fs' ->
    (forall f f', kept new fs fs' f f' -> forall v, absent f v -> exists v', absent f' v' /\ field_up up f f' v v') ->
    forall l vs, incl l kids -> fields_hold o env R attrs kids l fs vs ->
    exists vs', fields_hold o env' R' attrs kids l fs' vs' /\ fields_up new fill up fs fs' vs vs'.
  Proof.
    intros G F FA HFill fs fs' H. induction H as [|f f' fs fs' FE _ IH|f' fs fs' HN HF HA _ IH]; intros D l vs L HH.
    - inversion HH; subst. exists []. split; constructor.
    - assert (D' : forall g g', kept new fs fs' g g' -> forall v, absent g v -> exists v', absent g' v' /\ field_up up g g' v v').
      { intros g g' K. apply D. apply ke_keep; [apply FE|assumption]. }
      inversion HH as [|? ? ? v ? NF HV HT|? ? ? id i r n ws sk v ? M E HC HT]; subst.
      + destruct (IH D' l _ L HT) as (vs' & H1 & H2).
        destruct (keep_field attrs kids f f' v G FE) as (v' & H3 & H4); [apply D, ke_here, FE|assumption|].
        exists (v' :: vs'). split.
        * apply fhs_own; auto. destruct FE as (_ & _ & ME). unfold is_flatten in *. destruct ME; auto.
        * apply fsu_keep; auto. apply FE.
      + destruct (flatten_evolves _ _ _ _ _ _ E) as (i' & r' & n' & ws' & sk' & E' & V).
        assert (fresh l) as FL by (eapply Forall_incl'; eauto).
        destruct (IH D' _ _ (incl_tran (before_first_incl _ _) L) HT) as (vs' & H1 & H2).
        destruct (choice_up _ _ _ _ _ _ _ _ _ _ _ l v E E' V (Forall_incl' _ _ _ L G) FL HC) as (v' & H3 & H4).
        exists (v' :: vs'). destruct FE as (_ & NN & ME). rewrite M in ME. inversion ME as [| |? E1 E2]; subst. split.
        * eapply fhs_flatten; eauto. now rewrite (fresh_before _ _ _ V FL).
        * apply fsu_keep; auto. eapply fu_flatten; eauto.
    - destruct (IH (fun g g' K => D g g' (ke_new _ _ _ _ _ _ HN K)) l vs L HH) as (vs' & H1 & H2).
      destruct (new_field attrs kids f' F FA HN HF HA) as (v' & H3 & H4). exists (v' :: vs'). split.
      + apply fhs_own; auto. unfold is_element, is_attribute, is_flatten in *. destruct (f_mode f'); auto.
      + apply fsu_new; auto.
  Qed.

  Theorem old_reads : (forall f v, absent f v -> fill f v) -> defaults_kept env env' new fill ->
    forall n, free_of new n -> good n.
  Proof.
    intros HFill DK n. induction n as [name attrs ns p kids pe IH| | |] using node_ind'; intros HF t v H; try now inversion H.
    inversion HF as [? ? ? ? ? ? FA FK FS| | |]; subst.
    assert (G : Forall good kids). { rewrite Forall_forall in *. auto. }
    inversion H as [? ? ? ? ? ? ? x HE HP|id i r m fs ? ? ? ? ? ? vs E HH|id i r m ws sk ? ? ? ? ? ? ? E HC]; subst.
    - exists (VText x). split; [now constructor|constructor].
    - destruct (EV id _ E) as (d' & E' & D). destruct d' as [i' r' m' fs'|]; [|destruct D]. cbn in D.
      destruct (fields_old attrs kids G FK FA HFill fs fs' D (DK _ _ _ _ _ _ _ _ _ E E') _ _ (fun c Hc => proj1 (proj1 (filter_In _ _ _) Hc)) HH)
        as (vs' & H1 & H2).
      exists (VStruct vs'). split; [|eapply up_struct; eauto]. eapply reads_struct; eauto. now rewrite (unclaimed_eq fs fs' kids D FK).
    - destruct (flatten_evolves _ _ _ _ _ _ E) as (i' & r' & m' & ws' & sk' & E' & V).
      destruct (choice_up _ _ _ _ _ _ _ _ _ _ _ kids v E E' V G FK HC) as (v' & H3 & H4).
      exists v'. split; [|assumption]. eapply reads_enum; eauto.
  Qed.

  (** ** New documents *)

  Definition old (c : node) : Prop := forall t v v', R' t c v' -> up t v v' -> R t c v.

  Lemma Forall2_down t cs us us' : Forall old cs -> Forall2 (R' t) cs us' -> Forall2 (up t) us us' -> Forall2 (R t) cs us.
  Proof.
    intros G H. revert us. induction H as [|c u' cs us' Hc _ IH]; intros us U; inversion U; subst; constructor;
      inversion G as [|? ? Gc Gs]; subst; eauto.
  Qed.

  Lemma occurs_down t k k' cs v v' l l' : Forall old cs -> occurs (R' t) k' cs v' -> items k v l -> items k' v' l' ->
    Forall2 (up t) l l' -> occurs (R t) k cs v.
  Proof.
    intros G H I I' U.
    assert (H' : cs <> [] /\ Forall2 (R' t) cs l').
    { inversion H; subst; inversion I'; subst; (split; [try discriminate; assumption|]); auto. }
    destruct H' as [Hne H']. pose proof (Forall2_down t cs l l' G H' U) as D.
    inversion I; subst; inversion D as [|c ? cs1 ? Hc Hn]; subst; try congruence; try (inversion Hn; subst); try (now constructor).
  Qed.

  Lemma field_down attrs kids f f' v v' : Forall old kids -> expanded (f_name f) = expanded (f_name f') ->
    (absent f' v' -> absent f v) -> field_up up f f' v v' -> field_holds o R' attrs kids f' v' -> field_holds o R attrs kids f v.
  Proof.
    intros G EN HA U H.
    inversion H as [k' t' u' M' HO|k' t' u' M' HN HB|opt' t' s x M' HV HP|opt' t' u' M' HN HB]; subst;
      inversion U as [k k2 t w w' l l' M M2 I I' F2|opt opt2 t y M M2 E1 E2|t M M2 E1 E2|id w w' M M2 HU]; subst; try congruence.
    - rewrite M' in M2. injection M2 as <- <-. eapply fh_element; [exact M|]. rewrite EN.
      eapply occurs_down; eauto. apply Forall_filter. assumption.
    - eapply fh_no_element; [exact M|rewrite EN; exact HN|auto].
    - rewrite M' in M2. injection M2 as <- <-. assert (y = x) as -> by (destruct opt'; congruence).
      eapply fh_attribute; [exact M|rewrite EN; exact HV|assumption].
    - rewrite M' in M2. injection M2 as -> ->. discriminate.
    - eapply fh_no_attribute; [exact M|rewrite EN; exact HN|auto].
    - eapply fh_no_attribute; [exact M|rewrite EN; exact HN|auto].
  Qed.

  (** Two lists of children with the same old names. *)
  Definition not_new (c : node) : bool := negb (name_in new c).
  Definition same_old (l l' : list node) : Prop := filter not_new l = filter not_new l'.

  Lemma not_new_name n c : ~ In n new -> has_name n c = true -> not_new c = true.
  Proof.
    intros Hn E. unfold not_new. apply negb_true_iff, name_in_false. intros m Hm. destruct (has_name m c) eqn:E'; [|reflexivity].
    rewrite (has_name_unique _ _ _ E E') in Hn. contradiction.
  Qed.

  Lemma filter_filter_in {A} (f g : A -> bool) l : (forall x, In x l -> f x = true -> g x = true) -> filter f (filter g l) = filter f l.
  Proof.
    induction l as [|x l IH]; intros H; cbn; [reflexivity|]. pose proof (H x (or_introl eq_refl)) as Hx.
    assert (IH' : filter f (filter g l) = filter f l) by (apply IH; intros y Hy; apply H; now right).
    destruct (f x) eqn:E; [rewrite Hx by reflexivity; cbn; now rewrite E, IH'|].
    destruct (g x); cbn; [now rewrite E|assumption].
  Qed.

  Lemma same_named n l l' : same_old l l' -> ~ In n new -> named n l = named n l'.
  Proof.
    intros S Hn. unfold named. rewrite <- (filter_filter_in (has_name n) not_new l), <- (filter_filter_in (has_name n) not_new l').
    - now rewrite S.
    - intros c _. now apply not_new_name.
    - intros c _. now apply not_new_name.
  Qed.

  Lemma same_in l l' c : same_old l l' -> not_new c = true -> In c l -> In c l'.
  Proof.
    intros S N H. assert (In c (filter not_new l)) as HI by (apply filter_In; auto). rewrite S in HI. now apply filter_In in HI.
  Qed.

  (** All children of the new list that name a variant name the same old one. *)
  Lemma only_variant ws ws' w w' l l' : variants_evolve new ws ws' -> In w ws -> expanded (v_name w) = expanded (v_name w') ->
    same_old l l' -> filter (name_in (variant_names ws')) l' = named (expanded (v_name w')) l' ->
    (forall c, In c l -> name_in (variant_names ws) c = has_name (expanded (v_name w)) c) /\
    (forall c, In c l' -> name_in (variant_names ws') c = has_name (expanded (v_name w)) c).
  Proof.
    intros V Hw EN S HF.
    assert (H' : forall c, In c l' -> name_in (variant_names ws') c = has_name (expanded (v_name w)) c).
    { intros c Hc. apply eq_true_iff_eq. rewrite EN. split; intros E.
      - assert (In c (named (expanded (v_name w')) l')) as HI by (rewrite <- HF; apply filter_In; auto). now apply filter_In in HI.
      - assert (In c (filter (name_in (variant_names ws')) l')) as HI by (rewrite HF; apply filter_In; auto). now apply filter_In in HI. }
    split; [|assumption]. intros c Hc. apply eq_true_iff_eq. split; intros E.
    - apply name_in_spec' in E as (n & Hn & E). apply in_map_iff in Hn as (w2 & <- & Hw2).
      destruct (proj1 V w2 Hw2) as (N2 & w2' & Hw2' & EN2 & _).
      rewrite <- H'; [|eapply same_in; eauto; eapply not_new_name; eauto]. apply name_in_spec'.
      exists (expanded (v_name w2')). split; [apply in_map_iff; eauto|]. now rewrite <- EN2.
    - apply name_in_spec'. exists (expanded (v_name w)). split; [apply in_map_iff; eauto|assumption].
  Qed.

  Lemma before_ext a b l : (forall c, In c l -> name_in a c = name_in b c) -> before_first a l = before_first b l.
  Proof.
    induction l as [|c l IH]; intros H; cbn; [reflexivity|]. rewrite (H c (or_introl eq_refl)).
    destruct (name_in b c); [reflexivity|]. f_equal. apply IH. intros; apply H; now right.
  Qed.

  Lemma before_not_new n l : ~ In n new -> filter not_new (before_first [n] l) = before_first [n] (filter not_new l).
  Proof.
    intros Hn. induction l as [|c l IH]; [reflexivity|]. cbn [before_first filter].
    destruct (name_in [n] c) eqn:E.
    - assert (has_name n c = true) as E' by (cbn in E; now rewrite orb_false_r in E).
      rewrite (not_new_name n c Hn E'). cbn [before_first]. now rewrite E.
    - cbn [filter]. destruct (not_new c); cbn [before_first]; [rewrite E; now rewrite IH|assumption].
  Qed.

  Lemma same_before ws ws' w w' l l' : variants_evolve new ws ws' -> In w ws -> expanded (v_name w) = expanded (v_name w') ->
    same_old l l' -> filter (name_in (variant_names ws')) l' = named (expanded (v_name w')) l' ->
    same_old (before_first (variant_names ws) l) (before_first (variant_names ws') l').
  Proof.
    intros V Hw EN S HF. destruct (only_variant ws ws' w w' l l' V Hw EN S HF) as [H1 H2].
    pose proof (proj1 (proj1 V w Hw)) as N. unfold same_old.
    rewrite (before_ext _ [expanded (v_name w)] l), (before_ext _ [expanded (v_name w)] l').
    - rewrite !before_not_new by exact N. now rewrite S.
    - intros c Hc. rewrite (H2 c Hc). cbn. now rewrite orb_false_r.
    - intros c Hc. rewrite (H1 c Hc). cbn. now rewrite orb_false_r.
  Qed.

  Lemma choice_down id i r n ws sk i' r' n' ws' sk' l l' v v' : env id = Some (TDEnum i r n ws sk) ->
    env' id = Some (TDEnum i' r' n' ws' sk') -> variants_evolve new ws ws' -> Forall old l -> same_old l l' ->
    choice R' ws' l' v' -> up (ERef id) v v' ->
    choice R ws l v /\ same_old (before_first (variant_names ws) l) (before_first (variant_names ws') l').
  Proof.
    intros E E' V G S H U.
    inversion U as [| |? ? ? ? ws1 ? ? ? ? ws1' ? j j' w w' E1 E1' Hj Hj' EN HT HT'
      |? ? ? ? ws1 ? ? ? ? ws1' ? j j' w w' k k' t p p' lp lp' E1 E1' Hj Hj' EN HT HT' I I' F2]; subst; try congruence;
      rewrite E in E1; injection E1 as <- <- <- <- <-; rewrite E' in E1'; injection E1' as <- <- <- <- <-;
      inversion H as [j2 w2 Hj2 HT2 HF HN|j2 w2 k2 t2 x Hj2 HT2 HN HO]; subst; rewrite Hj' in Hj2; injection Hj2 as <-;
      pose proof (sorted_in' _ _ _ Hj) as Hw; pose proof (proj1 (proj1 V w Hw)) as N;
      (split; [|eapply same_before; eauto]); destruct (only_variant ws ws' w w' l l' V Hw EN S HN) as [H1 H2].
    - eapply choice_unit; eauto.
      + rewrite (filter_ext_in _ _ _ H1). change (named (expanded (v_name w)) l <> []).
        rewrite (same_named _ _ _ S N), EN, <- HN. assumption.
      + exact (filter_ext_in _ _ _ H1).
    - rewrite HT' in HT2. injection HT2 as <- <-. eapply choice_field; eauto.
      + exact (filter_ext_in _ _ _ H1).
      + rewrite (same_named _ _ _ S N). rewrite EN. eapply occurs_down; eauto. rewrite <- EN, <- (same_named _ _ _ S N). now apply Forall_filter.
  Qed.

  Lemma unclaimed_same fs fs' kids : fields_evolve new fs fs' -> same_old (unclaimed fs kids) (unclaimed fs' kids).
  Proof.
    intros H. unfold same_old, unclaimed. induction kids as [|c kids IH]; [reflexivity|]. cbn [filter].
    destruct (not_new c) eqn:N.
    - assert (name_in new c = false) as N' by (unfold not_new in N; now apply negb_true_iff in N).
      rewrite (element_names fs fs' c H N'). destruct (is_elem c && _); cbn [filter]; [rewrite N; now rewrite IH|assumption].
    - assert (SK : forall b : bool, filter not_new (if b then c :: filter (fun k => is_elem k && negb (name_in (field_names is_element fs) k)) kids
          else filter (fun k => is_elem k && negb (name_in (field_names is_element fs) k)) kids) =
        filter not_new (filter (fun k => is_elem k && negb (name_in (field_names is_element fs) k)) kids))
        by (intros []; [cbn [filter]; now rewrite N|reflexivity]).
      assert (SK' : forall b : bool, filter not_new (if b then c :: filter (fun k => is_elem k && negb (name_in (field_names is_element fs') k)) kids
          else filter (fun k => is_elem k && negb (name_in (field_names is_element fs') k)) kids) =
        filter not_new (filter (fun k => is_elem k && negb (name_in (field_names is_element fs') k)) kids))
        by (intros []; [cbn [filter]; now rewrite N|reflexivity]).
      now rewrite SK, SK'.
  Qed.

  Lemma fields_new attrs kids : Forall old kids -> forall fs fs', fields_evolve new fs fs' ->
    (forall f f', kept new fs fs' f f' -> forall v v', field_up up f f' v v' -> absent f' v' -> absent f v) ->
    forall l l' vs vs', incl l kids -> same_old l l' -> fields_hold o env' R' attrs kids l' fs' vs' -> fields_up new fill up fs fs' vs vs' ->
    fields_hold o env R attrs kids l fs vs.
  Proof.
    intros G fs fs' H. induction H as [|f f' fs fs' FE _ IH|f' fs fs' HN HF HA _ IH]; intros D l l' vs vs' L S HH U.
    - inversion U; subst. constructor.
    - assert (D' : forall g g', kept new fs fs' g g' -> forall v v', field_up up g g' v v' -> absent g' v' -> absent g v).
      { intros g g' K. apply D. apply ke_keep; [apply FE|assumption]. }
      destruct FE as (EN & NN & ME).
      inversion U as [|? ? ? ? v v' vs1 vs1' _ FU US|? ? ? v' ? vs1' HN _ US]; subst; [|contradiction].
      inversion HH as [|? ? ? ? ? NF HV HT|? ? ? id i' r' n' ws' sk' ? ? M' E' HC HT]; subst.
      + apply fhs_own; [|eapply field_down; eauto; apply (D f f' (ke_here _ _ _ _ _ NN)); assumption|eapply IH; eauto].
        unfold is_flatten in *. destruct ME; auto.
      + inversion FU as [? ? ? ? ? ? ? M M2|? ? ? ? M M2|? M M2|id2 ? ? M M2 HU]; subst; try congruence.
        rewrite M' in M2. injection M2 as <-.
        assert (exists i r n ws sk, env id = Some (TDEnum i r n ws sk)) as (i & r & n & ws & sk & E)
          by (inversion HU; subst; eauto 8; congruence).
        destruct (flatten_evolves _ _ _ _ _ _ E) as (i2 & r2 & n2 & ws2 & sk2 & E2 & V). rewrite E' in E2. injection E2 as <- <- <- <- <-.
        destruct (choice_down _ _ _ _ _ _ _ _ _ _ _ l l' v v' E E' V (Forall_incl' _ _ _ L G) S HC HU) as [H1 H2].
        eapply fhs_flatten; eauto. eapply IH; eauto. eapply incl_tran; [apply before_first_incl|assumption].
    - inversion U as [|? ? ? ? v v' vs1 vs1' NN FU US|? ? ? v' ? vs1' _ _ US]; subst; [contradiction|].
      assert (D' : forall g g', kept new fs fs' g g' -> forall v v', field_up up g g' v v' -> absent g' v' -> absent g v)
        by (intros g g' K; apply D; now apply ke_new).
      inversion HH as [|? ? ? ? ? NF HV HT|? ? ? id i' r' n' ws' sk' ? ? M' E' HC HT]; subst.
      + eapply IH; eauto.
      + unfold is_element, is_attribute in HF. rewrite M' in HF. discriminate.
  Qed.

  Theorem new_reads : defaults_old env env' new fill -> forall n, old n.
  Proof.
    intros DO n. induction n as [name attrs ns p kids pe IH| | |] using node_ind'; intros t v v' H U; try now inversion H.
    inversion H as [? ? ? ? ? ? ? x HE HP|id i' r' m' fs' ? ? ? ? ? ? vs' E' HH|id i' r' m' ws' sk' ? ? ? ? ? ? ? E' HC]; subst.
    - inversion U; subst. now constructor.
    - inversion U as [|? i r m fs ? ? ? ? vs ? E E2 FU| |]; subst.
      destruct (EV id _ E) as (d' & E3 & D). rewrite E' in E3. injection E3 as <-. cbn in D.
      rewrite E' in E2. injection E2 as <- <- <- <-.
      eapply reads_struct; eauto. eapply (fields_new attrs kids IH fs fs' D (DO _ _ _ _ _ _ _ _ _ E E')); eauto using unclaimed_same.
      intros c Hc. unfold unclaimed in Hc. now apply filter_In in Hc.
    - assert (exists i r n ws sk, env id = Some (TDEnum i r n ws sk)) as (i & r & n & ws & sk & E)
        by (inversion U; subst; eauto 8; congruence).
      destruct (flatten_evolves _ _ _ _ _ _ E) as (i2 & r2 & n2 & ws2 & sk2 & E2 & V). rewrite E' in E2. injection E2 as <- <- <- <- <-.
      eapply reads_enum; eauto. eapply choice_down; eauto. reflexivity.
  Qed.
End Evolve.
