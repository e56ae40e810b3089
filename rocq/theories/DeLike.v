(** What [reads] depends on: when two elements read the same as a given type. *)
From Coq Require Import Permutation.
From Verif Require Import Base Normalize Text Find FindProofs Types Reader ReaderSpec ReaderProofs
  DeriveDe DeSpec DeProofs DeDet.

(** ** Definitions used in statements *)

(** Names (and, for variants that hold something, their types) of the variants of the flattened
    fields. *)
Definition flat_names (env : tenv) (fs : list field) : list xname :=
  flat_map (fun f => match f_mode f with
                     | MFlatten id => match env id with
                                      | Some (TDEnum _ _ _ vs _) => variant_names vs
                                      | _ => []
                                      end
                     | _ => []
                     end) fs.

Definition variant_entries (vs : list variant) : list (xname * ety) :=
  flat_map (fun v => match v_ty v with Some (_, t) => [(expanded (v_name v), t)] | None => [] end) vs.

Definition flat_entries (env : tenv) (fs : list field) : list (xname * ety) :=
  flat_map (fun f => match f_mode f with
                     | MFlatten id => match env id with
                                      | Some (TDEnum _ _ _ vs _) => variant_entries vs
                                      | _ => []
                                      end
                     | _ => []
                     end) fs.

Definition same_name (c1 c2 : node) : Prop := forall n, has_name n c1 = has_name n c2.

(** [like t n1 n2]: the elements [n1] and [n2] agree in everything type [t] knows about, at every
    depth: for each field, the children (or attribute values) with its name; for the enums, the
    children naming a variant.  Nothing is said about other attributes and children, about text in
    derived types, about prefixes, or about the relative order of children for different fields. *)
Inductive like (env : tenv) : ety -> node -> node -> Prop :=
| like_text : forall t name1 attrs1 ns1 p1 k1 pe1 name2 attrs2 ns2 p2 k2 pe2,
    existsb is_elem k1 = existsb is_elem k2 -> text_of k1 = text_of k2 ->
    like env (EText t) (NElem name1 attrs1 ns1 p1 k1 pe1) (NElem name2 attrs2 ns2 p2 k2 pe2)
| like_struct : forall id ident root nss fs name1 attrs1 ns1 p1 k1 pe1 name2 attrs2 ns2 p2 k2 pe2,
    env id = Some (TDStruct ident root nss fs) ->
    (forall n, In n (field_names is_attribute fs) -> attr_values n attrs1 = attr_values n attrs2) ->
    (forall f k t, In f fs -> f_mode f = MElement k t ->
       Forall2 (like env t) (named (expanded (f_name f)) k1) (named (expanded (f_name f)) k2)) ->
    Forall2 (fun c1 c2 => same_name c1 c2 /\
               forall n t, In (n, t) (flat_entries env fs) -> has_name n c1 = true -> like env t c1 c2)
      (filter (name_in (flat_names env fs)) (unclaimed fs k1))
      (filter (name_in (flat_names env fs)) (unclaimed fs k2)) ->
    like env (ERef id) (NElem name1 attrs1 ns1 p1 k1 pe1) (NElem name2 attrs2 ns2 p2 k2 pe2)
| like_enum : forall id ident root nss vs sk name1 attrs1 ns1 p1 k1 pe1 name2 attrs2 ns2 p2 k2 pe2,
    env id = Some (TDEnum ident root nss vs sk) ->
    Forall2 (fun c1 c2 => same_name c1 c2 /\
               forall n t, In (n, t) (variant_entries vs) -> has_name n c1 = true -> like env t c1 c2)
      (filter (name_in (variant_names vs)) k1)
      (filter (name_in (variant_names vs)) k2) ->
    like env (ERef id) (NElem name1 attrs1 ns1 p1 k1 pe1) (NElem name2 attrs2 ns2 p2 k2 pe2)
| like_unknown : forall id name1 attrs1 ns1 p1 k1 pe1 name2 attrs2 ns2 p2 k2 pe2, env id = None ->
    like env (ERef id) (NElem name1 attrs1 ns1 p1 k1 pe1) (NElem name2 attrs2 ns2 p2 k2 pe2).

(** Same document up to prefixes: expanded names, attribute values and text are the same; prefixes,
    the namespaces in scope and positions may differ.  The outermost name is free. *)
Inductive renamed : node -> node -> Prop :=
| ren_elem : forall name1 attrs1 ns1 p1 k1 pe1 name2 attrs2 ns2 p2 k2 pe2,
    Forall2 (fun a b => from_xml_name (a_name a) = from_xml_name (a_name b) /\ a_value a = a_value b)
      attrs1 attrs2 ->
    Forall2 (fun c d => same_name c d /\ renamed c d) k1 k2 ->
    renamed (NElem name1 attrs1 ns1 p1 k1 pe1) (NElem name2 attrs2 ns2 p2 k2 pe2)
| ren_text : forall c s p1 p2, renamed (NText c s p1) (NText c s p2)
| ren_misc : forall m p1 p2, renamed (NMisc m p1) (NMisc m p2)
| ren_blank : forall s p1 p2, renamed (NBlank s p1) (NBlank s p2).

(** ** Lists *)

Lemma Forall2_filter {A B} (P : A -> B -> Prop) (f : A -> bool) (g : B -> bool) l1 l2 :
  (forall a b, P a b -> f a = g b) -> Forall2 P l1 l2 -> Forall2 P (filter f l1) (filter g l2).
Proof.
  intro H. induction 1 as [|a b l1 l2 Hab _ IH]; cbn; auto.
  rewrite <- (H a b Hab). destruct (f a); auto.
Qed.

Lemma Forall2_impl_in {A B} (P Q : A -> B -> Prop) l1 l2 :
  (forall a b, In a l1 -> In b l2 -> P a b -> Q a b) -> Forall2 P l1 l2 -> Forall2 Q l1 l2.
Proof.
  intros H F. induction F as [|a b l1 l2 Hab _ IH]; constructor.
  - apply H; auto; now left.
  - apply IH. intros. apply H; auto; now right.
Qed.

Lemma Forall2_refl {A} (P : A -> A -> Prop) l : (forall a, In a l -> P a a) -> Forall2 P l l.
Proof. induction l as [|a l IH]; intro H; constructor; [apply H; now left|apply IH; intros; apply H; now right]. Qed.

Lemma filter_filter {A} (f g : A -> bool) l : (forall x, f x = true -> g x = true) ->
  filter f (filter g l) = filter f l.
Proof.
  intro H. induction l as [|x l IH]; cbn; auto. destruct (g x) eqn:E; cbn; [now rewrite IH|].
  destruct (f x) eqn:F; auto. apply H in F. congruence.
Qed.

Lemma filter_all {A} (f : A -> bool) l : filter f l = l <-> Forall (fun x => f x = true) l.
Proof.
  split.
  - intro H. rewrite <- H. apply Forall_forall. intros x Hx. now apply filter_In in Hx.
  - induction 1 as [|x l Hx _ IH]; cbn; auto. now rewrite Hx, IH.
Qed.

Lemma name_in_incl ns ms k : incl ns ms -> name_in ns k = true -> name_in ms k = true.
Proof. intro H. rewrite !name_in_spec. intros (n & Hn & E). eauto. Qed.

Lemma has_name_in n ns k : In n ns -> has_name n k = true -> name_in ns k = true.
Proof. intros. apply name_in_spec. eauto. Qed.

Lemma same_name_in c1 c2 ns : same_name c1 c2 -> name_in ns c1 = name_in ns c2.
Proof. intro H. unfold name_in. induction ns as [|n ns IH]; cbn; auto. now rewrite H, IH. Qed.

Lemma before_first_filter ns ms l : incl ns ms ->
  filter (name_in ms) (before_first ns l) = before_first ns (filter (name_in ms) l).
Proof.
  intro H. induction l as [|k l IH]; cbn; auto.
  destruct (name_in ns k) eqn:E.
  - rewrite (name_in_incl _ _ _ H E). cbn. now rewrite E.
  - cbn. destruct (name_in ms k); cbn; [rewrite E|]; now rewrite IH.
Qed.

Lemma Forall2_before_first (P : node -> node -> Prop) ns l1 l2 :
  (forall a b, P a b -> same_name a b) -> Forall2 P l1 l2 ->
  Forall2 P (before_first ns l1) (before_first ns l2).
Proof.
  intro H. induction 1 as [|a b l1 l2 Hab _ IH]; cbn; auto.
  rewrite (same_name_in a b ns (H _ _ Hab)). destruct (name_in ns b); auto.
Qed.

(** ** Transfer *)

Section Like.
  Context (o : oracles) (env : tenv).
  Notation R := (reads o env).
  Notation like := (like env).

  Definition transfers (c1 : node) : Prop := forall t c2 v, like t c1 c2 -> R t c1 v -> R t c2 v.

  Lemma occurs_like t k cs1 cs2 v : Forall transfers cs1 -> Forall2 (like t) cs1 cs2 ->
    occurs (R t) k cs1 v -> occurs (R t) k cs2 v.
  Proof.
    intros Ht HL Ho. inversion Ho as [c x Hx|c x Hx|cs vs Hne Hvs]; subst.
    - inversion HL as [|? c2 ? ? Hc Hn]; subst. inversion Hn; subst. inversion Ht; subst. constructor. eauto.
    - inversion HL as [|? c2 ? ? Hc Hn]; subst. inversion Hn; subst. inversion Ht; subst. constructor. eauto.
    - constructor. { intro; subst. inversion HL; subst. congruence. }
      clear Hne Ho. revert vs Hvs. induction HL as [|c c2 l1 l2 Hc _ IH]; intros vs Hvs; inversion Hvs; subst; auto.
      inversion Ht; subst. constructor; eauto.
  Qed.

  (** Children offered to an enum or to flattened fields, with the types [ents] of their variants. *)
  Definition offer (ents : list (xname * ety)) (c1 c2 : node) : Prop :=
    same_name c1 c2 /\ forall n t, In (n, t) ents -> has_name n c1 = true -> like t c1 c2.

  Lemma choice_form vs kids v :
    choice R vs kids v <-> choice R vs (filter (name_in (variant_names vs)) kids) v.
  Proof.
    assert (Hn : forall i v, nth_error (sorted_variants vs) i = Some v ->
      named (expanded (v_name v)) (filter (name_in (variant_names vs)) kids) = named (expanded (v_name v)) kids).
    { intros i x Hx. apply filter_filter. intros k Hk. eapply has_name_in; [|exact Hk].
      apply in_map_iff. exists x. split; auto. unfold sorted_variants in Hx.
      eapply Permutation_in; [apply sort_perm|eapply nth_error_In; eauto]. }
    assert (Hf : filter (name_in (variant_names vs)) (filter (name_in (variant_names vs)) kids) =
                 filter (name_in (variant_names vs)) kids) by (apply filter_filter; auto).
    split; intro H; inversion H as [i x Hx Hv Hne He|i x k t y Hx Hv He Ho]; subst.
    - eapply choice_unit; eauto; rewrite ?Hf, ?(Hn _ _ Hx); auto.
    - eapply choice_field; eauto; rewrite ?Hf, ?(Hn _ _ Hx); auto.
    - rewrite Hf in Hne, He. rewrite (Hn _ _ Hx) in He. eapply choice_unit; eauto.
    - rewrite Hf in He. rewrite (Hn _ _ Hx) in He, Ho. eapply choice_field; eauto.
  Qed.

  Lemma choice_like vs l1 l2 v : Forall transfers l1 ->
    Forall2 (offer (variant_entries vs)) (filter (name_in (variant_names vs)) l1)
      (filter (name_in (variant_names vs)) l2) ->
    choice R vs l1 v -> choice R vs l2 v.
  Proof.
    intros Ht HL Hc. apply choice_form. apply choice_form in Hc.
    assert (Ht' : Forall transfers (filter (name_in (variant_names vs)) l1)) by now apply Forall_filter.
    revert Ht' HL Hc. generalize (filter (name_in (variant_names vs)) l1) (filter (name_in (variant_names vs)) l2).
    clear Ht l1 l2. intros l1 l2 Ht HL Hc.
    assert (HS : forall a b, offer (variant_entries vs) a b -> same_name a b) by (intros a b []; auto).
    assert (Hall : forall n, filter (name_in (variant_names vs)) l1 = named n l1 ->
                             filter (name_in (variant_names vs)) l2 = named n l2).
    { intros n Hn. revert Hn. clear Hc. induction HL as [|a b l1 l2 Hab HL IH]; cbn; auto.
      inversion Ht; subst.
      rewrite (same_name_in a b _ (HS _ _ Hab)), (HS _ _ Hab n).
      destruct (name_in (variant_names vs) b) eqn:E1, (has_name n b) eqn:E2; intro Hn.
      - inversion Hn. f_equal. auto.
      - exfalso. assert (Hin : In a (filter (has_name n) l1)) by (rewrite <- Hn; now left).
        apply filter_In in Hin as [_ Hin]. rewrite (HS _ _ Hab n) in Hin. congruence.
      - exfalso. assert (Hin : In a (filter (name_in (variant_names vs)) l1)) by (rewrite Hn; now left).
        apply filter_In in Hin as [_ Hin]. rewrite (same_name_in a b _ (HS _ _ Hab)) in Hin. congruence.
      - auto. }
    assert (Hvin : forall i v, nth_error (sorted_variants vs) i = Some v -> In v vs).
    { intros i x Hx. eapply Permutation_in; [apply sort_perm|]. eapply nth_error_In; eauto. }
    inversion Hc as [i x Hx Hv Hne He|i x k t y Hx Hv He Ho]; subst.
    - eapply choice_unit; eauto.
      assert (F : Forall2 (offer (variant_entries vs)) (filter (name_in (variant_names vs)) l1) (filter (name_in (variant_names vs)) l2)).
      { apply Forall2_filter; auto. intros a b Hab. apply same_name_in; auto. }
      inversion F as [E1 E2|a b l1' l2' Hab HF E1 E2]; [congruence|discriminate].
    - eapply choice_field; eauto. eapply occurs_like; [apply Forall_filter; exact Ht| |exact Ho].
      assert (F : Forall2 (offer (variant_entries vs)) (named (expanded (v_name x)) l1) (named (expanded (v_name x)) l2)).
      { apply Forall2_filter; auto. intros a b [Hab _]. apply Hab. }
      eapply Forall2_impl_in; [|exact F]. intros a b Ha _ [_ Hab]. eapply (Hab (expanded (v_name x))).
      + apply in_flat_map. exists x. split; [eauto|]. rewrite Hv. now left.
      + now apply filter_In in Ha.
  Qed.

  Lemma field_holds_like attrs1 attrs2 k1 k2 f v :
    Forall transfers k1 ->
    (is_attribute f = true -> attr_values (expanded (f_name f)) attrs1 = attr_values (expanded (f_name f)) attrs2) ->
    (forall k t, f_mode f = MElement k t ->
       Forall2 (like t) (named (expanded (f_name f)) k1) (named (expanded (f_name f)) k2)) ->
    field_holds o R attrs1 k1 f v -> field_holds o R attrs2 k2 f v.
  Proof.
    intros Ht Ha Hk Hf.
    inversion Hf as [k t x Hm Ho|k t x Hm Hn Hab|opt t s x Hm Hv Hp|opt t x Hm Hn Hab]; subst.
    - eapply fh_element; eauto. eapply occurs_like; [|eauto|exact Ho]. now apply Forall_filter.
    - eapply fh_no_element; eauto. specialize (Hk k t Hm). rewrite Hn in Hk. now inversion Hk.
    - eapply fh_attribute; eauto. rewrite <- Ha; auto. unfold is_attribute. now rewrite Hm.
    - eapply fh_no_attribute; eauto. rewrite <- Ha; auto. unfold is_attribute. now rewrite Hm.
  Qed.

  Lemma fields_hold_like attrs1 attrs2 k1 k2 all fs :
    Forall transfers k1 ->
    (forall f, In f fs -> is_attribute f = true -> attr_values (expanded (f_name f)) attrs1 = attr_values (expanded (f_name f)) attrs2) ->
    (forall f k t, In f fs -> f_mode f = MElement k t ->
       Forall2 (like t) (named (expanded (f_name f)) k1) (named (expanded (f_name f)) k2)) ->
    incl (flat_names env fs) (flat_names env all) -> incl (flat_entries env fs) (flat_entries env all) ->
    forall l1 l2 vs, Forall transfers l1 ->
    Forall2 (offer (flat_entries env all)) (filter (name_in (flat_names env all)) l1)
      (filter (name_in (flat_names env all)) l2) ->
    fields_hold o env R attrs1 k1 l1 fs vs -> fields_hold o env R attrs2 k2 l2 fs vs.
  Proof.
    intros Ht. induction fs as [|f fs IH]; intros Ha Hk Hin Hie l1 l2 vs Hl HL HF; inversion HF; subst.
    - constructor.
    - apply fhs_own; auto.
      + eapply field_holds_like; [exact Ht| | |eassumption].
        * intro E. apply Ha; auto. now left.
        * intros k t E. apply Hk with k; auto. now left.
      + eapply IH; eauto.
        * intros g Hg. apply Ha. now right.
        * intros g k t Hg. apply Hk. now right.
        * intros x Hx. apply Hin. unfold flat_names. cbn. apply in_app_iff. now right.
        * intros x Hx. apply Hie. unfold flat_entries. cbn. apply in_app_iff. now right.
    - match goal with H1 : f_mode f = MFlatten id, H2 : env id = _ |- _ => rename H1 into Hm; rename H2 into He end.
      assert (Hn1 : incl (variant_names variants) (flat_names env all)).
      { intros x Hx. apply Hin. cbn. apply in_app_iff. left. now rewrite Hm, He. }
      assert (He1 : incl (variant_entries variants) (flat_entries env all)).
      { intros x Hx. apply Hie. cbn. apply in_app_iff. left. now rewrite Hm, He. }
      eapply fhs_flatten; eauto.
      + eapply choice_like; [exact Hl| |eassumption].
        rewrite <- (filter_filter (name_in (variant_names variants)) (name_in (flat_names env all)) l1) by (intro; apply name_in_incl; auto).
        rewrite <- (filter_filter (name_in (variant_names variants)) (name_in (flat_names env all)) l2) by (intro; apply name_in_incl; auto).
        eapply Forall2_impl_in; [|eapply Forall2_filter; [|exact HL]].
        * intros a b _ _ [Hs1 Hs2]. split; auto. intros n t Hn. apply Hs2. now apply He1.
        * intros a b [Hs1 _]. now apply same_name_in.
      + eapply IH; [| | | | | |eassumption].
        * intros g Hg. apply Ha. now right.
        * intros g k t Hg. apply Hk. now right.
        * intros x Hx. apply Hin. unfold flat_names. cbn. apply in_app_iff. now right.
        * intros x Hx. apply Hie. unfold flat_entries. cbn. apply in_app_iff. now right.
        * eapply Forall_incl'; [apply before_first_incl|exact Hl].
        * rewrite !before_first_filter by auto. apply Forall2_before_first; auto. intros a b []; auto.
  Qed.

  Theorem like_reads : forall n, transfers n.
  Proof.
    induction n as [name attrs ns p kids pe IH| | |] using node_ind'; intros t n2 v HL HR;
      try now inversion HR.
    inversion HL; subst; inversion HR; subst; try congruence.
    - constructor; congruence.
    - assert (E : Some (TDStruct ident root nss fs) = Some (TDStruct ident0 root0 nss0 fs0)) by congruence.
      inversion E; subst. eapply reads_struct; eauto.
      eapply fields_hold_like; [exact IH| | | | | | |eassumption]; auto.
      + intros f Hf Ef. match goal with H : forall n, In n _ -> attr_values n _ = _ |- _ => apply H end.
        apply in_map_iff. exists f. split; auto. now apply filter_In.
      + apply incl_refl.
      + apply incl_refl.
      + now apply Forall_filter.
      + eassumption.
    - assert (E : Some (TDEnum ident root nss vs sk) = Some (TDEnum ident0 root0 nss0 variants sk0)) by congruence.
      inversion E; subst. eapply reads_enum; eauto. eapply choice_like; eauto.
  Qed.

  (** ** [like] is reflexive and symmetric *)

  Lemma like_refl : forall n t, is_elem n = true -> like t n n.
  Proof.
    induction n as [name attrs ns p kids pe IH| | |] using node_ind'; intros t E; try discriminate.
    rewrite Forall_forall in IH.
    destruct t as [t|id]; [now constructor|].
    destruct (env id) as [[ident root nss fs|ident root nss vs sk]|] eqn:Hid.
    - eapply like_struct; eauto.
      + intros f k t Hf Hm. apply Forall2_refl. intros c Hc. apply filter_In in Hc as [Hc Hn]. apply IH; auto.
        destruct c; try discriminate; auto.
      + apply Forall2_refl. intros c Hc. apply filter_In in Hc as [Hc Hn]. apply filter_In in Hc as [Hc _].
        split; [now intro|]. intros n t _ Hnm. apply IH; auto. destruct c; try discriminate; auto.
    - eapply like_enum; eauto.
      apply Forall2_refl. intros c Hc. apply filter_In in Hc as [Hc Hn].
      split; [now intro|]. intros n t _ Hnm. apply IH; auto. destruct c; try discriminate; auto.
    - now apply like_unknown.
  Qed.

  Lemma Forall2_flip' {A B} (P : A -> B -> Prop) (Q : B -> A -> Prop) l1 l2 :
    (forall a b, In a l1 -> P a b -> Q b a) -> Forall2 P l1 l2 -> Forall2 Q l2 l1.
  Proof.
    intros H F. induction F; constructor; [apply H; auto; now left|]. apply IHF. intros. apply H; auto. now right.
  Qed.

  Lemma like_sym : forall n t n2, like t n n2 -> like t n2 n.
  Proof.
    induction n as [name attrs ns p kids pe IH| | |] using node_ind'; intros t n2 HL; try now inversion HL.
    rewrite Forall_forall in IH.
    inversion HL; subst.
    - constructor; auto.
    - eapply like_struct; eauto.
      + intros. symmetry. auto.
      + intros f k t Hf Hm. eapply Forall2_flip'; [|eauto]. cbn. intros a b Ha Hab. apply IH; auto.
        now apply filter_In in Ha.
      + eapply Forall2_flip'; [|eassumption]. cbn. intros a b Ha [Hs Hab]. split; [now intro|].
        intros n t Hn Hb. apply IH; [|apply (Hab n); auto; now rewrite Hs].
        apply filter_In in Ha as [Ha _]. now apply filter_In in Ha.
    - eapply like_enum; eauto.
      eapply Forall2_flip'; [|eassumption]. cbn. intros a b Ha [Hs Hab]. split; [now intro|].
        intros n t Hn Hb. apply IH; [|apply (Hab n); auto; now rewrite Hs].
        now apply filter_In in Ha.
    - now apply like_unknown.
  Qed.

  Theorem like_reads_iff t n1 n2 v : like t n1 n2 -> R t n1 v <-> R t n2 v.
  Proof. intro H. split; apply like_reads; auto. now apply like_sym. Qed.

  (** ** Instances *)

  Lemma attr_values_renamed n a1 a2 :
    Forall2 (fun a b => from_xml_name (a_name a) = from_xml_name (a_name b) /\ a_value a = a_value b) a1 a2 ->
    attr_values n a1 = attr_values n a2.
  Proof.
    unfold attr_values. induction 1 as [|a b a1 a2 [H1 H2] _ IH]; cbn; auto.
    rewrite H1. destruct (xn_eqb (from_xml_name (a_name b)) n); cbn; auto. now rewrite H2, IH.
  Qed.

  Lemma renamed_elem c d : renamed c d -> is_elem c = is_elem d.
  Proof. now destruct 1. Qed.

  Lemma renamed_text k1 k2 : Forall2 (fun c d => same_name c d /\ renamed c d) k1 k2 ->
    existsb is_elem k1 = existsb is_elem k2 /\ text_of k1 = text_of k2.
  Proof.
    intro H. split.
    - induction H as [|c d k1 k2 [_ H] _ IH]; cbn; auto. now rewrite (renamed_elem c d H), IH.
    - unfold text_of. f_equal. induction H as [|c d k1 k2 [_ H] _ IH]; cbn; auto. rewrite IH. now destruct H.
  Qed.

  Lemma renamed_like : forall n1 n2 t, renamed n1 n2 -> is_elem n1 = true -> like t n1 n2.
  Proof.
    induction n1 as [name attrs ns p kids pe IH| | |] using node_ind'; intros n2 t HR E; try discriminate.
    rewrite Forall_forall in IH.
    inversion HR as [? ? ? ? ? ? name2 attrs2 ns2 p2 k2 pe2 HA HK| | |]; subst. pose proof (renamed_text _ _ HK) as [HE HT].
    assert (HF : forall f : node -> bool, (forall c d, same_name c d -> renamed c d -> f c = f d) ->
      Forall2 (fun c d => same_name c d /\ renamed c d) (filter f kids) (filter f k2)).
    { intros f Hf. apply Forall2_filter; auto. intros a b []. auto. }
    destruct t as [t|id]; [now constructor|].
    destruct (env id) as [[ident root nss fs|ident root nss vs sk]|] eqn:Hid.
    - eapply like_struct; eauto.
      + intros n _. now apply attr_values_renamed.
      + intros f k t Hf Hm. eapply Forall2_impl_in; [|apply HF]; auto.
        intros a b Ha _ [Hs Hr]. apply filter_In in Ha as [Ha Hn]. apply IH; auto. destruct a; try discriminate; auto.
      + eapply Forall2_impl_in; [|apply Forall2_filter; [|apply HF]].
        * intros a b Ha _ [Hs Hr]. split; auto. intros n t _ Hn.
          apply filter_In in Ha as [Ha _]. apply filter_In in Ha as [Ha _]. apply IH; auto.
          destruct a; try discriminate; auto.
        * intros a b []. now apply same_name_in.
        * intros a b Hs Hr. now rewrite (renamed_elem a b Hr), (same_name_in a b _ Hs).
    - eapply like_enum; eauto. eapply Forall2_impl_in; [|apply HF].
      + intros a b Ha _ [Hs Hr]. split; auto. intros n t _ Hn. apply filter_In in Ha as [Ha _].
        apply IH; auto. destruct a; try discriminate; auto.
      + intros a b Hs _. now apply same_name_in.
    - now apply like_unknown.
  Qed.

  (** Same known children and attributes. *)
  Definition known_names (fs : list field) : list xname := field_names is_element fs ++ flat_names env fs.

  Lemma named_is_elem n c kids : In c (named n kids) -> is_elem c = true.
  Proof. intro H. apply filter_In in H as [_ H]. destruct c; try discriminate; auto. Qed.

  Lemma like_known id ident root nss fs name1 attrs1 ns1 p1 k1 pe1 name2 attrs2 ns2 p2 k2 pe2 :
    env id = Some (TDStruct ident root nss fs) ->
    filter (fun a => existsb (xn_eqb (from_xml_name (a_name a))) (field_names is_attribute fs)) attrs1 =
    filter (fun a => existsb (xn_eqb (from_xml_name (a_name a))) (field_names is_attribute fs)) attrs2 ->
    filter (name_in (known_names fs)) k1 = filter (name_in (known_names fs)) k2 ->
    like (ERef id) (NElem name1 attrs1 ns1 p1 k1 pe1) (NElem name2 attrs2 ns2 p2 k2 pe2).
  Proof.
    intros Hid Ha Hk. eapply like_struct; eauto.
    - intros n Hn. unfold attr_values. f_equal.
      set (g := fun a => existsb (xn_eqb (from_xml_name (a_name a))) (field_names is_attribute fs)) in *.
      assert (Hg : forall a, xn_eqb (from_xml_name (a_name a)) n = true -> g a = true).
      { intros a E. apply existsb_exists. eauto. }
      rewrite <- (filter_filter _ g attrs1 Hg), <- (filter_filter _ g attrs2 Hg). now rewrite Ha.
    - intros f k t Hf Hm.
      assert (Hg : forall c, has_name (expanded (f_name f)) c = true -> name_in (known_names fs) c = true).
      { intros c. apply has_name_in. apply in_app_iff. left. apply in_map_iff. exists f. split; auto.
        apply filter_In. split; auto. unfold is_element. now rewrite Hm. }
      unfold named. rewrite <- (filter_filter _ _ k1 Hg), <- (filter_filter _ _ k2 Hg), Hk.
      apply Forall2_refl. intros c Hc. apply like_refl. eapply named_is_elem; eauto.
    - assert (Hu : forall k, filter (name_in (flat_names env fs)) (unclaimed fs k) =
        filter (name_in (flat_names env fs)) (unclaimed fs (filter (name_in (known_names fs)) k))).
      { unfold unclaimed. intro k. induction k as [|c k IH]; cbn [filter]; auto.
        destruct (name_in (flat_names env fs) c) eqn:E1.
        - rewrite (name_in_incl (flat_names env fs) (known_names fs) c) by (auto; intros x; intros; apply in_app_iff; auto).
          cbn [filter]. destruct (is_elem c && negb (name_in (field_names is_element fs) c)); cbn [filter]; rewrite ?E1; now rewrite IH.
        - destruct (is_elem c && negb (name_in (field_names is_element fs) c)) eqn:E2; cbn [filter]; rewrite ?E1, IH;
          (destruct (name_in (known_names fs) c); cbn [filter]; rewrite ?E2; cbn [filter]; rewrite ?E1; auto). }
      rewrite (Hu k1), (Hu k2), Hk. apply Forall2_refl. intros c Hc. split; [now intro|].
      intros n t _ Hn. apply like_refl. destruct c; try discriminate; auto.
  Qed.

  Lemma like_known_enum id ident root nss vs sk name1 attrs1 ns1 p1 k1 pe1 name2 attrs2 ns2 p2 k2 pe2 :
    env id = Some (TDEnum ident root nss vs sk) ->
    filter (name_in (variant_names vs)) k1 = filter (name_in (variant_names vs)) k2 ->
    like (ERef id) (NElem name1 attrs1 ns1 p1 k1 pe1) (NElem name2 attrs2 ns2 p2 k2 pe2).
  Proof.
    intros Hid Hk. eapply like_enum; eauto. rewrite Hk. apply Forall2_refl. intros c Hc. split; [now intro|].
    intros n t _ Hn. apply like_refl. destruct c; try discriminate; auto.
  Qed.

  (** Same occurrences of each field. *)
  Lemma like_reordered id ident root nss fs name1 attrs1 ns1 p1 k1 pe1 name2 attrs2 ns2 p2 k2 pe2 :
    env id = Some (TDStruct ident root nss fs) -> existsb is_flatten fs = false ->
    (forall n, In n (field_names is_attribute fs) -> attr_values n attrs1 = attr_values n attrs2) ->
    (forall n, In n (field_names is_element fs) -> named n k1 = named n k2) ->
    like (ERef id) (NElem name1 attrs1 ns1 p1 k1 pe1) (NElem name2 attrs2 ns2 p2 k2 pe2).
  Proof.
    intros Hid Hfl Ha Hk. eapply like_struct; eauto.
    - intros f k t Hf Hm. rewrite Hk.
      + apply Forall2_refl. intros c Hc. apply like_refl. eapply named_is_elem; eauto.
      + apply in_map_iff. exists f. split; auto. apply filter_In. split; auto. unfold is_element. now rewrite Hm.
    - assert (E : flat_names env fs = []).
      { clear -Hfl. induction fs as [|f fs IH]; cbn in *; auto. apply orb_false_iff in Hfl as [H1 H2].
        unfold is_flatten in H1. destruct (f_mode f); try discriminate; cbn; now apply IH. }
      rewrite E. assert (Hn : forall l, filter (name_in []) l = []) by (induction l; cbn; auto).
      rewrite !Hn. constructor.
  Qed.
End Like.

(** Attributes with distinct names can be permuted. *)
Lemma attr_values_perm n a1 a2 : NoDup (map (fun a => from_xml_name (a_name a)) a1) -> Permutation a1 a2 ->
  attr_values n a1 = attr_values n a2.
Proof.
  intros Hd HP. unfold attr_values. f_equal.
  set (f := fun a => xn_eqb (from_xml_name (a_name a)) n).
  assert (HF : Permutation (filter f a1) (filter f a2)).
  { clear Hd. induction HP; cbn; auto.
    - destruct (f x); auto.
    - destruct (f x), (f y); auto. constructor.
    - etransitivity; eauto. }
  assert (L : List.length (filter f a1) <= 1).
  { clear HP HF. induction a1 as [|a a1 IH]; cbn; auto. inversion Hd; subst. destruct (f a) eqn:E; auto.
    assert (filter f a1 = []) as ->; auto.
    destruct (filter f a1) as [|b l] eqn:E1; auto. exfalso.
    assert (Hb : In b (filter f a1)) by (rewrite E1; now left). apply filter_In in Hb as [Hb1 Hb2].
    unfold f in E, Hb2. apply xn_eqb_eq in E, Hb2. apply H1. rewrite E, <- Hb2. now apply (in_map (fun a => from_xml_name (a_name a))). }
  destruct (filter f a1) as [|a [|b l]]; cbn in L.
  - now apply Permutation_nil in HF.
  - apply Permutation_length_1_inv in HF. auto.
  - exfalso. inversion L as [|? L']. inversion L'.
Qed.
