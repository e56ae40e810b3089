(** What derived visitors hold after any calls. *)
From Verif Require Import Base Normalize Text Find FindProofs Types Reader DeriveDe DeSpec DeProofs DeMain DeTotal
  DeriveMixed MixedProofs Catch Visitor VisitorSpec VisitorSafe.

Definition is_some {A} (x : option A) : bool := match x with Some _ => true | None => false end.

Lemma children_app n l1 l2 : children n (l1 ++ l2) = children n l1 ++ children n l2.
Proof. apply flat_map_app. Qed.
Lemma parsed_app o t n l1 l2 : parsed o t n (l1 ++ l2) = parsed o t n l1 ++ parsed o t n l2.
Proof. apply flat_map_app. Qed.

Lemma xn_eqb_refl n : xn_eqb n n = true.
Proof. now apply xn_eqb_eq. Qed.
Lemma xn_eqb_neq n m : n <> m -> xn_eqb n m = false.
Proof. intro H. destruct (xn_eqb n m) eqn:E; auto. apply xn_eqb_eq in E. contradiction. Qed.

Lemma existsb_names n l : existsb (xn_eqb n) l = true <-> In n l.
Proof.
  rewrite existsb_exists. split; [intros (m & H & E)|intro H; exists n; split; auto using xn_eqb_refl].
  apply xn_eqb_eq in E. now subst.
Qed.

Lemma existsb_no_names n l : existsb (xn_eqb n) l = false <-> ~ In n l.
Proof. rewrite <- existsb_names. destruct (existsb _ _); split; congruence. Qed.

Lemma child_here n i v : from_xml_name (ei_name i) = n -> children n [CallElement i (Ok v)] = [v].
Proof. intros <-. cbn. now rewrite xn_eqb_refl. Qed.
Lemma child_fails n i r : (forall v, r <> Ok v) -> children n [CallElement i r] = [].
Proof. intro H. destruct r as [v| |]; auto. now elim (H v). Qed.
Lemma child_other n i r : from_xml_name (ei_name i) <> n -> children n [CallElement i r] = [].
Proof. intro H. cbn. destruct r; auto. now rewrite xn_eqb_neq. Qed.

Lemma kept_init k v : init_value k v = kept k v [].
Proof. destruct k; reflexivity. Qed.

(** ** Enums *)

Section Enum.
  Context (alg : bs_alg) (ident : string) (ws : list variant).
  Hypothesis Hns : no_empty_ns ws.
  Hypothesis Hnd : NoDup (variant_names ws).

  Definition holding (m : option value) : estate := EState ident ws (is_some m) m.

  Lemma sorted_in j w : nth_error (sorted_variants ws) j = Some w -> In w ws.
  Proof. intro H. eapply Permutation.Permutation_in; [apply sort_perm|]. eapply nth_error_In; eauto. Qed.

  Lemma variants_in n : In n (variant_names ws) <-> exists w, In w ws /\ expanded (v_name w) = n.
  Proof.
    unfold variant_names. rewrite in_map_iff. split; intros (w & H1 & H2); eauto.
  Qed.

  Lemma in_sorted w : In w ws -> exists j, nth_error (sorted_variants ws) j = Some w.
  Proof.
    intro H. apply In_nth_error. eapply Permutation.Permutation_in; [|exact H]. symmetry. apply sort_perm.
  Qed.

  Lemma same_variant j w w' : nth_error (sorted_variants ws) j = Some w -> In w' ws ->
    expanded (v_name w) = expanded (v_name w') -> w' = w.
  Proof.
    intros H H' E. destruct (in_sorted _ H') as [j' Hj]. rewrite (variant_name_inj ws Hnd _ _ _ _ H Hj E) in H. congruence.
  Qed.

  Lemma no_hits_app l c : no_hits ws l -> (forall w, In w ws -> ~ hits w c) -> no_hits ws (l ++ [c]).
  Proof. intros H Hc w c' Hw Hin. apply in_app_iff in Hin as [Hin|[<-|[]]]; eauto. Qed.

  Lemma enum_other l m rest c : (forall i r, c <> CallElement i r) -> enum_kept ws l m rest ->
    exists rest', enum_kept ws (l ++ [c]) m rest'.
  Proof.
    intros Hc H. destruct H as [l H|l1 c0 l2 j w H1 H2 H3 H4|l1 c0 l2 j w k t v vs H1 H2 H3 H4 H5].
    - eexists. apply ek_none. apply no_hits_app; auto. intros w _ (i & r & E & _). now apply Hc in E.
    - eexists. rewrite <- app_assoc. cbn. eapply ek_unit; eauto.
    - eexists. rewrite <- app_assoc. cbn. eapply ek_field; eauto.
      change (c0 :: l2 ++ [c]) with ((c0 :: l2) ++ [c]). rewrite children_app, H5.
      destruct c as [| |i r]; cbn; try now rewrite app_nil_r. now elim (Hc i r).
  Qed.

  Lemma enum_step l m rest i r : enum_kept ws l m rest ->
    match genum_element (St := unit) alg (fun _ _ => ANoRead (r, [])) (holding m) i with
    | Some (ANoRead (x, e', _)) => exists m', e' = holding m' /\ enum_kept ws (l ++ [CallElement i r]) m' rest
    | Some _ => False
    | None => m = None /\ enum_kept ws (l ++ [CallElement i r]) None (rest ++ [CallElement i r])
    end.
  Proof.
    set (n := from_xml_name (ei_name i)). set (c := CallElement i r).
    intro H. unfold genum_element, holding. cbn [e_init e_variants e_mem e_ident]. fold n.
    destruct H as [l H|l1 c0 l2 j w H1 H2 H3 H4|l1 c0 l2 j w k t v vs H1 H2 H3 H4 H5]; cbn [is_some].
    - destruct (find alg n (variant_table ws)) as [j|] eqn:E.
      + apply (proj1 (vlookup_spec alg ws n _ Hns Hnd)) in E as (w & Hj & En). rewrite Hj.
        assert (Hu : filter (unnamed ws) (l ++ [c]) = filter (unnamed ws) l).
        { rewrite filter_app. cbn. fold n. destruct (existsb (xn_eqb n) (variant_names ws)) eqn:Ex; cbn; [now rewrite app_nil_r|].
          apply existsb_no_names in Ex. exfalso. apply Ex, variants_in. exists w. split; auto. eapply sorted_in; eauto. }
        destruct (v_ty w) as [[k t]|] eqn:Et.
        * cbn. destruct r as [v|e|x]; cbn.
          -- exists (Some (VEnum j (Some (init_value k v)))). split; [reflexivity|]. rewrite kept_init.
             eapply ek_field with (l2 := []); eauto.
             ++ exists i, (Ok v). split; [reflexivity|]. split; [now symmetry|]. right. eauto.
             ++ apply child_here. now symmetry.
          -- exists None. split; [reflexivity|]. rewrite <- Hu. apply ek_none. apply no_hits_app; auto.
             intros w' Hw (i' & r' & [= <- <-] & En' & [Ht|[v [=]]]).
             rewrite (same_variant _ _ _ Hj Hw) in Ht; [congruence|]. unfold n in En. congruence.
          -- exists None. split; [reflexivity|]. rewrite <- Hu. apply ek_none. apply no_hits_app; auto.
             intros w' Hw (i' & r' & [= <- <-] & En' & [Ht|[v [=]]]).
             rewrite (same_variant _ _ _ Hj Hw) in Ht; [congruence|]. unfold n in En. congruence.
        * exists (Some (VEnum j None)). split; [reflexivity|]. eapply ek_unit with (l2 := []); eauto.
          exists i, r. split; [reflexivity|]. split; [now symmetry|]. now left.
      + apply (proj1 (vlookup_none alg ws n Hns Hnd)) in E. split; [reflexivity|].
        replace (filter (unnamed ws) l ++ [c]) with (filter (unnamed ws) (l ++ [c])).
        2:{ rewrite filter_app. cbn. fold n. apply existsb_no_names in E. now rewrite E. }
        apply ek_none. apply no_hits_app; auto.
        intros w Hw (i' & r' & Ec & En & _). unfold c in Ec. injection Ec as <- <-. apply E, variants_in. eauto.
    - rewrite H2, H4. destruct (find _ _ _) as [j'|]; [destruct (Nat.eqb j' j)|]; exists (Some (VEnum j None));
        (split; [reflexivity|]); rewrite <- app_assoc; cbn; eapply ek_unit; eauto.
    - rewrite H2, H4.
      assert (K : forall vs', children (expanded (v_name w)) [c] = vs' ->
        enum_kept ws (l1 ++ c0 :: l2 ++ [c]) (Some (VEnum j (Some (kept k v (vs ++ vs'))))) (filter (unnamed ws) l1)).
      { intros vs' Hc. eapply ek_field; eauto. change (c0 :: l2 ++ [c]) with ((c0 :: l2) ++ [c]).
        now rewrite children_app, H5, Hc. }
      assert (K0 : expanded (v_name w) <> n \/ (forall x, r <> Ok x) ->
        exists m', EState ident ws true (Some (VEnum j (Some (kept k v vs)))) = holding m' /\
          enum_kept ws ((l1 ++ c0 :: l2) ++ [c]) m' (filter (unnamed ws) l1)).
      { intro Hc. exists (Some (VEnum j (Some (kept k v vs)))). split; [reflexivity|]. rewrite <- app_assoc. cbn.
        rewrite <- (app_nil_r vs). apply K. destruct Hc as [Hc|Hc]; [apply child_other; fold n; intro X; now rewrite X in Hc|now apply child_fails]. }
      destruct (find alg n (variant_table ws)) as [j'|] eqn:E.
      + apply (proj1 (vlookup_spec alg ws n _ Hns Hnd)) in E as (w' & Hj & En). destruct (Nat.eqb j' j) eqn:Ej.
        * apply Nat.eqb_eq in Ej. subst j'. rewrite H2 in Hj. injection Hj as <-.
          destruct k; cbn.
          -- destruct r as [x|e|x]; [|apply K0; right; discriminate..].
             eexists (Some (VEnum j (Some _))). split; [reflexivity|]. rewrite <- app_assoc. cbn. apply (K _ eq_refl).
          -- destruct r as [x|e|x]; [|apply K0; right; discriminate..].
             eexists (Some (VEnum j (Some _))). split; [reflexivity|]. rewrite <- app_assoc. cbn. apply (K _ eq_refl).
          -- destruct r as [x|e|x]; cbn; [|apply K0; right; discriminate..].
             exists (Some (VEnum j (Some (VVec (v :: vs ++ [x]))))). split; [reflexivity|]. rewrite <- app_assoc. cbn.
             apply (K [x]). apply child_here. now symmetry.
        * cbn. apply K0. left. intro Ew. rewrite <- En in Ew.
          rewrite (variant_name_inj ws Hnd _ _ _ _ H2 Hj Ew) in Ej. now rewrite Nat.eqb_refl in Ej.
      + apply (proj1 (vlookup_none alg ws n Hns Hnd)) in E. cbn. apply K0. left. intro Ew. apply E, variants_in. exists w. split; auto. eapply sorted_in; eauto.
  Qed.

  (** What is held is determined. *)
  Lemma first_hit l1 c l2 l1' c' l2' w w' : In w ws -> In w' ws -> no_hits ws l1 -> no_hits ws l1' -> hits w c -> hits w' c' ->
    l1 ++ c :: l2 = l1' ++ c' :: l2' -> l1 = l1' /\ c = c' /\ l2 = l2'.
  Proof.
    intros Hw Hw'. revert l1'. induction l1 as [|x l1 IH]; intros [|x' l1'] N N' H H' E; cbn in E; injection E as -> E.
    - auto.
    - elim (N' w x' Hw (or_introl eq_refl) H).
    - elim (N w' c' Hw' (or_introl eq_refl) H').
    - destruct (IH l1') as (-> & -> & ->); auto; intros y z Hy Hz; [apply (N y z Hy)|apply (N' y z Hy)]; now right.
  Qed.

  Lemma hit_same j w j' w' c : nth_error (sorted_variants ws) j = Some w -> nth_error (sorted_variants ws) j' = Some w' ->
    hits w c -> hits w' c -> j = j' /\ w = w'.
  Proof.
    intros H H' (i & r & -> & E & _) (i' & r' & [= <- <-] & E' & _).
    assert (j = j') as <- by (eapply (variant_name_inj ws Hnd); eauto; congruence). split; congruence.
  Qed.

  Lemma no_hit_here l1 c l2 w : In w ws -> hits w c -> ~ no_hits ws (l1 ++ c :: l2).
  Proof. intros Hw Hc N. apply (N w c Hw); auto. apply in_app_iff. right. now left. Qed.

  Lemma enum_det l m rest m' rest' : enum_kept ws l m rest -> enum_kept ws l m' rest' -> m = m' /\ rest = rest'.
  Proof.
    intros H H'.
    destruct H as [l H|l1 c0 l2 j w H1 H2 H3 H4|l1 c0 l2 j w k t v vs H1 H2 H3 H4 H5]; inversion H'; subst; auto.
    - exfalso; eapply no_hit_here; eauto using sorted_in.
    - exfalso; eapply no_hit_here; eauto using sorted_in.
    - exfalso; eapply no_hit_here; eauto using sorted_in.
    - destruct (first_hit _ _ _ _ _ _ _ _ (sorted_in _ _ H5) (sorted_in _ _ H2) H0 H1 H6 H3 H) as (-> & -> & ->).
      destruct (hit_same _ _ _ _ _ H5 H2 H6 H3) as [-> ->]. auto.
    - destruct (first_hit _ _ _ _ _ _ _ _ (sorted_in _ _ H5) (sorted_in _ _ H2) H0 H1 H6 H3 H) as (-> & -> & ->).
      destruct (hit_same _ _ _ _ _ H5 H2 H6 H3) as [-> ->]. congruence.
    - exfalso; eapply no_hit_here; eauto using sorted_in.
    - destruct (first_hit _ _ _ _ _ _ _ _ (sorted_in _ _ H6) (sorted_in _ _ H2) H0 H1 H7 H3 H) as (-> & -> & ->).
      destruct (hit_same _ _ _ _ _ H6 H2 H7 H3) as [-> ->]. congruence.
    - destruct (first_hit _ _ _ _ _ _ _ _ (sorted_in _ _ H6) (sorted_in _ _ H2) H0 H1 H7 H3 H) as (-> & -> & ->).
      destruct (hit_same _ _ _ _ _ H6 H2 H7 H3) as [-> ->]. replace k0 with k in * by congruence.
      rewrite H5 in H9. injection H9 as -> ->. auto.
  Qed.
End Enum.

(** ** Structs *)

Section Struct.
  Context (o : oracles) (alg : bs_alg) (env : tenv).
  Hypothesis Hnames : names_ok env.

  Definition own_slot (x : option value) : slot := SField (is_some x) x.

  Inductive slots_hold (calls : list vcall) : list vcall -> list field -> list slot -> Prop :=
  | sh_nil : forall l, slots_hold calls l [] []
  | sh_own : forall l f fs ss, is_flatten f = false -> slots_hold calls l fs ss ->
      slots_hold calls l (f :: fs) (own_slot (stored o calls f) :: ss)
  | sh_flatten : forall l f fs id ident root nss ws sk m rest ss, f_mode f = MFlatten id ->
      env id = Some (TDEnum ident root nss ws sk) -> enum_kept ws l m rest -> slots_hold calls rest fs ss ->
      slots_hold calls l (f :: fs) (SFlat (holding ident ws m) :: ss).

  Lemma enum_names id ident root nss ws sk : env id = Some (TDEnum ident root nss ws sk) ->
    no_empty_ns ws /\ NoDup (variant_names ws).
  Proof. intro E. exact (Hnames _ _ E). Qed.

  Lemma slots_nth calls l fs ss p f : slots_hold calls l fs ss -> nth_error fs p = Some f -> is_flatten f = false ->
    nth_error ss p = Some (own_slot (stored o calls f)).
  Proof.
    intro H. revert p. induction H as [l|l f0 fs ss Hf H IH|l f0 fs id ident root nss ws sk m rest ss Hm He Hk H IH];
      intros [|p]; cbn; try discriminate; auto.
    - intros [= <-] _. reflexivity.
    - intros [= <-]. unfold is_flatten. rewrite Hm. discriminate.
  Qed.

  Lemma slots_calls calls calls' l fs ss : slots_hold calls l fs ss ->
    (forall f, In f fs -> is_flatten f = false -> stored o calls f = stored o calls' f) ->
    slots_hold calls' l fs ss.
  Proof.
    induction 1 as [l|l f0 fs ss Hf H IH|l f0 fs id ident root nss ws sk m rest ss Hm He Hk H IH]; intro Hs.
    - constructor.
    - rewrite (Hs f0 (or_introl eq_refl) Hf). constructor; auto. apply IH. intros f Hin. apply Hs. now right.
    - econstructor; eauto. apply IH. intros f Hin. apply Hs. now right.
  Qed.

  Lemma slots_set calls calls' l fs ss p f : slots_hold calls l fs ss -> nth_error fs p = Some f -> is_flatten f = false ->
    (forall q f', nth_error fs q = Some f' -> q <> p -> is_flatten f' = false -> stored o calls f' = stored o calls' f') ->
    slots_hold calls' l fs (set_nth p (own_slot (stored o calls' f)) ss).
  Proof.
    intro H. revert p. induction H as [l|l f0 fs ss Hf H IH|l f0 fs id ident root nss ws sk m rest ss Hm He Hk H IH];
      intros [|p]; cbn; try discriminate.
    - intros [= <-] _ Hs. constructor; auto. eapply slots_calls; eauto.
      intros f Hin Hfl. apply In_nth_error in Hin as [q Hq]. apply (Hs (S q) f); auto.
    - intros Hp Hfl Hs. rewrite (Hs 0 f0 eq_refl) by (auto; discriminate). constructor; auto. apply IH; auto.
      intros q f' Hq Hne. apply (Hs (S q)); auto.
    - intros [= <-]. unfold is_flatten. rewrite Hm. discriminate.
    - intros Hp Hfl Hs. econstructor; eauto. apply IH; auto. intros q f' Hq Hne. apply (Hs (S q)); auto.
  Qed.

  Lemma delegate_step calls l fs ss i r : slots_hold calls l fs ss ->
    match gdelegate_element (St := unit) alg (fun _ _ => ANoRead (r, [])) ss i with
    | Some (ANoRead (_, ss', _)) => slots_hold calls (l ++ [CallElement i r]) fs ss'
    | Some _ => False
    | None => slots_hold calls (l ++ [CallElement i r]) fs ss
    end.
  Proof.
    induction 1 as [l|l f0 fs ss Hf H IH|l f0 fs id ident root nss ws sk m rest ss Hm He Hk H IH]; cbn [gdelegate_element].
    - constructor.
    - unfold own_slot at 1. destruct (gdelegate_element _ _ ss i) as [[[[x ss'] lk]| |]|]; cbn in *; try contradiction; now constructor.
    - destruct (enum_names _ _ _ _ _ _ He) as [Hns Hnd].
      pose proof (enum_step alg ident ws Hns Hnd l m rest i r Hk) as HE.
      destruct (genum_element _ _ _ i) as [[[[x e'] lk]| |]|]; try contradiction.
      + destruct HE as (m' & -> & HE). cbn. econstructor; eauto.
      + destruct HE as [-> HE].
        destruct (gdelegate_element _ _ ss i) as [[[[x ss'] lk]| |]|]; cbn in *; try contradiction; econstructor; eauto.
  Qed.

  Lemma left_over_app fs l1 l2 : left_over fs (l1 ++ l2) = left_over fs l1 ++ left_over fs l2.
  Proof. apply filter_app. Qed.

  Lemma stored_element calls f i r : is_element f = false \/ expanded (f_name f) <> from_xml_name (ei_name i) ->
    stored o calls f = stored o (calls ++ [CallElement i r]) f.
  Proof.
    intro H. unfold stored. destruct (f_mode f) as [k t|opt t| |] eqn:Em; auto.
    - destruct H as [H|H]; [unfold is_element in H; now rewrite Em in H|].
      rewrite children_app, (child_other _ i r) by congruence. now rewrite app_nil_r.
    - now rewrite parsed_app, app_nil_r.
  Qed.

  Lemma stored_attribute calls f n v : is_attribute f = false \/ expanded (f_name f) <> n ->
    stored o calls f = stored o (calls ++ [CallAttribute n v]) f.
  Proof.
    intro H. unfold stored. destruct (f_mode f) as [k t|opt t| |] eqn:Em; auto.
    - now rewrite children_app, app_nil_r.
    - destruct H as [H|H]; [unfold is_attribute in H; now rewrite Em in H|].
      rewrite parsed_app. cbn. rewrite xn_eqb_neq by congruence. now rewrite app_nil_r.
  Qed.

  Lemma stored_characters calls f s p : stored o calls f = stored o (calls ++ [CallCharacters s p]) f.
  Proof.
    unfold stored. destruct (f_mode f); auto; [rewrite children_app|rewrite parsed_app]; now rewrite app_nil_r.
  Qed.

  Definition shaped (calls : list vcall) (s : vstate) (fs : list field) : Prop :=
    exists ss, vs_kind s = VkStruct fs ss /\ slots_hold calls (left_over fs calls) fs ss.

  Lemma struct_element_step calls s fs i r : NoDup (field_names is_element fs) -> shaped calls s fs ->
    shaped (calls ++ [CallElement i r]) (snd (element_reply alg s i r)) fs.
  Proof.
    intros Hnd (ss & Ek & H). set (n := from_xml_name (ei_name i)).
    pose proof (element_reply_eq alg s i r) as E. destruct (element_reply alg s i r) as [x s']. cbn [snd].
    unfold gelement in E. rewrite Ek in E. unfold gstruct_element in E. fold n in E.
    unfold shaped. rewrite left_over_app.
    destruct (find_field alg is_element fs n) as [p|] eqn:Ef.
    - rewrite find_field_lookup in Ef. pose proof Ef as El. apply lookup_spec in Ef as (f & Hp & Hel & Hn); auto. rewrite Hp in E.
      assert (Hfl : is_flatten f = false) by (unfold is_element, is_flatten in *; destruct (f_mode f); auto; discriminate).
      rewrite (slots_nth _ _ _ _ _ _ H Hp Hfl) in E.
      assert (Hlo : left_over fs [CallElement i r] = []).
      { cbn. fold n. replace (existsb (xn_eqb n) (field_names is_element fs)) with true; [reflexivity|].
        symmetry. apply existsb_names. unfold field_names. apply in_map_iff. exists f. split; auto. apply filter_In. split; auto.
        eapply nth_error_In; eauto. }
      rewrite Hlo, app_nil_r.
      assert (Hrest : forall q f', nth_error fs q = Some f' -> q <> p -> is_flatten f' = false ->
        stored o calls f' = stored o (calls ++ [CallElement i r]) f').
      { intros q f' Hq Hne _. apply stored_element. destruct (is_element f') eqn:E'; [right|now left]. fold n. intro En.
        assert (lookup alg is_element fs n = Some q) by (apply lookup_spec; eauto). congruence. }
      pose proof (slots_set _ (calls ++ [CallElement i r]) _ _ _ _ _ H Hp Hfl Hrest) as Hset.
      destruct f as [nm md d]; cbn in Hel; destruct md as [k t| | |]; try discriminate. cbn in Hn.
      assert (Hsl : stored o (calls ++ [CallElement i r]) (Field nm (MElement k t) d) =
        match children n calls ++ children n [CallElement i r] with [] => None | v :: vs => Some (kept k v vs) end).
      { unfold stored. cbn [f_mode f_name]. now rewrite Hn, children_app. }
      rewrite Hsl in Hset. unfold stored in E. cbn [f_mode f_name] in E. rewrite Hn in E.
      assert (G : forall sl, s' = put s (set_nth p sl ss) [] ->
        sl = own_slot (match children n calls ++ children n [CallElement i r] with [] => None | v :: vs => Some (kept k v vs) end) ->
        exists ss0, vs_kind s' = VkStruct fs ss0 /\ slots_hold (calls ++ [CallElement i r]) (left_over fs calls) fs ss0).
      { intros sl -> ->. unfold put. rewrite Ek. eexists. split; [reflexivity|]. exact Hset. }
      destruct (children n calls) as [|v0 vs0]; cbn [own_slot is_some] in E; unfold gelement_field in E.
      + cbn in E. destruct r as [v|e|y]; cbn in E; injection E as _ <-; (eapply G; [reflexivity|]).
        * rewrite (child_here n i v eq_refl), kept_init. reflexivity.
        * now rewrite child_fails by discriminate.
        * now rewrite child_fails by discriminate.
      + destruct k; cbn in E.
        * injection E as _ <-. eapply G; reflexivity.
        * injection E as _ <-. eapply G; reflexivity.
        * destruct r as [v|e|y]; cbn in E; injection E as _ <-; (eapply G; [reflexivity|]).
          -- now rewrite (child_here n i v eq_refl).
          -- now rewrite child_fails, app_nil_r by discriminate.
          -- now rewrite child_fails, app_nil_r by discriminate.
    - rewrite find_field_lookup in Ef. apply lookup_none in Ef; auto.
      assert (Hlo : left_over fs [CallElement i r] = [CallElement i r]).
      { cbn. fold n. apply existsb_no_names in Ef. now rewrite Ef. }
      rewrite Hlo.
      assert (Hc : slots_hold (calls ++ [CallElement i r]) (left_over fs calls) fs ss).
      { eapply slots_calls; eauto. intros f Hin Hfl. apply stored_element. destruct (is_element f) eqn:E'; [right|now left].
        fold n. intro En. apply Ef. unfold field_names. apply in_map_iff. exists f. split; auto. now apply filter_In. }
      pose proof (delegate_step _ _ _ _ i r Hc) as HD.
      destruct (gdelegate_element _ _ ss i) as [[[[y ss'] lk]| |]|]; try contradiction; cbn in E; injection E as _ <-.
      + unfold put. rewrite Ek. eexists. split; [reflexivity|]. exact HD.
      + eauto.
  Qed.

  Lemma struct_attribute_step calls s fs n v : NoDup (field_names is_attribute fs) -> shaped calls s fs ->
    shaped (calls ++ [CallAttribute n v]) (snd (v_attribute (derived o alg env) s n v)) fs.
  Proof.
    intros Hnd (ss & Ek & H). unfold shaped. rewrite left_over_app. cbn [left_over filter]. rewrite app_nil_r.
    cbn [v_attribute derived]. rewrite Ek. unfold struct_attribute.
    destruct (find_field alg is_attribute fs n) as [p|] eqn:Ef.
    - rewrite find_field_lookup in Ef. pose proof Ef as El. apply lookup_spec in Ef as (f & Hp & Hel & Hn); auto. rewrite Hp.
      assert (Hfl : is_flatten f = false) by (unfold is_attribute, is_flatten in *; destruct (f_mode f); auto; discriminate).
      rewrite (slots_nth _ _ _ _ _ _ H Hp Hfl).
      assert (Hrest : forall q f', nth_error fs q = Some f' -> q <> p -> is_flatten f' = false ->
        stored o calls f' = stored o (calls ++ [CallAttribute n v]) f').
      { intros q f' Hq Hne _. apply stored_attribute. destruct (is_attribute f') eqn:E'; [right|now left]. intro En.
        assert (lookup alg is_attribute fs n = Some q) by (apply lookup_spec; eauto). congruence. }
      pose proof (slots_set _ (calls ++ [CallAttribute n v]) _ _ _ _ _ H Hp Hfl Hrest) as Hset.
      destruct f as [nm md d]; cbn in Hel; destruct md as [|opt t| |]; try discriminate. cbn in Hn.
      assert (Hsl : stored o (calls ++ [CallAttribute n v]) (Field nm (MAttribute opt t) d) =
        match parsed o t n calls ++ match parse_text o t v with Ok x => [x] | _ => [] end with
        | [] => None | x :: _ => Some (if opt then VSome (VText x) else VText x) end).
      { unfold stored. cbn [f_mode f_name]. rewrite Hn, parsed_app. cbn. now rewrite xn_eqb_refl, app_nil_r. }
      rewrite Hsl in Hset. unfold stored. cbn [f_mode f_name]. rewrite Hn.
      destruct (parsed o t n calls) as [|x0 xs]; cbn [own_slot is_some attribute_field].
      + unfold attr_init. destruct (parse_text o t v) as [x|e|y]; cbn in *; unfold put; rewrite Ek; eexists; (split; [reflexivity|]); exact Hset.
      + cbn in *. unfold put. rewrite Ek. eexists. split; [reflexivity|]. exact Hset.
    - rewrite find_field_lookup in Ef. apply lookup_none in Ef; auto.
      rewrite delegate_pass by reflexivity. cbn [snd]. rewrite (put_self s fs ss Ek). exists ss. split; auto.
      eapply slots_calls; eauto. intros f Hin Hfl. apply stored_attribute. destruct (is_attribute f) eqn:E'; [right|now left].
      intro En. apply Ef. unfold field_names. apply in_map_iff. exists f. split; auto. now apply filter_In.
  Qed.

  Lemma struct_characters_step calls s fs str p : shaped calls s fs ->
    shaped (calls ++ [CallCharacters str p]) (snd (v_characters (derived o alg env) s str p)) fs.
  Proof.
    intros (ss & Ek & H). rewrite characters_trace. cbn [snd]. exists ss. split; auto.
    rewrite left_over_app. cbn [left_over filter]. rewrite app_nil_r. eapply slots_calls; eauto. intros. apply stored_characters.
  Qed.

  (** ** All derived types *)

  Inductive holds (id : nat) (calls : list vcall) (s : vstate) : Prop :=
  | holds_struct : forall ident root nss fs, env id = Some (TDStruct ident root nss fs) -> shaped calls s fs ->
      holds id calls s
  | holds_enum : forall ident root nss ws sk m rest, env id = Some (TDEnum ident root nss ws sk) ->
      vs_kind s = VkEnum (holding ident ws m) -> enum_kept ws calls m rest -> holds id calls s.

  Lemma holds_after id calls s c : holds id calls s -> holds id (calls ++ [c]) (after o alg env s c).
  Proof.
    intros [ident root nss fs E H|ident root nss ws sk m rest E Ek H].
    - destruct (Hnames _ _ E) as [N1 N2]. eapply holds_struct; [exact E|]. destruct c as [n v|str p|i r]; cbn [after].
      + now apply struct_attribute_step.
      + now apply struct_characters_step.
      + now apply struct_element_step.
    - destruct (enum_names _ _ _ _ _ _ E) as [Hns Hnd]. destruct c as [n v|str p|i r]; cbn [after].
      + destruct (enum_other ws calls m rest (CallAttribute n v) ltac:(discriminate) H) as [rest' H'].
        eapply holds_enum; [exact E| |exact H']. cbn. now rewrite Ek.
      + destruct (enum_other ws calls m rest (CallCharacters str p) ltac:(discriminate) H) as [rest' H'].
        rewrite characters_trace. eapply holds_enum; [exact E| |exact H']. exact Ek.
      + pose proof (element_reply_eq alg s i r) as Er. destruct (element_reply alg s i r) as [x s']. cbn [snd].
        unfold gelement in Er. rewrite Ek in Er.
        pose proof (enum_step alg ident ws Hns Hnd calls m rest i r H) as HE.
        destruct (genum_element _ _ _ i) as [[[[y e'] lk]| |]|]; try contradiction; cbn in Er; injection Er as _ <-.
        * destruct HE as (m' & -> & HE). eapply holds_enum; [exact E|reflexivity|exact HE].
        * destruct HE as [-> HE]. eapply holds_enum; [exact E|exact Ek|exact HE].
  Qed.

  Hypothesis Ha : accepted env.

  Lemma new_slots_hold id ident root nss all fs ss : env id = Some (TDStruct ident root nss all) -> incl fs all ->
    new_slots env fs = Some ss -> slots_hold [] [] fs ss.
  Proof.
    intro E. revert ss. induction fs as [|f fs IH]; intros ss Hi; cbn; [intros [= <-]; constructor|].
    specialize (fun ss => IH ss ltac:(intros x Hx; apply Hi; now right)).
    destruct (new_slots env fs) as [ss0|]; [|discriminate]. specialize (IH ss0 eq_refl).
    destruct (f_mode f) as [k t|opt t|j|t] eqn:Em; [| | |discriminate].
    - intros [= <-]. replace (SField false None) with (own_slot (stored o [] f)) by (unfold stored; now rewrite Em).
      constructor; auto. unfold is_flatten. now rewrite Em.
    - intros [= <-]. replace (SField false None) with (own_slot (stored o [] f)) by (unfold stored; now rewrite Em).
      constructor; auto. unfold is_flatten. now rewrite Em.
    - destruct (env j) as [[|ident' root' nss' ws sk]|] eqn:Ej; try discriminate. intros [= <-].
      eapply (sh_flatten [] [] f fs j ident' root' nss' ws sk None []); eauto. apply (ek_none ws []). intros w c _ [].
  Qed.

  Lemma holds_fold id l : forall s l0, holds id l0 s -> holds id (l0 ++ l) (fold_left (after o alg env) l s).
  Proof.
    induction l as [|c l IH]; intros s l0 H; cbn; [now rewrite app_nil_r|].
    replace (l0 ++ c :: l) with ((l0 ++ [c]) ++ l) by (now rewrite <- app_assoc). apply IH. now apply holds_after.
  Qed.

  Lemma holds_state w s : state_of o alg env w = Some s -> holds (dv_type w) (dv_calls w) s.
  Proof.
    unfold state_of. destruct (new_visitor env (dv_type w)) as [s0|] eqn:E0; [|discriminate]. cbn. intros [= <-].
    assert (H0 : holds (dv_type w) [] s0).
    { unfold new_visitor in E0. destruct (env (dv_type w)) as [[ident root nss fs|ident root nss ws sk]|] eqn:E; [..|discriminate].
      - destruct (new_slots env fs) as [ss|] eqn:Es; [|discriminate]. injection E0 as <-. eapply holds_struct; [exact E|].
        exists ss. split; [reflexivity|]. cbn. eapply new_slots_hold; eauto. apply incl_refl.
      - injection E0 as <-. eapply (holds_enum _ _ _ ident root nss ws sk None); [exact E|reflexivity|]. apply (ek_none ws []). intros w' c _ []. }
    exact (holds_fold _ (dv_calls w) _ _ H0).
  Qed.

  (** [finalize] *)
  Lemma slots_finalize calls l fs ss vs : slots_hold calls l fs ss ->
    (exists ss', finalize_slots fs ss = (Ok tt, ss') /\ assume_init ss' = Ok vs) <-> fields_kept o env calls l fs vs.
  Proof.
    intro H. revert vs. induction H as [l|l f fs ss Hf H IH|l f fs id ident root nss ws sk m rest ss Hm He Hk H IH]; intro vs.
    - cbn. split; [intros (ss' & [= <-] & [= <-]); constructor|]. intro K. inversion K; subst. exists []. auto.
    - assert (Hone : forall v, (exists s', finalize_slot f (own_slot (stored o calls f)) = Ok s' /\ slot_mem s' = Some v) <->
        field_kept o calls f v).
      { intro v. unfold field_kept, own_slot. destruct (stored o calls f) as [x|]; cbn.
        - split; [intros (s' & [= <-] & [= <-]); auto|intros ->; eexists; split; reflexivity].
        - destruct (f_default f) as [d|] eqn:Ed; cbn.
          + split; [intros (s' & [= <-] & [= <-]); now constructor|]. intro Ha'. inversion Ha'; subst; try congruence.
            eexists. split; [reflexivity|]. cbn. congruence.
          + unfold missing. split.
            * destruct (f_mode f) as [[| |] t|[|] t| |] eqn:Em; cbn; intros (s' & E1 & E2); try discriminate; injection E1 as <-;
                injection E2 as <-; solve [eapply abs_opt; eauto|eapply abs_vec; eauto|eapply abs_attr; eauto].
            * intro Ha'. inversion Ha' as [? X|? ? X|? ? X|? ? X]; subst; [congruence|rewrite X; cbn; eauto..]. }
      cbn [finalize_slots]. split.
      + intros (ss' & E1 & E2). destruct (finalize_slot f (own_slot (stored o calls f))) as [s'|e|x] eqn:Es; try discriminate.
        destruct (finalize_slots fs ss) as [r0 ss0]. injection E1 as -> <-. cbn in E2.
        destruct (slot_mem s') as [v|] eqn:Ev; [|discriminate]. destruct (assume_init ss0) as [vs0| |] eqn:Ei; try discriminate.
        injection E2 as <-. constructor; [exact Hf|apply Hone; eauto|apply IH; eauto].
      + intro K. inversion K as [|? ? ? v vs0 K1 K2 K3|? ? ? ? ? ? ? ? ? ? ? ? K1]; subst; [|unfold is_flatten in Hf; now rewrite K1 in Hf].
        apply Hone in K2 as (s' & -> & Es). apply IH in K3 as (ss' & -> & Ei). exists (s' :: ss'). split; [reflexivity|]. cbn. now rewrite Es, Ei.
    - cbn [finalize_slots finalize_slot]. destruct (enum_names _ _ _ _ _ _ He) as [Hns Hnd]. split.
      + intros (ss' & E1 & E2). unfold enum_finalize, holding in E1. cbn in E1. destruct m as [v|]; cbn in E1; [|discriminate].
        destruct (finalize_slots fs ss) as [r0 ss0]. injection E1 as -> <-. cbn in E2.
        destruct (assume_init ss0) as [vs0| |] eqn:Ei; try discriminate. injection E2 as <-.
        eapply fk_flatten; eauto. apply IH; eauto.
      + intro K. inversion K as [|? ? ? v vs0 K1|? ? ? id' ? ? ? ws' ? v rest' vs0 K1 K2 K3 K4]; subst;
          [unfold is_flatten in K1; now rewrite Hm in K1|].
        replace id' with id in * by congruence. rewrite He in K2. injection K2 as <- <- <- <- <-.
        destruct (enum_det ws Hnd _ _ _ _ _ Hk K3) as [-> <-].
        apply IH in K4 as (ss' & -> & Ei). eexists. split; [reflexivity|]. cbn. now rewrite Ei.
  Qed.

  Lemma value_finalize w default v : env (dv_type w) <> None ->
    reply_finalize o alg env w default = Ok v <-> finalizes o env w default v.
  Proof.
    intro He. destruct (some_state o alg env Ha w He) as (s & Es & _). unfold reply_finalize. rewrite Es.
    destruct (holds_state w s Es) as [ident root nss fs E (ss & Ek & H)|ident root nss ws sk m rest E Ek H];
      unfold finalize_with, finalizes; rewrite Ek.
    - unfold finalize. rewrite Ek. split.
      + intro F. left.
        destruct (finalize_slots fs ss) as [[[]|e|x] ss'] eqn:Ef; cbn in F; try discriminate.
        destruct (assume_init ss') as [vs| |] eqn:Ei; try discriminate. cbn in F. injection F as <-.
        eapply vk_struct; [exact E|]. apply (slots_finalize _ _ _ _ _ H). eauto.
      + intros [F|(? & ? & ? & ? & ? & X & _)]; [|congruence]. inversion F as [? ? ? fs' vs E'|]; subst; [|congruence].
        rewrite E in E'. injection E' as <- <- <- <-.
        match goal with K : fields_kept _ _ _ _ _ _ |- _ => apply (slots_finalize _ _ _ _ _ H) in K as (ss' & -> & Ei) end.
        cbn. now rewrite Ei.
    - destruct (enum_names _ _ _ _ _ _ E) as [Hns Hnd]. unfold holding. cbn. split.
      + destruct m as [x|]; cbn.
        * intros [= <-]. left. eapply vk_enum; eauto.
        * destruct default as [[d|msg]|]; cbn; try discriminate. intros [= <-]. right. exists ident, root, nss, ws, sk.
          split; [exact E|]. split; [|reflexivity]. now inversion H.
      + intros [F|(? & ? & ? & ws' & ? & X & N & ->)].
        * inversion F as [? ? ? fs' vs E'|? ? ? ws' ? ? rest' E' K]; subst; [congruence|]. rewrite E in E'. injection E' as <- <- <- <- <-.
          destruct (enum_det ws Hnd _ _ _ _ _ H K) as [-> _]. reflexivity.
        * rewrite E in X. injection X as <- <- <- <- <-.
          destruct (enum_det ws Hnd _ _ _ _ _ H (ek_none ws _ N)) as [-> _]. reflexivity.
  Qed.
End Struct.
