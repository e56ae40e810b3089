(** Declaring fields in another order: what is written. *)
From Verif Require Import Base Normalize Text Find FindProofs Types Ser SerSpec Reader ReaderSpec DeSpec
  DeriveSer DSerSpec DSerProofs DSerProps RTSpec ReorderSpec Reorder.
From Coq Require Import Lia Permutation.

(** ** Lists *)

Lemma mixed_refl {A} (g : A -> A -> Prop) l : mixed g l l.
Proof. induction l; now constructor. Qed.

Lemma mixed_app_l {A} (g : A -> A -> Prop) l a b : mixed g a b -> mixed g (l ++ a) (l ++ b).
Proof. intros H. induction l; [exact H|now constructor]. Qed.

Lemma mixed_app_r {A} (g : A -> A -> Prop) l a b : mixed g a b -> mixed g (a ++ l) (b ++ l).
Proof. induction 1; [apply mixed_refl|now constructor|now constructor|eapply mx_trans; eauto]. Qed.

Lemma mixed_app {A} (g : A -> A -> Prop) a a' b b' : mixed g a a' -> mixed g b b' -> mixed g (a ++ b) (a' ++ b').
Proof. intros H1 H2. eapply mx_trans; [apply mixed_app_r, H1|now apply mixed_app_l]. Qed.

Lemma mixed_past {A} (g : A -> A -> Prop) x b l : Forall (g x) b -> mixed g (x :: b ++ l) (b ++ x :: l).
Proof.
  induction 1 as [|y b H _ IH]; cbn; [apply mixed_refl|]. eapply mx_trans; [apply mx_swap, H|now constructor].
Qed.

Lemma mixed_blocks {A} (g : A -> A -> Prop) a b l : (forall x y, In x a -> In y b -> g x y) -> mixed g (a ++ b ++ l) (b ++ a ++ l).
Proof.
  induction a as [|x a IH]; intros H; cbn; [apply mixed_refl|].
  eapply mx_trans; [apply mx_cons, IH; intros; apply H; [now right|assumption]|].
  apply mixed_past. apply Forall_forall. intros y Hy. apply H; [now left|exact Hy].
Qed.

(** The same children, up to order. *)
Definition same_kids (l l' : list wtree) : Prop := exists m, mixed apart l m /\ Forall2 same_tree m l'.

Lemma same_kids_app a b a' b' : same_kids a a' -> same_kids b b' -> same_kids (a ++ b) (a' ++ b').
Proof.
  intros (m & M & F) (m' & M' & F'). exists (m ++ m'). split; [now apply mixed_app|now apply Forall2_app].
Qed.

Lemma same_kids_each a a' : Forall2 same_tree a a' -> same_kids a a'.
Proof. exists a. split; [apply mixed_refl|assumption]. Qed.

Lemma req_attrs_apps a b : req_attrs (a ++ b) = req_attrs a ++ req_attrs b.
Proof. induction a as [|[p u|n x] a IH]; cbn; rewrite ?IH; reflexivity. Qed.

(** ** One field at a time *)

Section Parts.
  Context (o : oracles) (R : ety -> value -> list req -> list rtree -> Prop).

  (** What one field contributes. *)
  Record contrib := Contrib { c_attrs : list req; c_own : list rtree; c_reqs : list req; c_flat : list rtree }.

  Definition contributes (p : field * value) (c : contrib) : Prop :=
    attrs_are o [fst p] [snd p] (c_attrs c) /\ own_kids R [fst p] [snd p] (c_own c) /\
    flattened R [fst p] [snd p] (c_reqs c) (c_flat c).

  Lemma split_attrs f fs v vs l : attrs_are o (f :: fs) (v :: vs) l -> exists a b, l = a ++ b /\
    attrs_are o [f] [v] a /\ attrs_are o fs vs b.
  Proof.
    intros H; inversion H; subst.
    - eexists [_], _. split; [reflexivity|]. split; [|eassumption]. eapply aa_here; [eassumption|eassumption|constructor].
    - exists [], l. split; [reflexivity|]. split; [|assumption]. eapply aa_none; [eassumption|constructor].
    - exists [], l. split; [reflexivity|]. split; [|assumption]. apply aa_other; [assumption|constructor].
  Qed.

  Lemma join_attrs f fs v vs a b : attrs_are o [f] [v] a -> attrs_are o fs vs b -> attrs_are o (f :: fs) (v :: vs) (a ++ b).
  Proof.
    intros H H'; inversion H as [|? ? opt t x s vs' l M T Q|? ? t vs' l M Q|? ? ? vs' l M Q]; subst; inversion Q; subst; cbn.
    - eapply aa_here; eauto.
    - eapply aa_none; eauto.
    - now apply aa_other.
  Qed.

  Lemma split_own f fs v vs l : own_kids R (f :: fs) (v :: vs) l -> exists a b, l = a ++ b /\
    own_kids R [f] [v] a /\ own_kids R fs vs b.
  Proof.
    intros H; inversion H; subst.
    - eexists _, _. split; [reflexivity|]. split; [|eassumption]. rewrite <- (app_nil_r l0). eapply ok_here; eauto. constructor.
    - exists [], l. split; [reflexivity|]. split; [|assumption]. apply ok_other; [assumption|constructor].
  Qed.

  Lemma join_own f fs v vs a b : own_kids R [f] [v] a -> own_kids R fs vs b -> own_kids R (f :: fs) (v :: vs) (a ++ b).
  Proof.
    intros H H'; inversion H as [|? ? k t ? xs l vs' l' M I E Q|? ? ? vs' l M Q]; subst; inversion Q; subst; cbn.
    - rewrite app_nil_r. eapply ok_here; eauto.
    - now apply ok_other.
  Qed.

  Lemma split_flat f fs v vs r l : flattened R (f :: fs) (v :: vs) r l -> exists ra rb a b, r = ra ++ rb /\ l = a ++ b /\
    flattened R [f] [v] ra a /\ flattened R fs vs rb b.
  Proof.
    intros H; inversion H; subst.
    - do 4 eexists. split; [reflexivity|]. split; [reflexivity|]. split; [|eassumption].
      rewrite <- (app_nil_r reqs), <- (app_nil_r kids). eapply fl_here; eauto. constructor.
    - exists [], r, [], l. split; [reflexivity|]. split; [reflexivity|]. split; [|assumption]. apply fl_other; [assumption|constructor].
  Qed.

  Lemma join_flat f fs v vs ra rb a b : flattened R [f] [v] ra a -> flattened R fs vs rb b ->
    flattened R (f :: fs) (v :: vs) (ra ++ rb) (a ++ b).
  Proof.
    intros H H'; inversion H as [|? ? id ? vs' r k r' k' M C Q|? ? ? vs' r k M Q]; subst; inversion Q; subst; cbn.
    - rewrite !app_nil_r. eapply fl_here; eauto.
    - now apply fl_other.
  Qed.

  Lemma split_all fs : forall vs a k r l, attrs_are o fs vs a -> own_kids R fs vs k -> flattened R fs vs r l ->
    exists cs, Forall2 contributes (combine fs vs) cs /\ a = flat_map c_attrs cs /\ k = flat_map c_own cs /\
      r = flat_map c_reqs cs /\ l = flat_map c_flat cs.
  Proof.
    induction fs as [|f fs IH]; intros [|v vs] a k r l HA HO HF; try now inversion HA.
    - inversion HA; inversion HO; inversion HF; subst. exists []. repeat split. constructor.
    - apply split_attrs in HA as (a1 & a2 & -> & A1 & A2). apply split_own in HO as (k1 & k2 & -> & K1 & K2).
      apply split_flat in HF as (r1 & r2 & l1 & l2 & -> & -> & L1 & L2).
      destruct (IH vs a2 k2 r2 l2 A2 K2 L2) as (cs & F & -> & -> & -> & ->).
      exists (Contrib a1 k1 r1 l1 :: cs). cbn. repeat split. constructor; [|exact F]. repeat split; assumption.
  Qed.

  Lemma join_all fs : forall vs cs, length fs = length vs -> Forall2 contributes (combine fs vs) cs ->
    attrs_are o fs vs (flat_map c_attrs cs) /\ own_kids R fs vs (flat_map c_own cs) /\
    flattened R fs vs (flat_map c_reqs cs) (flat_map c_flat cs).
  Proof.
    induction fs as [|f fs IH]; intros [|v vs] cs L F; try discriminate; cbn in F; inversion F as [|? c ? cs' (C1 & C2 & C3) F']; subst.
    - cbn. repeat split; constructor.
    - injection L as L. destruct (IH vs cs' L F') as (H1 & H2 & H3). cbn. repeat split; [now apply join_attrs|now apply join_own|now apply join_flat].
  Qed.

  (** Names of own elements. *)
  Definition own_names (l : list (field * value)) : list xname :=
    map (fun p => expanded (f_name (fst p))) (filter (fun p => is_element (fst p)) l).

  Lemma elems_named n t xs l : elems_are R n t xs l -> Forall (fun c => exists r k, c = RElem n r k) l.
  Proof. induction 1; constructor; eauto. Qed.

  Lemma own_named p c : contributes p c -> c_own c = [] \/ is_element (fst p) = true /\
    Forall (fun t => exists r k, t = RElem (expanded (f_name (fst p))) r k) (c_own c).
  Proof.
    intros (_ & H & _). inversion H as [|? ? k t ? xs l vs' l' M I E Q Q1 Q2 Q3|? ? ? vs' l M Q]; subst; inversion Q; subst; [|now left].
    right. split; [unfold is_element; now rewrite M|]. rewrite app_nil_r. eapply elems_named; eauto.
  Qed.

  Lemma not_flat p c : contributes p c -> is_flatten (fst p) = false -> c_reqs c = [] /\ c_flat c = [].
  Proof.
    intros (_ & _ & H) N. inversion H as [|? ? id ? vs' r k r' k' M C Q|? ? ? vs' r k M Q]; subst; inversion Q; subst; [|auto].
    unfold is_flatten in N. rewrite M in N. discriminate.
  Qed.

  Lemma shuffle_contrib a m : shuffle (fun p => is_flatten (fst p)) a m -> NoDup (own_names a) ->
    forall cs, Forall2 contributes a cs -> exists cs', Forall2 contributes m cs' /\
      Permutation (flat_map c_attrs cs) (flat_map c_attrs cs') /\ flat_map c_reqs cs = flat_map c_reqs cs' /\
      flat_map c_flat cs = flat_map c_flat cs' /\ mixed apart (map tree_of (flat_map c_own cs)) (map tree_of (flat_map c_own cs')).
  Proof.
    intros S0. induction S0 as [|x l l' _ IH|x y l H|a b c S1 IH1 _ IH2]; intros N cs F.
    - exists cs. repeat split; auto using mixed_refl.
    - inversion F as [|? d ? ds C F']; subst.
      assert (N' : NoDup (own_names l)).
      { unfold own_names in *. cbn in N. destruct (is_element (fst x)); [now inversion N|exact N]. }
      destruct (IH N' ds F') as (ds' & G & P & E1 & E2 & M). exists (d :: ds'). cbn. rewrite E1, E2, !map_app.
      repeat split; [now constructor|now apply Permutation_app_head|now apply mixed_app_l].
    - inversion F as [|? d ? ds C F']; subst. inversion F' as [|? e ? es D F'']; subst.
      exists (e :: d :: es). cbn.
      assert (X : c_reqs d = [] /\ c_flat d = [] \/ c_reqs e = [] /\ c_flat e = []).
      { apply andb_false_iff in H as [H|H]; [left|right]; eapply not_flat; eauto. }
      repeat split; [auto| | | |].
      + rewrite !app_assoc. apply Permutation_app_tail, Permutation_app_comm.
      + destruct X as [[-> _]|[-> _]]; reflexivity.
      + destruct X as [[_ ->]|[_ ->]]; reflexivity.
      + rewrite !map_app. apply mixed_blocks. intros t t' Ht Ht'.
        destruct (own_named x d C) as [E|[E1 E2]]; [rewrite E in Ht; contradiction|].
        destruct (own_named y e D) as [E|[E3 E4]]; [rewrite E in Ht'; contradiction|].
        apply in_map_iff in Ht as (u & <- & Hu). apply in_map_iff in Ht' as (u' & <- & Hu').
        rewrite Forall_forall in E2, E4. destruct (E2 _ Hu) as (r1 & k1 & ->). destruct (E4 _ Hu') as (r2 & k2 & ->). cbn.
        unfold own_names in N. cbn in N. rewrite E1, E3 in N. cbn in N. inversion N as [|? ? N1 _]; subst. intros Q. apply N1. left. congruence.
    - destruct (IH1 N cs F) as (ds & G & P & E1 & E2 & M).
      assert (N' : NoDup (own_names b)).
      { eapply Permutation_NoDup; [|exact N]. unfold own_names. apply Permutation_map.
        clear - S1. apply shuffle_perm in S1. induction S1; cbn; repeat match goal with |- context [is_element ?x] => destruct (is_element x) end;
          eauto using Permutation_trans; constructor; auto. }
      destruct (IH2 N' ds G) as (es & G' & P' & E1' & E2' & M'). exists es.
      repeat split; [exact G'|eauto using Permutation_trans|congruence|congruence|eapply mx_trans; eauto].
  Qed.
End Parts.

Section Write.
  Context (o : oracles) (env env' : tenv).
  Hypothesis Hok : names_ok env.
  Notation C := (content o env).
  Notation C' := (content o env').

  Definition writes_same (v : value) : Prop := forall t v' reqs kids, re env env' t v v' -> C t v reqs kids ->
    exists reqs' kids', C' t v' reqs' kids' /\ Permutation (req_attrs reqs) (req_attrs reqs') /\
      same_kids (map tree_of kids) (map tree_of kids').

  Lemma each_same n t l l' ks : Forall writes_same l -> Forall2 (re env env' t) l l' -> elems_are C n t l ks ->
    exists ks', elems_are C' n t l' ks' /\ Forall2 same_tree (map tree_of ks) (map tree_of ks').
  Proof.
    intros G F. revert ks. induction F as [|v v' l l' H _ IH]; intros ks E; inversion E as [|? ? reqs kids ks0 Hc E']; subst.
    - exists []. split; constructor.
    - inversion G as [|? ? Gv Gs]; subst. destruct (Gv _ _ _ _ H Hc) as (reqs' & kids' & Hc' & P & m & M & S0).
      destruct (IH Gs _ E') as (ks' & X & Y). exists (RElem n reqs' kids' :: ks'). split; [now constructor|].
      cbn. constructor; [|exact Y]. econstructor; eauto.
  Qed.

  Lemma field_same p p' c : below writes_same (snd p) -> pair_re (re env env') p p' -> contributes o C p c ->
    exists c', contributes o C' p' c' /\ c_attrs c = c_attrs c' /\ Forall2 same_tree (map tree_of (c_own c)) (map tree_of (c_own c')) /\
      Permutation (req_attrs (c_reqs c)) (req_attrs (c_reqs c')) /\ same_kids (map tree_of (c_flat c)) (map tree_of (c_flat c')).
  Proof.
    destruct p as [f v], p' as [f' v'], c as [a k r l]. intros B [SF U] (HA & HO & HF). cbn in *.
    pose proof SF as [M N]. assert (N' : is_flatten f = false -> is_flatten f' = false) by (rewrite (same_field_flat _ _ SF); auto).
    inversion U as [kd t ? ? xs xs' I I' F|opt t ?|id ? ? F]; subst; match goal with X : _ = f_mode f |- _ => rename X into Mf end;
      rewrite <- Mf in M; symmetry in M.
    - inversion HA as [|? ? ? ? ? ? ? ? XA|? ? ? ? ? XA|? ? ? ? ? XA Q]; subst; try congruence. inversion Q; subst.
      inversion HF as [|? ? ? ? ? ? ? ? ? XF|? ? ? ? ? ? XF Q2]; subst; try congruence. inversion Q2; subst.
      inversion HO as [|? ? k2 t2 ? xs2 l2 ? l3 X I2 E Q3|? ? ? ? ? X]; subst; [|unfold is_element in X; rewrite <- Mf in X; discriminate].
      rewrite <- Mf in X. injection X as <- <-. inversion Q3; subst. rewrite (items_det _ _ _ _ I2 I) in E.
      destruct (each_same _ _ _ _ _ (below_items _ _ _ _ B I) F E) as (ks' & E' & S0).
      exists (Contrib [] (ks' ++ []) [] []). cbn. rewrite app_nil_r. split; [|repeat split; auto; [now rewrite app_nil_r|apply same_kids_each; constructor]].
      repeat split; cbn.
      + apply aa_other; [unfold is_attribute; now rewrite M|constructor].
      + rewrite <- (app_nil_r ks'). eapply ok_here; eauto; [|constructor]. rewrite <- N; [exact E'|unfold is_flatten; now rewrite <- Mf].
      + apply fl_other; [apply N'; unfold is_flatten; now rewrite <- Mf|constructor].
    - inversion HO as [|? ? ? ? ? ? ? ? ? X|? ? ? ? ? X Q]; subst; try congruence. inversion Q; subst.
      inversion HF as [|? ? ? ? ? ? ? ? ? X2|? ? ? ? ? ? X2 Q2]; subst; try congruence. inversion Q2; subst.
      exists (Contrib a [] [] []). cbn. split; [|repeat split; auto; apply same_kids_each; constructor].
      assert (expanded (f_name f) = expanded (f_name f')) as EN by (apply N; unfold is_flatten; now rewrite <- Mf).
      repeat split; cbn.
      + inversion HA as [|? ? opt2 t2 x s ? ? M2 T2 Q3|? ? t2 ? ? M2 Q3|? ? ? ? ? M2 Q3]; subst.
        * inversion Q3; subst. rewrite EN. apply aa_here with (t := t2); [congruence|exact T2|constructor].
        * inversion Q3; subst. apply aa_none with (t := t2); [congruence|constructor].
        * unfold is_attribute in M2. rewrite <- Mf in M2. discriminate.
      + apply ok_other; [unfold is_element; now rewrite M|constructor].
      + apply fl_other; [apply N'; unfold is_flatten; now rewrite <- Mf|constructor].
    - inversion HA as [|? ? ? ? ? ? ? ? XA|? ? ? ? ? XA|? ? ? ? ? XA Q]; subst; try congruence. inversion Q; subst.
      inversion HO as [|? ? ? ? ? ? ? ? ? X2|? ? ? ? ? X2 Q2]; subst; try congruence. inversion Q2; subst.
      inversion HF as [|? ? id2 ? ? r2 k2 r3 k3 X3 Hc Q3|? ? ? ? ? ? X3]; subst; [|unfold is_flatten in X3; rewrite <- Mf in X3; discriminate].
      rewrite <- Mf in X3. injection X3 as <-. inversion Q3; subst. destruct (proj1 B _ _ _ _ F Hc) as (r' & k' & Hc' & P & SK).
      exists (Contrib [] [] (r' ++ []) (k' ++ [])). cbn. split; [|rewrite !app_nil_r; repeat split; auto; constructor].
      repeat split; cbn.
      + apply aa_other; [unfold is_attribute; now rewrite M|constructor].
      + apply ok_other; [unfold is_element; now rewrite M|constructor].
      + eapply fl_here; eauto. constructor.
  Qed.

  Lemma fields_same m m' cs : Forall (fun p => below writes_same (snd p)) m -> Forall2 (pair_re (re env env')) m m' ->
    Forall2 (contributes o C) m cs -> exists cs', Forall2 (contributes o C') m' cs' /\ flat_map c_attrs cs = flat_map c_attrs cs' /\
      Forall2 same_tree (map tree_of (flat_map c_own cs)) (map tree_of (flat_map c_own cs')) /\
      Permutation (req_attrs (flat_map c_reqs cs)) (req_attrs (flat_map c_reqs cs')) /\
      same_kids (map tree_of (flat_map c_flat cs)) (map tree_of (flat_map c_flat cs')).
  Proof.
    intros G F. revert cs. induction F as [|p p' m m' H _ IH]; intros cs X; inversion X as [|? c ? cs0 Hc X']; subst.
    - exists []. cbn. repeat split; auto. apply same_kids_each. constructor.
    - inversion G as [|? ? Gp Gs]; subst. destruct (field_same p p' c Gp H Hc) as (c' & Hc' & E1 & E2 & E3 & E4).
      destruct (IH Gs _ X') as (cs' & F' & Y1 & Y2 & Y3 & Y4). exists (c' :: cs'). cbn. rewrite !map_app, !req_attrs_apps.
      repeat split; [now constructor|congruence|now apply Forall2_app|now apply Permutation_app|now apply same_kids_app].
  Qed.

  Lemma mappings_none nss : req_attrs (mappings nss) = [].
  Proof. induction nss as [|[p u] l IH]; cbn; auto. Qed.

  Lemma content_re v : writes_same v.
  Proof.
    induction v using value_ind''; intros t v' reqs kids U Hc.
    - inversion U; subst. exists reqs, kids. inversion Hc; subst. cbn. split; [now constructor|]. split; [auto|]. apply same_kids_each. repeat constructor.
    - inversion U as [|id i r n fs i' r' n' fs' ? us m E E' L L' S0 F| | |]; subst.
      inversion Hc as [|? ? ? ? fs0 ? attrs ks rs' ks' E0 HA HO HF| | |]; subst. rewrite E in E0. injection E0 as <- <- <- <-.
      destruct (split_all o C fs vs attrs ks rs' ks' HA HO HF) as (cs & X & -> & -> & -> & ->).
      assert (N : NoDup (own_names (combine fs vs))).
      { unfold own_names. rewrite (combine_names is_element fs vs L). apply (Hok _ _ E). }
      destruct (shuffle_contrib o C _ _ S0 N cs X) as (ds & Y & P1 & E1 & E2 & M).
      apply fields_re_iff in F.
      destruct (fields_same m (combine fs' us) ds) as (es & Z & Q1 & Q2 & Q3 & Q4); [|exact F|exact Y|].
      { eapply shuffle_all; [exact S0|]. now apply in_combine_all. }
      destruct (join_all o C' fs' us es L' Z) as (J1 & J2 & J3).
      exists (mappings n' ++ flat_map c_attrs es ++ flat_map c_reqs es), (flat_map c_own es ++ flat_map c_flat es).
      split; [econstructor; eauto|]. rewrite !req_attrs_apps, !mappings_none, !map_app. cbn [app]. split.
      + apply Permutation_app; [|now rewrite E1]. rewrite <- Q1. clear - P1.
        induction P1 as [|[p u|x y] l l' _ IH|[p u|x y] [p' u'|x' y'] l|]; cbn; auto; [constructor|eauto using Permutation_trans].
      + apply same_kids_app; [|now rewrite E2]. eexists. split; [exact M|exact Q2].
    - inversion U as [| |id a r n ws sk a' r' n' ws' sk' j j1 w w1 E E' J J1 [SN ST] W
                      |id a r n ws sk a' r' n' ws' sk' j j1 w w1 k t0 q q1 l l1 E E' J J1 [SN ST] W I I1 F|]; subst;
      inversion Hc as [| |? ? ? ? ws0 sk0 ? w0 E0 J0 W0|? ? ? ? ws0 sk0 ? w0 k0 t1 ? xs ks E0 J0 W0 I0 EA|]; subst;
      rewrite E in E0; injection E0 as <- <- <- <- <-; rewrite J in J0; injection J0 as <-.
      + exists (mappings n'), [RElem (expanded (v_name w1)) [] []]. split; [eapply co_unit; eauto; congruence|].
        rewrite !mappings_none. split; [auto|]. apply same_kids_each. cbn. rewrite SN. repeat econstructor.
      + rewrite W in W0. injection W0 as <- <-. rewrite (items_det _ _ _ _ I0 I) in EA.
        destruct (each_same _ _ _ _ _ (below_items _ _ _ _ (H _ eq_refl) I) F EA) as (ks' & EA' & S0).
        exists (mappings n'), ks'. split; [eapply co_payload; eauto; [rewrite <- ST; exact W|now rewrite <- SN]|].
        rewrite !mappings_none. split; [auto|]. now apply same_kids_each.
    - inversion U as [| | | |id i r n ws i' r' n' ws' E E']; subst. inversion Hc; subst. exists (mappings n'), [].
      split; [econstructor; eauto|]. rewrite !mappings_none. split; [auto|]. apply same_kids_each. constructor.
    - inversion U.
    - inversion U.
    - inversion U.
  Qed.

  Theorem rearranged_written dbg dbg' w w' id v v' k k' pol pol' : re env env' (ERef id) v v' ->
    root_name env id = root_name env' id ->
    legal_env env -> no_default env -> (pol = NsSpec.SkipIfAnywhere -> coherent_env env) ->
    legal_env env' -> no_default env' -> (pol' = NsSpec.SkipIfAnywhere -> coherent_env env') ->
    serialize_root o env dbg w id v = inl (None, k) -> serialize_root o env' dbg' w' id v' = inl (None, k') ->
    exists t t', NsSpec.meaning [] (NsSpec.emit pol [] (k_out k)) = Some (NsSpec.tree_events t) /\
      NsSpec.meaning [] (NsSpec.emit pol' [] (k_out k')) = Some (NsSpec.tree_events t') /\ same_tree t t'.
  Proof.
    intros U RN L D Co L' D' Co' S0 S1.
    destruct (root_meaning o env dbg w id v k pol L D Co S0) as (n & rs & ks & Rn & Hc & M).
    destruct (root_meaning o env' dbg' w' id v' k' pol' L' D' Co' S1) as (n' & rs' & ks' & Rn' & Hc' & M').
    destruct (content_re v _ _ _ _ U Hc) as (rs2 & ks2 & Hc2 & P & m & MX & F).
    destruct (content_det o env' v' _ _ _ _ _ Hc2 Hc') as [<- <-].
    assert (n' = n) as -> by congruence.
    do 2 eexists. split; [exact M|]. split; [exact M'|]. cbn. econstructor; eauto.
  Qed.

  (** ** The value can still be written *)

  Notation T := (typed o env).
  Notation T' := (typed o env').
  Definition still_typed (v : value) : Prop := forall t v', re env env' t v v' -> T t v -> T' t v'.

  Lemma each_typed t l l' : Forall still_typed l -> Forall2 (re env env' t) l l' -> Forall (T t) l -> Forall (T' t) l'.
  Proof.
    intros G F H. induction F as [|v v' l l' U _ IH]; [constructor|]. inversion G; inversion H; subst. constructor; auto.
  Qed.

  Lemma field_typed p p' : below still_typed (snd p) -> pair_re (re env env') p p' ->
    typed_field o T (fst p) (snd p) -> typed_field o T' (fst p') (snd p').
  Proof.
    destruct p as [f v], p' as [f' v']. cbn. intros B [[M _] U] H. cbn in M, U.
    inversion U as [kd t ? ? xs xs' I I' F Mf|opt t ? Mf|id ? ? F Mf]; subst; rewrite <- Mf in M; symmetry in M;
      inversion H as [k2 t2 ? l M2 I2 F2|t2 x M2|t2 M2|t2 x M2|id2 ? M2 F2|t2 x M2]; subst; try congruence.
    - assert (k2 = kd /\ t2 = t) as [-> ->] by (split; congruence). rewrite (items_det _ _ _ _ I2 I) in F2.
      eapply tf_element; eauto. eapply each_typed; [|exact F|exact F2]. eapply below_items; eauto.
    - apply tf_attribute with (t := t2); [congruence|assumption].
    - apply tf_no_attribute with (t := t2); congruence.
    - apply tf_opt_attribute with (t := t2); [congruence|assumption].
    - assert (id2 = id) as -> by congruence. eapply tf_flatten; eauto. apply B; auto.
  Qed.

  Lemma Forall2_combine {A B} (P : A -> B -> Prop) l : forall l', length l = length l' ->
    Forall2 P l l' <-> Forall (fun p => P (fst p) (snd p)) (combine l l').
  Proof.
    induction l as [|x l IH]; intros [|y l'] L; try discriminate; cbn; split; intros H; try constructor; inversion H; subst; auto;
      apply IH; auto.
  Qed.

  Lemma typed_re v : still_typed v.
  Proof.
    induction v using value_ind''; intros t v' U Ht.
    - inversion U; subst. inversion Ht; subst. now constructor.
    - inversion U as [|id i r n fs i' r' n' fs' ? us m E E' L L' S0 F| | |]; subst.
      inversion Ht as [|? ? ? ? fs0 ? E0 F0| | |]; subst. rewrite E in E0. injection E0 as <- <- <- <-.
      eapply ty_struct; eauto. apply Forall2_combine; [exact L'|]. apply Forall2_combine in F0; [|exact L].
      apply fields_re_iff in F. apply (shuffle_all _ _ _ _ S0) in F0.
      apply (in_combine_all _ fs), (shuffle_all _ _ _ _ S0) in H. clear - F F0 H.
      induction F as [|p p' m l P _ IH]; [constructor|]. inversion F0; inversion H; subst. constructor; [|auto]. eapply field_typed; eauto.
    - inversion U as [| |id a r n ws sk a' r' n' ws' sk' j j1 w w1 E E' J J1 [SN ST] W
                      |id a r n ws sk a' r' n' ws' sk' j j1 w w1 k t0 q q1 l l1 E E' J J1 [SN ST] W I I1 F|]; subst;
      inversion Ht as [| |? ? ? ? ws0 sk0 ? w0 E0 J0 W0|? ? ? ? ws0 sk0 ? w0 k0 t1 ? xs E0 J0 W0 I0 FA|]; subst;
      rewrite E in E0; injection E0 as <- <- <- <- <-; rewrite J in J0; injection J0 as <-.
      + eapply ty_unit; eauto. congruence.
      + rewrite W in W0. injection W0 as <- <-. rewrite (items_det _ _ _ _ I0 I) in FA.
        eapply ty_payload; eauto; [rewrite <- ST; exact W|]. eapply each_typed; [|exact F|exact FA].
        eapply below_items; [apply H; reflexivity|exact I].
    - inversion U; subst. eapply ty_skipped; eauto.
    - inversion U.
    - inversion U.
    - inversion U.
  Qed.
End Write.

Theorem rearranged_writes o env env' dbg w id v v' : re env env' (ERef id) v v' -> typed o env (ERef id) v ->
  attrs_apart env' -> names_declared env' -> prefixes_ok env' -> no_default env' -> (forall i, w i = None) ->
  exists k, serialize_root o env' dbg w id v' = inl (None, k).
Proof. intros U Ht A. apply (root_succeeds o env' A). exact (typed_re o env env' v _ v' U Ht). Qed.
