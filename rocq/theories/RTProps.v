(** Round trips: properties. *)
From Verif Require Import Base Normalize NormalizeSpec NormalizeProofs Text TextSpec TextProofs Find
  FindProofs Types Ser SerSpec DeriveSer DSerSpec DSerProofs DSerProps Reader ReaderSpec DeSpec DeProps
  DeriveDe DeLike RTSpec RTProofs.
From Verif Require NsSpec.

(** ** Blank text *)

Lemma blank_char_ws c : blank_char c = is_ws c.
Proof. destruct c as [[] [] [] [] [] [] [] []]; reflexivity. Qed.
Lemma blank_ws s : blank s = forallb is_ws (bytes_of s).
Proof. unfold blank. induction (bytes_of s) as [|c l IH]; [reflexivity|]. cbn [forallb]. now rewrite blank_char_ws, IH. Qed.

Lemma seen_empty : seen "" = ""%string.
Proof. reflexivity. Qed.

(** Types that ignore surrounding white space. *)
Definition blank_safe (t : tty) : bool :=
  match t with
  | TBool | TInt _ | TFloat _ | TRestr _ Collapse _ | TUnion _ Collapse _ | TStd _ Collapse => true
  | _ => false
  end.

Lemma trim_blank s : blank s = true -> trim_bytes (bytes_of s) = [].
Proof.
  rewrite blank_ws. intros H. unfold trim_bytes.
  replace (trim_start (bytes_of s)) with (@nil ascii); [reflexivity|].
  rewrite <- (app_nil_r (bytes_of s)), trim_start_app by auto. reflexivity.
Qed.

Lemma collapse_blank s : blank s = true -> gen_normalize Collapse s = Ok ""%string.
Proof.
  rewrite blank_ws. intros H. unfold gen_normalize. rewrite normalize_collapse. unfold spec_collapse.
  rewrite (proj2 (words_nil_iff ws_byte (bytes_of s))); [reflexivity|]. now rewrite forallb_ws_byte.
Qed.

Lemma seen_irrelevant o t s x : blank_safe t = true -> parse_text o t (seen s) = Ok x <-> parse_text o t s = Ok x.
Proof.
  intros Ht. unfold seen. destruct (blank s) eqn:B; [|reflexivity].
  assert (trim s = ""%string) as Htr by (unfold trim; now rewrite trim_blank).
  destruct t as [| |k|w|name ws vs|name ws vs|id ws|id]; try discriminate.
  - cbn [parse_text]. unfold parse_bool. rewrite Htr. cbn. easy.
  - cbn [parse_text]. unfold parse_int. now rewrite (trim_blank s).
  - cbn [parse_text]. now rewrite Htr.
  - destruct ws; try discriminate. cbn [parse_text]. now rewrite (collapse_blank s).
  - destruct ws; try discriminate. cbn [parse_text]. now rewrite (collapse_blank s).
  - destruct ws; try discriminate. cbn [parse_text]. now rewrite (collapse_blank s).
Qed.

Section Leaves.
  Context (o : oracles).

  Lemma safe_lossless t : blank_safe t = true -> lossless_attr o t -> lossless_elem o t.
  Proof. intros H1 H2 x s E. apply seen_irrelevant; auto. Qed.

  Lemma string_lossless_attr : lossless_attr o TString.
  Proof. intros x s. destruct x; cbn; try discriminate. now intros [= ->]. Qed.
  Lemma bool_lossless : lossless_attr o TBool.
  Proof. intros x s. destruct x; cbn; try discriminate. intros [= <-]. now rewrite parse_show_bool. Qed.
  Lemma int_lossless k : lossless_attr o (TInt k).
  Proof.
    intros x s. destruct x; cbn; try discriminate. destruct (in_range k z) eqn:E; [|discriminate].
    intros [= <-]. rewrite parse_show_int; [reflexivity|]. now apply in_range_iff.
  Qed.
  Lemma restr_lossless name ws vs : NoDup (restr_texts vs) ->
    (forall s, In (RKnown s) vs -> spec_norm ws s = s) -> ~ In RUnknown vs ->
    lossless_attr o (TRestr name ws vs).
  Proof.
    intros H1 H2 H3 x s. destruct x; try (cbn; discriminate).
    - cbn [to_text]. destruct (nth_error vs i) as [[s'|]|] eqn:E; try discriminate. intros [= <-].
      eapply restr_roundtrip_known; eauto. apply H2. eapply nth_error_In; eauto.
    - cbn [to_text]. destruct (existsb is_unknown vs) eqn:E; [|discriminate].
      apply existsb_exists in E. destruct E as ([?|] & Hin & Hu); [discriminate|contradiction].
  Qed.

  (** A string survives as an element iff it is empty or not blank. *)
  Lemma string_survives env s : survives o env (EText TString) (VText (TVStr s)) <-> (blank s = true -> s = ""%string).
  Proof.
    split.
    - intros H B. inversion H as [t x s' T P| | |]; subst. cbn in T. injection T as <-. cbn in P.
      unfold seen in P. rewrite B in P. congruence.
    - intros H. eapply su_text; [reflexivity|]. cbn. unfold seen. destruct (blank s); [|reflexivity].
      now rewrite H.
  Qed.
End Leaves.

(** ** Lossless types *)

Section Lossless.
  Context (o : oracles) (env : tenv).

  Definition lv (v : value) : Prop := forall t, typed o env t v -> lossless_ety o t -> survives o env t v.

  Lemma lossless_items t l : Forall lv l -> lossless_ety o t -> Forall (typed o env t) l ->
    Forall (survives o env t) l.
  Proof. intros H HL HT. rewrite Forall_forall in *. intros v Hv. apply H; auto. Qed.

  Lemma lossless_fields all fs vs : Forall (below lv) vs -> Forall (lossless_field o env all) fs ->
    Forall2 (typed_field o (typed o env)) fs vs ->
    Forall2 (survives_field o env (survives o env) (field_names is_element all)) fs vs.
  Proof.
    intros Hb HL HF. revert Hb HL. induction HF as [|f v fs vs Hf _ IH]; intros Hb HL; [constructor|].
    inversion Hb as [|? ? Bv Hb']; subst. inversion HL as [|? ? Lf HL']; subst.
    constructor; [|auto]. unfold lossless_field in Lf.
    destruct Hf as [k t v l M I F|t x M T|t M|t x M T|id v M T|t x M T]; rewrite M in Lf.
    - assert (LT : lossless_ety o t) by (destruct k; tauto).
      eapply sf_element; eauto; [eapply lossless_items; eauto; eapply below_items; eauto|].
      intros ->. inversion I; subst; destruct Lf as [_ [D|D]];
        solve [now apply abs_default|eapply abs_opt; eauto|eapply abs_vec; eauto].
    - destruct (to_text o t x) as [s|] eqn:E; [|easy]. apply (sf_attribute _ _ _ _ _ false t x s); auto.
    - apply (sf_no_attribute _ _ _ _ _ t); auto. destruct Lf as [_ [D|D]]; [eapply abs_attr; eauto|now apply abs_default].
    - destruct (to_text o t x) as [s|] eqn:E; [|easy]. apply (sf_attribute _ _ _ _ _ true t x s); auto.
      now apply Lf.
    - eapply sf_flatten; [eassumption|now apply Bv|].
      intros n (ident & root & nss & ws & sk & i & p & w & En & -> & Hw & <-). eapply Lf; eauto.
      apply nth_error_In in Hw. eapply Permutation.Permutation_in; [|exact Hw]. apply sort_perm.
    - easy.
  Qed.

  Theorem lossless_survives : lossless_env o env -> forall v, lv v.
  Proof.
    intros HE. induction v using value_ind''; intros t T L.
    - inversion T as [t' x' Hx| | | |]; subst. destruct (to_text o t' x) as [s|] eqn:Es; [|easy].
      eapply su_text; eauto.
    - inversion T as [|id ident root nss fs vs' En HF| | |]; subst.
      destruct (HE _ _ En) as [HL Hlen]. eapply su_struct; eauto. now apply lossless_fields.
    - inversion T as [| |id ident root nss ws sk i' w En Hw Ht|id ident root nss ws sk i' w k t' x l En Hw Ht I HF|]; subst.
      + eapply su_unit; eauto.
      + destruct (HE _ _ En) as [HL _]. rewrite Forall_forall in HL.
        assert (Hin : In w ws).
        { apply nth_error_In in Hw. eapply Permutation.Permutation_in; [|exact Hw]. apply sort_perm. }
        specialize (HL _ Hin). unfold lossless_variant in HL. rewrite Ht in HL. destruct k; [|easy|easy].
        inversion I; subst. eapply su_payload; eauto; [easy|].
        eapply lossless_items; eauto. eapply below_items; [eapply H; reflexivity|exact I].
    - inversion T as [| | | |id ident root nss ws En]; subst. destruct (HE _ _ En). discriminate.
    - inversion T.
    - inversion T.
    - inversion T.
  Qed.
End Lossless.

(** ** Indentation and showing *)

Fixpoint wtree_ind' (P : wtree -> Prop) (HT : forall s, P (TText s))
  (HE : forall n a kids, Forall P kids -> P (TElem n a kids)) (t : wtree) {struct t} : P t :=
  match t with
  | TText s => HT s
  | TElem n a kids => HE n a kids ((fix all l : Forall P l :=
      match l with [] => Forall_nil P | x :: l' => Forall_cons x (wtree_ind' P HT HE x) (all l') end) kids)
  end.

Lemma indented_refl t : indented t t.
Proof.
  induction t as [s|n a kids IH] using wtree_ind'; [constructor|]. apply ind_same.
  induction IH; constructor; auto.
Qed.

Lemma bytes_append a b : bytes_of (a ++ b)%string = bytes_of a ++ bytes_of b.
Proof. unfold bytes_of. induction a as [|c a IH]; cbn; congruence. Qed.

Lemma texts_blank kids' : Forall (fun k => match k with TText s => blank s = true | TElem _ _ _ => True end) kids' ->
  exists h r, texts kids' = h :: r /\ blank h = true /\ map seen r = map (fun _ => ""%string) (filter is_telem kids').
Proof.
  induction 1 as [|k l Hk _ (h & r & E & B & M)].
  - exists ""%string, []. auto.
  - destruct k as [n a ks|s]; cbn [texts filter is_telem].
    + exists ""%string, (texts l). split; [reflexivity|]. split; [reflexivity|]. rewrite E. cbn [map].
      rewrite M. f_equal. unfold seen. now rewrite B.
    + exists (s ++ h)%string, r. rewrite E. split; [reflexivity|]. split; [|exact M].
      rewrite blank_ws in *. rewrite bytes_append, forallb_app, Hk, B. reflexivity.
Qed.

Lemma texts_elems kids : forallb is_telem kids = true ->
  map seen (texts kids) = ""%string :: map (fun _ => ""%string) kids.
Proof.
  induction kids as [|k kids IH]; [reflexivity|]. cbn [forallb]. destruct k; [|discriminate]. intros H.
  cbn [texts map]. now rewrite IH.
Qed.

Lemma forallb_filter {A} (p : A -> bool) l : forallb p l = true -> filter p l = l.
Proof.
  induction l as [|x l IH]; [reflexivity|]. cbn. intros H. apply andb_true_iff in H as [H1 H2]. now rewrite H1, IH.
Qed.

Lemma indented_texts kids kids' : Forall2 indented kids kids' -> texts kids = texts kids'.
Proof.
  induction 1 as [|k k' kids kids' H _ IH]; [reflexivity|].
  destruct H; cbn [texts]; now rewrite IH.
Qed.

Lemma indented_telem t t' : indented t t' -> is_telem t = is_telem t'.
Proof. now destruct 1. Qed.

Lemma shows_indented t : forall t' n, indented t t' -> shows t' n -> shows t n.
Proof.
  induction t as [s|n a kids IH] using wtree_ind'; intros t' c HI HS.
  - inversion HI; subst. inversion HS.
  - assert (Hk : forall ks' E, Forall2 indented (filter is_telem kids) ks' -> Forall2 shows ks' E ->
             Forall2 shows (filter is_telem kids) E).
    { assert (IHf : Forall (fun t => forall t' n, indented t t' -> shows t' n -> shows t n) (filter is_telem kids)).
      { rewrite Forall_forall in *. intros x Hx. apply filter_In in Hx. now apply IH. }
      revert IHf. generalize (filter is_telem kids). intros l HF.
      induction HF as [|x l Hx _ IHl]; intros ks' E H1 H2; inversion H1; subst; inversion H2; subst; constructor; eauto. }
    inversion HI as [|n' a' k1 k2 H1|n' a' k1 k2 H0 H1 H2]; subst; inversion HS as [? ? ? name attrs' ns p K pe E1 E2 E3 E4]; subst.
    + constructor; auto.
      * eapply Hk; [|exact E3]. clear - H1. induction H1 as [|x y l l' H _ IHf]; [constructor|]. cbn.
        rewrite <- (indented_telem _ _ H). destruct (is_telem x); [now constructor|exact IHf].
      * now rewrite (indented_texts _ _ H1).
    + constructor; auto.
      * eapply Hk; [|exact E3]. now rewrite forallb_filter.
      * rewrite E4, (texts_elems kids H0). destruct (texts_blank _ H2) as (h & r & E & B & M). rewrite E. cbn [map].
        f_equal; [unfold seen; now rewrite B|]. rewrite M. revert H1. generalize (filter is_telem k2). clear.
        intros l H1. induction H1; cbn [map]; congruence.
Qed.

(** Every tree can be shown. *)
Definition name_of (n : xname) : oname :=
  OName None (if String.eqb (xn_ns n) "" then None else Some (xn_ns n)) (xn_local n).
Lemma name_of_spec n : from_xml_name (name_of n) = n.
Proof.
  destruct n as [ns l]. unfold from_xml_name, name_of. cbn. destruct (String.eqb_spec ns ""); cbn; congruence.
Qed.

Fixpoint add_texts (l : list string) (els : list node) : list node :=
  match l with
  | [] => els
  | s :: l' => match els with
               | [] => [NText false s (0%N, 0%N)]
               | e :: els' => NText false s (0%N, 0%N) :: e :: add_texts l' els'
               end
  end.

Fixpoint render (t : wtree) : node :=
  match t with
  | TText s => NText false s (0%N, 0%N)
  | TElem n a kids =>
      NElem (name_of n) (map (fun x => Attr (name_of (fst x)) (snd x)) a) [] (0%N, 0%N)
        (add_texts (map seen (texts kids))
           (flat_map (fun k => match k with TElem _ _ _ => [render k] | TText _ => [] end) kids)) (0%N, 0%N)
  end.

Lemma render_kids kids : flat_map (fun k => match k with TElem _ _ _ => [render k] | TText _ => [] end) kids =
  map render (filter is_telem kids).
Proof. induction kids as [|[n a ks|s] kids IH]; cbn [flat_map filter is_telem map app]; congruence. Qed.

Lemma texts_length kids : List.length (texts kids) = S (List.length (filter is_telem kids)).
Proof.
  induction kids as [|[n a ks|s] kids IH]; cbn [texts filter is_telem List.length]; [reflexivity|congruence|].
  rewrite <- IH. now destruct (texts kids).
Qed.

Lemma add_texts_elems l els : Forall (fun k => is_elem k = true) els ->
  filter is_elem (add_texts l els) = els.
Proof.
  revert els. induction l as [|s l IH]; intros els H; [now apply filter_all|].
  destruct H as [|e els He H]; cbn; [reflexivity|]. now rewrite He, IH.
Qed.

Lemma add_texts_texts l els : Forall (fun k => is_elem k = true) els -> List.length l = S (List.length els) ->
  node_texts (add_texts l els) = l.
Proof.
  revert els. induction l as [|s l IH]; intros els H HL; [discriminate|].
  destruct H as [|e els He H]; cbn [add_texts node_texts onto].
  - destruct l; [|discriminate]. cbn. now rewrite append_nil.
  - destruct e; try discriminate. cbn [node_texts onto]. rewrite IH; auto. now rewrite append_nil.
Qed.

Lemma render_elems l : Forall (fun k => is_elem k = true) (map render (filter is_telem l)).
Proof. induction l as [|[n a ks|s] l IH]; cbn; auto. Qed.

Lemma render_shows t : is_telem t = true -> shows t (render t).
Proof.
  induction t as [s|n a kids IH] using wtree_ind'; [discriminate|]. intros _. cbn [render]. rewrite render_kids.
  constructor.
  - apply name_of_spec.
  - rewrite map_map. cbn. induction a as [|[x v] a IHa]; [reflexivity|]. cbn. rewrite name_of_spec. now f_equal.
  - rewrite add_texts_elems by apply render_elems. clear - IH.
    induction IH as [|[n a ks|s] l H _ IHl]; cbn [filter is_telem map]; [constructor| |exact IHl].
    constructor; auto.
  - apply add_texts_texts; [apply render_elems|]. now rewrite map_length, texts_length, map_length.
Qed.

(** ** The round trip *)

Section RoundTrip.
  Context (o : oracles) (env : tenv) (alg : bs_alg).

  Theorem round_trip dbg w id v k pol : compiles env -> names_ok env ->
    legal_env env -> no_default env -> (pol = NsSpec.SkipIfAnywhere -> coherent_env env) ->
    serialize_root o env dbg w id v = inl (None, k) ->
    exists t, NsSpec.meaning [] (NsSpec.emit pol [] (k_out k)) = Some (NsSpec.tree_events t) /\
      is_telem t = true /\
      forall t' d, indented t t' -> shows t' (d_root d) -> forall dbg' pe,
        read_as o alg env dbg' (ERef id) (doc_events d) (FEndDocument pe) = Ok v <->
        survives o env (ERef id) v.
  Proof.
    intros Hc Hok HL Hd Hpol S.
    destruct (root_meaning o env dbg w id v k pol HL Hd Hpol S) as (n & rs & ks & _ & C & M).
    exists (tree_of (RElem n rs ks)). split; [exact M|]. split; [reflexivity|].
    intros t' d HI HS dbg' pe. rewrite read_as_iff by auto.
    apply (rt_all o env Hc Hok v (ERef id) n rs ks (d_root d) C). eapply shows_indented; eauto.
  Qed.

  (** Values that are lost. *)
  Definition lost (t : ety) (v : value) : Prop := forall n reqs kids c v', content o env t v reqs kids ->
    shows (tree_of (RElem n reqs kids)) c -> ~ reads o env t c v'.

  Lemma choice_nothing R ws v : ~ choice R ws [] v.
  Proof.
    intros H. inversion H as [i w H1 H2 H3 H4|i w k t x H1 H2 H3 H4]; subst; [easy|]. inversion H4; subst; easy.
  Qed.

  Lemma childless_lost id ident root nss ws sk v : env id = Some (TDEnum ident root nss ws sk) ->
    (forall reqs kids, content o env (ERef id) v reqs kids -> kids = []) -> lost (ERef id) v.
  Proof.
    intros En Hk n reqs kids c v' C S R. rewrite (Hk _ _ C) in S.
    inversion S as [? ? ? name attrs' ns p K pe E1 E2 E3 E4]; subst. cbn in E3.
    inversion R as [| |id' ident' root' nss' ws' sk' ? ? ? ? ? ? ? En' Ch]; subst; [congruence|].
    apply choice_elems in Ch. assert (HK : filter is_elem K = []) by now inversion E3.
    rewrite HK in Ch. eapply choice_nothing; eauto.
  Qed.

  Lemma skipped_lost id : lost (ERef id) VSkipped.
  Proof.
    intros n reqs kids c v' C. pose proof C as C'. inversion C' as [| | | |id' ident root nss ws En]; subst.
    eapply childless_lost; eauto. intros r k X. now inversion X.
  Qed.

  Lemma empty_payload_lost id i x ident root nss ws sk w k t :
    env id = Some (TDEnum ident root nss ws sk) -> nth_error (sorted_variants ws) i = Some w ->
    v_ty w = Some (k, t) -> items k x [] -> lost (ERef id) (VEnum i (Some x)).
  Proof.
    intros En Hw Ht I. eapply childless_lost; eauto. intros r ks X.
    inversion X as [| | |id' ident' root' nss' ws' sk' i' w' k' t' x' xs l En' Hw' Ht' I' El|]; subst.
    rewrite En in En'. injection En' as <- <- <- <- <-. rewrite Hw in Hw'. injection Hw' as <-.
    rewrite Ht in Ht'. injection Ht' as <- <-. rewrite (items_det _ _ _ _ I' I) in El. now inversion El.
  Qed.

  (** Groups of elements with equal names. *)
  Definition group (E : list node) : Prop := exists n, Forall (fun k => has_name n k = true) E.

  Lemma group_name_in ns k E : group (k :: E) -> name_in ns k = false -> Forall (fun k => name_in ns k = false) E.
  Proof.
    intros (n & H) Hk. inversion H as [|? ? Hn HE]; subst. eapply Forall_impl; [|exact HE].
    intros k' Hk'. cbn beta in Hk'. destruct (name_in ns k') eqn:E'; [|reflexivity]. exfalso.
    unfold name_in in E'. apply existsb_exists in E'. destruct E' as (m & Hm & Em).
    rewrite <- (has_name_inj _ _ _ Hk' Em) in Hm. now rewrite (has_name_in _ _ _ Hm Hn) in Hk.
  Qed.

  Lemma before_first_app ns E l : Forall (fun k => name_in ns k = false) E ->
    before_first ns (E ++ l) = E ++ before_first ns l.
  Proof. induction 1 as [|k E H _ IH]; [reflexivity|]. cbn. now rewrite H, IH. Qed.

  Lemma before_first_groups ns gs : Forall group gs -> existsb (name_in ns) (concat gs) = true ->
    exists gs', before_first ns (concat gs) = concat gs' /\ Forall group gs' /\ List.length gs' < List.length gs.
  Proof.
    induction 1 as [|g gs Hg Hgs IH]; [discriminate|]. cbn [concat List.length]. intros H.
    destruct g as [|k g].
    - destruct IH as (gs' & E1 & E2 & E3); auto. exists gs'. auto.
    - cbn [app]. destruct (name_in ns k) eqn:Ek.
      + exists []. cbn. rewrite Ek. split; [reflexivity|]. split; [constructor|]. apply PeanoNat.Nat.lt_0_succ.
      + assert (F : Forall (fun k => name_in ns k = false) (k :: g)).
        { constructor; auto. eapply group_name_in; eauto. }
        destruct IH as (gs' & E1 & E2 & E3).
        { rewrite existsb_app in H. apply orb_true_iff in H. destruct H as [H|H]; [|exact H]. exfalso.
          apply existsb_exists in H. destruct H as (x & Hx & Hn). rewrite Forall_forall in F. rewrite F in Hn by auto.
          discriminate. }
        exists ((k :: g) :: gs'). rewrite app_comm_cons, before_first_app by auto. rewrite E1.
        split; [reflexivity|]. split; [now constructor|]. cbn. now apply -> PeanoNat.Nat.succ_lt_mono.
  Qed.

  Lemma choice_exists R ws l v : choice R ws l v -> existsb (name_in (variant_names ws)) l = true.
  Proof.
    intros H. destruct (existsb _ l) eqn:E; [reflexivity|]. exfalso.
    assert (F : filter (name_in (variant_names ws)) l = []).
    { clear - E. induction l as [|k l IH]; [reflexivity|]. cbn in *. apply orb_false_iff in E as [-> E]. auto. }
    inversion H as [i w H1 H2 H3 H4|i w k t x H1 H2 H3 H4]; subst; [congruence|].
    rewrite F in H3. rewrite <- H3 in H4. inversion H4; subst; easy.
  Qed.

  Lemma hold_groups R attrs K l fs vs gs : fields_hold o env R attrs K l fs vs -> l = concat gs ->
    Forall group gs -> List.length (filter is_flatten fs) <= List.length gs.
  Proof.
    intros H. revert gs.
    induction H as [l|l f fs v vs Hf _ _ IH|l f fs id ident root nss ws sk v vs M En Ch _ IH]; intros gs E G.
    - apply PeanoNat.Nat.le_0_l.
    - cbn. rewrite Hf. eauto.
    - assert (Ef : is_flatten f = true) by (unfold is_flatten; now rewrite M).
      subst l. destruct (before_first_groups (variant_names ws) gs G (choice_exists _ _ _ _ Ch)) as (gs' & E1 & E2 & E3).
      cbn. rewrite Ef. cbn. specialize (IH gs' E1 E2). eapply PeanoNat.Nat.le_lt_trans; eauto.
  Qed.

  (** The groups of the flattened fields. *)
  Lemma filter_group p E : group E -> group (filter p E).
  Proof.
    intros (n & H). exists n. rewrite Forall_forall in *. intros k Hk. apply filter_In in Hk. now apply H.
  Qed.

  Lemma flat_groups all fs vs reqs T E : Forall (field_compiles env) fs -> flattened (content o env) fs vs reqs T ->
    shown T E -> exists gs, unclaimed all E = concat gs /\ Forall group gs /\ List.length gs = List.length (filter is_flatten fs).
  Proof.
    intros Hc H. revert E Hc.
    induction H as [|f fs id v vs reqs kids reqs' kids' M C Hfl IH|f fs v vs reqs kids M _ IH]; intros E Hc HE;
      inversion Hc as [|? ? Hf Hc']; subst.
    - inversion HE; subst. exists []. auto.
    - apply shown_app in HE. destruct HE as (E1 & E2 & -> & H1 & H2).
      destruct (IH E2 Hc' H2) as (gs & G1 & G2 & G3).
      assert (Ef : is_flatten f = true) by (unfold is_flatten; now rewrite M).
      exists (unclaimed all E1 :: gs). rewrite unclaimed_app, G1. split; [reflexivity|].
      split; [|cbn; rewrite Ef; cbn; now rewrite G3]. constructor; auto. apply filter_group.
      unfold field_compiles in Hf. rewrite M in Hf. destruct Hf as (ident & root & nss & ws & sk & En).
      destruct (enum_named _ _ _ _ _ _ _ _ _ _ _ _ En C H1) as [_ [[-> ->]|(i & p & w & -> & Hw & HF)]].
      + inversion H1. exists (XName "" ""). constructor.
      + eexists; eauto.
    - cbn. rewrite M. auto.
  Qed.

  (** The elements of the first flattened field are recognised by it. *)
  Lemma first_flat all attrs K fs vs reqs T E vs' : Forall (field_compiles env) fs ->
    flattened (content o env) fs vs reqs T -> shown T E -> 2 <= List.length (filter is_flatten fs) ->
    ~ fields_hold o env (reads o env) attrs K (unclaimed all E) fs vs'.
  Proof.
    intros Hc H. revert E Hc vs'.
    induction H as [|f fs id v vs reqs kids reqs' kids' M C Hfl IH|f fs v vs reqs kids M _ IH]; intros E Hc vs' HE HL HH;
      inversion Hc as [|? ? Hf Hc']; subst.
    - inversion HL.
    - apply shown_app in HE. destruct HE as (E1 & E2 & -> & H1 & H2).
      assert (Ef : is_flatten f = true) by (unfold is_flatten; now rewrite M).
      unfold field_compiles in Hf. rewrite M in Hf. destruct Hf as (ident & root & nss & ws & sk & En).
      inversion HH as [|? ? ? ? ? Hff|? ? ? id' ident' root' nss' ws' sk' ? ? M' En' Ch HH']; subst; [congruence|].
      rewrite M in M'. injection M' as <-. rewrite En in En'. injection En' as <- <- <- <- <-.
      cbn [filter] in HL. rewrite Ef in HL. cbn [List.length] in HL. apply le_S_n in HL.
      rewrite unclaimed_app in HH'. destruct (unclaimed all E1) as [|k E1'] eqn:EU.
      + (* nothing left for this field: too few groups *)
        cbn [app] in HH'. destruct (flat_groups all _ _ _ _ _ Hc' Hfl H2) as (gs & G1 & G2 & G3).
        rewrite unclaimed_app, EU in Ch. cbn [app] in Ch. rewrite G1 in Ch, HH'.
        destruct (before_first_groups (variant_names ws) gs G2 (choice_exists _ _ _ _ Ch)) as (gs' & A1 & A2 & A3).
        pose proof (hold_groups _ _ _ _ _ _ gs' HH' A1 A2) as A4. rewrite G3 in A3.
        apply (PeanoNat.Nat.lt_irrefl (List.length gs')). eapply PeanoNat.Nat.lt_le_trans; eauto.
      + (* the first child is one of its own *)
        assert (Hk : name_in (variant_names ws) k = true).
        { destruct (enum_named _ _ _ _ _ _ _ _ _ _ _ _ En C H1) as [_ [[-> ->]|(i & p & w & -> & Hw & HF)]].
          - inversion H1; subst. discriminate.
          - eapply has_name_in; [eapply variant_in; eauto|]. rewrite Forall_forall in HF. apply HF.
            assert (Hin : In k (unclaimed all E1)) by (rewrite EU; now left). apply filter_In in Hin. apply Hin. }
        cbn in HH'. rewrite Hk in HH'. apply hold_nil in HH'. rewrite HH' in HL. inversion HL.
    - inversion HH as [|? ? ? ? ? Hff Hfh HH'|? ? ? id' ident' root' nss' ws' sk' ? ? M' En' Ch HH']; subst.
      2: { unfold is_flatten in M. rewrite M' in M. discriminate. }
      eapply IH; eauto. cbn in HL. now rewrite M in HL.
  Qed.

  Lemma two_flattened_lost id ident root nss fs v : compiles env -> env id = Some (TDStruct ident root nss fs) ->
    2 <= List.length (filter is_flatten fs) -> lost (ERef id) v.
  Proof.
    intros Hcomp En HL n reqs kids c v' C S R.
    inversion C as [|id' ident' root' nss' fs' vs L T reqs' T' En' HA Hown Hfl| | |]; subst; try congruence.
    rewrite En in En'. injection En' as <- <- <- <-. pose proof (Hcomp _ _ En) as Hc. cbn beta iota in Hc.
    inversion S as [n' attrs' kids' name a2 ns p K pe E1 E2 E3 E4]; subst.
    rewrite all_telems in E3 by (apply Forall_app; split; [eapply own_elem; eauto|eapply flat_elem; eauto]).
    apply shown_app in E3. destruct E3 as (EO & EF & EE & HO & HF).
    assert (Hunc : unclaimed fs K = unclaimed fs EF).
    { rewrite <- unclaimed_elems, EE, unclaimed_app. rewrite (free_none fs EO); [reflexivity|]. eapply own_names; eauto. }
    inversion R as [|id' ident' root' nss' fs' ? ? ? ? ? ? vs' En' FH|]; subst; [|congruence].
    rewrite En in En'. injection En' as <- <- <- <-. rewrite Hunc in FH. eapply first_flat; eauto.
  Qed.

  (** Nothing is read back. *)
  Theorem lost_fails dbg w id v k pol : compiles env -> names_ok env -> oracles_total o ->
    lost (ERef id) v ->
    legal_env env -> no_default env -> (pol = NsSpec.SkipIfAnywhere -> coherent_env env) ->
    serialize_root o env dbg w id v = inl (None, k) ->
    exists t, NsSpec.meaning [] (NsSpec.emit pol [] (k_out k)) = Some (NsSpec.tree_events t) /\
      is_telem t = true /\
      forall t' d, indented t t' -> shows t' (d_root d) -> forall dbg' pe,
        exists e, read_as o alg env dbg' (ERef id) (doc_events d) (FEndDocument pe) = Err e.
  Proof.
    intros Hc Hok Ho HLost HL Hd Hpol S.
    destruct (root_meaning o env dbg w id v k pol HL Hd Hpol S) as (n & rs & ks & _ & C & M).
    exists (tree_of (RElem n rs ks)). split; [exact M|]. split; [reflexivity|].
    intros t' d HI HS dbg' pe. apply read_as_err; auto.
    - cbn. inversion C; subst; congruence.
    - intros v' R. eapply HLost; eauto. eapply shows_indented; eauto.
  Qed.
End RoundTrip.

(** ** Documents that show the same tree read the same *)

Lemma text_of_texts l : text_of l = String.concat "" (node_texts l).
Proof.
  unfold text_of. induction l as [|k l IH]; [reflexivity|]. cbn [map node_texts]. rewrite concat_cons, IH.
  destruct k; cbn [append].
  - now rewrite concat_cons.
  - destruct (node_texts l) as [|h r]; cbn [onto]; [now rewrite concat_cons|]. rewrite !concat_cons.
    clear. induction s as [|c s IH]; cbn; congruence.
  - reflexivity.
  - reflexivity.
Qed.

Section Same.
  Context (env : tenv).
  Notation alike := (fun c1 c2 => same_name c1 c2 /\ forall ty, like env ty c1 c2).

  Lemma Forall2_filter {A} (Q : A -> A -> Prop) (p : A -> bool) l1 l2 : Forall2 Q l1 l2 ->
    (forall x y, Q x y -> p x = p y) -> Forall2 Q (filter p l1) (filter p l2).
  Proof.
    intros H HP. induction H as [|x y l1 l2 H _ IH]; [constructor|]. cbn. rewrite <- (HP _ _ H).
    destruct (p x); [now constructor|exact IH].
  Qed.

  Lemma same_name_in c1 c2 ns : same_name c1 c2 -> name_in ns c1 = name_in ns c2.
  Proof. intros H. unfold name_in. induction ns as [|n ns IH]; cbn; [reflexivity|]. now rewrite H, IH. Qed.

  Lemma shows_name t c1 c2 : shows t c1 -> shows t c2 -> same_name c1 c2 /\ is_elem c1 = is_elem c2.
  Proof. intros H1 H2. destruct H1; inversion H2; subst. split; [|reflexivity]. intros n. cbn. congruence. Qed.

  Lemma Forall2_weaken {A B} (P Q : A -> B -> Prop) l1 l2 : (forall a b, P a b -> Q a b) ->
    Forall2 P l1 l2 -> Forall2 Q l1 l2.
  Proof. induction 2; constructor; auto. Qed.

  Lemma shows_like t : forall c1 c2, shows t c1 -> shows t c2 -> forall ty, like env ty c1 c2.
  Proof.
    induction t as [s|n a kids IH] using wtree_ind'; intros c1 c2 S1 S2 ty; [inversion S1|].
    inversion S1 as [? ? ? name1 a1 ns1 p1 K1 pe1 A1 A2 A3 A4]; subst.
    inversion S2 as [? ? ? name2 a2 ns2 p2 K2 pe2 B1 B2 B3 B4]; subst.
    assert (HE : Forall2 (fun c1 c2 => alike c1 c2 /\ is_elem c1 = is_elem c2) (filter is_elem K1) (filter is_elem K2)).
    { assert (IHf : Forall (fun t => forall c1 c2, shows t c1 -> shows t c2 -> forall ty, like env ty c1 c2) (filter is_telem kids)).
      { rewrite Forall_forall in *. intros x Hx. apply filter_In in Hx. now apply IH. }
      clear - IHf A3 B3. revert IHf A3 B3. generalize (filter is_elem K1) (filter is_elem K2) (filter is_telem kids).
      intros E1 E2 l HF. revert E1 E2. induction HF as [|x l Hx _ IHl]; intros E1 E2 H1 H2; inversion H1; subst; inversion H2; subst; constructor; eauto.
      destruct (shows_name x y y0); auto. }
    assert (HF : forall p, (forall k, p k = true -> is_elem k = true) ->
              (forall x y, same_name x y -> is_elem x = is_elem y -> p x = p y) ->
              Forall2 alike (filter p K1) (filter p K2)).
    { intros p Hp1 Hp2. rewrite <- (filter_elems p K1), <- (filter_elems p K2) by auto.
      eapply Forall2_weaken; [|eapply Forall2_filter; [exact HE|]].
      - now intros x y [H _].
      - intros x y [[H1 _] H2]. now apply Hp2. }
    destruct ty as [t|id].
    - apply like_text.
      + assert (EQ : filter is_elem K1 = [] <-> filter is_elem K2 = []).
        { destruct HE; split; easy. }
        rewrite !no_elems_existsb in EQ.
        destruct (existsb is_elem K1), (existsb is_elem K2); try reflexivity; destruct EQ as [EQ1 EQ2]; [specialize (EQ2 eq_refl)|specialize (EQ1 eq_refl)]; congruence.
      + now rewrite !text_of_texts, A4, B4.
    - destruct (env id) as [[ident root nss fs|ident root nss ws sk]|] eqn:En.
      + eapply like_struct; [exact En| | |].
        * intros m _. now rewrite !attr_values_map, B2.
        * intros f k t _ _. unfold named. eapply Forall2_weaken; [|apply HF].
          -- now intros x y [_ H].
          -- apply has_name_elem.
          -- intros x y H _. apply H.
        * eapply Forall2_weaken; [|eapply Forall2_filter; [unfold unclaimed; apply HF|]].
          -- intros x y [H1 H2]. split; auto.
          -- intros k H. now apply andb_true_iff in H.
          -- intros x y H1 H2. now rewrite H2, (same_name_in _ _ _ H1).
          -- intros x y [H1 _]. now apply same_name_in.
      + eapply like_enum; [exact En|]. eapply Forall2_weaken; [|apply HF].
        * intros x y [H1 H2]. split; auto.
        * apply name_in_elem.
        * intros x y H _. now apply same_name_in.
      + now apply like_unknown.
  Qed.
End Same.

Lemma same_tree_same_reading o env alg t t1 t2 d1 d2 : names_ok env ->
  indented t t1 -> shows t1 (d_root d1) -> indented t t2 -> shows t2 (d_root d2) ->
  forall dbg ty pe1 pe2 v,
  read_as o alg env dbg ty (doc_events d1) (FEndDocument pe1) = Ok v <->
  read_as o alg env dbg ty (doc_events d2) (FEndDocument pe2) = Ok v.
Proof.
  intros Hok I1 S1 I2 S2 dbg ty pe1 pe2 v. apply read_as_like; auto.
  apply (shows_like env t); [apply (shows_indented t t1)|apply (shows_indented t t2)]; auto.
Qed.

(** ** From the value to the document and back *)

Lemma legal_prefixes env : legal_env env -> prefixes_ok env.
Proof.
  intros H id d p u E Hin. destruct (H id d p u E Hin) as (H1 & H2 & H3 & H4). split; [exact H1|].
  intros [_ X]. contradiction.
Qed.

Lemma apart env : compiles env -> names_ok env -> attrs_apart env.
Proof.
  intros Hc Hok id ident root nss fs E. split.
  - apply (Hok _ _ E).
  - intros f id' Hin M. pose proof (Hc _ _ E) as F. cbn beta iota in F. rewrite Forall_forall in F.
    specialize (F f Hin). unfold field_compiles in F. now rewrite M in F.
Qed.

Theorem write_then_read o env alg dbg id v pol : compiles env -> names_ok env -> lossless_env o env ->
  typed o env (ERef id) v -> names_declared env -> legal_env env -> no_default env ->
  (pol = NsSpec.SkipIfAnywhere -> coherent_env env) ->
  exists k t, serialize_root o env dbg (fun _ => None) id v = inl (None, k) /\
    NsSpec.meaning [] (NsSpec.emit pol [] (k_out k)) = Some (NsSpec.tree_events t) /\
    shows t (render t) /\
    forall d, shows t (d_root d) -> forall dbg' pe,
      read_as o alg env dbg' (ERef id) (doc_events d) (FEndDocument pe) = Ok v.
Proof.
  intros Hc Hok HLo T Hn HL Hd Hpol.
  destruct (root_succeeds o env (apart env Hc Hok) dbg (fun _ => None) id v T Hn (legal_prefixes env HL) Hd) as (k & S); [reflexivity|].
  destruct (round_trip o env alg dbg _ id v k pol Hc Hok HL Hd Hpol S) as (t & M & Ht & R).
  exists k, t. split; [exact S|]. split; [exact M|]. split; [now apply render_shows|]. intros d Sh dbg' pe.
  apply (R t d (indented_refl t) Sh). eapply lossless_survives; eauto. exact I.
Qed.
