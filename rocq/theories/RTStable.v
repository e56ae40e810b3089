(** Values that were read survive being written and read again: proofs. *)
From Coq Require Import Lia.
From Verif Require Import Base Normalize NormalizeSpec NormalizeProofs Text TextSpec TextProofs Find
  FindProofs Types Ser SerSpec DeriveSer DSerSpec DSerProofs DSerProps Reader ReaderSpec ReaderProofs DeSpec
  DeProps DeDet DeriveDe RTSpec RTProofs RTProps RTStableSpec.
From Verif Require NsSpec.

(** ** Text types *)

Section Leaves.
  Context (o : oracles).

  Lemma safe_settled t : blank_safe t = true -> settled_attr o t -> settled_elem o t.
  Proof.
    intros H1 H2 s x _ E. destruct (H2 s x E) as (s' & T & P). exists s'. split; [exact T|].
    now apply seen_irrelevant.
  Qed.

  Lemma seen_same s : (blank s = true -> s = ""%string) -> seen s = s.
  Proof. intros H. unfold seen. destruct (blank s); [now rewrite H|reflexivity]. Qed.

  Lemma string_settled_attr : settled_attr o TString.
  Proof. intros s x [= <-]. exists s. now split. Qed.
  Lemma string_settled_elem : settled_elem o TString.
  Proof. intros s x Hb [= <-]. exists s. split; [reflexivity|]. now rewrite seen_same. Qed.

  Lemma bool_settled : settled_attr o TBool.
  Proof.
    intros s x E. cbn [parse_text] in E. destruct (parse_bool o s) as [b| |]; try discriminate.
    cbn in E. injection E as <-. exists (show_bool b). split; [reflexivity|]. cbn. now rewrite parse_show_bool.
  Qed.

  Lemma int_settled k : settled_attr o (TInt k).
  Proof.
    intros s x E. cbn [parse_text] in E. destruct (parse_int k s) as [z| |] eqn:P; try discriminate.
    cbn in E. injection E as <-. apply parse_int_spec in P.
    assert (R : (imin k <= z <= imax k)%Z) by tauto. exists (show_int z). cbn [to_text parse_text].
    rewrite (proj2 (in_range_iff k z) R). split; [reflexivity|]. now rewrite parse_show_int.
  Qed.

  Lemma norm_idem ws s : spec_norm ws (spec_norm ws s) = spec_norm ws s.
  Proof.
    assert (N : normalize s ws = Ok (spec_norm ws s)).
    { pose proof (gen_normalize_spec ws s) as G. unfold gen_normalize in G.
      destruct (normalize s ws) as [?|e|?]; [congruence|destruct e|discriminate]. }
    apply normalize_idempotent in N. pose proof (gen_normalize_spec ws (spec_norm ws s)) as G.
    unfold gen_normalize in G. rewrite N in G. congruence.
  Qed.

  Lemma forallb_ws_replace l : forallb ws_byte (spec_replace ws_byte " "%char l) = forallb ws_byte l.
  Proof.
    induction l as [|c l IH]; [reflexivity|]. cbn [spec_replace map forallb].
    change (map (fun c => if ws_byte c then " "%char else c) l) with (spec_replace ws_byte " "%char l).
    rewrite IH. destruct (ws_byte c) eqn:E; [reflexivity|now rewrite E].
  Qed.

  Lemma blank_norm ws s : blank (spec_norm ws s) = blank s.
  Proof.
    rewrite !blank_ws, <- !forallb_ws_byte. destruct ws; cbn [spec_norm]; [reflexivity| |];
      unfold bytes_of; rewrite list_ascii_of_string_of_list_ascii.
    - apply forallb_ws_replace.
    - apply eq_iff_eq_true. rewrite <- !words_nil_iff. unfold spec_collapse. rewrite words_join; [reflexivity|reflexivity|].
      apply words_words.
  Qed.

  Lemma unblank_norm ws s : (blank s = true -> s = ""%string) -> seen (spec_norm ws s) = spec_norm ws s.
  Proof.
    intros H. apply seen_same. rewrite blank_norm. intros B. rewrite (H B). now destruct ws.
  Qed.

  (** Every restriction enum. *)
  Lemma restr_printed name ws vs s x : parse_text o (TRestr name ws vs) s = Ok x ->
    to_text o (TRestr name ws vs) x = Some (spec_norm ws s) /\
    parse_text o (TRestr name ws vs) (spec_norm ws s) = Ok x.
  Proof.
    intros E. assert (C : (exists i, x = TVKnown i) \/ exists u, x = TVUnknown u).
    { cbn [parse_text] in E. rewrite gen_normalize_spec in E. cbn [bind] in E. unfold parse_restr in E.
      destruct (find_index _ _) as [i|]; [injection E as <-; eauto|].
      destruct (existsb _ _); [injection E as <-; eauto|discriminate]. }
    destruct C as [(i & ->)|(u & ->)].
    - pose proof (proj1 (parse_restr_known _ _ _ _ _ _) E) as [H1 H2]. split; [cbn; now rewrite H1|].
      apply parse_restr_known. now rewrite norm_idem.
    - pose proof (proj1 (parse_restr_unknown _ _ _ _ _ _) E) as (-> & H1 & H2). split.
      + cbn. replace (existsb is_unknown vs) with true; [reflexivity|]. symmetry. apply existsb_exists.
        exists RUnknown. now split.
      + apply parse_restr_unknown. now rewrite norm_idem.
  Qed.

  Lemma restr_settled_attr name ws vs : settled_attr o (TRestr name ws vs).
  Proof. intros s x E. exists (spec_norm ws s). now apply restr_printed. Qed.
  Lemma restr_settled_elem name ws vs : settled_elem o (TRestr name ws vs).
  Proof.
    intros s x Hb E. exists (spec_norm ws s). rewrite unblank_norm by exact Hb. now apply restr_printed.
  Qed.

  (** Floats, and [mode = "std"] types that print what they parse again. *)
  Lemma float_settled w :
    (forall s n, o_float_parse o w s = Ok n -> o_float_parse o w (trim (o_float_show o w n)) = Ok n) ->
    settled_attr o (TFloat w).
  Proof.
    intros H s x E. cbn [parse_text] in E. destruct (o_float_parse o w (trim s)) as [n| |] eqn:P; try discriminate.
    cbn in E. injection E as <-. exists (o_float_show o w n). split; [reflexivity|]. cbn [parse_text].
    now rewrite (H _ _ P).
  Qed.

  Lemma std_settled i ws :
    (forall s n, o_std_parse o i s = Ok n -> o_std_parse o i (spec_norm ws (o_std_show o i n)) = Ok n) ->
    settled_attr o (TStd i ws).
  Proof.
    intros H s x E. cbn [parse_text] in E. rewrite gen_normalize_spec in E. cbn [bind] in E.
    destruct (o_std_parse o i (spec_norm ws s)) as [n| |] eqn:P; try discriminate.
    cbn in E. injection E as <-. exists (o_std_show o i n). split; [reflexivity|]. cbn [parse_text].
    rewrite gen_normalize_spec. cbn [bind]. now rewrite (H _ _ P).
  Qed.

  (** Union enums: what a variant prints is parsed back by this variant and refused by all earlier
      ones. *)
  Lemma union_settled name ws vs :
    (forall i t s x, nth_error vs i = Some t -> parse_text o t s = Ok x -> exists s',
       to_text o t x = Some s' /\ parse_text o t (spec_norm ws s') = Ok x /\
       forall j t', j < i -> nth_error vs j = Some t' -> exists e, parse_text o t' (spec_norm ws s') = Err e) ->
    settled_attr o (TUnion name ws vs).
  Proof.
    intros H s x E. assert (C : exists i y, x = TVUnion i y).
    { rewrite parse_union_eq in E. revert E. generalize 0, (@nil string). induction vs as [|t vs' IH]; intros n errs E;
        [discriminate|]. cbn [attempts] in E. destruct (parse_text o t _) as [r|e|]; [injection E as <-; eauto| |discriminate].
      eapply (IH); [|exact E]. intros i t' s0 x0 Hn P. destruct (H (S i) t' s0 x0 Hn P) as (s' & T & P' & L).
      exists s'. split; [exact T|]. split; [exact P'|]. intros j t'' Hj Hn'. apply (L (S j) t''); [lia|exact Hn']. }
    destruct C as (i & y & ->). pose proof (proj1 (parse_union_ok _ _ _ _ _ _ _) E) as [(t & Hn & P) _].
    destruct (H _ _ _ _ Hn P) as (s' & T & P' & L).
    destruct (union_roundtrip o name ws vs i y t s' Hn T) as [U1 U2]. exists s'. split; [exact U1|].
    apply U2. now split.
  Qed.

  Lemma std_settled_elem i ws : settled_attr o (TStd i ws) -> ws = Collapse -> settled_elem o (TStd i ws).
  Proof. intros H ->. now apply safe_settled. Qed.
  Lemma union_settled_elem name ws vs : settled_attr o (TUnion name ws vs) -> ws = Collapse ->
    settled_elem o (TUnion name ws vs).
  Proof. intros H ->. now apply safe_settled. Qed.
End Leaves.

(** ** Values *)

Section Values.
  Context (o : oracles) (env : tenv).
  Notation typed := (typed o env).
  Notation survives := (survives o env).
  Notation reads := (reads o env).
  Hypothesis HE : settled_env o env.

  Definition fine (t : ety) (v : value) : Prop := typed t v /\ survives t v.
  Definition good (n : node) : Prop := unblank n -> forall t v, settled_ety o t -> reads t n v -> fine t v.

  Lemma occurs_fine t k l v : Forall good l -> Forall unblank l -> settled_ety o t -> occurs (reads t) k l v ->
    exists xs, items k v xs /\ xs <> [] /\ Forall (typed t) xs /\ Forall (survives t) xs.
  Proof.
    intros HG HU HS O. inversion O as [c v' R|c v' R|cs vs Hne F]; subst.
    - inversion HG as [|? ? G _]; subst. inversion HU as [|? ? U _]; subst. destruct (G U _ _ HS R).
      exists [v]. repeat split; try easy; try (repeat constructor; assumption).
    - inversion HG as [|? ? G _]; subst. inversion HU as [|? ? U _]; subst. destruct (G U _ _ HS R).
      exists [v']. repeat split; try easy; try (repeat constructor; assumption).
    - exists vs. split; [constructor|]. split; [intros ->; inversion F; subst; congruence|].
      clear O Hne. split; induction F as [|c x cs xs R F IH]; constructor;
        inversion HG as [|? ? G HG']; subst; inversion HU as [|? ? U HU']; subst; auto;
        destruct (G U _ _ HS R); auto.
  Qed.

  Lemma choice_fine id ident root nss ws sk l v : env id = Some (TDEnum ident root nss ws sk) ->
    Forall good l -> Forall unblank l -> choice reads ws l v -> fine (ERef id) v.
  Proof.
    intros En HG HU C. pose proof (HE _ _ En) as HW. cbn beta iota in HW. rewrite Forall_forall in HW.
    inversion C as [i w Hn Ht Hne Hf|i w k t x Hn Ht Hf O]; subst.
    - split; [eapply ty_unit; eauto|eapply su_unit; eauto].
    - assert (HS : settled_ety o t).
      { assert (Hin : In w ws).
        { apply nth_error_In in Hn. eapply Permutation.Permutation_in; [|exact Hn]. apply sort_perm. }
        specialize (HW _ Hin). unfold settled_variant in HW. now rewrite Ht in HW. }
      destruct (occurs_fine t k (named (expanded (v_name w)) l) x) as (xs & I & Hne & T & S); auto.
      + unfold named. now apply Forall_filter.
      + unfold named. now apply Forall_filter.
      + split; [eapply ty_payload; eauto|eapply su_payload; eauto].
  Qed.

  (** The variant found in children that no own field claims is not the name of an own field. *)
  Lemma choice_unclaimed id ident root nss ws sk l v all : env id = Some (TDEnum ident root nss ws sk) ->
    Forall (fun k => name_in all k = false) l -> choice reads ws l v ->
    forall n, variant_name env id v n -> ~ In n all.
  Proof.
    intros En HU C n (ident' & root' & nss' & ws' & sk' & i & p & w & En' & -> & Hn & <-) Hin.
    rewrite En in En'. injection En' as <- <- <- <- <-.
    assert (Hk : named (expanded (v_name w)) l <> []).
    { inversion C as [i' w' Hn' Ht Hne Hf|i' w' k t x Hn' Ht Hf O]; subst; rewrite Hn in Hn'; injection Hn' as <-.
      - congruence.
      - inversion O; subst; congruence. }
    unfold named in Hk. destruct (filter (has_name (expanded (v_name w))) l) as [|c r] eqn:E; [congruence|].
    assert (In c (filter (has_name (expanded (v_name w))) l)) as Hc by (rewrite E; now left).
    apply filter_In in Hc. destruct Hc as [Hc Hh]. rewrite Forall_forall in HU. specialize (HU c Hc).
    unfold name_in in HU. assert (existsb (fun n => has_name n c) all = true); [|congruence].
    apply existsb_exists. eauto.
  Qed.

  Lemma before_first_forall (P : node -> Prop) ns l : Forall P l -> Forall P (before_first ns l).
  Proof. induction 1; cbn; [constructor|]. destruct (name_in ns x); constructor; auto. Qed.

  Lemma field_fine all attrs kids f v : Forall good kids -> Forall unblank kids -> settled_field o f ->
    (forall d, f_default f = Some d -> typed_field o typed f d /\ survives_field o env survives all f d) ->
    field_holds o reads attrs kids f v -> typed_field o typed f v /\ survives_field o env survives all f v.
  Proof.
    intros HG HU HS HD H. unfold settled_field in HS.
    destruct H as [k t v M O|k t v M N A|opt t s x M A P|opt t v M N A]; rewrite M in HS.
    - destruct (occurs_fine t k (named (expanded (f_name f)) kids) v) as (xs & I & Hne & T & S); auto.
      + unfold named. now apply Forall_filter.
      + unfold named. now apply Forall_filter.
      + split; [eapply tf_element; eauto|]. eapply sf_element; eauto. intros ->. congruence.
    - destruct A as [v Ed|t' Ed M'|t' Ed M'|t' Ed M']; [now apply HD| | |congruence];
        rewrite M in M'; injection M' as -> ->.
      + split; [eapply tf_element; [exact M|constructor|constructor]|]. eapply sf_element; [exact M|constructor|constructor|].
        intros _. eapply abs_opt; eauto.
      + split; [eapply tf_element; [exact M|constructor|constructor]|]. eapply sf_element; [exact M|constructor|constructor|].
        intros _. eapply abs_vec; eauto.
    - destruct (HS s x P) as (s' & T & P'). split; [|now apply (sf_attribute _ _ _ _ _ opt t x s')].
      destruct opt; [eapply tf_opt_attribute|eapply tf_attribute]; eauto; congruence.
    - destruct A as [v Ed|t' Ed M'|t' Ed M'|t' Ed M']; [now apply HD|congruence|congruence|].
      rewrite M in M'. injection M' as -> ->.
      split; [eapply tf_no_attribute; eauto|]. eapply sf_no_attribute; eauto. eapply abs_attr; eauto.
  Qed.

  Lemma fields_fine all attrs kids l fs vs : Forall good kids -> Forall unblank kids ->
    Forall good l -> Forall unblank l -> Forall (fun k => name_in all k = false) l ->
    Forall (settled_field o) fs ->
    (forall f d, In f fs -> f_default f = Some d -> typed_field o typed f d /\ survives_field o env survives all f d) ->
    fields_hold o env reads attrs kids l fs vs ->
    Forall2 (typed_field o typed) fs vs /\ Forall2 (survives_field o env survives all) fs vs.
  Proof.
    intros HG HU GL UL CL HS HD H. revert GL UL CL HS HD.
    induction H as [l|l f fs v vs Hf Hh _ IH|l f fs id ident root nss ws sk v vs M En C _ IH]; intros GL UL CL HS HD.
    - split; constructor.
    - inversion HS as [|? ? Sf HS']; subst. destruct (IH GL UL CL HS') as [I1 I2]; [intros; apply HD; auto; now right|].
      destruct (field_fine all attrs kids f v HG HU Sf) as [F1 F2]; auto.
      + intros d Hd. apply HD; auto. now left.
    - inversion HS as [|? ? Sf HS']; subst.
      destruct IH as [I1 I2]; try (apply before_first_forall; assumption); auto.
      + intros; apply HD; auto. now right.
      + destruct (choice_fine id ident root nss ws sk l v En GL UL C) as [F1 F2].
        split; constructor; auto; [eapply tf_flatten; eauto|]. eapply sf_flatten; eauto.
        eapply choice_unclaimed; eauto.
  Qed.

  Theorem read_fine : forall n, good n.
  Proof.
    induction n as [name attrs ns p kids pe IH| | |] using node_ind'; intros U t v HS R; try now inversion R.
    assert (HU : Forall unblank kids) by (inversion U; subst; [assumption|discriminate]).
    inversion R as [t' ? ? ? ? ? ? x He P|id ident root nss fs ? ? ? ? ? ? vs En F|id ident root nss ws sk ? ? ? ? ? ? v' En C]; subst.
    - assert (Hb : blank (text_of kids) = true -> text_of kids = ""%string) by (inversion U; subst; [assumption|discriminate]).
      destruct (HS _ _ Hb P) as (s' & T & P'). split; [apply ty_text; congruence|eapply su_text; eauto].
    - destruct (HE _ _ En) as (HF & Hlen & HD).
      destruct (fields_fine (field_names is_element fs) attrs kids (unclaimed fs kids) fs vs) as [F1 F2]; auto.
      + unfold unclaimed. now apply Forall_filter.
      + unfold unclaimed. now apply Forall_filter.
      + unfold unclaimed. apply Forall_forall. intros k Hk. apply filter_In in Hk. destruct Hk as [_ Hk].
        apply andb_true_iff in Hk. destruct Hk as [_ Hk]. now apply negb_true_iff.
      + split; [eapply ty_struct; eauto|eapply su_struct; eauto].
    - eapply choice_fine; eauto.
  Qed.
End Values.

(** ** Documents *)

Theorem load_save_load o env alg dbg id d pe v dbg1 pol : compiles env -> names_ok env -> settled_env o env ->
  names_declared env -> legal_env env -> no_default env ->
  (pol = NsSpec.SkipIfAnywhere -> coherent_env env) -> unblank (d_root d) ->
  read_as o alg env dbg (ERef id) (doc_events d) (FEndDocument pe) = Ok v ->
  exists k t, serialize_root o env dbg1 (fun _ => None) id v = inl (None, k) /\
    NsSpec.meaning [] (NsSpec.emit pol [] (k_out k)) = Some (NsSpec.tree_events t) /\
    shows t (render t) /\
    forall t' d', indented t t' -> shows t' (d_root d') -> forall dbg' pe',
      read_as o alg env dbg' (ERef id) (doc_events d') (FEndDocument pe') = Ok v.
Proof.
  intros Hc Hok HS Hn HL Hd Hpol U R. apply read_as_iff in R; [|exact Hok].
  destruct (read_fine o env HS (d_root d) U (ERef id) v I R) as [T S].
  destruct (root_succeeds o env (apart env Hc Hok) dbg1 (fun _ => None) id v T Hn (legal_prefixes env HL) Hd) as (k & Sk); [reflexivity|].
  destruct (round_trip o env alg dbg1 _ id v k pol Hc Hok HL Hd Hpol Sk) as (t & M & Ht & Rt).
  exists k, t. split; [exact Sk|]. split; [exact M|]. split; [now apply render_shows|].
  intros t' d' Hi Sh dbg' pe'. now apply (Rt t' d' Hi Sh).
Qed.
