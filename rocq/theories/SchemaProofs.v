(** Writing and the schema, reading and the schema. *)
From Coq Require Import Lia.
From Verif Require Import Base Normalize Text Find FindProofs Types Ser SerSpec DSerSpec DSerProofs DSerProps
  DeriveSer Reader ReaderSpec DeriveDe DeSpec DeProofs DeProps RTSpec RTProofs RTProps SchemaSpec.

Lemma Forall2_len {A B} {R : A -> B -> Prop} {l l'} : Forall2 R l l' -> List.length l = List.length l'.
Proof. induction 1; cbn; congruence. Qed.

Lemma xname_dec (n m : xname) : {n = m} + {n <> m}.
Proof. destruct (xn_eqb n m) eqn:E; [left; now apply xn_eqb_eq|right]. intros ->. assert (xn_eqb m m = true) by now apply xn_eqb_eq. congruence. Qed.

Lemma forallb_below {l} : forallb filled l = true -> Forall (fun v => filled v = true) l.
Proof. intros H. apply Forall_forall. now apply forallb_forall. Qed.

(** The children a content model asks for are elements. *)
Lemma element_elems V n t l : Forall (element V n t) l -> filter is_telem l = l.
Proof. intros H. induction H as [|x l Hx _ IH]; [reflexivity|]. destruct Hx. cbn. now rewrite IH. Qed.

Lemma one_of_elems V ws l : one_of V ws l -> filter is_telem l = l.
Proof. intros [w Hw Hty|w k t l' Hw Hty Ha HF]; [reflexivity|]. now apply element_elems in HF. Qed.

Lemma sequence_elems env V fs l : sequence env V fs l -> filter is_telem l = l.
Proof.
  induction 1 as [|f fs k t l l' M Ha HF HS IH|f fs id ident root nss ws sk l l' M En Ho HS IH|f fs l M HS IH]; auto.
  - now rewrite filter_app, IH, (element_elems _ _ _ _ HF).
  - now rewrite filter_app, IH, (one_of_elems _ _ _ Ho).
Qed.

Lemma elems_blank l : filter is_telem l = l -> between_blank l.
Proof.
  intros H. apply Forall_forall. intros x Hx. rewrite <- H in Hx. apply filter_In in Hx.
  destruct x; [exact I|]. now destruct Hx.
Qed.

(** ** Written documents are valid *)

Section Written.
  Context (o : oracles) (env : tenv).
  Hypothesis (Hl : flattened_last env) (Hc : compiles env) (Hok : names_ok env).
  Notation content := (content o env).
  Notation lex := (fun t s => exists x, to_text o t x = Some s).
  Notation valid := (valid env lex lex).

  Definition wv (v : value) : Prop := filled v = true -> forall t reqs kids, content t v reqs kids ->
    valid t (req_attrs reqs) (map tree_of kids).

  Lemma items_filled k v l : filled v = true -> items k v l -> Forall (fun v => filled v = true) l.
  Proof. intros H I. destruct I; cbn in H; auto. now apply forallb_below. Qed.

  Lemma elems_valid n t xs l : Forall wv xs -> Forall (fun v => filled v = true) xs ->
    elems_are content n t xs l -> Forall (element valid n t) (map tree_of l) /\ List.length l = List.length xs.
  Proof.
    intros Hw Hf H. revert Hw Hf. induction H as [|v vs reqs kids l Hv _ IH]; intros Hw Hf; [split; [constructor|reflexivity]|].
    inversion Hw as [|? ? W1 W2]; inversion Hf as [|? ? F1 F2]; subst. destruct (IH W2 F2) as [I1 I2].
    cbn [map tree_of List.length]. split; [|now rewrite I2]. constructor; [|exact I1]. constructor. now apply W1.
  Qed.

  Lemma items_allowed k v l d : items k v l -> allowed k d (List.length l).
  Proof. intros []; cbn; auto. Qed.

  Lemma own_none fs vs l : own_kids content fs vs l -> Forall (fun g => is_element g = false) fs -> l = [].
  Proof.
    induction 1 as [|f fs k t v xs l vs l' M|f fs v vs l M _ IH]; intros F; inversion F as [|? ? F1 F2]; subst; auto.
    unfold is_element in F1. now rewrite M in F1.
  Qed.

  Lemma elems_are_elems n t xs l : elems_are content n t xs l -> filter is_telem (map tree_of l) = map tree_of l.
  Proof. induction 1 as [|v vs reqs kids l Hv _ IH]; [reflexivity|]. cbn. now rewrite IH. Qed.

  Lemma enum_content id ident root nss ws sk v reqs kids : env id = Some (TDEnum ident root nss ws sk) ->
    wv v -> filled v = true -> content (ERef id) v reqs kids ->
    one_of valid ws (map tree_of kids) /\ req_attrs reqs = [].
  Proof.
    intros En W F C. specialize (W F _ _ _ C). split.
    - assert (K : filter is_telem (map tree_of kids) = map tree_of kids).
      { clear -C En. inversion C; subst; try reflexivity; [congruence|]. eapply elems_are_elems; eauto. }
      inversion W; [congruence|]. rewrite <- K. congruence.
    - rewrite (enum_reqs o env _ _ _ _ _ _ _ _ _ En C). apply mappings_no_attrs.
  Qed.

  Lemma fields_valid fs vs own flat reqs : Forall (field_compiles env) fs ->
    (forall fs1 f fs2, fs = fs1 ++ f :: fs2 -> is_flatten f = true -> Forall (fun g => is_element g = false) fs2) ->
    Forall (below wv) vs -> Forall (fun v => filled v = true) vs ->
    own_kids content fs vs own -> flattened content fs vs reqs flat ->
    sequence env valid fs (map tree_of (own ++ flat)) /\ req_attrs reqs = [].
  Proof.
    revert vs own flat reqs. induction fs as [|f fs IH]; intros vs own flat reqs Fc Fl Hw Hf Ho Hx.
    - inversion Ho; inversion Hx; subst. split; [constructor|reflexivity].
    - inversion Fc as [|? ? Fc1 Fc2]; subst.
      assert (Fl' : forall fs1 g fs2, fs = fs1 ++ g :: fs2 -> is_flatten g = true -> Forall (fun g => is_element g = false) fs2).
      { intros fs1 g fs2 -> G. now apply (Fl (f :: fs1) g fs2). }
      unfold field_compiles in Fc1. destruct (f_mode f) as [k t|opt t|id|t] eqn:M.
      + inversion Ho as [|f' fs' k' t' v xs l vs' l' M' I E Ho'|f' fs' v vs' l M' Ho']; subst;
          [|unfold is_element in M'; now rewrite M in M'].
        rewrite M in M'. injection M' as <- <-.
        inversion Hx as [|? ? ? ? ? ? ? ? ? M'|? ? ? ? ? ? M' Hx']; subst; [congruence|].
        inversion Hw as [|? ? W1 W2]; inversion Hf as [|? ? F1 F2]; subst.
        destruct (IH vs' l' flat reqs Fc2 Fl' W2 F2 Ho' Hx') as [I1 I2]. split; [|exact I2].
        destruct (elems_valid (expanded (f_name f)) t xs l) as [E1 E2]; auto.
        { eapply below_items; eauto. } { eapply items_filled; eauto. }
        rewrite <- app_assoc, map_app. eapply sq_element; eauto. rewrite map_length, E2. eapply items_allowed; eauto.
      + inversion Ho as [|f' fs' k' t' v xs l vs' l' M' I E Ho'|f' fs' v vs' l M' Ho']; subst; [congruence|].
        inversion Hx as [|? ? ? ? ? ? ? ? ? Mx|? ? ? ? ? ? Mx Hx']; subst; [congruence|].
        inversion Hw as [|? ? W1 W2]; inversion Hf as [|? ? F1 F2]; subst.
        destruct (IH vs' own flat reqs Fc2 Fl' W2 F2 Ho' Hx') as [I1 I2]. split; [|exact I2].
        apply sq_attribute; [unfold is_attribute; now rewrite M|exact I1].
      + inversion Ho as [|f' fs' k' t' v xs l vs' l' M' I E Ho'|f' fs' v vs' l M' Ho']; subst; [congruence|].
        inversion Hx as [|? ? id' ? ? r1 k1 r2 k2 Mx Cx Hx'|? ? ? ? ? ? Mx Hx']; subst;
          [|unfold is_flatten in Mx; now rewrite M in Mx].
        rewrite M in Mx. injection Mx as <-. destruct Fc1 as (ident & root & nss & ws & sk & En).
        inversion Hw as [|? ? W1 W2]; inversion Hf as [|? ? F1 F2]; subst.
        assert (own = []) as ->.
        { eapply own_none; eauto. apply (Fl [] f fs eq_refl). unfold is_flatten. now rewrite M. }
        destruct (IH vs' [] k2 r2 Fc2 Fl' W2 F2 Ho' Hx') as [I1 I2].
        destruct (enum_content _ _ _ _ _ _ _ _ _ En (proj1 W1) F1 Cx) as [O1 O2].
        cbn [app]. rewrite map_app. rewrite req_attrs_app, O2, I2. split; [|reflexivity].
        eapply sq_flatten; eauto.
      + contradiction.
  Qed.

  Lemma attrs_written fs vs l : attrs_are o fs vs l -> NoDup (field_names is_attribute fs) ->
    attrs_valid lex fs (req_attrs l) /\ incl (map fst (req_attrs l)) (field_names is_attribute fs).
  Proof.
    unfold attrs_valid.
    induction 1 as [|f fs opt t x s vs l M T HL IH|f fs t vs l M HL IH|f fs v vs l M HL IH]; intros Hn.
    - cbn. split; [|intros n []]. split; [constructor|]. split; [intros n s []|intros f t []].
    - assert (Mf : is_attribute f = true) by (unfold is_attribute; now rewrite M).
      rewrite attribute_names_cons, Mf in *. inversion Hn as [|? ? Hni Hn']; subst.
      destruct (IH Hn') as [(I1 & I2 & I3) I4]. cbn [req_attrs map fst]. split; [split; [|split]|].
      + constructor; [|exact I1]. intros Hin. apply Hni. now apply I4.
      + intros n s' [[= <- <-]|Hin].
        * exists f, opt, t. repeat split; auto; [now left|eauto].
        * destruct (I2 n s' Hin) as (g & op & t' & G1 & G2 & G3 & G4). exists g, op, t'. repeat split; auto. now right.
      + intros g t' [<-|Hin] G D; [now left|]. right. eauto.
      + intros n [<-|Hin]; [now left|right; auto].
    - assert (Mf : is_attribute f = true) by (unfold is_attribute; now rewrite M).
      rewrite attribute_names_cons, Mf in *. inversion Hn as [|? ? Hni Hn']; subst.
      destruct (IH Hn') as [(I1 & I2 & I3) I4]. split; [split; [exact I1|split]|].
      + intros n s' Hin. destruct (I2 n s' Hin) as (g & op & t' & G1 & G2 & G3 & G4). exists g, op, t'. repeat split; auto. now right.
      + intros g t' [<-|Hin] G D; [congruence|eauto].
      + intros n Hin. right. auto.
    - rewrite attribute_names_cons, M in *. destruct (IH Hn) as [(I1 & I2 & I3) I4]. split; [split; [exact I1|split]|exact I4].
      + intros n s' Hin. destruct (I2 n s' Hin) as (g & op & t' & G1 & G2 & G3 & G4). exists g, op, t'. repeat split; auto. now right.
      + intros g t' [<-|Hin] G D; [unfold is_attribute in M; now rewrite G in M|eauto].
  Qed.

  Lemma variant_sorted ws i w : nth_error (sorted_variants ws) i = Some w -> In w ws.
  Proof. intros H. apply nth_error_In in H. eapply Permutation.Permutation_in; [|exact H]. apply sort_perm. Qed.

  Theorem content_valid v : wv v.
  Proof.
    induction v using value_ind''; intros F t reqs kids C; inversion C; subst; cbn in F; try discriminate.
    - cbn [req_attrs map tree_of]. eapply va_text; [|eauto]. cbn. now rewrite append_nil.
    - match goal with En : env _ = Some (TDStruct _ _ _ fs) |- _ =>
        pose proof (Hok _ _ En) as [_ Hn]; pose proof (Hc _ _ En) as Fc; pose proof (Hl _ _ _ _ _ En) as Fl end.
      edestruct (fields_valid fs vs) as [S1 S2]; eauto; [now apply forallb_below|].
      edestruct (attrs_written fs vs) as [A1 _]; eauto.
      rewrite !req_attrs_app, mappings_no_attrs, S2, app_nil_r. cbn [app].
      pose proof (sequence_elems _ _ _ _ S1) as Se. eapply va_struct; eauto; [now apply elems_blank|now rewrite Se].
    - rewrite mappings_no_attrs. eapply va_enum; eauto; cbn [map tree_of req_attrs filter is_telem]; [repeat constructor|]. constructor; auto.
      eapply variant_sorted; eauto.
    - rewrite mappings_no_attrs. apply andb_true_iff in F. destruct F as [F1 F2].
      assert (Ho : one_of valid ws (map tree_of kids)); [|pose proof (one_of_elems _ _ _ Ho) as Se;
        eapply va_enum; eauto; [now apply elems_blank|now rewrite Se]].
      match goal with I : items _ _ ?xs, E : elems_are _ _ _ ?xs ?l |- _ =>
        destruct (elems_valid _ _ xs l (below_items _ _ _ _ (H _ eq_refl) I) (items_filled _ _ _ F2 I) E) as [E1 E2];
        eapply oo_payload; eauto; [eapply variant_sorted; eauto|rewrite map_length, E2; destruct I; cbn in F1 |- *; auto; try discriminate] end.
      destruct l; [discriminate|cbn; lia].
  Qed.
End Written.

Theorem written_valid o env dbg w id v k pol :
  compiles env -> names_ok env -> flattened_last env -> filled v = true ->
  legal_env env -> no_default env -> (pol = NsSpec.SkipIfAnywhere -> coherent_env env) ->
  serialize_root o env dbg w id v = inl (None, k) ->
  exists n attrs kids, root_name env id = Some n /\
    NsSpec.meaning [] (NsSpec.emit pol [] (k_out k)) = Some (NsSpec.tree_events (TElem n attrs kids)) /\
    valid env (fun t s => exists x, to_text o t x = Some s) (fun t s => exists x, to_text o t x = Some s)
      (ERef id) attrs kids.
Proof.
  intros Hc Hok Hl F L D Co S.
  destruct (root_meaning o env dbg w id v k pol L D Co S) as (n & rs & ks & R & C & M).
  exists n, (req_attrs rs), (map tree_of ks). split; [exact R|]. split; [exact M|].
  now apply (content_valid o env Hl Hc Hok v).
Qed.

(** ** Valid documents are read *)

Section Readable.
  Context (o : oracles) (env : tenv).
  Hypothesis (Hc : compiles env) (Hok : names_ok env) (H1 : one_choice env).
  Notation reads := (reads o env).
  Notation lex_e := (fun t s => exists x, parse_text o t (seen s) = Ok x).
  Notation lex_a := (fun t s => exists x, parse_text o t s = Ok x).
  Notation valid := (valid env lex_e lex_a).

  Definition rv (x : wtree) : Prop := forall n attrs kids, x = TElem n attrs kids ->
    forall t c, valid t attrs kids -> shows x c -> exists v, reads t c v.

  Lemma elems_read n t l E : Forall rv l -> Forall (element valid n t) l -> Forall2 shows l E ->
    (exists vs, Forall2 (reads t) E vs) /\ Forall (fun k => has_name n k = true) E.
  Proof.
    intros Hr He Hs. revert Hr He. induction Hs as [|x c l E Hx _ IH]; intros Hr He; [split; [exists []|]; constructor|].
    inversion Hr as [|? ? R1 R2]; inversion He as [|? ? E1 E2]; subst. destruct (IH R2 E2) as [(vs & V) N].
    destruct E1 as [attrs kids Hv]. destruct (R1 _ _ _ eq_refl _ _ Hv Hx) as (v & Rv). split.
    - exists (v :: vs). now constructor.
    - constructor; [|exact N]. inversion Hx; subst. cbn. now apply xn_eqb_eq.
  Qed.

  Lemma occurs_some R k d E vs : Forall2 R E vs -> E <> [] -> allowed k d (List.length E) ->
    exists v, occurs R k E v.
  Proof.
    intros HR Hn Ha. destruct HR as [|c v E vs HR HR']; [easy|].
    destruct k; cbn in Ha.
    - assert (E = []) as -> by (destruct E; [reflexivity|cbn in Ha; lia]). exists v. now constructor.
    - assert (E = []) as -> by (destruct E; [reflexivity|cbn in Ha; lia]). exists (VSome v). now constructor.
    - exists (VVec (v :: vs)). constructor; [discriminate|now constructor].
  Qed.

  Lemma absent_some f k t : f_mode f = MElement k t -> allowed k (f_default f) 0 -> exists v, absent f v.
  Proof.
    intros M Ha. destruct (f_default f) as [d|] eqn:D; [exists d; now apply abs_default|].
    destruct k; cbn in Ha.
    - exfalso. destruct Ha as [?|[_ ?]]; [lia|easy].
    - exists VNone. eapply abs_opt; eauto.
    - exists (VVec []). eapply abs_vec; eauto.
  Qed.

  (** The names of the children that belong to a field. *)
  Definition belongs (fs : list field) (n : xname) : Prop :=
    In n (field_names is_element fs) \/
    exists f id ident root nss ws sk w, In f fs /\ f_mode f = MFlatten id /\
      env id = Some (TDEnum ident root nss ws sk) /\ In w ws /\ n = expanded (v_name w).

  Lemma elem_called n t l E : Forall (element valid n t) l -> Forall2 shows l E -> Forall (fun k => has_name n k = true) E.
  Proof.
    intros HF Hs. induction Hs as [|x c l E Hx Hs IH]; constructor; inversion HF as [|? ? F1 F2]; subst; auto.
    destruct F1. inversion Hx; subst. cbn. now apply xn_eqb_eq.
  Qed.

  Lemma one_of_names ws l E : one_of valid ws l -> Forall2 shows l E ->
    exists w, In w ws /\ E <> [] /\ Forall (fun k => has_name (expanded (v_name w)) k = true) E.
  Proof.
    intros [w Hw Hty|w k t l' Hw Hty Ha HF] Hs; exists w; (split; [exact Hw|]).
    - inversion Hs as [|? c ? ? Hx Hs']; subst. inversion Hs'; subst. split; [discriminate|].
      repeat constructor. inversion Hx; subst. cbn. now apply xn_eqb_eq.
    - split.
      + intros ->. inversion Hs; subst. destruct k; cbn in Ha; lia.
      + eapply elem_called; eauto.
  Qed.

  Lemma has_name_inj n m k : has_name n k = true -> has_name m k = true -> n = m.
  Proof. destruct k; cbn; try discriminate. intros A B. apply xn_eqb_eq in A, B. congruence. Qed.

  Lemma named_all n E : Forall (fun k => has_name n k = true) E -> named n E = E.
  Proof. induction 1 as [|k E Hk _ IH]; [reflexivity|]. unfold named in *. cbn. now rewrite Hk, IH. Qed.

  Lemma named_none n m E : Forall (fun k => has_name m k = true) E -> n <> m -> named n E = [].
  Proof.
    intros H Hn. induction H as [|k E Hk _ IH]; [reflexivity|]. unfold named in *. cbn.
    destruct (has_name n k) eqn:Ek; [|exact IH]. elim Hn. eapply has_name_inj; eauto.
  Qed.

  Lemma named_app n E1 E2 : named n (E1 ++ E2) = named n E1 ++ named n E2.
  Proof. apply filter_app. Qed.

  Lemma sequence_names fs l E : sequence env valid fs l -> Forall2 shows l E ->
    Forall (fun k => exists n, has_name n k = true /\ belongs fs n) E.
  Proof.
    intros H. revert E. induction H as [|f fs k t l l' M Ha HF _ IH|f fs id ident root nss ws sk l l' M En Ho _ IH|f fs l M _ IH];
      intros E Hs.
    - inversion Hs. constructor.
    - apply Forall2_app_inv_l in Hs. destruct Hs as (E1 & E2 & S1 & S2 & ->). apply Forall_app. split.
      + eapply Forall_impl; [|eapply elem_called; eauto]. intros c Hn. exists (expanded (f_name f)). split; [exact Hn|].
        left. rewrite element_names_cons. unfold is_element. rewrite M. now left.
      + eapply Forall_impl; [|exact (IH E2 S2)]. intros c (n & Hn & B). exists n. split; [exact Hn|].
        destruct B as [B|(g & id & ident & root & nss & ws & sk & w & B)].
        * left. rewrite element_names_cons. destruct (is_element f); [now right|exact B].
        * right. exists g, id, ident, root, nss, ws, sk, w. destruct B as (B1 & B). split; [now right|exact B].
    - apply Forall2_app_inv_l in Hs. destruct Hs as (E1 & E2 & S1 & S2 & ->). apply Forall_app. split.
      + destruct (one_of_names ws l E1 Ho S1) as (w & Hw & _ & Hn). eapply Forall_impl; [|exact Hn].
        intros c Hc'. exists (expanded (v_name w)). split; [exact Hc'|]. right.
        exists f, id, ident, root, nss, ws, sk, w. repeat split; auto. now left.
      + eapply Forall_impl; [|exact (IH E2 S2)]. intros c (n & Hn & B). exists n. split; [exact Hn|].
        destruct B as [B|(g & id' & ident' & root' & nss' & ws' & sk' & w & B)].
        * left. rewrite element_names_cons. destruct (is_element f); [now right|exact B].
        * right. exists g, id', ident', root', nss', ws', sk', w. destruct B as (B1 & B). split; [now right|exact B].
    - eapply Forall_impl; [|exact (IH E Hs)]. intros c (n & Hn & B). exists n. split; [exact Hn|].
      destruct B as [B|(g & id & ident & root & nss & ws & sk & w & B)].
      + left. rewrite element_names_cons. destruct (is_element f); [now right|exact B].
      + right. exists g, id, ident, root, nss, ws, sk, w. destruct B as (B1 & B). split; [now right|exact B].
  Qed.

  (** Variants of flattened fields are not called like the fields [all]. *)
  Definition apart (all fs : list field) : Prop := forall f id ident root nss ws sk, In f fs -> f_mode f = MFlatten id ->
    env id = Some (TDEnum ident root nss ws sk) -> forall w, In w ws -> ~ In (expanded (v_name w)) (field_names is_element all).

  Lemma named_nil n E : Forall (fun k => has_name n k = false) E -> named n E = [].
  Proof. induction 1 as [|k E Hk _ IH]; [reflexivity|]. unfold named in *. cbn. now rewrite Hk. Qed.

  Lemma field_name_in f fs k t : In f fs -> f_mode f = MElement k t -> In (expanded (f_name f)) (field_names is_element fs).
  Proof.
    intros Hin M. unfold field_names. apply in_map_iff. exists f. split; [reflexivity|]. apply filter_In.
    split; [exact Hin|]. unfold is_element. now rewrite M.
  Qed.

  (** The children called like an element field are those at its place in the sequence. *)
  Lemma sequence_field all fs l E : sequence env valid fs l -> Forall2 shows l E ->
    NoDup (field_names is_element fs) -> incl (field_names is_element fs) (field_names is_element all) -> apart all fs ->
    forall f k t, In f fs -> f_mode f = MElement k t ->
    exists lf, incl lf l /\ Forall2 shows lf (named (expanded (f_name f)) E) /\
      Forall (element valid (expanded (f_name f)) t) lf /\ allowed k (f_default f) (List.length lf).
  Proof.
    intros H. revert E. induction H as [|f fs k t l l' M Ha HF HS IH|f fs id ident root nss ws sk l l' M En Ho HS IH|f fs l M HS IH];
      intros E Hs Hn Hi Hap g k' t' Hin Mg.
    - easy.
    - apply Forall2_app_inv_l in Hs. destruct Hs as (E1 & E2 & S1 & S2 & ->). rewrite element_names_cons in Hn, Hi.
      replace (is_element f) with true in Hn, Hi by (unfold is_element; now rewrite M). inversion Hn as [|? ? Hni Hn']; subst.
      assert (Hap' : apart all fs) by (intros h ? ? ? ? ? ? Hh; eapply Hap; now right).
      assert (N1 := elem_called _ _ _ _ HF S1). rewrite named_app. destruct Hin as [<-|Hin].
      + rewrite M in Mg. injection Mg as <- <-. exists l. rewrite (named_all _ E1 N1).
        replace (named (expanded (f_name f)) E2) with (@nil node).
        * rewrite app_nil_r. split; [apply incl_appl, incl_refl|]. auto.
        * symmetry. apply named_nil. pose proof (sequence_names fs l' E2 HS S2) as HN.
          eapply Forall_impl; [|exact HN]. intros c (n & Hcn & B).
          destruct (has_name (expanded (f_name f)) c) eqn:Ef; [|reflexivity]. exfalso.
          rewrite (has_name_inj _ _ _ Hcn Ef) in B. destruct B as [B|(h & id & ident & root & nss & ws & sk & w & B1 & B2 & B3 & B4 & B5)].
          -- now apply Hni.
          -- eapply (Hap' h); eauto. rewrite <- B5. apply Hi. now left.
      + destruct (IH E2 S2 Hn') with (f := g) (k := k') (t := t') as (lf & L1 & L2 & L3 & L4); auto.
        { intros x Hx. apply Hi. now right. }
        exists lf. rewrite (named_none _ _ E1 N1).
        * split; [now apply incl_appr|]. auto.
        * intros Heq. apply Hni. rewrite <- Heq. eapply field_name_in; eauto.
    - apply Forall2_app_inv_l in Hs. destruct Hs as (E1 & E2 & S1 & S2 & ->). rewrite element_names_cons in Hn, Hi.
      replace (is_element f) with false in Hn, Hi by (unfold is_element; now rewrite M).
      destruct Hin as [<-|Hin]; [congruence|].
      assert (Hap' : apart all fs) by (intros h ? ? ? ? ? ? Hh; eapply Hap; now right).
      destruct (IH E2 S2 Hn Hi Hap' g k' t' Hin Mg) as (lf & L1 & L2 & L3 & L4).
      exists lf. rewrite named_app. destruct (one_of_names ws l E1 Ho S1) as (w & Hw & _ & N1).
      rewrite (named_none _ _ E1 N1).
      + split; [now apply incl_appr|]. auto.
      + intros Heq. eapply (Hap f); eauto; [now left|]. rewrite <- Heq. apply Hi. eapply field_name_in; eauto.
    - rewrite element_names_cons in Hn, Hi.
      replace (is_element f) with false in Hn, Hi by (unfold is_element, is_attribute in *; now destruct (f_mode f)).
      destruct Hin as [<-|Hin]; [unfold is_attribute in M; now rewrite Mg in M|].
      assert (Hap' : apart all fs) by (intros h ? ? ? ? ? ? Hh; eapply Hap; now right).
      apply (IH E Hs Hn Hi Hap' g k' t' Hin Mg).
  Qed.

  Notation free fs := (fun k => is_elem k && negb (name_in (field_names is_element fs) k)).

  Lemma name_in_true ns n k : has_name n k = true -> In n ns -> name_in ns k = true.
  Proof. intros H Hin. apply existsb_exists. eauto. Qed.

  Lemma name_in_false ns n k : has_name n k = true -> ~ In n ns -> name_in ns k = false.
  Proof.
    intros H Hin. destruct (name_in ns k) eqn:E; [|reflexivity]. apply existsb_exists in E.
    destruct E as (m & Hm & Em). elim Hin. now rewrite (has_name_inj _ _ _ H Em).
  Qed.

  Lemma free_none all n E : Forall (fun k => has_name n k = true) E -> In n (field_names is_element all) ->
    filter (free all) E = [].
  Proof.
    intros H Hin. induction H as [|k E Hk _ IH]; [reflexivity|]. cbn [filter].
    rewrite (name_in_true _ _ _ Hk Hin), andb_false_r. exact IH.
  Qed.

  Lemma free_all all n E : Forall (fun k => has_name n k = true) E -> ~ In n (field_names is_element all) ->
    filter (free all) E = E.
  Proof.
    intros H Hin. induction H as [|k E Hk _ IH]; [reflexivity|]. cbn [filter].
    rewrite (name_in_false _ _ _ Hk Hin), (has_name_elem _ _ Hk). cbn. now rewrite IH.
  Qed.

  Lemma filter_app_nil {A} (p : A -> bool) l1 l2 : filter p (l1 ++ l2) = filter p l1 ++ filter p l2.
  Proof. apply filter_app. Qed.

  (** Without flattened fields nothing is left over; with one, its choice is. *)
  Lemma sequence_no_flat all fs l E : sequence env valid fs l -> Forall2 shows l E ->
    incl (field_names is_element fs) (field_names is_element all) ->
    filter is_flatten fs = [] -> filter (free all) E = [].
  Proof.
    intros H. revert E. induction H as [|f fs k t l l' M Ha HF HS IH|f fs id ident root nss ws sk l l' M En Ho HS IH|f fs l M HS IH];
      intros E Hs Hi Hf.
    - now inversion Hs.
    - apply Forall2_app_inv_l in Hs. destruct Hs as (E1 & E2 & S1 & S2 & ->). rewrite filter_app.
      rewrite element_names_cons in Hi. replace (is_element f) with true in Hi by (unfold is_element; now rewrite M).
      cbn in Hf. unfold is_flatten in Hf at 1. rewrite M in Hf.
      rewrite (free_none all _ E1 (elem_called _ _ _ _ HF S1)) by (apply Hi; now left).
      apply IH; auto. intros x Hx. apply Hi. now right.
    - cbn in Hf. unfold is_flatten in Hf at 1. now rewrite M in Hf.
    - rewrite element_names_cons in Hi.
      replace (is_element f) with false in Hi by (unfold is_element, is_attribute in *; now destruct (f_mode f)).
      cbn in Hf. replace (is_flatten f) with false in Hf by (unfold is_flatten, is_attribute in *; now destruct (f_mode f)).
      auto.
  Qed.

  Lemma sequence_flat all fs l E : sequence env valid fs l -> Forall2 shows l E ->
    incl (field_names is_element fs) (field_names is_element all) -> apart all fs ->
    List.length (filter is_flatten fs) <= 1 ->
    forall f id ident root nss ws sk, In f fs -> f_mode f = MFlatten id -> env id = Some (TDEnum ident root nss ws sk) ->
    exists lf, incl lf l /\ one_of valid ws lf /\ Forall2 shows lf (filter (free all) E).
  Proof.
    intros H. revert E. induction H as [|f fs k t l l' M Ha HF HS IH|f fs id ident root nss ws sk l l' M En Ho HS IH|f fs l M HS IH];
      intros E Hs Hi Hap Hlen g id' ident' root' nss' ws' sk' Hin Mg Eg.
    - easy.
    - apply Forall2_app_inv_l in Hs. destruct Hs as (E1 & E2 & S1 & S2 & ->). rewrite filter_app.
      rewrite element_names_cons in Hi. replace (is_element f) with true in Hi by (unfold is_element; now rewrite M).
      destruct Hin as [<-|Hin]; [congruence|].
      assert (Hap' : apart all fs) by (intros h ? ? ? ? ? ? Hh; eapply Hap; now right).
      rewrite (free_none all _ E1 (elem_called _ _ _ _ HF S1)) by (apply Hi; now left).
      destruct (IH E2 S2) with (f := g) (id := id') (ident := ident') (root := root') (nss := nss') (ws := ws') (sk := sk')
        as (lf & L1 & L2 & L3); auto.
      { intros x Hx. apply Hi. now right. }
      { cbn in Hlen. unfold is_flatten in Hlen at 1. now rewrite M in Hlen. }
      exists lf. split; [now apply incl_appr|]. auto.
    - apply Forall2_app_inv_l in Hs. destruct Hs as (E1 & E2 & S1 & S2 & ->). rewrite filter_app.
      rewrite element_names_cons in Hi. replace (is_element f) with false in Hi by (unfold is_element; now rewrite M).
      cbn in Hlen. unfold is_flatten in Hlen at 1. rewrite M in Hlen. cbn in Hlen.
      assert (Hf : filter is_flatten fs = []) by (destruct (filter is_flatten fs); [reflexivity|cbn in Hlen; lia]).
      destruct Hin as [<-|Hin].
      + rewrite M in Mg. injection Mg as <-. rewrite En in Eg. injection Eg as <- <- <- <- <-.
        rewrite (sequence_no_flat all fs l' E2 HS S2 Hi Hf), app_nil_r.
        destruct (one_of_names ws l E1 Ho S1) as (w & Hw & _ & N1).
        rewrite (free_all all _ E1 N1) by (eapply Hap; eauto; now left).
        exists l. split; [apply incl_appl, incl_refl|]. auto.
      + exfalso. assert (In g (filter is_flatten fs)); [|rewrite Hf in *; easy].
        apply filter_In. split; [exact Hin|]. unfold is_flatten. now rewrite Mg.
    - rewrite element_names_cons in Hi.
      replace (is_element f) with false in Hi by (unfold is_element, is_attribute in *; now destruct (f_mode f)).
      cbn in Hlen. replace (is_flatten f) with false in Hlen by (unfold is_flatten, is_attribute in *; now destruct (f_mode f)).
      destruct Hin as [<-|Hin]; [unfold is_attribute in M; now rewrite Mg in M|].
      assert (Hap' : apart all fs) by (intros h ? ? ? ? ? ? Hh; eapply Hap; now right).
      eapply IH; eauto.
  Qed.

  Lemma incl_Forall_rv l l' : Forall rv l' -> incl l l' -> Forall rv l.
  Proof. intros H Hi. rewrite Forall_forall in *. auto. Qed.

  Lemma shows_elems l E : Forall2 shows l E -> Forall (fun k => is_elem k = true) E.
  Proof. induction 1 as [|x c l E Hx _ IH]; constructor; auto. now destruct Hx. Qed.

  Lemma one_of_choice ws l E : names_ok env -> Forall rv l -> one_of valid ws l -> Forall2 shows l E ->
    NoDup (variant_names ws) -> exists v, choice reads ws E v.
  Proof.
    intros _ Hr Ho Hs Hn. destruct (one_of_names ws l E Ho Hs) as (w & Hw & Hne & N).
    assert (F : filter (name_in (variant_names ws)) E = E).
    { clear -N Hw. induction N as [|k E Hk _ IH]; [reflexivity|]. cbn [filter].
      rewrite (name_in_true _ _ _ Hk), IH; [reflexivity|]. apply in_map_iff. eauto. }
    assert (G : forall w, In w ws -> Forall (fun k => has_name (expanded (v_name w)) k = true) E ->
      exists i, nth_error (sorted_variants ws) i = Some w /\ named (expanded (v_name w)) E = E).
    { intros w' Hw' N'. assert (In w' (sorted_variants ws)) as Hin.
      { eapply Permutation.Permutation_in; [|exact Hw']. symmetry. apply sort_perm. }
      apply In_nth_error in Hin. destruct Hin as (i & Hi). exists i. split; [exact Hi|]. now apply named_all. }
    destruct Ho as [w' Hw' Hty|w' k t l' Hw' Hty Ha HF].
    - assert (N' : Forall (fun k => has_name (expanded (v_name w')) k = true) E).
      { inversion Hs as [|? c ? ? Hx Hs']; subst. inversion Hs'; subst. repeat constructor.
        inversion Hx; subst. cbn. now apply xn_eqb_eq. }
      destruct (G w' Hw' N') as (i & Hi & Nm). exists (VEnum i None). eapply choice_unit; eauto; rewrite F; [exact Hne|now symmetry].
    - destruct (elems_read _ _ _ _ Hr HF Hs) as [(vs & V) N'].
      destruct (G w' Hw' N') as (i & Hi & Nm).
      destruct (occurs_some (reads t) k None E vs V Hne) as (x & Hx).
      { rewrite <- (Forall2_len Hs). destruct k; cbn in *; auto; lia. }
      exists (VEnum i (Some x)). eapply choice_field; eauto; rewrite ?Nm, ?F; auto.
  Qed.

  Lemma attr_values_in attrs' attrs n : NoDup (map fst attrs) ->
    map (fun a => (from_xml_name (a_name a), a_value a)) attrs' = attrs ->
    (forall s, In (n, s) attrs -> attr_values n attrs' = [s]) /\
    (~ In n (map fst attrs) -> attr_values n attrs' = []).
  Proof.
    intros Hn <-. unfold attr_values.
    assert (Z : forall l, ~ In n (map fst (map (fun a => (from_xml_name (a_name a), a_value a)) l)) ->
      map a_value (filter (fun a => xn_eqb (from_xml_name (a_name a)) n) l) = []).
    { induction l as [|a l IH]; intros H; [reflexivity|]. cbn in *.
      destruct (xn_eqb (from_xml_name (a_name a)) n) eqn:E; [|apply IH; tauto].
      apply xn_eqb_eq in E. elim H. now left. }
    split; [|apply Z]. intros s. induction attrs' as [|a l IH]; intros Hin; [easy|]. cbn in *.
    inversion Hn as [|? ? Hni Hn']; subst. destruct Hin as [E|Hin].
    - injection E as <- <-. replace (xn_eqb _ _) with true by (symmetry; now apply xn_eqb_eq). cbn. f_equal.
      now apply Z.
    - destruct (xn_eqb (from_xml_name (a_name a)) n) eqn:E; [|auto].
      apply xn_eqb_eq in E. elim Hni. rewrite E. apply in_map_iff. exists (n, s). auto.
  Qed.

  Lemma attribute_holds fs attrs attrs' K f opt t : attrs_valid lex_a fs attrs ->
    NoDup (field_names is_attribute fs) ->
    map (fun a => (from_xml_name (a_name a), a_value a)) attrs' = attrs ->
    In f fs -> f_mode f = MAttribute opt t -> exists v, field_holds o reads attrs' K f v.
  Proof.
    intros (A1 & A2 & A3) Hn Em Hin M.
    destruct (attr_values_in attrs' attrs (expanded (f_name f)) A1 Em) as [B1 B2].
    destruct (in_dec xname_dec (expanded (f_name f)) (map fst attrs)) as [Hi|Hni].
    - apply in_map_iff in Hi. destruct Hi as ([n s] & E & Hi). cbn in E. subst n.
      destruct (A2 _ _ Hi) as (g & op & t' & G1 & G2 & G3 & (x & G4)).
      assert (g = f) as ->.
      { clear -Hn Hin M G1 G2 G3. unfold field_names in Hn.
        assert (F1 : In f (filter is_attribute fs)) by (apply filter_In; unfold is_attribute; now rewrite M).
        assert (F2 : In g (filter is_attribute fs)) by (apply filter_In; unfold is_attribute; now rewrite G2).
        revert Hn F1 F2. induction (filter is_attribute fs) as [|h l IH]; [easy|]. cbn. intros Hn.
        inversion Hn as [|? ? N1 N2]; subst. intros [->|F1] [->|F2]; auto.
        - elim N1. rewrite <- G3. apply in_map_iff. eauto.
        - elim N1. rewrite G3. apply in_map_iff. eauto. }
      rewrite M in G2. injection G2 as <- <-.
      eexists. eapply fh_attribute; eauto.
    - specialize (B2 Hni). destruct (f_default f) as [d|] eqn:D.
      + exists d. eapply fh_no_attribute; eauto. now apply abs_default.
      + destruct opt.
        * exists VNone. eapply fh_no_attribute; eauto. eapply abs_attr; eauto.
        * elim Hni. eauto.
  Qed.

  Lemma fields_exist attrs K l fs :
    (forall f, In f fs -> is_flatten f = false -> exists v, field_holds o reads attrs K f v) ->
    (forall f id, In f fs -> f_mode f = MFlatten id -> exists ident root nss ws sk v,
       env id = Some (TDEnum ident root nss ws sk) /\ choice reads ws l v) ->
    List.length (filter is_flatten fs) <= 1 ->
    exists vs, fields_hold o env reads attrs K l fs vs.
  Proof.
    revert l. induction fs as [|f fs IH]; intros l Hf Hx Hlen; [exists []; constructor|].
    destruct (is_flatten f) eqn:Ef.
    - destruct (f_mode f) as [| |id|] eqn:M; try (unfold is_flatten in Ef; now rewrite M in Ef).
      destruct (Hx f id (or_introl eq_refl) M) as (ident & root & nss & ws & sk & v & En & Ch).
      cbn in Hlen. rewrite Ef in Hlen. cbn in Hlen.
      assert (Hnil : filter is_flatten fs = []) by (destruct (filter is_flatten fs); [reflexivity|cbn in Hlen; lia]).
      destruct (IH (before_first (variant_names ws) l)) as (vs & V).
      { intros g Hg. apply Hf. now right. }
      { intros g id' Hg Mg. exfalso. assert (In g (filter is_flatten fs)); [|rewrite Hnil in *; easy].
        apply filter_In. split; [exact Hg|]. unfold is_flatten. now rewrite Mg. }
      { rewrite Hnil. cbn. lia. }
      exists (v :: vs). eapply fhs_flatten; eauto.
    - destruct (Hf f (or_introl eq_refl) Ef) as (v & Hv). cbn in Hlen. rewrite Ef in Hlen.
      destruct (IH l) as (vs & V); auto.
      { intros g Hg. apply Hf. now right. }
      { intros g id Hg. apply Hx. now right. }
      exists (v :: vs). now apply fhs_own.
  Qed.

  Lemma texts_count kids : List.length (texts kids) = S (List.length (filter is_telem kids)).
  Proof.
    induction kids as [|[n a k|s] kids IH]; cbn; [reflexivity|now rewrite IH|].
    destruct (texts kids); cbn in *; lia.
  Qed.

  Lemma texts_one kids s : texts kids = [s] -> filter is_telem kids = [].
  Proof.
    intros H. pose proof (texts_count kids) as L. rewrite H in L. cbn in L.
    destruct (filter is_telem kids); [reflexivity|cbn in L; lia].
  Qed.

  Theorem valid_reads x : rv x.
  Proof.
    induction x as [s|n attrs kids Hr] using wtree_ind'; intros n' attrs' kids' E t c Hv Hs; [discriminate|].
    injection E as <- <- <-. inversion Hs as [? ? ? name as' ns p ks pe Hn Ha HF HT]; subst.
    inversion Hv as [t' ? s Tx (x & P)|id ident root nss fs ? ? En Av Bl Sq|id ident root nss ws sk ? En Bl Ho]; subst.
    - exists (VText x). rewrite Tx in HT. rewrite (texts_one _ _ Tx) in HF. assert (Hnil : filter is_elem ks = []) by now inversion HF.
      constructor; [now apply no_elems_existsb|].
      rewrite (no_elems_texts _ Hnil) in HT. cbn in HT. injection HT as ->. exact P.
    - assert (Hr' : Forall rv (filter is_telem kids)).
      { apply Forall_forall. intros y Hy. rewrite Forall_forall in Hr. apply Hr. now apply filter_In in Hy. }
      destruct (Hok _ _ En) as [N1 N2]. destruct (H1 _ _ _ _ _ En) as [Hlen Hap].
      destruct (fields_exist as' (filter is_elem ks) (unclaimed fs (filter is_elem ks)) fs) as (vs & V); auto.
      + intros f Hin Hf. destruct (f_mode f) as [k t|opt t|id'|t] eqn:M.
        * destruct (sequence_field fs fs _ (filter is_elem ks) Sq HF N1 (incl_refl _) Hap f k t Hin M)
            as (lf & L1 & L2 & L3 & L4).
          pose proof (Forall2_len L2) as Ln. rewrite Ln in L4.
          destruct (elems_read _ _ _ _ (incl_Forall_rv _ _ Hr' L1) L3 L2) as [(vs & V) _].
          destruct (named (expanded (f_name f)) (filter is_elem ks)) as [|c0 cs] eqn:Ec.
          -- destruct (absent_some f k t M L4) as (v & A). exists v. eapply fh_no_element; eauto.
          -- destruct (occurs_some _ _ _ _ _ V ltac:(discriminate) L4) as (v & O). exists v.
             eapply fh_element; eauto. now rewrite Ec.
        * eapply attribute_holds; eauto.
        * unfold is_flatten in Hf. now rewrite M in Hf.
        * pose proof (Hc _ _ En) as Fc. rewrite Forall_forall in Fc. specialize (Fc f Hin). unfold field_compiles in Fc. now rewrite M in Fc.
      + intros f id' Hin M. pose proof (Hc _ _ En) as Fc. rewrite Forall_forall in Fc. specialize (Fc f Hin).
        unfold field_compiles in Fc. rewrite M in Fc. destruct Fc as (ident' & root' & nss' & ws & sk & En').
        destruct (sequence_flat fs fs _ (filter is_elem ks) Sq HF (incl_refl _) Hap Hlen f id' _ _ _ _ _ Hin M En')
          as (lf & L1 & L2 & L3).
        destruct (one_of_choice ws lf _ Hok (incl_Forall_rv _ _ Hr' L1) L2 L3) as (v & Ch).
        { apply (Hok _ _ En'). }
        exists ident', root', nss', ws, sk, v. auto.
      + exists (VStruct vs). eapply reads_struct; eauto. rewrite unclaimed_elems in V. now apply fields_hold_elems.
    - assert (Hr' : Forall rv (filter is_telem kids)).
      { apply Forall_forall. intros y Hy. rewrite Forall_forall in Hr. apply Hr. now apply filter_In in Hy. }
      destruct (one_of_choice ws _ _ Hok Hr' Ho HF) as (v & Ch); [apply (Hok _ _ En)|].
      exists v. eapply reads_enum; eauto. now apply choice_elems.
  Qed.
End Readable.

Theorem valid_read o env alg dbg t n attrs kids d pe :
  compiles env -> names_ok env -> one_choice env ->
  valid env (fun t s => exists x, parse_text o t (seen s) = Ok x) (fun t s => exists x, parse_text o t s = Ok x) t attrs kids ->
  shows (TElem n attrs kids) (d_root d) ->
  exists v, read_as o alg env dbg t (doc_events d) (FEndDocument pe) = Ok v.
Proof.
  intros Hc Hok H1 V S. destruct (valid_reads o env Hc Hok H1 _ n attrs kids eq_refl t (d_root d) V S) as (v & R).
  exists v. now apply read_as_iff.
Qed.
