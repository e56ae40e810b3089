(** The texts of a value that was read come from the document. *)
From Verif Require Import Base Normalize NormalizeSpec NormalizeProofs Text TextProofs Find FindProofs Types Reader ReaderSpec DeSpec DeriveDe DeProps
  DSerSpec DeriveSer Ser NamesSpec Names NamesDerived NamesSource.
From Coq Require Import Lia.

Section Reads.
  Context (o : oracles) (env : tenv).

  Definition origin (n : node) (t : tty) (x : tval) : Prop :=
    (exists s, text_in n s /\ parse_text o t s = Ok x) \/ default_has env t x.

  Lemma origin_below name attrs ns p kids pe c t x : In c kids -> origin c t x -> origin (NElem name attrs ns p kids pe) t x.
  Proof. intros H [(s & Hs & Hp)|D]; [left|now right]. exists s. split; [|assumption]. econstructor; eauto. Qed.

  Lemma named_in n kids c : In c (named n kids) -> In c kids.
  Proof. intros H. now apply filter_In in H. Qed.

  Lemma attr_in n attrs s : attr_values n attrs = [s] -> exists a, In a attrs /\ a_value a = s.
  Proof.
    intros H. assert (In s (attr_values n attrs)) as HI by (rewrite H; now left). unfold attr_values in HI.
    apply in_map_iff in HI as (a & E & Ha). apply filter_In in Ha as [Ha _]. eauto.
  Qed.

  Lemma before_incl ns l c : In c (before_first ns l) -> In c l.
  Proof. induction l as [|k l IH]; cbn; [easy|]. destruct (name_in ns k); [easy|]. intros [->|H]; [now left|right; auto]. Qed.

  Lemma field_at R attrs kids l fs vs : fields_hold o env R attrs kids l fs vs ->
    forall j f v, nth_error fs j = Some f -> nth_error vs j = Some v ->
      (is_flatten f = false /\ field_holds o R attrs kids f v) \/
      (exists id ident root nss variants sk l', f_mode f = MFlatten id /\ env id = Some (TDEnum ident root nss variants sk) /\
         choice R variants l' v /\ incl l' l).
  Proof.
    induction 1 as [l|l f fs v vs HF HH _ IH|l f fs id ident root nss variants sk v vs HM HE HC _ IH]; intros [|j] f0 v0 Hf Hv; try discriminate.
    - injection Hf as <-. injection Hv as <-. left. auto.
    - now apply (IH j f0 v0).
    - injection Hf as <-. injection Hv as <-. right. exists id, ident, root, nss, variants, sk, l. auto using incl_refl.
    - destruct (IH j f0 v0 Hf Hv) as [H|(id' & i' & r' & n' & vs' & sk' & l' & H1 & H2 & H3 & H4)]; [now left|right].
      exists id', i', r', n', vs', sk', l'. split; [assumption|]. split; [assumption|]. split; [assumption|].
      intros c Hc. eapply before_incl. apply H4, Hc.
  Qed.

  Lemma occurs_item R k cs v l w : occurs R k cs v -> items k v l -> In w l -> exists c, In c cs /\ R c w.
  Proof.
    intros H I HI. inversion H as [c u HR|c u HR|cs' us Hne HR]; subst; inversion I; subst.
    - destruct HI as [<-|[]]. exists c. split; [now left|assumption].
    - destruct HI as [<-|[]]. exists c. split; [now left|assumption].
    - clear - HR HI. induction HR as [|c u cs us HR _ IH]; [destruct HI|]. destruct HI as [<-|HI].
      + exists c. split; [now left|assumption].
      + destruct (IH HI) as (c' & Hc & HR'). exists c'. split; [now right|assumption].
  Qed.

  Lemma absent_items f k t v l w : absent f v -> f_mode f = MElement k t -> items k v l -> In w l -> f_default f = Some v.
  Proof.
    intros A M I HI. destruct A as [v HD|t0 HD M0|t0 HD M0|t0 HD M0]; [assumption| | |congruence]; rewrite M in M0; injection M0 as -> ->;
      inversion I; subst; destruct HI.
  Qed.

  Definition comes (t : ety) (v : value) (t' : tty) (x : tval) : Prop :=
    (forall n, reads o env t n v -> origin n t' x) /\
    (forall id ident root nss vs sk l, t = ERef id -> env id = Some (TDEnum ident root nss vs sk) ->
       choice (reads o env) vs l v -> (exists c, In c l /\ origin c t' x) \/ default_has env t' x).

  Lemma holds_comes t v t' x : holds env t v t' x -> comes t v t' x.
  Proof.
    induction 1 as [t x|id ident root nss fs vs j f opt t x E Hf M Hv
      |id ident root nss fs vs j f k t' v l w t x E Hf M Hv I HI HH [IH _]
      |id ident root nss fs vs j f id' v t x E Hf M Hv HH [_ IH]
      |id ident root nss vs sk i w k t' p l u t x E Hi Hw I HI HH [IH _]].
    - split; [|discriminate]. intros n H. inversion H as [? ? ? ? ? kids ? ? HE HP| |]; subst. left. exists (text_of kids).
      split; [constructor|assumption].
    - split; [|intros; congruence]. intros n H. inversion H as [|? ? ? ? ? ? ? ? ? ? ? ? E' HF|]; subst; [|congruence].
      rewrite E in E'. injection E' as <- <- <- <-.
      destruct (field_at _ _ _ _ _ _ HF j f _ Hf Hv) as [[_ HH]|(? & ? & ? & ? & ? & ? & ? & M' & _)]; [|congruence].
      inversion HH as [? ? ? M'|? ? ? M'|? ? s x' M' HA HP EV|? ? ? M' HA HB]; subst; try congruence.
      + left. assert (x' = x) as -> by (rewrite M in M'; injection M' as <- <-; destruct opt; congruence).
        rewrite M in M'. injection M' as <- <-. apply attr_in in HA as (a & Ha & <-).
        exists (a_value a). split; [now constructor|assumption].
      + right. assert (f_default f = Some (if opt then VSome (VText x) else VText x)) as HD.
        { inversion HB as [? HD|? ? M1 EV|? ? M1 EV|? ? M1 EV]; subst; try assumption; rewrite M in M1; try discriminate.
          injection M1 as -> ->. discriminate. }
        exists id, ident, root, nss, fs, f, (if opt then VSome (VText x) else VText x). split; [assumption|].
        split; [eapply nth_error_In; eauto|]. split; [assumption|]. now constructor.
    - split; [|intros; congruence]. intros n H. inversion H as [|? ? ? ? ? ? ? ? ? ? ? ? E' HF|]; subst; [|congruence].
      rewrite E in E'. injection E' as <- <- <- <-.
      destruct (field_at _ _ _ _ _ _ HF j f _ Hf Hv) as [[_ HF']|(? & ? & ? & ? & ? & ? & ? & M' & _)]; [|congruence].
      inversion HF' as [? ? ? M' HO|? ? ? M' HN HB|? ? s x' M' HA HP EV|? ? ? M' HA HB]; subst; try congruence.
      + rewrite M in M'. injection M' as <- <-. destruct (occurs_item _ _ _ _ _ _ HO I HI) as (c & Hc & HR).
        eapply origin_below; [eapply named_in; eauto|]. now apply IH.
      + right. pose proof (absent_items _ _ _ _ _ _ HB M I HI) as HD.
        exists id, ident, root, nss, fs, f, v. split; [assumption|].
        split; [eapply nth_error_In; eauto|]. split; [assumption|]. eapply fx_element; [exact M|eauto..].
    - split; [|intros; congruence]. intros n H. inversion H as [|? ? ? ? ? ? ? ? ? kids ? ? E' HF|]; subst; [|congruence].
      rewrite E in E'. injection E' as <- <- <- <-.
      destruct (field_at _ _ _ _ _ _ HF j f _ Hf Hv) as [[HN _]|(id2 & i2 & r2 & n2 & vs2 & sk2 & l2 & M' & E2 & HC & HL)].
      { unfold is_flatten in HN. now rewrite M in HN. }
      rewrite M in M'. injection M' as <-. destruct (IH _ _ _ _ _ _ _ eq_refl E2 HC) as [(c & Hc & HO)|D]; [|now right].
      eapply origin_below; [|exact HO]. apply HL in Hc. unfold unclaimed in Hc. now apply filter_In in Hc.
    - assert (CH : forall l0, choice (reads o env) vs l0 (VEnum i (Some p)) -> exists c, In c l0 /\ origin c t x).
      { intros l0 HC. inversion HC as [|? w' ? ? ? Hi' Hw' HN HO]; subst. rewrite Hi in Hi'. injection Hi' as <-.
        rewrite Hw in Hw'. injection Hw' as <- <-. destruct (occurs_item _ _ _ _ _ _ HO I HI) as (c & Hc & HR).
        exists c. split; [eapply named_in; eauto|]. now apply IH. }
      split.
      + intros n H. inversion H as [| |? ? ? ? ? ? ? ? ? ? kids ? ? E' HC]; subst. rewrite E in E'. injection E' as <- <- <- <- <-.
        destruct (CH _ HC) as (c & Hc & HO). eapply origin_below; eauto.
      + intros id2 i2 r2 n2 vs2 sk2 l2 [= <-] E2 HC. rewrite E in E2. injection E2 as <- <- <- <- <-. left. now apply CH.
  Qed.
End Reads.

Theorem read_origin o alg env dbg t d pe v t' x : names_ok env ->
  read_as o alg env dbg t (doc_events d) (FEndDocument pe) = Ok v -> holds env t v t' x ->
  (exists s, text_in (d_root d) s /\ parse_text o t' s = Ok x) \/ default_has env t' x.
Proof. intros N R H. apply read_as_iff in R; [|assumption]. now apply (proj1 (holds_comes o env _ _ _ _ H)). Qed.

(** ** Texts of XML characters stay so *)

Lemma xml_nil : xml_text "".
Proof. exists []. split; [reflexivity|constructor]. Qed.

Lemma xml_app a b : xml_text a -> xml_text b -> xml_text (a ++ b).
Proof.
  intros (ca & -> & Ha) (cb & -> & Hb). exists (ca ++ cb). split; [|now apply Forall_app].
  now rewrite Names.utf8_app, str_of_app.
Qed.

Lemma xml_concat l : Forall xml_text l -> xml_text (String.concat "" l).
Proof.
  induction 1 as [|s l Hs H IH]; [exact xml_nil|]. cbn. destruct l; [assumption|]. apply xml_app; assumption.
Qed.

Lemma xml_node n s : node_xml n -> text_in n s -> xml_text s.
Proof.
  intros H T. induction T as [name attrs ns p kids pe a HI|name attrs ns p kids pe|name attrs ns p kids pe c s HI _ IH]; inversion H as [? ? ? ? ? ? HA HK| | |]; subst.
  - rewrite Forall_forall in HA. auto.
  - unfold text_of. apply xml_concat. apply Forall_map. eapply Forall_impl; [|exact HK]. intros [] Hn; try exact xml_nil. now inversion Hn.
  - rewrite Forall_forall in HK. auto.
Qed.

Lemma pieces_in cs c : forall l, In l (pieces ws_char cs) -> In c l -> In c cs.
Proof.
  induction cs as [|b cs IH]; intros l; cbn; [intros [<-|[]] []|]. destruct (ws_char b).
  - intros [<-|H] Hc; [destruct Hc|right; eauto].
  - destruct (pieces ws_char cs) as [|w r] eqn:E; [destruct (pieces_ne _ _ E)|]. intros [<-|H] Hc.
    + destruct Hc as [->|Hc]; [now left|right]. apply (IH w); [now left|assumption].
    + right. apply (IH l); [now right|assumption].
Qed.

Lemma join_in l (c : N) : In c (join 32%N l) -> c = 32%N \/ exists w, In w l /\ In c w.
Proof.
  induction l as [|w l IH]; cbn; [easy|]. destruct l as [|w' l].
  - intros H. right. exists w. auto.
  - intros H. apply in_app_or in H as [H|[<-|H]]; [right; exists w; auto|now left|].
    destruct (IH H) as [->|(u & Hu & Hc)]; [now left|right]. exists u. auto.
Qed.

Lemma xml_normalize s w s' : xml_text s -> normalize s w = Ok s' -> xml_text s'.
Proof.
  intros (cs & -> & H) E. unfold normalize in E. rewrite bytes_str in E.
  rewrite normalize_utf8 in E.
  - cbn in E. injection E as <-. exists (norm_spec_chars w cs). split; [reflexivity|].
    rewrite Forall_forall in *. intros c Hc. destruct w; cbn in Hc.
    + auto.
    + unfold spec_replace in Hc. apply in_map_iff in Hc as (c' & <- & Hc'). destruct (ws_char c'); [unfold xml_char; lia|auto].
    + unfold spec_collapse in Hc. apply join_in in Hc as [->|(u & Hu & Hc)]; [unfold xml_char; lia|].
      unfold words in Hu. apply filter_In in Hu as [Hu _]. apply H. eapply pieces_in; eauto.
  - apply forallb_forall. intros c Hc. rewrite Forall_forall in H. apply xml_scalar. auto.
Qed.

Lemma gen_normalize_xml w s s' : xml_text s -> gen_normalize w s = Ok s' -> xml_text s'.
Proof.
  unfold gen_normalize. intros H. destruct (normalize s w) as [u|[]|] eqn:E; [|discriminate]. intros [= <-]. eapply xml_normalize; eauto.
Qed.

(** ** Text types *)

Lemma prints_keeps o t : prints_xml o t -> keeps_xml o t.
Proof. intros H s x s' _ _. apply H. Qed.

Lemma string_keeps o : keeps_xml o TString.
Proof. intros s x s' H [= <-] [= <-]. assumption. Qed.

Lemma bind_inv {E A B} (m : res E A) (f : A -> res E B) y : bind m f = Ok y -> exists x, m = Ok x /\ f x = Ok y.
Proof. destruct m; cbn; try discriminate. eauto. Qed.

Lemma restr_keeps o name ws vs : (forall t, In (RKnown t) vs -> xml_text t) -> keeps_xml o (TRestr name ws vs).
Proof.
  intros H s x s' Hs HP HT. cbn [parse_text] in HP. apply bind_inv in HP as (u & Hu & HP).
  apply (gen_normalize_xml _ _ _ Hs) in Hu. destruct x as [| | | |i|y| | |]; try discriminate; cbn in HT.
  - destruct (nth_error vs i) as [[t|]|] eqn:E; try discriminate. injection HT as <-. apply H. eapply nth_error_In; eauto.
  - destruct (existsb is_unknown vs); [|discriminate]. injection HT as <-. unfold parse_restr in HP.
    repeat match type of HP with match ?m with _ => _ end = _ => destruct m; try discriminate end.
    now injection HP as <-.
Qed.

Lemma union_keeps o name ws vs : Forall (keeps_xml o) vs -> keeps_xml o (TUnion name ws vs).
Proof.
  intros H s x s' Hs HP HT. cbn [parse_text] in HP. apply bind_inv in HP as (u & Hu & HP).
  apply (gen_normalize_xml _ _ _ Hs) in Hu. destruct x as [| | | | | |i v| |]; try discriminate. cbn in HT.
  assert (K : exists t, nth_error vs i = Some t /\ parse_text o t u = Ok v).
  { change (attempts o name u 0 [] vs = Ok (TVUnion i v)) in HP. apply attempts_ok in HP. rewrite PeanoNat.Nat.sub_0_r in HP.
    exact (proj1 (proj2 HP)). }
  destruct K as (t & Ht & Hp). rewrite Forall_forall in H. apply (H t (nth_error_In _ _ Ht) u v s' Hu Hp).
  clear - HT Ht. revert i HT Ht. induction vs as [|t0 vs IH]; intros [|i] HT Ht; try discriminate; cbn in *; [now injection Ht as <-|eauto].
Qed.

(** ** Written back *)

Theorem read_back o alg env dbg dbg' io t d pe v n r k : names_ok env -> names_wf env -> ncname (xn_local n) -> node_xml (d_root d) ->
  read_as o alg env dbg t (doc_events d) (FEndDocument pe) = Ok v ->
  (forall t' x, holds env t v t' x -> keeps_xml o t') ->
  (forall t' x s, default_has env t' x -> to_text o t' x = Some s -> xml_text s) ->
  serialize_with_name o env dbg' io t v n = inl (r, k) -> Forall event_wf (k_out k).
Proof.
  intros N W Hn X R HK HD. apply with_name_wf; [assumption|assumption|]. intros t' x s Hx Hs.
  destruct (read_origin _ _ _ _ _ _ _ _ _ _ N R Hx) as [(u & Hu & HP)|D]; [|eauto].
  eapply (HK t' x Hx u); eauto. eapply xml_node; eauto.
Qed.
