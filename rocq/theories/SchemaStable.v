(** Reading and writing again makes any readable document valid. *)
From Verif Require Import Base Normalize Text Find FindProofs Types Ser SerSpec DSerSpec DSerProofs DSerProps DeDet
  DeriveSer Reader ReaderSpec ReaderProofs DeriveDe DeSpec DeProofs DeProps RTSpec RTProofs RTProps RTStableSpec RTStable
  SchemaSpec SchemaProofs.

Section Filled.
  Context (o : oracles) (env : tenv).
  Notation reads := (reads o env).
  Hypothesis HD : filled_defaults env.

  Definition full (n : node) : Prop := forall t v, reads t n v -> filled v = true.

  Lemma occurs_full t k l v : Forall full l -> occurs (reads t) k l v -> filled v = true.
  Proof.
    intros HF O. destruct O as [c v R|c v R|cs vs Hne F].
    - inversion HF; subst. eauto.
    - inversion HF; subst. cbn. eauto.
    - cbn. clear Hne. induction F as [|c x cs xs R F IH]; [reflexivity|]. inversion HF; subst. cbn. rewrite (H1 _ _ R). auto.
  Qed.

  Lemma occurs_some t k l v : Forall full l -> occurs (reads t) k l v -> holds_some v = true.
  Proof.
    intros HF O. destruct O as [c v R|c v R|cs vs Hne F]; [|reflexivity|].
    - destruct R as [| |? ? ? ? ? ? ? ? ? ? ? ? v' En C]; try reflexivity. now destruct C.
    - destruct F; [congruence|reflexivity].
  Qed.

  Lemma choice_full ws l v : Forall full l -> choice reads ws l v -> filled v = true.
  Proof.
    intros HF C. destruct C as [|i w k t x Hn Ht Hf O]; [reflexivity|].
    assert (HF' : Forall full (named (expanded (v_name w)) l)) by now apply Forall_filter.
    cbn. now rewrite (occurs_some _ _ _ _ HF' O), (occurs_full _ _ _ _ HF' O).
  Qed.

  Lemma absent_full f v : (forall d, f_default f = Some d -> filled d = true) -> absent f v -> filled v = true.
  Proof. intros H A. destruct A; auto. Qed.

  Lemma field_full attrs kids f v : Forall full kids -> (forall d, f_default f = Some d -> filled d = true) ->
    field_holds o reads attrs kids f v -> filled v = true.
  Proof.
    intros HF Hd H. destruct H as [k t v M O|k t v M N A|opt t s x M A P|opt t v M N A].
    - eapply occurs_full; [|exact O]. now apply Forall_filter.
    - eapply absent_full; eauto.
    - now destruct opt.
    - eapply absent_full; eauto.
  Qed.

  Lemma fields_full attrs kids l fs vs : Forall full kids -> Forall full l ->
    (forall f d, In f fs -> f_default f = Some d -> filled d = true) ->
    fields_hold o env reads attrs kids l fs vs -> forallb filled vs = true.
  Proof.
    intros HK HL Hd H. revert HL Hd.
    induction H as [l|l f fs v vs Hf Hh _ IH|l f fs id ident root nss ws sk v vs M En C _ IH]; intros HL Hd; [reflexivity| |]; cbn.
    - rewrite (field_full attrs kids f v); auto; [|intros; eapply Hd; eauto; now left].
      apply IH; auto. intros g d Hg. apply Hd. now right.
    - rewrite (choice_full ws l v); auto. apply IH; [now apply before_first_forall|]. intros g d Hg. apply Hd. now right.
  Qed.

  Theorem read_full : forall n, full n.
  Proof.
    induction n as [name attrs ns p kids pe IH| | |] using node_ind'; intros t v R; try now inversion R.
    inversion R as [t' ? ? ? ? ? ? x He P|id ident root nss fs ? ? ? ? ? ? vs En F|id ident root nss ws sk ? ? ? ? ? ? v' En C]; subst.
    - reflexivity.
    - cbn. eapply (fields_full attrs kids (unclaimed fs kids)); [exact IH|now apply Forall_filter| |exact F].
      intros f d Hf. eapply HD; eauto.
    - eapply choice_full; eauto.
  Qed.
End Filled.

(** A tree is determined by its events. *)
Lemma events_tree t : forall t' r r', NsSpec.tree_events t ++ r = NsSpec.tree_events t' ++ r' -> t = t' /\ r = r'.
Proof.
  induction t as [s|n attrs kids IH] using wtree_ind'; intros [n' attrs' kids'|s'] r r' H; try discriminate.
  - cbn in H. injection H as -> ->. auto.
  - cbn [NsSpec.tree_events app] in H. injection H as -> -> H. rewrite <- !app_assoc in H. cbn [app] in H.
    assert (K : kids = kids' /\ r = r').
    { revert kids' H. induction IH as [|c kids Hc _ IHk]; intros [|c' kids'] H; cbn [flat_map app] in H.
      - now injection H.
      - destruct c'; discriminate.
      - destruct c; discriminate.
      - rewrite <- !app_assoc in H. apply Hc in H. destruct H as [-> H]. apply IHk in H. destruct H as [-> ->]. auto. }
    destruct K as [-> ->]. auto.
Qed.

Theorem read_written_valid o env alg dbg id d pe v dbg1 pol : compiles env -> names_ok env -> settled_env o env ->
  filled_defaults env -> flattened_last env -> names_declared env -> legal_env env -> no_default env ->
  (pol = NsSpec.SkipIfAnywhere -> coherent_env env) -> unblank (d_root d) ->
  read_as o alg env dbg (ERef id) (doc_events d) (FEndDocument pe) = Ok v ->
  exists k n attrs kids, serialize_root o env dbg1 (fun _ => None) id v = inl (None, k) /\ root_name env id = Some n /\
    NsSpec.meaning [] (NsSpec.emit pol [] (k_out k)) = Some (NsSpec.tree_events (TElem n attrs kids)) /\
    valid env (fun t s => exists x, to_text o t x = Some s) (fun t s => exists x, to_text o t x = Some s)
      (ERef id) attrs kids /\
    forall t' d', indented (TElem n attrs kids) t' -> shows t' (d_root d') -> forall dbg' pe',
      read_as o alg env dbg' (ERef id) (doc_events d') (FEndDocument pe') = Ok v.
Proof.
  intros Hc Hok HS HD Hl Hn HL Hd Hpol U R.
  destruct (load_save_load o env alg dbg id d pe v dbg1 pol Hc Hok HS Hn HL Hd Hpol U R) as (k & t & Sk & M & Sh & Rt).
  apply read_as_iff in R; [|exact Hok].
  destruct (written_valid o env dbg1 _ id v k pol Hc Hok Hl (read_full o env HD _ _ _ R) HL Hd Hpol Sk)
    as (n & attrs & kids & Hr & M' & V).
  exists k, n, attrs, kids. repeat split; auto.
  assert (E : t = TElem n attrs kids).
  { rewrite M in M'. injection M' as M'. apply (events_tree t (TElem n attrs kids) [] []). cbn [NsSpec.tree_events] in *. now rewrite M'. }
  now rewrite E in Rt.
Qed.
