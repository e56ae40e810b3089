(** The events written, exactly. *)
From Verif Require Import Base Text TextSpec TextProofs TextCanon Find FindProofs BMap Ser SerSpec SerProofs SerTree
  NsProofs NsSpec NsMain NsMeaning NsChoice NsScope NsExactSpec NsExact.
From Coq Require Import Lia Sorted.

Lemma in_order_iff m : in_order m <-> ksorted m.
Proof.
  unfold in_order. induction m as [|[k v] m IH].
  - split; constructor.
  - split; intro H; inversion H as [|x y A B]; subst.
    + constructor; [|now apply IH]. intros k' Hin. apply in_map_iff in Hin. destruct Hin as (d & <- & Hin).
      rewrite Forall_forall in B. exact (B d Hin).
    + constructor; [now apply IH|]. apply Forall_forall. intros d Hin. cbn [fst].
      match goal with X : forall k', In k' _ -> _ |- _ => apply X end. now apply in_map.
Qed.

Lemma sorted_same (m : bmap string) : forall m', ksorted m -> ksorted m' -> (forall d, In d m <-> In d m') -> m = m'.
Proof.
  induction m as [|[k v] m IH]; intros m' S S' H.
  - destruct m' as [|d m']; [reflexivity|]. destruct (proj2 (H d) (or_introl eq_refl)).
  - destruct m' as [|[k' v'] m']; [destruct (proj1 (H (k, v)) (or_introl eq_refl))|].
    inversion S as [|? ? ? L S1]; inversion S' as [|? ? ? L' S1']; subst.
    assert (E : (k, v) = (k', v')).
    { destruct (proj1 (H (k, v)) (or_introl eq_refl)) as [E | Hin]; [congruence|].
      destruct (proj2 (H (k', v')) (or_introl eq_refl)) as [E | Hin']; [congruence|].
      exfalso. assert (A : String.compare k k' = Lt) by (apply L; apply in_map_iff; now exists (k', v')).
      assert (B : String.compare k' k = Lt) by (apply L'; apply in_map_iff; now exists (k, v)).
      rewrite String.compare_antisym, A in B. discriminate. }
    inversion E; subst k' v'. f_equal. apply IH; auto. intro d. specialize (H d). cbn in H.
    split; intro Hin.
    + destruct (proj1 H (or_intror Hin)) as [X | X]; [|assumption]. subst d. exfalso.
      assert (A : String.compare k k = Lt) by (apply L; apply in_map_iff; now exists (k, v)).
      now rewrite str_compare_refl in A.
    + destruct (proj2 H (or_intror Hin)) as [X | X]; [|assumption]. subst d. exfalso.
      assert (A : String.compare k k = Lt) by (apply L'; apply in_map_iff; now exists (k, v)).
      now rewrite str_compare_refl in A.
Qed.

Lemma apply_reqs_runs dbg l : forall b,
  (exists b', apply_reqs dbg l b = inl b') <-> (dbg = true -> forall q u, In (ReqNs q u) l -> starts_with "xml" q = false).
Proof.
  induction l as [|[p u|n v] l IH]; intro b; cbn [apply_reqs apply_req].
  - split; [intros _ _ q u []|eauto].
  - unfold nb_insert. destruct (dbg && starts_with "xml" p)%bool eqn:E.
    + apply andb_prop in E. destruct E as [Ed Ep]. split; [intros (b' & X); discriminate|].
      intro H. rewrite (H Ed p u (or_introl eq_refl)) in Ep. discriminate.
    + rewrite IH. split; intros H Hd q w.
      * intros [X | X]; [|eauto]. injection X as <- <-. rewrite Hd in E. exact E.
      * intro X. apply (H Hd q w). now right.
  - rewrite IH. split; intros H Hd q w.
    + intros [X | X]; [discriminate|eauto].
    + intro X. apply (H Hd q w). now right.
Qed.

Section Tag.
  Context (dbg : bool) (m : namespaces) (n : xname) (reqs : list req) (b : nsbuilder) (m' : namespaces).
  Context (Nd : NoDup (map snd (by_prefix m))).
  Context (Eb : apply_reqs dbg reqs (ns_child m (xn_ns n)) = inl b).
  Context (Ef : finalize b = Some m').

  Let Wb : wf_builder b := wf_apply_reqs dbg reqs _ b (wf_child m (xn_ns n)) Eb.

  Lemma tag_final : final_ok b m'.
  Proof. destruct (finalize_ok b Wb) as (m1 & E1 & Fo). rewrite Ef in E1. now inversion E1; subst. Qed.

  (** Entries of names that are used are required. *)
  Lemma entry_required u : u = xn_ns n \/ In u (map (fun a => xn_ns (fst a)) (req_attrs reqs)) ->
    match bm_get u (by_url m') with
    | Some e => q_required e = true /\ exists q, q_assigned e = Some q /\ In (q, u) (by_prefix m') /\
                forall q', In (q', u) (by_prefix m') -> q' = q
    | None => ~ In u (map snd (by_prefix m'))
    end.
  Proof.
    intro Hu. pose proof tag_final as Fo.
    pose proof (fo_sorted _ _ Fo) as Sm.
    destruct (bm_get u b) as [e|] eqn:Eu.
    - assert (R : q_required e = true).
      { pose proof (apply_reqs_exact dbg u reqs _ b Eb) as X. rewrite Eu, (child_get m (xn_ns n) u Nd) in X.
        destruct (parent_prefix (by_prefix m) u) as [p|]; cbn [option_map q_required q_prefix] in X.
        - destruct (String.eqb_spec u (xn_ns n)) as [->|Hne]; [now inversion X|].
          destruct Hu as [Hu | Hu]; [contradiction|].
          assert (F : exists q, first_request (Some p) u reqs = Some q).
          { clear - Hu. induction reqs as [|[q v|a v] l IH]; cbn in *; [destruct Hu| |].
            - destruct (String.eqb u v); eauto.
            - destruct (String.eqb_spec u (xn_ns a)); [eauto|]. destruct Hu; [congruence|auto]. }
          destruct F as (q & F). rewrite F in X. now inversion X.
        - destruct (first_request None u reqs); now inversion X. }
      destruct (fo_url _ _ Fo u e Eu) as (a & G & Ra & A). rewrite G. cbn [q_required q_assigned].
      split; [assumption|]. destruct a as [q|]; [|now destruct (Ra R)]. exists q. split; [reflexivity|].
      destruct (A q eq_refl) as (P & _). split; [now apply bm_get_In|].
      intros q' Hq. apply (sorted_In _ _ _ Sm) in Hq. destruct (fo_prefix _ _ Fo q' u Hq) as (_ & _ & e' & G' & A').
      rewrite G in G'. inversion G'; subst e'. cbn in A'. congruence.
    - rewrite (fo_only _ _ Fo u Eu). intro Hin. apply in_map_iff in Hin. destruct Hin as ([p v] & E & Hin). cbn in E. subst v.
      apply (sorted_In _ _ _ Sm) in Hin. destruct (fo_prefix _ _ Fo p u Hin) as (e & G & _). congruence.
  Qed.

  Lemma mapped_In q u : In (q, u) (by_prefix m') -> In u (map snd (by_prefix m')).
  Proof. intro H. apply in_map_iff. now exists (q, u). Qed.

  Lemma element_prefix_iff pn : resolve_element m' n = inl pn <->
    pn_local pn = xn_local n /\ element_prefix (by_prefix m') (xn_ns n) (pn_prefix pn).
  Proof.
    pose proof (entry_required (xn_ns n) (or_introl eq_refl)) as E. unfold resolve_element.
    pose proof (fo_sorted _ _ tag_final) as Sm.
    destruct (bm_get (xn_ns n) (by_url m')) as [[q0 a r nd]|] eqn:G.
    - cbn [q_required q_assigned] in E. destruct E as (-> & q & -> & Hin & U). split.
      + intros [= <-]. split; [reflexivity|]. unfold prefixed. cbn [pn_prefix].
        exact (ep_mapped _ _ q Hin).
      + intros [L P]. destruct pn as [pp pl]. cbn in L, P. subst pl. unfold prefixed. do 2 f_equal.
        inversion P as [q' Hq E | X Y | X Y Z]; subst.
        * now rewrite (U q' Hq).
        * exfalso. apply Y. eapply mapped_In; eauto.
        * exfalso. apply Y. eapply mapped_In; eauto.
    - destruct (String.eqb_spec (xn_ns n) XML_NS) as [Hx|Hx].
      + split.
        * intros [= <-]. split; [reflexivity|]. now apply ep_xml.
        * intros [L P]. destruct pn as [pp pl]. cbn in L, P. subst pl. inversion P as [q' Hq X | X Y | X Y Z]; subst.
          -- exfalso. apply E. eapply mapped_In; eauto.
          -- reflexivity.
          -- rewrite X in Hx. discriminate.
      + destruct (String.eqb_spec (xn_ns n) "") as [Hz|Hz].
        * destruct (bm_get "" (by_prefix m')) as [d|] eqn:Gd.
          -- split; [discriminate|]. intros [_ P]. exfalso. inversion P as [q' Hq X | X Y | X Y Z]; subst; [|contradiction|].
             ++ apply E. eapply mapped_In; eauto.
             ++ apply Z. apply bm_get_In in Gd. apply in_map_iff. now exists (""%string, d).
          -- split.
             ++ intros [= <-]. split; [reflexivity|]. apply ep_none; auto. now apply bm_get_None.
             ++ intros [L P]. destruct pn as [pp pl]. cbn in L, P. subst pl. inversion P as [q' Hq X | X Y | X Y Z]; subst.
                ** exfalso. apply E. eapply mapped_In; eauto.
                ** contradiction.
                ** reflexivity.
        * split; [discriminate|]. intros [_ P]. exfalso. inversion P as [q' Hq X | X Y | X Y Z]; subst; try contradiction.
          apply E. eapply mapped_In; eauto.
  Qed.

  Lemma attribute_prefix_iff a pn : In (xn_ns a) (map (fun x => xn_ns (fst x)) (req_attrs reqs)) ->
    resolve_attribute m' a = inl pn <->
    pn_local pn = xn_local a /\ attribute_prefix (by_prefix m') (xn_ns a) (pn_prefix pn).
  Proof.
    intro Ha. pose proof (entry_required (xn_ns a) (or_intror Ha)) as E. unfold resolve_attribute.
    destruct (String.eqb_spec (xn_ns a) "") as [Hz|Hz].
    - split.
      + intros [= <-]. split; [reflexivity|]. now constructor.
      + intros [L P]. destruct pn as [pp pl]. cbn in L, P. subst pl. inversion P; subst; try contradiction; [reflexivity|].
        match goal with X : xn_ns a = XML_NS |- _ => rewrite X in Hz; discriminate end.
    - destruct (bm_get (xn_ns a) (by_url m')) as [[q0 as_ r nd]|] eqn:G.
      + cbn [q_required q_assigned] in *. destruct E as (_ & q & -> & Hin & U).
        destruct (String.eqb_spec q "") as [->|Hq].
        * split; [discriminate|]. intros [_ P]. exfalso. inversion P as [X | q' X Y Z | X Y]; subst; [contradiction| |].
          -- apply Z. now apply U.
          -- apply Y. eapply mapped_In; eauto.
        * unfold prefixed. destruct (String.eqb_spec q ""); [contradiction|]. split.
          -- intros [= <-]. split; [reflexivity|]. now constructor.
          -- intros [L P]. destruct pn as [pp pl]. cbn in L, P. subst pl. inversion P as [X | q' X Y Z | X Y]; subst; [contradiction| |].
             ++ now rewrite (U q' Y).
             ++ exfalso. apply Y. eapply mapped_In; eauto.
      + destruct (String.eqb_spec (xn_ns a) XML_NS) as [Hx|Hx].
        * split.
          -- intros [= <-]. split; [reflexivity|]. now apply ap_xml.
          -- intros [L P]. destruct pn as [pp pl]. cbn in L, P. subst pl. inversion P as [X | q' X Y Z | X Y]; subst; [contradiction| |reflexivity].
             exfalso. apply E. eapply mapped_In; eauto.
        * split; [discriminate|]. intros [_ P]. exfalso. inversion P as [X | q' X Y Z | X Y]; subst; try contradiction.
          apply E. eapply mapped_In; eauto.
  Qed.

  Lemma attributes_prefix_iff l attrs : incl l (req_attrs reqs) ->
    resolve_attributes m' l = inl attrs <->
    Forall2 (fun a b => snd b = snd a /\ pn_local (fst b) = xn_local (fst a) /\
               attribute_prefix (by_prefix m') (xn_ns (fst a)) (pn_prefix (fst b))) l attrs.
  Proof.
    revert attrs. induction l as [|[a v] l IH]; intros attrs Hi; cbn [resolve_attributes].
    { split; [intros [= <-]; constructor|]. now inversion 1. }
    assert (Ha : In (xn_ns a) (map (fun x => xn_ns (fst x)) (req_attrs reqs))).
    { apply in_map_iff. exists (a, v). split; [reflexivity|]. apply Hi. now left. }
    pose proof (fun pn => attribute_prefix_iff a pn Ha) as A.
    assert (Hi' : incl l (req_attrs reqs)) by (intros x Hx; apply Hi; now right).
    split.
    - destruct (resolve_attribute m' a) as [p|] eqn:Er; [|discriminate].
      destruct (resolve_attributes m' l) as [l'|] eqn:El; [|discriminate]. intros [= <-].
      constructor; [|now apply IH]. cbn. destruct (proj1 (A p) eq_refl). auto.
    - intro F. inversion F as [|x [p w] y l' [Hv P] F']; subst. cbn in Hv, P. subst w.
      apply A in P. rewrite P. apply IH in F'; [|assumption]. now rewrite F'.
  Qed.
End Tag.

Lemma begin_written dbg m n reqs ev m' : NoDup (map snd (by_prefix m)) -> NoDup (map fst (by_prefix m)) ->
  begin_tag dbg (ns_child m (xn_ns n)) n reqs = inl (ev, m') ->
  exists p attrs, ev = WStart (PName p (xn_local n)) attrs (by_prefix m') /\
    (dbg = true -> forall q u, In (ReqNs q u) reqs -> starts_with "xml" q = false) /\
    in_order (by_prefix m') /\ exact_tag (n, reqs) (by_prefix m, by_prefix m') /\
    element_prefix (by_prefix m') (xn_ns n) p /\
    Forall2 (fun a b => snd b = snd a /\ pn_local (fst b) = xn_local (fst a) /\
               attribute_prefix (by_prefix m') (xn_ns (fst a)) (pn_prefix (fst b))) (req_attrs reqs) attrs.
Proof.
  intros Nd Nk H. unfold begin_tag in H.
  destruct (apply_reqs dbg reqs (ns_child m (xn_ns n))) as [b|] eqn:Eb; [|discriminate].
  destruct (finalize b) as [m0|] eqn:Ef; [|discriminate].
  destruct (resolve_element m0 n) as [[p l]|] eqn:Ee; [|discriminate].
  destruct (resolve_attributes m0 (req_attrs reqs)) as [attrs|] eqn:Ea; [|discriminate].
  inversion H; subst m0 ev. clear H.
  pose proof (finalized_exact dbg m n reqs b m' Nd Nk Eb Ef) as Ex.
  apply (element_prefix_iff dbg m n reqs b m' Nd Eb Ef) in Ee. destruct Ee as [L P]. cbn in L, P. subst l.
  apply (attributes_prefix_iff dbg m n reqs b m' Nd Eb Ef) in Ea; [|apply incl_refl].
  exists p, attrs. split; [reflexivity|]. split; [eapply apply_reqs_runs; eauto|].
  split; [apply in_order_iff; apply (fo_sorted b); eapply tag_final; eauto|]. auto.
Qed.

Lemma begin_can dbg m n reqs own p attrs : NoDup (map snd (by_prefix m)) -> NoDup (map fst (by_prefix m)) ->
  (dbg = true -> forall q u, In (ReqNs q u) reqs -> starts_with "xml" q = false) ->
  in_order own -> exact_tag (n, reqs) (by_prefix m, own) -> element_prefix own (xn_ns n) p ->
  Forall2 (fun a b => snd b = snd a /\ pn_local (fst b) = xn_local (fst a) /\
             attribute_prefix own (xn_ns (fst a)) (pn_prefix (fst b))) (req_attrs reqs) attrs ->
  exists m', begin_tag dbg (ns_child m (xn_ns n)) n reqs = inl (WStart (PName p (xn_local n)) attrs own, m') /\
    by_prefix m' = own.
Proof.
  intros Nd Nk Hd Ho Hx He Ha.
  destruct (proj2 (apply_reqs_runs dbg reqs (ns_child m (xn_ns n))) Hd) as (b & Eb).
  destruct (finalize_ok b (wf_apply_reqs dbg reqs _ b (wf_child m (xn_ns n)) Eb)) as (m' & Ef & Fo).
  pose proof (finalized_exact dbg m n reqs b m' Nd Nk Eb Ef) as Ex.
  assert (E : by_prefix m' = own).
  { apply sorted_same; [apply (fo_sorted _ _ Fo)|now apply in_order_iff|]. eapply exact_determined; eauto. }
  subst own. exists m'. split; [|reflexivity]. unfold begin_tag. rewrite Eb, Ef.
  rewrite (proj2 (element_prefix_iff dbg m n reqs b m' Nd Eb Ef (PName p (xn_local n))) (conj eq_refl He)).
  rewrite (proj2 (attributes_prefix_iff dbg m n reqs b m' Nd Eb Ef (req_attrs reqs) attrs (incl_refl _)) Ha).
  reflexivity.
Qed.

Lemma layout_written dbg t : forall m evs, NoDup (map snd (by_prefix m)) -> NoDup (map fst (by_prefix m)) ->
  layout dbg (ns_child m) t = inl evs <-> written_as dbg (by_prefix m) t evs.
Proof.
  induction t as [n reqs kids IH | s] using rtree_ind'; intros m evs W W'.
  - rewrite layout_elem.
    assert (KM : forall m', NoDup (map snd (by_prefix m')) -> NoDup (map fst (by_prefix m')) -> forall ks,
       layouts dbg m' kids = inl ks <-> exists l, Forall2 (written_as dbg (by_prefix m')) kids l /\ ks = concat l).
    { intros m' V V'. induction IH as [|t l Ht Hl IHl]; intro ks; cbn [layouts].
      - split; [intros [= <-]; exists []; split; [constructor|reflexivity]|].
        intros (l & F & ->). inversion F; subst. reflexivity.
      - split.
        + destruct (layout dbg (ns_child m') t) as [e1|] eqn:L1; [|discriminate].
          destruct (layouts dbg m' l) as [e2|] eqn:L2; [|discriminate]. intros [= <-].
          destruct (proj1 (IHl e2) eq_refl) as (l2 & F & ->). exists (e1 :: l2). split; [|reflexivity].
          constructor; [|assumption]. now apply Ht.
        + intros (l2 & F & ->). inversion F as [|x e1 y l3 F1 F2]; subst. apply Ht in F1; auto. rewrite F1.
          rewrite (proj2 (IHl (concat l3)) (ex_intro _ l3 (conj F2 eq_refl))). reflexivity. }
    split.
    + destruct (begin_tag dbg (ns_child m (xn_ns n)) n reqs) as [[ev m']|] eqn:B; [|discriminate].
      destruct (layouts dbg m' kids) as [ks|] eqn:K; [|discriminate]. intros [= <-].
      destruct (begin_tag_ok dbg _ n reqs ev m' (wf_child _ _) B) as (pn & ats & _ & Ok).
      destruct Ok as (Nk & Nv & _).
      destruct (begin_written dbg m n reqs ev m' W W' B) as (p & attrs & -> & A & C & D & E & F).
      apply (KM m' Nv Nk) in K. destruct K as (l & Fl & ->).
      econstructor; eauto.
    + intro H. inversion H as [|? ? ? own p attrs l A C D E F G]; subst.
      destruct (begin_can dbg m n reqs own p attrs W W' A C D E F) as (m' & B & <-). rewrite B.
      destruct (begin_tag_ok dbg _ n reqs _ m' (wf_child _ _) B) as (pn & ats & _ & Ok).
      destruct Ok as (Nk & Nv & _).
      rewrite (proj2 (KM m' Nv Nk (concat l)) (ex_intro _ l (conj G eq_refl))). reflexivity.
  - cbn. split; [intros [= <-]; constructor|]. now inversion 1.
Qed.

Lemma to_written dbg o n v t evs : asked n v = Some t -> (forall i, o i = None) ->
  (exists k, to dbg o n v = inl (None, k) /\ k_out k = evs) <-> written_as dbg [] t evs.
Proof.
  intros A Io.
  assert (L : layout dbg (fun _ => []) t = inl evs <-> written_as dbg [] t evs).
  { rewrite <- (layout_written dbg t (Namespaces [] []) evs ltac:(constructor) ltac:(constructor)).
    destruct t; [rewrite !layout_elem; reflexivity|reflexivity]. }
  rewrite <- L. split.
  - intros (k & H & <-). destruct (to_asked dbg o n v k H) as (t' & A' & L' & _). rewrite A in A'. now inversion A'; subst t'.
  - intro L'. destruct (laid_to _ _ _ _ _ _ A Io L') as (k & H & E). eauto.
Qed.

(** Also when writes may fail. *)
Lemma to_written_any dbg o n v k t : to dbg o n v = inl (None, k) -> asked n v = Some t ->
  written_as dbg [] t (k_out k).
Proof.
  intros H A. destruct (to_asked dbg o n v k H) as (t' & A' & L' & _). rewrite A in A'. inversion A'; subst t'.
  apply (layout_written dbg t (Namespaces [] []) (k_out k) ltac:(constructor) ltac:(constructor)).
  destruct t; [rewrite layout_elem in *; exact L'|exact L'].
Qed.

Lemma to_panics_iff dbg o n v t : asked n v = Some t -> (forall i, o i = None) ->
  (exists msg, to dbg o n v = inr (Panic msg)) <-> ~ exists evs, written_as dbg [] t evs.
Proof.
  intros A Io. split.
  - intros (msg & H) (evs & W). apply (to_written dbg o n v t evs A Io) in W. destruct W as (k & X & _). congruence.
  - intro N. destruct (returns_or_panics dbg o n v) as [(r & k & H) | P]; [|exact P]. exfalso. apply N.
    pose proof (asked_to _ _ _ _ _ _ _ A Io H). subst r.
    exists (k_out k). apply (to_written dbg o n v t _ A Io). eauto.
Qed.

Lemma written_determined dbg t parent evs evs' : 
  NoDup (map snd parent) -> NoDup (map fst parent) ->
  written_as dbg parent t evs -> written_as dbg parent t evs' -> evs = evs'.
Proof.
  intros Nd Nk H H'. change parent with (by_prefix (Namespaces [] parent)) in *.
  apply layout_written in H, H'; auto. congruence.
Qed.

(** ** Derived types *)
From Verif Require Import Normalize Types DeriveSer DSerSpec DSerProofs DSerProps MixedSer.

Lemma derived_written o env dbg w t v n rs ks evs : (forall i, w i = None) -> content o env t v rs ks ->
  (exists k, serialize_with_name o env dbg w t v n = inl (None, k) /\ k_out k = evs) <->
  distinct_attrs (RElem n rs ks) /\ written_as dbg [] (RElem n rs ks) evs.
Proof.
  intros Io C. unfold serialize_with_name. pose proof (asked_value o env t v rs ks n C) as A. split.
  - intros (k & H & E). destruct (to_asked dbg w n _ k H) as (t' & A' & _). rewrite A in A'.
    destruct (tree_ok (RElem n rs ks)); [|discriminate]. inversion A'; subst t'.
    split; [eapply asked_distinct; eauto|]. apply (to_written dbg w n _ _ evs A Io). eauto.
  - intros [D W]. rewrite (distinct_tree_ok _ D) in A. now apply (to_written dbg w n _ _ evs A Io).
Qed.
