(** Written names mean the names that were asked for: whole documents. *)
From Verif Require Import Base Text Find FindProofs BMap Ser SerSpec SerProofs SerTree NsProofs NsSpec NsMain.
From Coq Require Import Lia.

(** ** Attributes are distinct *)

Lemma add_attr_NoDup n v l : NoDup (map fst (req_attrs l)) ->
  NoDup (map fst (req_attrs (snd (add_attr n v l)))).
Proof.
  intro H. unfold add_attr, attr_value.
  destruct (List.find (fun a => xn_eqb (fst a) n) (req_attrs l)) as [[a old]|] eqn:F; cbn; [assumption|].
  rewrite req_attrs_app, map_app. cbn. apply (NoDup_Add (a := n) (l := map fst (req_attrs l))).
  - rewrite <- (app_nil_r (map fst (req_attrs l))) at 1. apply Add_app.
  - split; [assumption|]. intro Hin. apply in_map_iff in Hin. destruct Hin as ([a w] & Ea & Hin). cbn in Ea. subst.
    apply (List.find_none _ _ F) in Hin. cbn in Hin. rewrite (proj2 (xn_eqb_eq' n n) eq_refl) in Hin. discriminate.
Qed.

Lemma distinct_text s : distinct_attrs (RText s).
Proof. intros n reqs kids H. inversion H. Qed.

Lemma distinct_elem n reqs kids : NoDup (map fst (req_attrs reqs)) -> Forall distinct_attrs kids ->
  distinct_attrs (RElem n reqs kids).
Proof.
  intros H1 H2 n' reqs' kids' S. inversion S; subst; [assumption|].
  rewrite Forall_forall in H2. eapply H2; eauto.
Qed.

Definition distinct_frame (f : frame) : Prop :=
  NoDup (map fst (req_attrs (fr_reqs f))) /\ Forall distinct_attrs (fr_kids f).

Lemma add_kid_distinct t root st : distinct_attrs t -> Forall distinct_attrs root -> Forall distinct_frame st ->
  Forall distinct_attrs (fst (add_kid t root st)) /\ Forall distinct_frame (snd (add_kid t root st)).
Proof.
  intros Ht Hr Hs. destruct st as [|f st]; cbn.
  - split; [|constructor]. apply Forall_app. auto.
  - split; [assumption|]. inversion Hs as [|? ? [A B] C]; subst. constructor; [|assumption].
    split; cbn; [assumption|]. apply Forall_app. auto.
Qed.

Lemma ask_a_distinct a : forall l l', NoDup (map fst (req_attrs l)) -> ask_a a l = Some l' ->
  NoDup (map fst (req_attrs l')).
Proof.
  induction a as [r | p u a IH | x v f IH | m]; cbn [ask_a]; intros l l' H A.
  - destruct r; [discriminate|]. now inversion A; subst.
  - eapply IH; [|exact A]. rewrite req_attrs_app. cbn. now rewrite app_nil_r.
  - pose proof (add_attr_NoDup x v l H) as H'. destruct (add_attr x v l) as [r l1]. cbn in H'. eapply IH; eauto.
  - discriminate.
Qed.

Lemma ask_distinct :
  (forall d (p : wprog d) root st l, Forall distinct_attrs root -> Forall distinct_frame st ->
     ask_w p root st = Some l -> Forall distinct_attrs l) /\
  (forall d (q : bprog d) n reqs root st l, NoDup (map fst (req_attrs reqs)) ->
     Forall distinct_attrs root -> Forall distinct_frame st ->
     ask_b q n reqs root st = Some l -> Forall distinct_attrs l).
Proof.
  apply prog_mut; cbn [ask_w ask_b]; try discriminate.
  - intros r root st l Hr Hs H. destruct r; [discriminate|]. now inversion H; subst.
  - intros d s f IH root st l Hr Hs H.
    pose proof (add_kid_distinct (RText s) root st (distinct_text s) Hr Hs) as [A B].
    destruct (add_kid (RText s) root st) as [root' st']. eauto.
  - intros d n b IH root st l Hr Hs H. eapply IH; [| | |exact H]; auto. constructor.
  - intros d f IH root st l Hr Hs H. destruct st as [|fr st]; [discriminate|].
    inversion Hs as [|? ? [C D] E]; subst.
    pose proof (add_kid_distinct (RElem (fr_name fr) (fr_reqs fr) (fr_kids fr)) root st
      (distinct_elem _ _ _ C D) Hr E) as [A B].
    destruct (add_kid (RElem (fr_name fr) (fr_reqs fr) (fr_kids fr)) root st) as [root' st']. eauto.
  - intros d p u q IH n reqs root st l H Hr Hs A. eapply IH; [| | |exact A]; auto.
    rewrite req_attrs_app. cbn. now rewrite app_nil_r.
  - intros d x v f IH n reqs root st l H Hr Hs A.
    pose proof (add_attr_NoDup x v reqs H) as H'. destruct (add_attr x v reqs) as [r l1]. cbn in H'.
    eapply IH; [| | |exact A]; auto.
  - intros d p IH pe _ n reqs root st l H Hr Hs A. eapply IH; [| |exact A]; auto.
    constructor; [|assumption]. split; cbn; [assumption|constructor].
Qed.

Lemma asked_distinct n v t : asked n v = Some t -> distinct_attrs t.
Proof.
  unfold asked. destruct (ask_a (s_attrs v) []) as [l|] eqn:E; [|discriminate].
  apply ask_a_distinct in E; [|constructor].
  destruct (ask_w (s_kids v) [] []) as [kids|] eqn:K; [|discriminate]. intros [= <-].
  apply distinct_elem; [assumption|]. eapply (proj1 ask_distinct); [| |exact K]; constructor.
Qed.

Lemma NoDup_distinct {X} (eqb : X -> X -> bool) l : (forall a b, eqb a b = true <-> a = b) ->
  NoDup l -> distinct eqb l = true.
Proof.
  intro He. induction 1 as [|x l Hn H IH]; cbn; [reflexivity|]. rewrite IH, andb_true_r.
  apply negb_true_iff. destruct (existsb (eqb x) l) eqn:E; [|reflexivity]. exfalso. apply Hn.
  apply existsb_exists in E. destruct E as (y & Hy & Exy). apply He in Exy. now subst.
Qed.

(** ** Documents *)

Lemma filter_all {X} (P : X -> bool) l : (forall x, In x l -> P x = true) -> filter P l = l.
Proof.
  induction l as [|x l IH]; intro H; cbn; [reflexivity|]. rewrite (H x (or_introl eq_refl)). f_equal.
  apply IH. intros; apply H. now right.
Qed.

Lemma NoDup_map_filter {X Y} (f : X -> Y) (P : X -> bool) l : NoDup (map f l) -> NoDup (map f (filter P l)).
Proof.
  induction l as [|x l IH]; cbn; intro H; [constructor|]. inversion H as [|? ? Hn H']; subst.
  destruct (P x); cbn; [|auto]. constructor; [|auto]. intro Hin. apply Hn.
  apply in_map_iff in Hin. destruct Hin as (y & <- & Hy). apply filter_In in Hy. apply in_map. apply Hy.
Qed.

Lemma default_apart t :
  (forall u, ~ asks_ns t "" u) \/ (forall n, asks_elem t n -> xn_ns n <> ""%string) -> default_ok t.
Proof.
  intros [H|H] n reqs kids u n' S I (r & ks & S').
  - destruct (H u). exists n, reqs, kids. auto.
  - apply H. exists r, ks. revert S. generalize (RElem n reqs kids) S'. clear. intros b S' S.
    induction S; [assumption|]. eapply sub_kid; eauto.
Qed.

Section Doc.
  Context (dbg : bool) (pol : policy) (f : string -> string) (T : rtree).
  Hypothesis Legal : legal_mappings T.
  Hypothesis Dflt : default_ok T.
  Hypothesis Coh : pol = SkipIfAnywhere -> coherent_by f T.
  Hypothesis Dist : distinct_attrs T.

  (** What holds of a single mapping [p], [u] in effect around [t]. *)
  Definition fine (t : rtree) (p u : string) : Prop :=
    okp p /\ oku u /\
    (p = ""%string -> asks_ns T "" u /\ forall n, asks_elem t n -> xn_ns n <> ""%string) /\
    (coherent_by f T -> f p = u).

  Record inv (t : rtree) (m : bmap string) (st : list (list (string * string))) : Prop := Inv {
    i_sorted : ksorted m;
    i_scoped : scoped m st;
    i_fine : forall p u, In (p, u) m -> fine t p u;
    i_stack : forall ds, In ds st -> forall p u, In (p, u) ds -> fine t p u }.

  Lemma subtree_trans a b c : subtree a b -> subtree b c -> subtree a c.
  Proof. intros H1 H2. induction H2; [assumption|]. eapply sub_kid; eauto. Qed.

  Lemma asks_elem_kid k n reqs kids n' : In k kids -> asks_elem k n' -> asks_elem (RElem n reqs kids) n'.
  Proof. intros H (r & ks & S). exists r, ks. eapply sub_kid; eauto. Qed.

  Lemma inv_kid k n reqs kids m st : In k kids -> inv (RElem n reqs kids) m st -> inv k m st.
  Proof.
    intros H [I1 I2 I3 I4].
    assert (F : forall p u, fine (RElem n reqs kids) p u -> fine k p u).
    { intros p u (F1 & F2 & F3 & F4). split; [assumption|]. split; [assumption|]. split; [|assumption].
      intros E. destruct (F3 E) as [A B]. split; [assumption|]. intros n' A'. apply B. eapply asks_elem_kid; eauto. }
    constructor; eauto.
  Qed.

  Lemma begin_inv m n reqs kids ev m' st : inv (RElem n reqs kids) (by_prefix m) st -> subtree (RElem n reqs kids) T ->
    begin_tag dbg (ns_child m (xn_ns n)) n reqs = inl (ev, m') ->
    exists pn attrs, ev = WStart pn attrs (by_prefix m') /\
      let ds := filter (fun d => negb (redundant pol st d)) (by_prefix m') in
      inv (RElem n reqs kids) (by_prefix m') (ds :: st) /\ filter written ds = ds /\ forallb legal_decl ds = true /\
      distinct String.eqb (map fst ds) = true /\
      element_name (ds :: st) pn = Some n /\ attribute_names (ds :: st) attrs = Some (req_attrs reqs).
  Proof.
    intros I Hs H.
    assert (Hw : forall b, apply_reqs dbg reqs (ns_child m (xn_ns n)) = inl b -> wf_builder b)
      by (intros b Hb; eapply wf_apply_reqs; [apply wf_child|exact Hb]).
    assert (H' := H). unfold begin_tag in H'.
    destruct (apply_reqs dbg reqs (ns_child m (xn_ns n))) as [b|] eqn:Eb; [|discriminate].
    pose proof (Hw b eq_refl) as Wb.
    destruct (finalize_ok b Wb) as (m0 & Ef & Fo). rewrite Ef in H'.
    destruct (resolve_element m0 n) as [pn|] eqn:Ee; [|discriminate].
    destruct (resolve_attributes m0 (req_attrs reqs)) as [attrs|] eqn:Ea; [|discriminate].
    inversion H'; subst ev m0. clear H'. exists pn, attrs. split; [reflexivity|]. cbv zeta.
    assert (AskNs : forall p u, In (ReqNs p u) reqs -> asks_ns T p u).
    { intros p u Hin. exists n, reqs, kids. auto. }
    assert (AskD : forall u, In (ReqNs "" u) reqs -> asks_ns T "" u /\
              forall n', asks_elem (RElem n reqs kids) n' -> xn_ns n' <> ""%string).
    { intros u Hin. split; [now apply AskNs|]. intros n' A. eapply Dflt; eauto. }
    (* entries of the builder *)
    assert (Q1 : entries (fun u e => okp (q_prefix e) /\ oku u /\
                  (q_prefix e = ""%string -> asks_ns T "" u /\
                     forall n', asks_elem (RElem n reqs kids) n' -> xn_ns n' <> ""%string)) b).
    { eapply apply_reqs_entries; [..|exact Eb]; cbn.
      - intros p u e _ Q. exact Q.
      - intros p u e Hin Q _. destruct (Legal p u (AskNs p u Hin)) as (L1 & L2).
        split; [now apply starts_okp|]. split; [exact L2|]. intros ->. now apply AskD.
      - intros p u Hin. destruct (Legal p u (AskNs p u Hin)) as (L1 & L2).
        split; [now apply starts_okp|]. split; [exact L2|]. intros ->. now apply AskD.
      - intros x v e _ Q. exact Q.
      - intros u e Hg. apply child_entries in Hg. destruct Hg as [Hg _].
        destruct (i_fine _ _ _ I _ _ Hg) as (F1 & F2 & F3 & _). auto. }
    assert (Q2 : coherent_by f T -> entries (fun u e => f (q_prefix e) = u /\
                   (q_prefix e = ""%string -> asks_ns T "" u) /\
                   (q_needs e = true -> q_prefix e = ""%string -> f "ns1"%string = u) /\
                   (q_needs e = true -> q_required e = true)) b).
    { intros (Cf & Ca).
      eapply apply_reqs_entries; [..|exact Eb]; cbn.
      - intros p u e _ (Q & D & R & S). auto.
      - intros p u e Hin (Q & D & R & S) Hr. split; [now apply Cf, AskNs|].
        split; [intros ->; now apply AskNs|]. split; [|auto].
        intros Hn. rewrite (S Hn) in Hr. discriminate.
      - intros p u Hin. split; [now apply Cf, AskNs|]. split; [intros ->; now apply AskNs|]. split; discriminate.
      - intros x v e Hin (Q & D & R & S). split; [assumption|]. split; [assumption|]. split; [|auto]. intros _ E.
        eapply Ca; [apply D, E| |reflexivity]. exists n, reqs, kids, v. auto.
      - intros u e Hg. apply child_entries in Hg. destruct Hg as [Hg Hd].
        destruct (i_fine _ _ _ I _ _ Hg) as (F1 & F2 & F3 & F4). split; [exact (F4 (conj Cf Ca))|].
        split; [now apply F3|]. split; congruence. }
    (* the mappings of the element *)
    assert (Hfine : forall p u, bm_get p (by_prefix m') = Some u -> fine (RElem n reqs kids) p u).
    { intros p u Hp. destruct (fo_prefix _ _ Fo p u Hp) as (e & G & e' & G' & A).
      destruct (fo_url _ _ Fo u e G) as (a & G2 & _ & B). rewrite G' in G2. inversion G2; subst e'. cbn in A.
      destruct (B p A) as (_ & R & _). destruct (Q1 u e G) as (F1 & F2 & F3).
      split; [eapply from_request_okp; eauto|]. split; [assumption|].
      split.
      { intros ->. destruct (String.eqb_spec (q_prefix e) "") as [Ep | Ep]; [now apply F3|].
        destruct (from_request_ne e "" Ep R eq_refl). }
      intro C. pose proof (Q2 C) as Q.
      eapply (finalize_kept f b m' (sorted_NoDup _ (proj1 Wb))); [|exact Ef|exact Hp].
      intros u0 e0 Hin. apply In_bm_get in Hin; [|apply sorted_NoDup, Wb].
      destruct (Q u0 e0 Hin) as (X & _ & Y & _). auto. }
    pose proof (sorted_NoDup _ (fo_sorted _ _ Fo)) as Nd.
    set (ds := filter (fun d => negb (redundant pol st d)) (by_prefix m')).
    assert (Hds : forall p u, In (p, u) ds -> fine (RElem n reqs kids) p u).
    { intros p u Hin. apply filter_In in Hin. destruct Hin as [Hin _]. apply Hfine. now apply In_bm_get. }
    assert (Sc : scoped (by_prefix m') (ds :: st)).
    { unfold ds. destruct pol eqn:Ep.
      - pose proof (Coh eq_refl) as C. apply (scoped_push_anywhere f); [assumption| |].
        + intros p u Hp. apply Hfine in Hp. now apply Hp.
        + intros d Hd p u Hp. apply (i_stack _ _ _ I _ Hd) in Hp. now apply Hp.
      - now apply scoped_push_in_scope.
      - now apply scoped_push_never. }
    assert (I' : inv (RElem n reqs kids) (by_prefix m') (ds :: st)).
    { constructor; [apply (fo_sorted _ _ Fo)|assumption| |].
      - intros p u Hin. apply Hfine. now apply In_bm_get.
      - intros d [<- | Hd]; [assumption|]. now apply (i_stack _ _ _ I). }
    split; [assumption|].
    split; [|split; [|split]].
    - apply filter_all. intros [p u] Hin. destruct (Hds p u Hin) as ([O1 O2] & (U1 & _) & _).
      unfold written. cbn. destruct (String.eqb_spec p "xml"); [contradiction|].
      destruct (String.eqb_spec p "xmlns"); [contradiction|].
      destruct (String.eqb_spec u ""); [contradiction|]. cbn. now rewrite andb_false_r.
    - apply forallb_forall. intros [p u] Hin. destruct (Hds p u Hin) as ([O1 O2] & (U1 & U2 & U3) & _).
      unfold legal_decl. cbn [fst snd]. destruct (String.eqb_spec p "xml"); [contradiction|].
      destruct (String.eqb_spec p "xmlns"); [contradiction|].
      destruct (String.eqb_spec u XML_URL); [contradiction|].
      destruct (String.eqb_spec u XMLNS_NS); [contradiction|].
      destruct (String.eqb_spec u ""); [contradiction|]. reflexivity.
    - apply NoDup_distinct; [apply String.eqb_eq|]. now apply NoDup_map_filter.
    - destruct (resolved_element dbg (ns_child m (xn_ns n)) n reqs pn attrs (by_prefix m') m' (ds :: st)) as (_ & R);
        try assumption.
      + rewrite Eb. intros b0 Hb. now inversion Hb; subst.
      + intros p u Hp. destruct (Hfine p u Hp) as (F1 & (F2 & _) & _). auto.
      + intros En _. destruct (in_scope (ds :: st) "") as [u|] eqn:Es; [|reflexivity]. exfalso.
        apply in_scope_In in Es. destruct Es as (d & Hd & Hin).
        apply (i_stack _ _ _ I' _ Hd) in Hin. destruct Hin as (_ & _ & F3 & _).
        apply (proj2 (F3 eq_refl) n); [|assumption]. exists reqs, kids. apply sub_self.
  Qed.

  Lemma doc_meaning t : forall m st evs rest, inv t (by_prefix m) st -> subtree t T ->
    layout dbg (ns_child m) t = inl evs ->
    meaning st (emit pol st (evs ++ rest)) =
    option_map (app (tree_events (tree_of t))) (meaning st (emit pol st rest)).
  Proof.
    induction t as [n reqs kids IH | s] using rtree_ind'; intros m st evs rest I Hs L.
    - rewrite layout_elem in L.
      destruct (begin_tag dbg (ns_child m (xn_ns n)) n reqs) as [[ev m']|] eqn:B; [|discriminate].
      destruct (layouts dbg m' kids) as [ks|] eqn:K; [|discriminate]. inversion L; subst evs. clear L.
      destruct (begin_inv m n reqs kids ev m' st I Hs B) as (pn & attrs & -> & R). cbv zeta in R.
      set (ds := filter (fun d => negb (redundant pol st d)) (by_prefix m')) in *.
      destruct R as (I' & W & Lg & Dp & En & An).
      cbn [app emit]. fold ds. rewrite W. cbn [meaning]. rewrite Lg, Dp, En, An. cbn [andb].
      rewrite (NoDup_distinct xn_eqb) by (try apply xn_eqb_eq'; eapply Dist; exact Hs).
      assert (KM : forall l ks rest, Forall (fun t => forall m st evs rest, inv t (by_prefix m) st -> subtree t T ->
          layout dbg (ns_child m) t = inl evs ->
          meaning st (emit pol st (evs ++ rest)) =
          option_map (app (tree_events (tree_of t))) (meaning st (emit pol st rest))) l ->
          (forall k, In k l -> In k kids) -> layouts dbg m' l = inl ks ->
          meaning (ds :: st) (emit pol (ds :: st) (ks ++ rest)) =
          option_map (app (flat_map tree_events (map tree_of l))) (meaning (ds :: st) (emit pol (ds :: st) rest))).
      { clear K IH ks rest. induction l as [|k l IHl]; intros ks rest F Hk K; cbn in K.
        - inversion K; subst. cbn. destruct (meaning (ds :: st) (emit pol (ds :: st) rest)); reflexivity.
        - destruct (layout dbg (ns_child m') k) as [e1|] eqn:L1; [|discriminate].
          destruct (layouts dbg m' l) as [e2|] eqn:L2; [|discriminate]. inversion K; subst.
          inversion F as [|? ? F1 F2]; subst.
          rewrite <- app_assoc.
          rewrite (F1 m' (ds :: st) e1 (e2 ++ rest) (inv_kid _ _ _ _ _ _ (Hk k (or_introl eq_refl)) I')); [|eapply subtree_trans; [|exact Hs]; eapply sub_kid; [apply Hk; now left|apply sub_self]|assumption].
          rewrite (IHl e2 rest F2 ltac:(intros; apply Hk; now right) eq_refl). cbn.
          destruct (meaning (ds :: st) (emit pol (ds :: st) rest)); cbn; [|reflexivity]. now rewrite app_assoc. }
      rewrite <- app_assoc. rewrite (KM kids ks _ IH ltac:(auto) K). cbn [app emit meaning tl].
      cbn [tree_of tree_events]. fold tree_of.
      destruct (meaning st (emit pol st rest)); cbn; [|reflexivity].
      now rewrite <- app_assoc.
    - cbn in L. inversion L; subst. cbn. reflexivity.
  Qed.

  Lemma root_meaning n reqs kids evs : T = RElem n reqs kids ->
    layout dbg (fun _ => []) T = inl evs ->
    meaning [] (emit pol [] evs) = Some (tree_events (tree_of T)).
  Proof.
    intros E L.
    assert (L' : layout dbg (ns_child (Namespaces [] [])) T = inl evs).
    { rewrite E in *. rewrite layout_elem in *. exact L. }
    pose proof (doc_meaning T (Namespaces [] []) [] evs []) as M. rewrite app_nil_r in M. rewrite M.
    - cbn. now rewrite app_nil_r.
    - constructor; cbn; try easy. constructor.
    - apply sub_self.
    - exact L'.
  Qed.
End Doc.

Theorem to_meaning dbg o n v k pol t :
  to dbg o n v = inl (None, k) -> asked n v = Some t ->
  legal_mappings t -> default_ok t -> (pol = SkipIfAnywhere -> coherent t) ->
  meaning [] (emit pol [] (k_out k)) = Some (tree_events (tree_of t)).
Proof.
  intros H A Hl Hd Hc. destruct (to_asked dbg o n v k H) as (t' & A' & L & _). rewrite A in A'.
  inversion A'; subst t'.
  assert (E : exists reqs kids, t = RElem n reqs kids).
  { unfold asked in A. destruct (ask_a (s_attrs v) []); [|discriminate].
    destruct (ask_w (s_kids v) [] []); [|discriminate]. inversion A. eauto. }
  destruct E as (reqs & kids & E).
  assert (Hf : exists f, pol = SkipIfAnywhere -> coherent_by f t).
  { destruct pol; [destruct (Hc eq_refl) as [f Hf]; exists f; auto| |]; exists (fun p => p); discriminate. }
  destruct Hf as [f Hf].
  eapply (root_meaning dbg pol f); eauto. eapply asked_distinct; eauto.
Qed.
