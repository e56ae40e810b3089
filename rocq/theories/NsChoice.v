(** Which prefixes are chosen, and that choosing them ends. *)
From Verif Require Import Base Text Find FindProofs BMap Ser SerSpec SerProofs SerTree NsProofs NsSpec NsMain NsMeaning.
From Coq Require Import Lia.

(** ** The search always ends *)

Lemma start_no_diverge o b k : wf_builder (b_ns b) -> builder_start o b k <> inr Diverge.
Proof.
  intro W. unfold builder_start. destruct (finalize_ok _ W) as (m & -> & _).
  destruct (resolve_element m (b_name b)) as [p|x] eqn:E.
  - destruct (resolve_attributes m (b_attrs b)) as [l|x] eqn:E'.
    + destruct (write o (WStart p l (by_prefix m)) k) as [[e|] k']; discriminate.
    + intros [= ->]. revert E'. generalize (b_attrs b). induction l as [|[n v] l IH]; cbn [resolve_attributes]; [discriminate|].
      destruct (resolve_attribute m n) as [q|y] eqn:E2.
      * destruct (resolve_attributes m l); [discriminate|]. intros [= ->]. auto.
      * intros [= ->]. unfold resolve_attribute, undeclared in E2.
        repeat match type of E2 with
               | (if ?c then _ else _) = _ => destruct c; try discriminate
               | (match ?c with _ => _ end) = _ => destruct c; try discriminate
               end.
  - intros [= ->]. unfold resolve_element, undeclared, default_set in E.
    repeat match type of E with
           | (if ?c then _ else _) = _ => destruct c; try discriminate
           | (match ?c with _ => _ end) = _ => destruct c; try discriminate
           end.
Qed.

Lemma builder_namespace_wf dbg p u b : wf_builder (b_ns b) ->
  match builder_namespace dbg p u b with inl b' => wf_builder (b_ns b') | inr x => x <> Diverge end.
Proof.
  intro W. unfold builder_namespace. destruct (nb_insert dbg p u (b_ns b)) as [n|x] eqn:E; cbn.
  - eapply wf_nb_insert; eauto.
  - unfold nb_insert in E. destruct (dbg && starts_with "xml" p)%bool; [|discriminate]. now inversion E.
Qed.

Lemma builder_attribute_wf n v b : wf_builder (b_ns b) ->
  match builder_attribute n v b with inl (_, b') => wf_builder (b_ns b') | inr x => x <> Diverge end.
Proof.
  intro W. unfold builder_attribute. destruct (existsb (xn_eqb n) (b_seen b)).
  - destruct (List.find (fun a => xn_eqb (fst a) n) (b_attrs b)) as [[? ?]|]; [assumption|discriminate].
  - cbn. now apply wf_nb_attribute.
Qed.

Lemma run_a_wf dbg a : forall b, wf_builder (b_ns b) ->
  match run_a dbg a b with inl (_, b') => wf_builder (b_ns b') | inr x => x <> Diverge end.
Proof.
  induction a as [r | p u a IH | x v f IH | m]; cbn [run_a]; intros b W.
  - assumption.
  - pose proof (builder_namespace_wf dbg p u b W) as H. destruct (builder_namespace dbg p u b) as [b'|y]; [exact (IH b' H)|exact H].
  - pose proof (builder_attribute_wf x v b W) as H. destruct (builder_attribute x v b) as [[r b']|y]; [exact (IH r b' H)|exact H].
  - discriminate.
Qed.

Lemma run_no_diverge dbg o :
  (forall d (p : wprog d) nss k, run_w dbg o p nss k <> inr Diverge) /\
  (forall d (q : bprog d) b nss k, wf_builder (b_ns b) -> run_b dbg o q b nss k <> inr Diverge).
Proof.
  apply prog_mut; cbn [run_w run_b]; try discriminate.
  - intros d s f IH nss k. destruct (write o (WChars s) k). apply IH.
  - intros d n b IH nss k. destruct nss as [|m nss]; [discriminate|]. apply IH. apply wf_child.
  - intros d f IH nss k. destruct (write o WEnd k). apply IH.
  - intros d p IH nss k. apply IH.
  - intros d p u q IH b nss k W. pose proof (builder_namespace_wf dbg p u b W) as H.
    destruct (builder_namespace dbg p u b); [auto|congruence].
  - intros d n v f IH b nss k W. pose proof (builder_attribute_wf n v b W) as H.
    destruct (builder_attribute n v b) as [[? ?]|]; [auto|congruence].
  - intros d p IH b nss k W. apply IH.
  - intros d p IH pe IHe b nss k W. pose proof (start_no_diverge o b k W) as H.
    destruct (builder_start o b k) as [[[m|e] k']|x]; [apply IH|apply IHe|congruence].
Qed.

Lemma to_terminates dbg o n v : to dbg o n v <> inr Diverge.
Proof.
  unfold to. pose proof (run_a_wf dbg (s_attrs v) (BState n [] [] []) wf_nil) as H.
  destruct (run_a dbg (s_attrs v) (BState n [] [] [])) as [[[e|] b]|x]; [discriminate| |congruence].
  pose proof (start_no_diverge o b sink0 H) as H'.
  destruct (builder_start o b sink0) as [[[m|e] k]|x]; [|discriminate|congruence].
  pose proof (proj1 (run_no_diverge dbg o) 0 (s_kids v) [m] k) as H2.
  destruct (run_w dbg o (s_kids v) [m] k) as [[[e|] k']|x]; congruence.
Qed.

(** ** What each start tag carries *)

Lemma sorted_In {V} (m : bmap V) p u : ksorted m -> In (p, u) m <-> bm_get p m = Some u.
Proof. intro H. split; [apply In_bm_get; now apply sorted_NoDup | apply bm_get_In]. Qed.

Lemma final_values b m : final_ok b m -> NoDup (map snd (by_prefix m)).
Proof.
  intro Fo. pose proof (fo_sorted _ _ Fo) as Hs.
  assert (Inj : forall p q u, In (p, u) (by_prefix m) -> In (q, u) (by_prefix m) -> p = q).
  { intros p q u H1 H2. apply (sorted_In _ _ _ Hs) in H1, H2.
    destruct (fo_prefix _ _ Fo p u H1) as (_ & _ & e1 & G1 & A1).
    destruct (fo_prefix _ _ Fo q u H2) as (_ & _ & e2 & G2 & A2). congruence. }
  apply sorted_NoDup in Hs. revert Hs Inj. generalize (by_prefix m) as l.
  induction l as [|[p u] l IH]; cbn; intros Hn Inj; [constructor|].
  inversion Hn as [|? ? Hni Hn']; subst. constructor.
  - intro Hin. apply in_map_iff in Hin. destruct Hin as ([q v] & E & Hin). cbn in E. subst v.
    assert (p = q) by (eapply Inj; eauto). subst. apply Hni. apply in_map_iff. now exists (q, u).
  - apply IH; [assumption|]. intros; eapply Inj; eauto.
Qed.

Lemma apply_reqs_requested dbg l : forall b b' p u, apply_reqs dbg l b = inl b' ->
  (In (ReqNs p u) l \/ exists e, bm_get u b = Some e /\ q_required e = true) ->
  exists e, bm_get u b' = Some e /\ q_required e = true.
Proof.
  induction l as [|[q v|n v] l IH]; intros b b' p u H R; cbn in H.
  - inversion H; subst. destruct R as [[] | R]. exact R.
  - destruct (nb_insert dbg q v b) as [b1|] eqn:E; [|discriminate].
    apply (IH _ _ p u H).
    unfold nb_insert in E. destruct (dbg && starts_with "xml" q)%bool; [discriminate|].
    inversion E; subst b1. clear E.
    destruct R as [[E | R] | (e & R1 & R2)].
    + inversion E; subst. right. destruct (bm_get u b); eexists; (rewrite bm_get_insert, String.eqb_refl; split; reflexivity).
    + now left.
    + right. destruct (bm_get v b) as [ev|] eqn:Ev; rewrite bm_get_insert; destruct (String.eqb_spec u v); subst; eauto.
  - apply (IH _ _ p u H). destruct R as [[E | R] | (e & R1 & R2)]; [discriminate|now left|].
    right. unfold nb_attribute. destruct (bm_get (xn_ns n) b) as [en|] eqn:En; [|eauto].
    rewrite bm_get_insert. destruct (String.eqb_spec u (xn_ns n)); subst; eauto.
Qed.

Lemma begin_tag_ok dbg base n reqs ev m : wf_builder base -> begin_tag dbg base n reqs = inl (ev, m) ->
  exists pn attrs, ev = WStart pn attrs (by_prefix m) /\ tag_ok (n, reqs) (pn, attrs, by_prefix m).
Proof.
  intros W H. unfold begin_tag in H.
  destruct (apply_reqs dbg reqs base) as [b|] eqn:Eb; [|discriminate].
  pose proof (wf_apply_reqs dbg reqs base b W Eb) as Wb.
  destruct (finalize_ok b Wb) as (m0 & Ef & Fo). rewrite Ef in H.
  destruct (resolve_element m0 n) as [pn|] eqn:Ee; [|discriminate].
  destruct (resolve_attributes m0 (req_attrs reqs)) as [attrs|] eqn:Ea; [|discriminate].
  inversion H; subst ev m0. exists pn, attrs. split; [reflexivity|]. unfold tag_ok.
  pose proof (fo_sorted _ _ Fo) as Hs.
  assert (As : forall u e q, bm_get u (by_url m) = Some e -> q_assigned e = Some q -> In (q, u) (by_prefix m)).
  { intros u e q H1 H2. apply bm_get_In. destruct (bm_get u b) as [e0|] eqn:E0.
    - destruct (fo_url _ _ Fo u e0 E0) as (a & A & _ & C). rewrite H1 in A. inversion A; subst. cbn in H2.
      now apply C in H2.
    - rewrite (fo_only _ _ Fo u E0) in H1. discriminate. }
  assert (Xm : forall u, bm_get u (by_url m) = None -> ~ In u (map snd (by_prefix m))).
  { intros u Hu Hin. apply in_map_iff in Hin. destruct Hin as ([p v] & E & Hin). cbn in E. subst v.
    apply (sorted_In _ _ _ Hs) in Hin. destruct (fo_prefix _ _ Fo p u Hin) as (_ & _ & e & G & _). congruence. }
  split; [apply (sorted_NoDup _ Hs)|]. split; [now apply (final_values b)|]. split; [|split].
  - intros p u Hin. destruct (apply_reqs_requested dbg reqs base b p u Eb (or_introl Hin)) as (e & G & R).
    destruct (fo_url _ _ Fo u e G) as ([a|] & A & B & _); [|exfalso; now apply B].
    apply in_map_iff. exists (a, u). split; [reflexivity|]. eapply As; eauto.
  - destruct n as [ns local]. cbn [xn_ns]. unfold resolve_element in Ee. cbn [xn_ns xn_local] in Ee.
    assert (Dflt : String.eqb ns "" = true -> match bm_get "" (by_prefix m) with
         | Some _ => inr default_set | None => inl (prefixed "" local) end = inl pn ->
         pn_prefix pn = None /\ ns = ""%string /\ ~ In ""%string (map fst (by_prefix m))).
    { intros Hns Hx. apply String.eqb_eq in Hns. destruct (bm_get "" (by_prefix m)) eqn:Eg; [discriminate|].
      inversion Hx; subst. repeat split. now apply bm_get_None. }
    destruct (bm_get ns (by_url m)) as [[q [a|] [|] nd]|] eqn:Eu.
    + inversion Ee; subst. pose proof (As _ _ _ Eu eq_refl) as G.
      unfold prefixed. cbn [pn_prefix]. destruct (String.eqb_spec a ""); [subst; right; auto|left; cbn; auto].
    + right. destruct (String.eqb ns "") eqn:Hns; [|discriminate]. destruct (Dflt eq_refl Ee) as (A & B & C). auto.
    + right. destruct (String.eqb ns "") eqn:Hns; [|discriminate]. destruct (Dflt eq_refl Ee) as (A & B & C). auto.
    + right. destruct (String.eqb ns "") eqn:Hns; [|discriminate]. destruct (Dflt eq_refl Ee) as (A & B & C). auto.
    + destruct (String.eqb_spec ns XML_NS).
      * inversion Ee; subst. left. cbn. right. repeat split. now apply Xm.
      * right. destruct (String.eqb ns "") eqn:Hns; [|discriminate]. destruct (Dflt eq_refl Ee) as (A & B & C). auto.
  - revert attrs Ea H. clear Ee. generalize (req_attrs reqs) as ats.
    induction ats as [|[[ns local] v] ats IH]; intros attrs Ea H; cbn [resolve_attributes] in Ea.
    { inversion Ea; subst. constructor. }
    destruct (resolve_attribute m (XName ns local)) as [p|] eqn:Er; [|discriminate].
    destruct (resolve_attributes m ats) as [l'|] eqn:El; [|discriminate]. inversion Ea; subst.
    constructor; [|apply IH; reflexivity]. split; [reflexivity|]. cbn [fst xn_ns].
    unfold resolve_attribute in Er. cbn [xn_ns xn_local] in Er.
    destruct (String.eqb_spec ns ""); [inversion Er; subst; reflexivity|].
    destruct (bm_get ns (by_url m)) as [e|] eqn:Eu.
    + destruct (q_assigned e) as [q|] eqn:Eq; [|discriminate].
      destruct (String.eqb_spec q ""); [discriminate|]. inversion Er; subst.
      unfold prefixed. destruct (String.eqb_spec q ""); [contradiction|]. cbn. left. split; [eapply As; eauto|assumption].
    + destruct (String.eqb_spec ns XML_NS); [|discriminate]. inversion Er; subst. cbn. right. repeat split. now apply Xm.
Qed.

Lemma tags_app a b : tags (a ++ b) = tags a ++ tags b.
Proof. induction a as [|[n x m|s|] a IH]; cbn; congruence. Qed.

Lemma layout_tags dbg t : forall base evs, (forall u, wf_builder (base u)) -> layout dbg base t = inl evs ->
  Forall2 tag_ok (elements t) (tags evs).
Proof.
  induction t as [n reqs kids IH | s] using rtree_ind'; intros base evs W L.
  - rewrite layout_elem in L.
    destruct (begin_tag dbg (base (xn_ns n)) n reqs) as [[ev m]|] eqn:B; [|discriminate].
    destruct (layouts dbg m kids) as [ks|] eqn:K; [|discriminate]. inversion L; subst evs. clear L.
    destruct (begin_tag_ok dbg _ n reqs ev m (W _) B) as (pn & attrs & -> & Ok).
    cbn [elements tags]. constructor; [exact Ok|]. rewrite tags_app. cbn [tags]. rewrite app_nil_r.
    clear B Ok. revert ks K. induction IH as [|t l Ht Hl IHl]; intros ks K; cbn in K.
    + inversion K; subst. constructor.
    + destruct (layout dbg (ns_child m) t) as [e1|] eqn:L1; [|discriminate].
      destruct (layouts dbg m l) as [e2|] eqn:L2; [|discriminate]. inversion K; subst.
      rewrite tags_app. cbn [flat_map]. apply Forall2_app; [|auto].
      eapply Ht; [intro; apply wf_child|exact L1].
  - cbn in L. inversion L; subst. constructor.
Qed.

(** ** Which prefix *)

(** If no two required namespaces request the same prefix, and none requests the empty one although
    an attribute needs it, all get the prefix they request. *)
Lemma required_all_kept l : forall m l' m',
  (forall u e, In (u, e) l -> q_required e = true ->
     bm_mem (q_prefix e) m = false /\ (q_needs e = true -> q_prefix e <> ""%string)) ->
  (forall u1 e1 u2 e2, In (u1, e1) l -> In (u2, e2) l -> q_required e1 = true -> q_required e2 = true ->
     q_prefix e1 = q_prefix e2 -> u1 = u2) ->
  NoDup (keys l) -> assign_required l m = Some (l', m') ->
  forall u e, In (u, e) l -> q_required e = true ->
  In (u, NsEntry (q_prefix e) (Some (q_prefix e)) true (q_needs e)) l'.
Proof.
  induction l as [|[v e0] l IH]; intros m l' m' H1 H2 Hn H u e Hin Hr; [destruct Hin|].
  inversion Hn as [|? ? Hni Hn']; subst.
  assert (H2' : forall u1 e1 u2 e2, In (u1, e1) l -> In (u2, e2) l -> q_required e1 = true -> q_required e2 = true ->
     q_prefix e1 = q_prefix e2 -> u1 = u2) by (intros; eapply H2; [right|right| | |]; eauto).
  cbn [assign_required] in H. destruct (q_required e0) eqn:Er.
  - destruct (H1 v e0 (or_introl eq_refl) Er) as [Hf Hne].
    assert (Hc : (q_needs e0 && String.eqb (q_prefix e0) "")%bool = false).
    { destruct (q_needs e0); cbn; [|reflexivity]. apply String.eqb_neq. auto. }
    rewrite Hc in H. unfold ns_put in H. rewrite Hf in H.
    destruct (assign_required l (bm_insert (q_prefix e0) v m)) as [[l1 m1]|] eqn:E; [|discriminate].
    inversion H; subst. destruct Hin as [Eq | Hin].
    + inversion Eq; subst. left. reflexivity.
    + right. eapply IH; [| |exact Hn'|exact E|exact Hin|exact Hr]; [|assumption].
      intros u1 e1 Hin1 Hr1. destruct (H1 u1 e1 (or_intror Hin1) Hr1) as [A B]. split; [|assumption].
      rewrite bm_mem_insert, A, orb_false_r. apply String.eqb_neq. intro Eq.
      assert (u1 = v) by (eapply H2; [right; exact Hin1|left; reflexivity| | |]; assumption). subst.
      apply Hni. apply in_map_iff. now exists (v, e1).
  - destruct (assign_required l m) as [[l1 m1]|] eqn:E; [|discriminate]. inversion H; subst.
    destruct Hin as [Eq | Hin]; [inversion Eq; subst; congruence|].
    right. eapply IH; [| |exact Hn'|exact E|exact Hin|exact Hr]; [|assumption].
    intros; apply (H1 u0 e1); [now right|assumption].
Qed.

Lemma finalize_required_kept b m : wf_builder b -> finalize b = Some m ->
  (forall u e, bm_get u b = Some e -> q_needs e = true -> q_prefix e <> ""%string) ->
  (forall u1 e1 u2 e2, bm_get u1 b = Some e1 -> bm_get u2 b = Some e2 ->
     q_required e1 = true -> q_required e2 = true -> q_prefix e1 = q_prefix e2 -> u1 = u2) ->
  forall u e, bm_get u b = Some e -> q_required e = true -> bm_get (q_prefix e) (by_prefix m) = Some u.
Proof.
  intros [Hs Hw] H H1 H2 u e Hu Hr. assert (H' := H). unfold finalize in H.
  destruct (assign_required b []) as [[b1 m1]|] eqn:E1; [|discriminate].
  destruct (assign_optional b1 m1) as [b2 m2] eqn:E2. inversion H; subst m. cbn [by_prefix].
  pose proof (sorted_NoDup _ Hs) as Nd.
  pose proof (required_all_kept b [] b1 m1) as K.
  assert (In1 : In (u, NsEntry (q_prefix e) (Some (q_prefix e)) true (q_needs e)) b1).
  { eapply K; [| |exact Nd|exact E1|now apply bm_get_In|exact Hr].
    - intros u0 e0 Hin _. split; [reflexivity|]. apply (H1 u0). now apply In_bm_get.
    - intros u1 e1 u3 e3 I1 I2. apply H2; now apply In_bm_get. }
  destruct (finalize_ok b (conj Hs Hw)) as (m & Ef & Fo). rewrite H' in Ef. inversion Ef; subst m.
  destruct (fo_url _ _ Fo u e Hu) as (a & G & Ra & A). cbn [by_url by_prefix] in *.
  (* the second loop leaves required entries alone *)
  assert (In2 : In (u, NsEntry (q_prefix e) (Some (q_prefix e)) true (q_needs e)) b2).
  { clear - E2 In1. revert m1 b2 m2 E2. induction b1 as [|[v x] b1 IH]; intros m1 b2 m2 E2; [destruct In1|].
    cbn [assign_optional] in E2. destruct In1 as [Eq | Hin].
    - inversion Eq; subst. cbn in E2. destruct (assign_optional b1 m1) as [l'' m'']. inversion E2; subst. now left.
    - destruct (if q_required x then (x, m1) else _) as [e' m'].
      destruct (assign_optional b1 m') as [l'' m''] eqn:E. inversion E2; subst. right. eauto. }
  assert (N2 : NoDup (keys b2)).
  { assert (K1 : keys b1 = keys b).
    { apply assign_required_prefixes in E1. eapply Forall2_keys; [|exact E1]. intros x y [P _]. exact P. }
    assert (K2 : keys b2 = keys b1).
    { clear - E2. revert m1 b2 m2 E2. induction b1 as [|[v x] b1 IH]; intros m1 b2 m2 E2; cbn [assign_optional] in E2.
      - now inversion E2.
      - destruct (if q_required x then (x, m1) else _) as [e' m'].
        destruct (assign_optional b1 m') as [l'' m''] eqn:E. inversion E2; subst. cbn. f_equal. eauto. }
    now rewrite K2, K1. }
  apply (In_bm_get _ _ _ N2) in In2. rewrite In2 in G. inversion G; subst.
  now apply (A (q_prefix e)).
Qed.

Lemma apply_reqs_requested_prefix dbg u l : forall b b', apply_reqs dbg l b = inl b' ->
  match bm_get u b with
  | Some e =>
      if q_required e then
        exists e', bm_get u b' = Some e' /\ q_required e' = true /\ q_prefix e' = q_prefix e /\
          (q_needs e' = true -> q_needs e = true \/ uses u l = true)
      else match first_request (Some (q_prefix e)) u l with
           | Some p => exists e', bm_get u b' = Some e' /\ q_required e' = true /\ q_prefix e' = p /\
               (q_needs e' = true -> q_needs e = true \/ uses u l = true)
           | None => bm_get u b' = Some e
           end
  | None =>
      match first_request None u l with
      | Some p => exists e', bm_get u b' = Some e' /\ q_required e' = true /\ q_prefix e' = p /\
          (q_needs e' = true -> uses u l = true)
      | None => bm_get u b' = None
      end
  end.
Proof.
  induction l as [|[p v|n v] l IH]; intros b b' H; cbn in H.
  - inversion H; subst. destruct (bm_get u b') as [e|]; cbn; [|reflexivity].
    destruct (q_required e) eqn:E; [|reflexivity]. exists e. repeat split; auto.
  - destruct (nb_insert dbg p v b) as [b1|] eqn:E; [|discriminate]. specialize (IH _ _ H).
    unfold nb_insert in E. destruct (dbg && starts_with "xml" p)%bool; [discriminate|].
    inversion E; subst b1. clear E H.
    destruct (String.eqb_spec u v) as [->|Hne].
    + destruct (bm_get v b) as [e|] eqn:Ev; rewrite bm_get_insert, String.eqb_refl in IH; cbn in IH.
      * destruct (q_required e) eqn:Er.
        -- destruct IH as (e' & A & B & C & D). exists e'. auto.
        -- cbn. rewrite String.eqb_refl. destruct IH as (e' & A & B & C & D). exists e'. auto.
      * cbn. rewrite String.eqb_refl. destruct IH as (e' & A & B & C & D). exists e'. repeat split; auto.
        intro Hn. destruct (D Hn) as [X | X]; [discriminate|exact X].
    + assert (Hs : bm_get u (match bm_get v b with
         | Some e => bm_insert v (NsEntry (if q_required e then q_prefix e else p) (q_assigned e) true (q_needs e)) b
         | None => bm_insert v (NsEntry p None true false) b end) = bm_get u b).
      { destruct (bm_get v b); rewrite bm_get_insert; destruct (String.eqb_spec u v); congruence. }
      rewrite Hs in IH. cbn [first_request]. unfold uses in *. cbn [req_attrs].
      destruct (String.eqb_spec u v); [contradiction|]. exact IH.
  - specialize (IH _ _ H). unfold nb_attribute in IH. unfold uses in *. cbn [req_attrs existsb fst].
    cbn [first_request].
    destruct (String.eqb_spec u (xn_ns n)) as [->|Hne].
    + destruct (bm_get (xn_ns n) b) as [e|] eqn:Ev.
      * rewrite bm_get_insert, String.eqb_refl in IH. cbn in IH. destruct IH as (e' & A & B & C & D).
        destruct (q_required e); exists e'; repeat split; auto.
      * rewrite Ev in IH. destruct (first_request None (xn_ns n) l); [|exact IH].
        destruct IH as (e' & A & B & C & D). exists e'. repeat split; auto.
    + cbn [orb]. replace (bm_get u b) with (bm_get u (nb_attribute (xn_ns n) b)); [exact IH|].
      unfold nb_attribute. destruct (bm_get (xn_ns n) b); [|reflexivity].
      rewrite bm_get_insert. destruct (String.eqb_spec u (xn_ns n)); congruence.
Qed.

Lemma child_loop_get ns u l : forall found b,
  NoDup (map snd l) -> (found = true -> ~ In ns (map snd l)) ->
  bm_get u (child_loop ns l found b) =
  match List.find (fun d => String.eqb u (snd d)) l with
  | Some d => Some (NsEntry (fst d) None (String.eqb u ns) false)
  | None => bm_get u b
  end.
Proof.
  induction l as [|[p v] l IH]; intros found b Hn Hf; cbn; [reflexivity|].
  inversion Hn as [|? ? Hni Hn']; subst.
  rewrite IH; [|assumption|].
  - destruct (String.eqb_spec u v) as [->|Hne].
    + destruct (List.find (fun d => String.eqb v (snd d)) l) as [[q w]|] eqn:F.
      * exfalso. apply List.find_some in F. destruct F as [Hin E]. cbn in E. apply String.eqb_eq in E. subst.
        apply Hni. apply in_map_iff. now exists (q, w).
      * rewrite bm_get_insert, String.eqb_refl. cbn.
        destruct found; cbn; [|reflexivity]. destruct (String.eqb_spec v ns); [|reflexivity].
        subst. exfalso. apply Hf; [reflexivity|]. now left.
    + destruct (List.find (fun d => String.eqb u (snd d)) l); [reflexivity|].
      rewrite bm_get_insert. destruct (String.eqb_spec u v); [contradiction|reflexivity].
  - intros Hor Hin. destruct found; cbn in Hor.
    + apply Hf; [reflexivity|]. now right.
    + apply String.eqb_eq in Hor. subst. contradiction.
Qed.

Lemma child_get m ns u : NoDup (map snd (by_prefix m)) ->
  bm_get u (ns_child m ns) =
  option_map (fun p => NsEntry p None (String.eqb u ns) false) (parent_prefix (by_prefix m) u).
Proof.
  intro H. unfold ns_child, parent_prefix. rewrite child_loop_get; [|assumption|discriminate].
  destruct (List.find (fun d => String.eqb u (snd d)) (by_prefix m)); reflexivity.
Qed.

Lemma begin_choice dbg m n reqs ev m' : NoDup (map snd (by_prefix m)) ->
  begin_tag dbg (ns_child m (xn_ns n)) n reqs = inl (ev, m') ->
  choice_ok (n, reqs) (by_prefix m, by_prefix m').
Proof.
  intros Nd H. unfold choice_ok. cbn [fst snd]. intros H1 H2.
  unfold begin_tag in H.
  destruct (apply_reqs dbg reqs (ns_child m (xn_ns n))) as [b|] eqn:Eb; [|discriminate].
  pose proof (wf_apply_reqs dbg reqs _ b (wf_child m (xn_ns n)) Eb) as Wb.
  destruct (finalize b) as [m0|] eqn:Ef; [|discriminate].
  destruct (resolve_element m0 n) as [pn|]; [|discriminate].
  destruct (resolve_attributes m0 (req_attrs reqs)); [|discriminate]. inversion H; subst m0. clear H.
  set (want u := requested (parent_prefix (by_prefix m) u) (String.eqb u (xn_ns n)) u reqs) in *.
  assert (W : forall u, match want u with
     | Some p => exists e', bm_get u b = Some e' /\ q_required e' = true /\ q_prefix e' = p /\
         (q_needs e' = true -> uses u reqs = true)
     | None => forall e, bm_get u b = Some e -> q_required e = false
     end).
  { intro u. pose proof (apply_reqs_requested_prefix dbg u reqs _ b Eb) as R.
    rewrite (child_get m (xn_ns n) u Nd) in R. unfold want, requested.
    destruct (parent_prefix (by_prefix m) u) as [p|] eqn:Ep; cbn [option_map] in R; cbn in R.
    - destruct (String.eqb u (xn_ns n)).
      + destruct R as (e & A & B & C & D). exists e. repeat split; auto. intro X. destruct (D X); [discriminate|assumption].
      + destruct (first_request (Some p) u reqs) as [q|].
        * destruct R as (e & A & B & C & D). exists e. repeat split; auto. intro X. destruct (D X); [discriminate|assumption].
        * intros e He. rewrite R in He. inversion He; subst. reflexivity.
    - destruct (first_request None u reqs) as [q|]; [assumption|]. intros e He. congruence. }
  assert (Wr : forall u e, bm_get u b = Some e -> q_required e = true -> want u = Some (q_prefix e)).
  { intros u e Hu Hr. specialize (W u). destruct (want u) as [p|].
    - destruct W as (e' & A & B & C & _). congruence.
    - rewrite (W e Hu) in Hr. discriminate. }
  intros u p Hw. pose proof (W u) as Wu. change (want u = Some p) in Hw. rewrite Hw in Wu. destruct Wu as (e & A & B & C & _). subst p.
  apply bm_get_In. eapply finalize_required_kept; eauto.
  - intros v e1 Hv Hne Hz. pose proof (proj2 (proj2 Wb v e1 Hv) Hne) as Hr. pose proof (Wr _ _ Hv Hr) as Hwv.
    rewrite Hz in Hwv. pose proof (H2 v Hwv). pose proof (W v) as Wv. rewrite Hwv in Wv.
    destruct Wv as (e2 & A2 & _ & _ & D2). rewrite Hv in A2. inversion A2; subst. rewrite (D2 Hne) in H. discriminate.
  - intros u1 e1 u2 e2 G1 G2 R1 R2 Eq. eapply H1; [eapply Wr; eauto|]. rewrite Eq. eapply Wr; eauto.
Qed.

Lemma layout_tags_in dbg t : forall m st evs rest, NoDup (map snd (by_prefix m)) ->
  layout dbg (ns_child m) t = inl evs ->
  exists l, tags_in (by_prefix m :: st) (evs ++ rest) = l ++ tags_in (by_prefix m :: st) rest /\
    Forall2 choice_ok (elements t) l.
Proof.
  induction t as [n reqs kids IH | s] using rtree_ind'; intros m st evs rest W L.
  - rewrite layout_elem in L.
    destruct (begin_tag dbg (ns_child m (xn_ns n)) n reqs) as [[ev m']|] eqn:B; [|discriminate].
    destruct (layouts dbg m' kids) as [ks|] eqn:K; [|discriminate]. inversion L; subst evs. clear L.
    pose proof (begin_choice dbg m n reqs ev m' W B) as Ch.
    destruct (begin_tag_ok dbg _ n reqs ev m' (wf_child _ _) B) as (pn & attrs & -> & Ok).
    destruct Ok as (_ & Nv & _).
    assert (KM : forall rest, exists l, tags_in (by_prefix m' :: by_prefix m :: st) (ks ++ rest) =
       l ++ tags_in (by_prefix m' :: by_prefix m :: st) rest /\ Forall2 choice_ok (flat_map elements kids) l).
    { clear rest B Ch. revert ks K. induction IH as [|t l Ht Hl IHl]; intros ks K rest; cbn in K.
      - inversion K; subst. exists []. split; [reflexivity|constructor].
      - destruct (layout dbg (ns_child m') t) as [e1|] eqn:L1; [|discriminate].
        destruct (layouts dbg m' l) as [e2|] eqn:L2; [|discriminate]. inversion K; subst.
        rewrite <- app_assoc.
        destruct (Ht m' (by_prefix m :: st) e1 (e2 ++ rest) Nv L1) as (l1 & -> & F1).
        destruct (IHl e2 eq_refl rest) as (l2 & -> & F2).
        exists (l1 ++ l2). split; [now rewrite app_assoc|]. cbn. now apply Forall2_app. }
    destruct (KM (WEnd :: rest)) as (l & El & Fl).
    exists ((by_prefix m, by_prefix m') :: l). split; [|constructor; assumption].
    cbn [app tags_in hd]. rewrite <- app_assoc. cbn [app]. rewrite El. reflexivity.
  - cbn in L. inversion L; subst. exists []. split; [reflexivity|constructor].
Qed.

Lemma to_choice dbg o n v k t : to dbg o n v = inl (None, k) -> asked n v = Some t ->
  Forall2 tag_ok (elements t) (tags (k_out k)) /\ Forall2 choice_ok (elements t) (tags_in [[]] (k_out k)).
Proof.
  intros H A. destruct (to_asked dbg o n v k H) as (t' & A' & L & _). rewrite A in A'. inversion A'; subst t'.
  split; [eapply layout_tags; [|exact L]; intro; apply wf_nil|].
  unfold asked in A. destruct (ask_a (s_attrs v) []) as [reqs|]; [|discriminate].
  destruct (ask_w (s_kids v) [] []) as [kids|]; [|discriminate]. inversion A; subst t.
  assert (L' : layout dbg (ns_child (Namespaces [] [])) (RElem n reqs kids) = inl (k_out k)).
  { rewrite layout_elem in *. exact L. }
  destruct (layout_tags_in dbg _ (Namespaces [] []) [] _ [] ltac:(constructor) L') as (l & E & F).
  rewrite (app_nil_r (k_out k)) in E.
  assert (E' : tags_in [[]] (k_out k) = l) by (etransitivity; [exact E|]; cbn; apply app_nil_r).
  exact (eq_ind_r (Forall2 choice_ok _) F E').
Qed.

(** ** Attributes *)

Definition attrs_inv (b : bstate) : Prop :=
  NoDup (map fst (b_attrs b)) /\ forall x, In x (b_seen b) <-> In x (map fst (b_attrs b)).

Lemma existsb_In x l : existsb (xn_eqb x) l = true <-> In x l.
Proof.
  rewrite existsb_exists. split.
  - intros (y & Hy & E). apply xn_eqb_eq' in E. now subst.
  - intro H. exists x. split; [assumption|now apply xn_eqb_eq'].
Qed.

Lemma find_unique (l : list (xname * string)) a v : NoDup (map fst l) -> In (a, v) l ->
  List.find (fun x => xn_eqb (fst x) a) l = Some (a, v).
Proof.
  induction l as [|[b w] l IH]; intros Hn Hin; [destruct Hin|]. cbn.
  inversion Hn as [|? ? Hni Hn']; subst. destruct Hin as [E | Hin].
  - inversion E; subst. now rewrite (proj2 (xn_eqb_eq' a a) eq_refl).
  - destruct (xn_eqb b a) eqn:E; [|auto]. apply xn_eqb_eq' in E. subst. exfalso. apply Hni.
    apply in_map_iff. now exists (a, v).
Qed.

Lemma attribute_again b a v old : attrs_inv b -> In (a, old) (b_attrs b) ->
  builder_attribute a v b = inl (Some (SDuplicate a old v), b).
Proof.
  intros [Hn Hs] Hin. unfold builder_attribute.
  assert (E : existsb (xn_eqb a) (b_seen b) = true).
  { apply existsb_In. apply Hs. apply in_map_iff. now exists (a, old). }
  now rewrite E, (find_unique _ a old Hn Hin).
Qed.

Lemma attribute_new b a v : attrs_inv b -> ~ In a (map fst (b_attrs b)) ->
  exists b', builder_attribute a v b = inl (None, b') /\ b_attrs b' = b_attrs b ++ [(a, v)] /\ attrs_inv b'.
Proof.
  intros [Hn Hs] Hin. unfold builder_attribute.
  destruct (existsb (xn_eqb a) (b_seen b)) eqn:E.
  - exfalso. apply Hin, Hs. now apply existsb_In.
  - eexists. split; [reflexivity|]. cbn. split; [reflexivity|]. split; cbn.
    + rewrite map_app. cbn. apply (NoDup_Add (a := a) (l := map fst (b_attrs b))); [|auto].
      rewrite <- (app_nil_r (map fst (b_attrs b))) at 1. apply Add_app.
    + intro x. rewrite map_app, in_app_iff. cbn. rewrite Hs. tauto.
Qed.

Lemma reached_inv dbg b0 b : attrs_inv b0 -> reached dbg b0 b -> attrs_inv b.
Proof.
  intros H0 R. induction R as [|b p u b' R IH E|b n v r b' R IH E]; [assumption| |].
  - unfold builder_namespace in E. destruct (nb_insert dbg p u (b_ns b)); [|discriminate]. inversion E; subst. exact IH.
  - destruct (existsb (xn_eqb n) (map fst (b_attrs b))) eqn:Ex.
    + apply existsb_In in Ex. rename Ex into Hin. apply in_map_iff in Hin. destruct Hin as ([a old] & Ea & Hin). cbn in Ea. subst.
      rewrite (attribute_again b n v old IH Hin) in E. inversion E; subst. exact IH.
    + assert (Hni : ~ In n (map fst (b_attrs b))) by (rewrite <- existsb_In; congruence).
      destruct (attribute_new b n v IH Hni) as (b1 & E1 & _ & I1). rewrite E1 in E. inversion E; subst. exact I1.
Qed.

Lemma fresh_inv m n : attrs_inv (writer_element m n).
Proof. split; cbn; [constructor|tauto]. Qed.

Lemma builder_attributes dbg m n b : reached dbg (writer_element m n) b ->
  (forall a v old, In (a, old) (b_attrs b) ->
     builder_attribute a v b = inl (Some (SDuplicate a old v), b)) /\
  (forall a v, ~ In a (map fst (b_attrs b)) ->
     exists b', builder_attribute a v b = inl (None, b') /\ b_attrs b' = b_attrs b ++ [(a, v)]).
Proof.
  intro R. apply reached_inv in R; [|apply fresh_inv]. split.
  - intros. now apply attribute_again.
  - intros a v H. destruct (attribute_new b a v R H) as (b' & A & B & _). eauto.
Qed.

(** ** Deciding what a tree asks for *)

Lemma elements_spec t n reqs : In (n, reqs) (elements t) <-> exists kids, subtree (RElem n reqs kids) t.
Proof.
  induction t as [n0 reqs0 kids0 IH | s] using rtree_ind'; cbn [elements].
  - split.
    + intros [E | H].
      * inversion E; subst. exists kids0. apply sub_self.
      * apply in_flat_map in H. destruct H as (k & Hk & H). rewrite Forall_forall in IH.
        apply IH in H; [|assumption]. destruct H as (kids & S). exists kids. eapply sub_kid; eauto.
    + intros (kids & S). inversion S as [|? ? ? ? k Hk S']; subst; [now left|]. right.
      apply in_flat_map. exists k. split; [assumption|]. rewrite Forall_forall in IH. apply IH; eauto.
  - split; [intros []|]. intros (kids & S). inversion S.
Qed.

Lemma asks_ns_spec t p u : asks_ns t p u <-> In (ReqNs p u) (flat_map snd (elements t)).
Proof.
  rewrite in_flat_map. split.
  - intros (n & reqs & kids & S & H). exists (n, reqs). split; [|assumption]. apply elements_spec. eauto.
  - intros ([n reqs] & H1 & H2). apply elements_spec in H1. destruct H1 as (kids & S). exists n, reqs, kids. auto.
Qed.

Lemma asks_elem_spec t n : asks_elem t n <-> In n (map fst (elements t)).
Proof.
  rewrite in_map_iff. split.
  - intros (reqs & kids & S). exists (n, reqs). split; [reflexivity|]. apply elements_spec. eauto.
  - intros ([n' reqs] & E & H). cbn in E. subst. apply elements_spec in H. destruct H as (kids & S). exists reqs, kids. auto.
Qed.

Lemma asks_attr_spec t n : asks_attr t n <-> exists v, In (ReqAttr n v) (flat_map snd (elements t)).
Proof.
  split.
  - intros (e & reqs & kids & v & S & H). exists v. apply in_flat_map. exists (e, reqs). split; [|assumption].
    apply elements_spec. eauto.
  - intros (v & H). apply in_flat_map in H. destruct H as ([e reqs] & H1 & H2). apply elements_spec in H1.
    destruct H1 as (kids & S). exists e, reqs, kids, v. auto.
Qed.
