(** A program whose names are all declared does not panic. *)
From Verif Require Import Base Find FindProofs BMap Ser SerSpec SerProofs SerTree NsProofs NsSpec NsMain NsMeaning NsChoice
  DSerPanic ScopeSpec.

(** ** A run succeeds exactly if the tree can be laid out *)

(** How the open elements end up in the final list of children. *)
Inductive closes : list rtree -> list frame -> list rtree -> Prop :=
| cl_root : forall root more, closes root [] (root ++ more)
| cl_open : forall root f st more final,
    closes (fst (add_kid (RElem (fr_name f) (fr_reqs f) (fr_kids f ++ more)) root st))
           (snd (add_kid (RElem (fr_name f) (fr_reqs f) (fr_kids f ++ more)) root st)) final ->
    closes root (f :: st) final.

Lemma closes_add t root st final :
  closes (fst (add_kid t root st)) (snd (add_kid t root st)) final -> closes root st final.
Proof.
  destruct st as [|f st]; cbn; intros H.
  - inversion H; subst. rewrite <- app_assoc. constructor.
  - inversion H as [|? ? ? more ? H' ]; subst. cbn [fr_name fr_reqs fr_kids] in H'.
    rewrite <- app_assoc in H'. eapply cl_open, H'.
Qed.

(** The frame to be opened next. *)
Definition will_open (n : xname) (l : list req) (root : list rtree) (st : list frame) (final : list rtree) : Prop :=
  exists l' kids, closes (fst (add_kid (RElem n (l ++ l') kids) root st))
                         (snd (add_kid (RElem n (l ++ l') kids) root st)) final.

Lemma add_attr_extends a v l : exists l', snd (add_attr a v l) = l ++ l'.
Proof. unfold add_attr. destruct (attr_value a l); cbn; eauto. exists []. now rewrite app_nil_r. Qed.

Lemma asked_closes :
  (forall d (p : wprog d) root st final, List.length st = d -> ask_w p root st = Some final -> closes root st final) /\
  (forall d (q : bprog d) n l root st final, List.length st = d -> ask_b q n l root st = Some final ->
     will_open n l root st final).
Proof.
  apply prog_mut; cbn [ask_w ask_b].
  - intros [e|] root st final D H; [discriminate|]. injection H as <-. destruct st; [|discriminate].
    rewrite <- (app_nil_r root) at 2. constructor.
  - intros d s f IH root st final D H. apply (closes_add (RText s)).
    pose proof (add_kid_length (RText s) root st) as Len.
    destruct (add_kid (RText s) root st) as [r' s'] eqn:E. cbn in *. eapply IH; [|exact H]. congruence.
  - intros d n b IH root st final D H. destruct (IH _ _ _ _ _ D H) as (l' & kids & C). eapply closes_add, C.
  - intros d f IH root st final D H. destruct st as [|fr st]; [discriminate|].
    pose proof (add_kid_length (RElem (fr_name fr) (fr_reqs fr) (fr_kids fr)) root st) as Len.
    eapply (cl_open _ _ _ []). rewrite app_nil_r.
    destruct (add_kid (RElem (fr_name fr) (fr_reqs fr) (fr_kids fr)) root st) as [r' s'] eqn:E. cbn in *.
    eapply IH; [|exact H]. congruence.
  - discriminate.
  - discriminate.
  - intros d p u q IH n l root st final D H. destruct (IH _ _ _ _ _ D H) as (l' & kids & C).
    exists (ReqNs p u :: l'), kids. rewrite <- app_assoc in C. exact C.
  - intros d a v f IH n l root st final D H. destruct (add_attr_extends a v l) as (l0 & E).
    destruct (add_attr a v l) as [r l1]. cbn in E. subst l1.
    destruct (IH _ _ _ _ _ _ D H) as (l' & kids & C). exists (l0 ++ l'), kids. rewrite <- app_assoc in C. exact C.
  - discriminate.
  - intros d p IHp pe IHe n l root st final D H.
    assert (C : closes root (Frame n l [] :: st) final) by (eapply IHp; [|exact H]; cbn; congruence).
    inversion C as [|? ? ? more ? C']; subst. cbn [fr_name fr_reqs fr_kids app] in C'.
    exists [], more. rewrite app_nil_r. exact C'.
  - discriminate.
Qed.

Section Run.
  Context (dbg : bool) (o : io) (m0 : namespaces).

  (** The namespaces of the open elements. *)
  Inductive chain : list frame -> list namespaces -> Prop :=
  | ch_root : chain [] [m0]
  | ch_open : forall n reqs kids st m1 nss ev m2, chain st (m1 :: nss) ->
      begin_tag dbg (ns_child m1 (xn_ns n)) n reqs = inl (ev, m2) ->
      chain (Frame n reqs kids :: st) (m2 :: m1 :: nss).

  Lemma chain_nonempty st nss : chain st nss -> exists m nss', nss = m :: nss'.
  Proof. destruct 1; eauto. Qed.

  Lemma chain_add t root st nss : chain st nss -> chain (snd (add_kid t root st)) nss.
  Proof. destruct 1; cbn; econstructor; eauto. Qed.

  Definition top (root : list rtree) (st : list frame) : list rtree :=
    match st with [] => root | f :: _ => fr_kids f end.

  Lemma top_add t root st : top (fst (add_kid t root st)) (snd (add_kid t root st)) = top root st ++ [t].
  Proof. destruct st; reflexivity. Qed.

  Lemma layouts_prefix m l1 : forall l2 evs, layouts dbg m (l1 ++ l2) = inl evs -> fine (layouts dbg m l1).
  Proof.
    induction l1 as [|t l1 IH]; intros l2 evs; cbn; [red; eauto|].
    destruct (layout dbg (ns_child m) t) as [e1|]; [|discriminate].
    destruct (layouts dbg m (l1 ++ l2)) as [e2|] eqn:E; [|discriminate]. intros _.
    destruct (IH _ _ E) as (e & ->). red. eauto.
  Qed.

  Lemma layouts_in m l evs t : layouts dbg m l = inl evs -> In t l -> fine (layout dbg (ns_child m) t).
  Proof.
    revert evs. induction l as [|t' l IH]; intros evs; cbn; [easy|].
    destruct (layout dbg (ns_child m) t') as [e1|] eqn:E1; [|discriminate].
    destruct (layouts dbg m l) as [e2|] eqn:E; [|discriminate]. intros _ [<-|H]; [red; eauto|eauto].
  Qed.

  Lemma top_laid nss : forall st root final evs m, chain st (m :: nss) ->
    closes root st final -> layouts dbg m0 final = inl evs -> fine (layouts dbg m (top root st)).
  Proof.
    induction nss as [|m' nss IH]; intros st root final evs m C Cl L.
    - inversion C; subst. inversion Cl; subst. eapply layouts_prefix, L.
    - inversion C as [|n reqs kids st' m1 nss' ev m2 C' B]; subst.
      inversion Cl as [|? ? ? more ? Cl']; subst. cbn [fr_name fr_reqs fr_kids top] in *.
      pose proof (chain_add (RElem n reqs (kids ++ more)) root st' _ C') as C2.
      destruct (IH _ _ _ _ _ C2 Cl' L) as (es & Es). rewrite top_add in Es.
      destruct (layouts_in _ _ _ (RElem n reqs (kids ++ more)) Es) as (e & Ee).
      { apply in_or_app. right. now left. }
      rewrite layout_elem, B in Ee.
      destruct (layouts dbg m (kids ++ more)) as [ks|] eqn:K; [|discriminate]. eapply layouts_prefix, K.
  Qed.

  (** The start tag of the element being built can be written. *)
  Lemma tag_laid st root m nss n l final evs : chain st (m :: nss) -> will_open n l root st final ->
    layouts dbg m0 final = inl evs -> exists l', fine (begin_tag dbg (ns_child m (xn_ns n)) n (l ++ l')).
  Proof.
    intros C (l' & kids & Cl) L. exists l'.
    pose proof (chain_add (RElem n (l ++ l') kids) root st _ C) as C2.
    destruct (top_laid _ _ _ _ _ _ C2 Cl L) as (es & Es). rewrite top_add in Es.
    destruct (layouts_in _ _ _ (RElem n (l ++ l') kids) Es) as (e & Ee).
    { apply in_or_app. right. now left. }
    rewrite layout_elem in Ee. destruct (begin_tag dbg (ns_child m (xn_ns n)) n (l ++ l')); [red; eauto|discriminate].
  Qed.

  Lemma begin_reqs base n l1 l2 : fine (begin_tag dbg base n (l1 ++ l2)) -> fine (apply_reqs dbg l1 base).
  Proof.
    intros (x & H). unfold begin_tag in H. rewrite apply_reqs_app in H.
    destruct (apply_reqs dbg l1 base) as [b|]; [red; eauto|discriminate].
  Qed.

  Lemma write_fine e k : (forall i, o i = None) -> k_poison k = None ->
    exists k', write o e k = (None, k') /\ k_poison k' = None.
  Proof. intros Io P. unfold write. rewrite P, Io. eauto. Qed.

  Lemma laid_run : (forall i, o i = None) ->
    (forall d (p : wprog d) root st nss k final evs, chain st nss -> k_poison k = None ->
       List.length st = d -> ask_w p root st = Some final -> layouts dbg m0 final = inl evs ->
       fine (run_w dbg o p nss k)) /\
    (forall d (q : bprog d) root st m nss k n l b final evs, chain st (m :: nss) -> k_poison k = None ->
       List.length st = d -> built dbg (ns_child m (xn_ns n)) n l b -> ask_b q n l root st = Some final ->
       layouts dbg m0 final = inl evs -> fine (run_b dbg o q b (m :: nss) k)).
  Proof.
    intro Io. apply prog_mut; cbn [run_w run_b].
    - intros r root st nss k final evs C P D A L. red. eauto.
    - intros d s f IH root st nss k final evs C P D A L.
      destruct (write_fine (WChars s) k Io P) as (k' & -> & P'). cbn [ask_w] in A.
      pose proof (add_kid_length (RText s) root st) as Len. pose proof (chain_add (RText s) root st _ C) as C'.
      destruct (add_kid (RText s) root st) as [r' s']. cbn in *. eapply IH; eauto. congruence.
    - intros d n q IH root st nss k final evs C P D A L.
      destruct (chain_nonempty _ _ C) as (m & nss' & ->). eapply IH; eauto. apply built_new.
    - intros d f IH root st nss k final evs C P D A L. cbn [ask_w] in A.
      destruct st as [|fr st]; [discriminate|].
      destruct (write_fine WEnd k Io P) as (k' & -> & P').
      inversion C as [|n reqs kids st' m1 nss' ev m2 C' B]; subst. cbn [fr_name fr_reqs fr_kids tl] in *.
      pose proof (add_kid_length (RElem n reqs kids) root st) as Len.
      pose proof (chain_add (RElem n reqs kids) root st _ C') as C2.
      destruct (add_kid (RElem n reqs kids) root st) as [r' s']. cbn in *. eapply IH; eauto. cbn in D. congruence.
    - discriminate.
    - discriminate.
    - intros d p u q IH root st m nss k n l b final evs C P D B A L.
      pose proof (proj2 asked_closes _ _ _ _ _ _ _ D A) as Wo. cbn [ask_b] in A.
      destruct (tag_laid _ _ _ _ _ _ _ _ C Wo L) as (l' & T).
      pose proof (proj2 asked_closes _ _ _ _ _ _ _ D A) as Wo'.
      destruct (tag_laid _ _ _ _ _ _ _ _ C Wo' L) as (l2 & T2). apply begin_reqs in T2.
      destruct (builder_namespace dbg p u b) as [b1|y] eqn:E.
      + eapply IH; eauto. eapply built_ns; eauto.
      + exfalso. destruct B as (_ & Hr & _). destruct T2 as (x & T2). rewrite apply_reqs_app, Hr in T2.
        cbn in T2. unfold builder_namespace in E. destruct (nb_insert dbg p u (b_ns b)); discriminate.
    - intros d a v f IH root st m nss k n l b final evs C P D B A L. cbn [ask_b] in A.
      destruct (built_attr _ _ _ _ _ a v B) as (b1 & E & B1). rewrite E.
      destruct (add_attr a v l) as [r0 l1]. cbn in *. eapply IH; eauto.
    - discriminate.
    - intros d p IHp pe IHe root st m nss k n l b final evs C P D B A L. cbn [ask_b] in A.
      assert (Cl : closes root (Frame n l [] :: st) final)
        by (eapply (proj1 asked_closes); [|exact A]; cbn; congruence).
      inversion Cl as [|? ? ? more ? Cl']; subst. cbn [fr_name fr_reqs fr_kids app] in Cl'.
      pose proof (chain_add (RElem n l more) root st _ C) as C2.
      destruct (top_laid _ _ _ _ _ _ C2 Cl' L) as (es & Es). rewrite top_add in Es.
      destruct (layouts_in _ _ _ (RElem n l more) Es) as (e & Ee).
      { apply in_or_app. right. now left. }
      rewrite layout_elem in Ee. rewrite (built_start _ o _ _ _ _ k B).
      destruct (begin_tag dbg (ns_child m (xn_ns n)) n l) as [[ev m2]|] eqn:T; [|discriminate].
      destruct (write_fine ev k Io P) as (k' & -> & P').
      eapply IHp; [| | |exact A|exact L]; auto.
      econstructor; eauto.
    - discriminate.
  Qed.
End Run.

(** The layout decides. *)
Lemma laid_to dbg o n v t evs : asked n v = Some t -> (forall i, o i = None) ->
  layout dbg (fun _ => []) t = inl evs -> exists k, to dbg o n v = inl (None, k) /\ k_out k = evs.
Proof.
  intros A Io L.
  assert (F : fine (to dbg o n v)).
  { unfold asked in A. destruct (ask_a (s_attrs v) []) as [l|] eqn:Al; [|discriminate].
    destruct (ask_w (s_kids v) [] []) as [kids|] eqn:Ak; [|discriminate]. injection A as <-.
    rewrite layout_elem in L. destruct (begin_tag dbg [] n l) as [[ev m]|] eqn:T; [|discriminate].
    destruct (layouts dbg m kids) as [ks|] eqn:K; [|discriminate].
    assert (R : exists b, run_a dbg (s_attrs v) (BState n [] [] []) = inl (None, b) /\ built dbg [] n l b).
    { revert Al T. generalize (s_attrs v). intros a. pose proof (built_new dbg [] n) as B. revert B.
      generalize (@nil req) as l0, (BState n [] [] []) as b0.
      induction a as [r | p u a IH | x w f IH | msg]; cbn [run_a ask_a]; intros l0 b0 B Al T.
      - destruct r; [discriminate|]. injection Al as <-. eauto.
      - assert (E : exists l', l = (l0 ++ [ReqNs p u]) ++ l').
        { clear -Al. revert Al. generalize (l0 ++ [ReqNs p u]). clear.
          induction a as [r | p u a IH | x w f IH | msg]; cbn [ask_a]; intros l0 H.
          - destruct r; [discriminate|]. injection H as <-. exists []. now rewrite app_nil_r.
          - destruct (IH _ H) as (l' & ->). rewrite <- app_assoc. eauto.
          - destruct (add_attr_extends x w l0) as (l1 & E). destruct (add_attr x w l0) as [r l2]. cbn in E. subst l2.
            destruct (IH _ _ H) as (l' & ->). rewrite <- app_assoc. eauto.
          - discriminate. }
        destruct E as (l' & E).
        destruct (builder_namespace dbg p u b0) as [b1|y] eqn:E1.
        + apply (IH _ _ (built_ns _ _ _ _ _ _ _ _ B E1) Al T).
        + exfalso. destruct B as (_ & Hr & _). unfold begin_tag in T. rewrite E, !apply_reqs_app, Hr in T.
          cbn in T. unfold builder_namespace in E1. destruct (nb_insert dbg p u (b_ns b0)); discriminate.
      - destruct (built_attr _ _ _ _ _ x w B) as (b1 & E & B1). rewrite E.
        destruct (add_attr x w l0) as [r0 l1]. cbn in *. eapply IH; eauto.
      - discriminate. }
    destruct R as (b & R & B). unfold to. rewrite R, (built_start _ o _ _ _ _ sink0 B), T.
    destruct (write_fine o ev sink0 Io eq_refl) as (k0 & -> & P0).
    destruct (proj1 (laid_run dbg o m Io) 0 (s_kids v) [] [] [m] k0 kids ks (ch_root _ _) P0 eq_refl Ak K) as ([r k1] & ->).
    red. destruct r; eauto. }
  destruct F as ([r k] & F). pose proof (asked_to _ _ _ _ _ _ _ A Io F). subst r.
  exists k. split; [exact F|]. destruct (to_asked _ _ _ _ _ F) as (t' & A' & L' & _).
  rewrite A in A'. injection A' as <-. rewrite L in L'. injection L' as ->. reflexivity.
Qed.

Lemma not_laid_to dbg o n v t x : asked n v = Some t -> (forall i, o i = None) ->
  layout dbg (fun _ => []) t = inr x -> exists y, to dbg o n v = inr y.
Proof.
  intros A Io L. destruct (to dbg o n v) as [[r k]|y] eqn:E; [|eauto].
  pose proof (asked_to _ _ _ _ _ _ _ A Io E). subst r.
  destruct (to_asked _ _ _ _ _ E) as (t' & A' & L' & _). rewrite A in A'. injection A' as <-. congruence.
Qed.

(** ** A declared tree can be laid out *)

Section Scope.
  Context (A : Prop).

  Definition present (b : bstate) (u : string) : Prop := bm_get u (b_ns b) <> None.

  Lemma child_binv m n : minv A m -> binv A (writer_element m n).
  Proof.
    intros [Hn Hq]. split; cbn.
    - apply wf_child.
    - apply fresh_inv.
    - intros a u e He. apply child_entries in He. destruct He as [He _]. intros E. rewrite E in He.
      apply (Hq a). apply in_map_iff. now exists (""%string, u).
    - intros ? ? [].
  Qed.

  Lemma child_present m n u : minv A m -> In u (map snd (by_prefix m)) -> present (writer_element m n) u.
  Proof.
    intros [Hn _] H. unfold present. cbn [b_ns writer_element]. rewrite (child_get m (xn_ns n) u Hn).
    unfold parent_prefix. destruct (List.find (fun d => String.eqb u (snd d)) (by_prefix m)) as [[p u']|] eqn:E; [discriminate|].
    apply in_map_iff in H. destruct H as ([p u'] & Hu & Hin).
    pose proof (List.find_none _ _ E _ Hin) as F. cbn in F, Hu. subst u'. rewrite String.eqb_refl in F. discriminate.
  Qed.

  Lemma has_present b u : has_url b u -> present b u.
  Proof. intros (e & H & _). red. congruence. Qed.

  Lemma attr_used n v b : binv A b -> ~ In n (map fst (b_attrs b)) ->
    (xn_ns n = ""%string \/ xn_ns n = XML_NS \/ present b (xn_ns n)) ->
    exists b', builder_attribute n v b = inl (None, b') /\ binv A b' /\ b_name b' = b_name b /\
    b_attrs b' = b_attrs b ++ [(n, v)] /\
    (name_ok A b -> name_ok A b') /\ (forall u, has_url b u -> has_url b' u) /\
    (forall u, present b u -> present b' u).
  Proof.
    intros B Hni D. destruct (attribute_new b n v (bi_attrs _ _ B) Hni) as (b1 & E1 & A1 & I1).
    exists b1. split; [exact E1|].
    unfold builder_attribute in E1. destruct (existsb (xn_eqb n) (b_seen b)).
    { destruct (List.find (fun a => xn_eqb (fst a) n) (b_attrs b)) as [[? ?]|]; discriminate. }
    injection E1 as <-. cbn [b_attrs] in A1.
    assert (G : forall u, bm_get u (nb_attribute (xn_ns n) (b_ns b)) =
                match bm_get u (b_ns b) with
                | Some e => Some (if String.eqb u (xn_ns n) then NsEntry (q_prefix e) (q_assigned e) true true else e)
                | None => None
                end).
    { intros u. unfold nb_attribute. destruct (bm_get (xn_ns n) (b_ns b)) as [e|] eqn:E.
      - rewrite bm_get_insert. destruct (String.eqb_spec u (xn_ns n)) as [->|_]; [now rewrite E|].
        destruct (bm_get u (b_ns b)); reflexivity.
      - destruct (String.eqb_spec u (xn_ns n)) as [->|_]; [now rewrite E|]. destruct (bm_get u (b_ns b)); reflexivity. }
    split; [split|split; [|split; [|split; [|split]]]]; cbn [b_ns b_name b_attrs].
    - apply wf_nb_attribute, B.
    - exact I1.
    - intros a u e. rewrite G. destruct (bm_get u (b_ns b)) as [e0|] eqn:E0; [|discriminate].
      intros [= <-]. pose proof (bi_quiet _ _ B a u e0 E0) as Q. destruct (String.eqb u (xn_ns n)); exact Q.
    - intros n' v' Hin. apply in_app_or in Hin. unfold attr_ok. cbn [b_ns]. rewrite G. destruct Hin as [Hin|[Hin|[]]].
      + destruct (bi_ok _ _ B n' v' Hin) as [H|H]; [now left|right].
        destruct (bm_get (xn_ns n') (b_ns b)) as [e0|]; [|exact H].
        destruct (String.eqb (xn_ns n') (xn_ns n)); cbn; auto.
      + injection Hin as <- <-. unfold present in D. destruct D as [D|[D|D]]; [now left| |].
        * right. destruct (bm_get (xn_ns n) (b_ns b)); [|exact D]. rewrite String.eqb_refl. cbn. auto.
        * right. destruct (bm_get (xn_ns n) (b_ns b)); [|congruence]. rewrite String.eqb_refl. cbn. auto.
    - reflexivity.
    - reflexivity.
    - unfold name_ok. cbn [b_ns b_name]. rewrite G. destruct (bm_get (xn_ns (b_name b)) (b_ns b)); [|auto].
      destruct (String.eqb (xn_ns (b_name b)) (xn_ns n)); auto.
    - intros u (e & H1 & H2). unfold has_url. cbn [b_ns]. rewrite G, H1.
      destruct (String.eqb u (xn_ns n)); eexists; split; [reflexivity|reflexivity|reflexivity|exact H2].
    - intros u. unfold present. cbn [b_ns]. rewrite G. destruct (bm_get u (b_ns b)); congruence.
  Qed.

  Lemma ns_present dbg p u b b' v : builder_namespace dbg p u b = inl b' -> present b v -> present b' v.
  Proof.
    unfold builder_namespace, nb_insert, present. destruct (dbg && starts_with "xml" p); [discriminate|].
    intros [= <-]. cbn [b_ns]. destruct (bm_get u (b_ns b)); rewrite bm_get_insert;
      destruct (String.eqb v u); congruence.
  Qed.

  (** Along the requests of a start tag. *)
  Lemma reqs_used dbg base n rs : forall l b, built dbg base n l b -> binv A b ->
    NoDup (map fst (req_attrs (l ++ rs))) ->
    (forall p u, In (ReqNs p u) rs -> map_ok A p u) ->
    (forall before a v after, rs = before ++ ReqAttr a v :: after ->
       xn_ns a = ""%string \/ xn_ns a = XML_NS \/ present b (xn_ns a) \/ requests before (xn_ns a)) ->
    exists b', built dbg base n (l ++ rs) b' /\ binv A b' /\ (name_ok A b -> name_ok A b') /\
      (forall u, has_url b u -> has_url b' u) /\ (forall u, requests rs u -> has_url b' u).
  Proof.
    induction rs as [|[p u|a v] rs IH]; intros l b Bu B N M H.
    - exists b. rewrite app_nil_r. do 4 (split; auto). intros u [p []].
    - destruct (ns_step A dbg p u b B (M _ _ (or_introl eq_refl))) as (b1 & E1 & B1 & N1 & U1 & K1 & P1).
      destruct (IH (l ++ [ReqNs p u]) b1) as (b2 & Bu2 & B2 & K2 & P2 & Q2).
      + eapply built_ns; eauto.
      + exact B1.
      + rewrite <- app_assoc. exact N.
      + intros p' u' Hin. apply M. now right.
      + intros before a v after Er. destruct (H (ReqNs p u :: before) a v after) as [X|[X|[X|(q & [X|X])]]]; auto.
        * now rewrite Er.
        * right. right. left. eapply ns_present; eauto.
        * injection X as _ <-. right. right. left. now apply has_present.
        * right. right. right. now exists q.
      + exists b2. rewrite <- app_assoc in Bu2. do 4 (split; auto). intros w (q & [X|X]); [|apply Q2; now exists q].
        injection X as <- <-. auto.
    - assert (Hni : ~ In a (map fst (b_attrs b))).
      { destruct Bu as (_ & _ & -> & _). rewrite req_attrs_app, map_app in N. cbn in N.
        intros X. apply NoDup_remove_2 in N. apply N. apply in_or_app. now left. }
      destruct (attr_used a v b B Hni) as (b1 & E1 & B1 & N1 & A1 & K1 & P1 & R1).
      { destruct (H [] a v rs eq_refl) as [X|[X|[X|(q & [])]]]; auto. }
      assert (Ad : snd (add_attr a v l) = l ++ [ReqAttr a v]).
      { unfold add_attr, attr_value. destruct Bu as (_ & _ & Ba & _).
        destruct (List.find (fun a0 => xn_eqb (fst a0) a) (req_attrs l)) as [[a' w]|] eqn:F; cbn; [|reflexivity].
        exfalso. apply List.find_some in F. destruct F as [F1 F2]. cbn in F2. apply xn_eqb_eq' in F2. subst a'.
        apply Hni. rewrite Ba. apply in_map_iff. now exists (a, w). }
      destruct (built_attr _ _ _ _ _ a v Bu) as (b1' & E1' & Bu1). rewrite E1 in E1'. injection E1' as _ <-.
      rewrite Ad in Bu1.
      destruct (IH (l ++ [ReqAttr a v]) b1 Bu1 B1) as (b2 & Bu2 & B2 & K2 & P2 & Q2).
      + rewrite <- app_assoc. exact N.
      + intros p' u' Hin. apply M. now right.
      + intros before a' v' after Er. destruct (H (ReqAttr a v :: before) a' v' after) as [X|[X|[X|(q & [X|X])]]]; auto.
        * now rewrite Er.
        * discriminate.
        * right. right. right. now exists q.
      + exists b2. rewrite <- app_assoc in Bu2. do 4 (split; auto). intros w (q & [X|X]); [discriminate|apply Q2; now exists q].
  Qed.
End Scope.

Lemma minv_weaken (A A' : Prop) m : (A' -> A) -> minv A m -> minv A' m.
Proof. intros I [H1 H2]. split; auto. Qed.

Lemma declared_laid dbg t : forall (up : string -> Prop) dflt m, declared up dflt t -> distinct_attrs t ->
  minv (~ dflt) m -> (forall u, up u -> u = XML_NS \/ In u (map snd (by_prefix m))) ->
  fine (layout dbg (ns_child m) t).
Proof.
  induction t as [n reqs kids IH | s] using rtree_ind'; intros up dflt m D Da Mi Up; [|red; cbn; eauto].
  inversion D as [|n' reqs' kids' Lm Nm Am Km]; subst.
  set (A := ~ dflt /\ ~ asks_default reqs).
  assert (Mi' : minv A m) by (eapply minv_weaken; [|exact Mi]; now intros []).
  destruct (reqs_used A dbg (ns_child m (xn_ns n)) n reqs [] (writer_element m n)) as (b & Bu & B & Nk & _ & Q).
  - apply built_new.
  - now apply child_binv.
  - cbn. eapply Da. constructor.
  - intros p u Hin. destruct (Lm _ _ Hin) as [X Y]. repeat split; auto.
    + intros [-> ->]. now apply Y.
    + intros [_ X']. intros ->. apply X'. now exists u.
  - intros before a v after E. destruct (Am _ _ _ _ E) as [X|[X|[X|X]]]; auto.
    destruct (Up _ X) as [X'|X']; [auto|]. right. right. left. now apply (child_present A).
  - cbn [app] in Bu. assert (Nb : name_ok A b).
    { destruct Nm as [X|[X|[X|X]]].
      - apply Nk, (child_fine A m n Mi'). auto.
      - apply Nk, (child_fine A m n Mi'). destruct (Up _ X); auto.
      - destruct (Q _ X) as (e & He & Hr). unfold name_ok. destruct Bu as (-> & _). now rewrite He.
      - apply Nk, (child_fine A m n Mi'). left. destruct X as (X1 & X2 & X3). split; [exact X1|now split]. }
    destruct (start_fine A (fun _ => None) b sink0 B Nb) as (r & k & S & Hm).
    rewrite (built_start _ _ _ _ _ _ sink0 Bu) in S.
    rewrite layout_elem. destruct (begin_tag dbg (ns_child m (xn_ns n)) n reqs) as [[ev m']|] eqn:T; [|discriminate].
    cbn in S. injection S as <- _. destruct (Hm _ eq_refl) as [Mm Hu]. clear Hm.
    assert (F : fine (layouts dbg m' kids)).
    { assert (Up' : forall u, own_scope n reqs u -> u = XML_NS \/ In u (map snd (by_prefix m'))).
      { intros u [X|[Hne [X|(a & v & Hin & X)]]].
        - right. now apply Hu, Q.
        - subst u. red in Nb. destruct Bu as (Bn & _). rewrite Bn in Nb.
          destruct (bm_get (xn_ns n) (b_ns b)) as [e|] eqn:E.
          + right. apply Hu. now exists e.
          + destruct Nb as [Nb|[Nb _]]; [now left|contradiction].
        - subst u. destruct Bu as (_ & _ & Ba & _).
          assert (Ha : In (a, v) (b_attrs b)).
          { rewrite Ba. clear -Hin. induction reqs as [|[p u|a' v'] l IH]; [easy| |]; cbn.
            - destruct Hin as [Hin|Hin]; [discriminate|auto].
            - destruct Hin as [Hin|Hin]; [injection Hin as -> ->; now left|right; auto]. }
          destruct (bi_ok _ _ B _ _ Ha) as [X|X]; [contradiction|].
          destruct (bm_get (xn_ns a) (b_ns b)) as [e|] eqn:E; [|now left].
          right. apply Hu. exists e. split; [exact E|apply X]. }
      assert (Mm' : minv (~ (dflt \/ asks_default reqs)) m').
      { eapply minv_weaken; [|exact Mm]. intros H. split; tauto. }
      assert (Da' : forall k, In k kids -> distinct_attrs k).
      { intros c Hc n0 r0 k0 Hs. eapply Da. eapply sub_kid; eauto. }
      clear - IH Km Up' Mm' Da'. induction IH as [|c l Hc Hl IHl]; cbn; [red; eauto|].
      destruct (Hc _ _ m' (Km _ (or_introl eq_refl)) (Da' _ (or_introl eq_refl)) Mm' Up') as (e1 & ->).
      destruct IHl as (e2 & ->); [intros; apply Km; now right|intros; apply Da'; now right|]. red. eauto. }
    destruct F as (ks & ->). red. eauto.
Qed.

Theorem declared_to dbg o n v t : asked n v = Some t -> (forall i, o i = None) ->
  declared nothing_declared False t -> exists k, to dbg o n v = inl (None, k).
Proof.
  intros A Io D.
  destruct (declared_laid dbg t nothing_declared False (Namespaces [] []) D) as (evs & L).
  - eapply asked_distinct; eauto.
  - split; [constructor|auto].
  - intros u [].
  - assert (L' : layout dbg (fun _ => []) t = inl evs).
    { destruct t; [rewrite layout_elem in *; exact L|exact L]. }
    destruct (laid_to _ _ _ _ _ _ A Io L') as (k & H & _). eauto.
Qed.

(** ** A name in a namespace nobody declares *)

Lemma entries_asked dbg base rs b (P : string -> Prop) : apply_reqs dbg rs base = inl b ->
  (forall u e, bm_get u base = Some e -> P u) -> forall u e, bm_get u b = Some e -> P u \/ requests rs u.
Proof.
  intros H Hb u e He.
  refine (apply_reqs_entries (fun u _ => P u \/ requests rs u) dbg rs _ _ _ _ base b _ H u e He); auto.
  - intros p w Hin. right. now exists p.
  - intros w e' Hw. left. eauto.
Qed.

Lemma begin_asked dbg m n reqs ev m' (up : string -> Prop) :
  (forall u, In u (map snd (by_prefix m)) -> up u) ->
  begin_tag dbg (ns_child m (xn_ns n)) n reqs = inl (ev, m') ->
  (forall u, In u (map snd (by_prefix m')) -> up u \/ requests reqs u) /\
  ~ foreign (fun u => up u \/ requests reqs u) (xn_ns n) /\
  (forall a v, In (ReqAttr a v) reqs -> ~ foreign (fun u => up u \/ requests reqs u) (xn_ns a)).
Proof.
  intros Up. unfold begin_tag. destruct (apply_reqs dbg reqs (ns_child m (xn_ns n))) as [b|] eqn:Ea; [|discriminate].
  assert (W : wf_builder b) by (eapply wf_apply_reqs; [|exact Ea]; apply wf_child).
  destruct (finalize_ok _ W) as (m2 & -> & Fo).
  assert (En : forall u e, bm_get u b = Some e -> up u \/ requests reqs u).
  { eapply entries_asked; [exact Ea|]. intros u e He. apply child_entries in He. destruct He as [He _].
    apply Up, in_map_iff. now exists (q_prefix e, u). }
  assert (Fg : forall u, foreign (fun u => up u \/ requests reqs u) u -> bm_get u (by_url m2) = None).
  { intros u (_ & _ & F). apply (fo_only _ _ Fo). destruct (bm_get u b) eqn:E; [|reflexivity]. exfalso. eauto. }
  destruct (resolve_element m2 n) as [p|] eqn:Re; [|discriminate].
  destruct (resolve_attributes m2 (req_attrs reqs)) as [l|] eqn:Ra; [|discriminate].
  intros [= <- <-]. split; [|split].
  - intros u Hin. apply in_map_iff in Hin. destruct Hin as ([q u'] & E & Hin). cbn in E. subst u'.
    apply (sorted_In _ _ _ (fo_sorted _ _ Fo)) in Hin. destruct (fo_prefix _ _ Fo _ _ Hin) as (e & He & _). eauto.
  - intros F. pose proof (Fg _ F) as G. destruct F as (F1 & F2 & _). unfold resolve_element in Re. rewrite G in Re.
    destruct (String.eqb_spec (xn_ns n) XML_NS); [contradiction|].
    destruct (String.eqb_spec (xn_ns n) ""); [contradiction|discriminate].
  - intros a v Hin F. pose proof (Fg _ F) as G. destruct F as (F1 & F2 & _).
    assert (Ha : In (a, v) (req_attrs reqs)).
    { clear -Hin. induction reqs as [|[p u|a' v'] l IH]; [easy| |]; cbn.
      - destruct Hin as [Hin|Hin]; [discriminate|auto].
      - destruct Hin as [Hin|Hin]; [injection Hin as -> ->; now left|right; auto]. }
    revert Ra Ha. generalize (req_attrs reqs). intros l0. revert l. induction l0 as [|[a' v'] l0 IH]; intros l Ra; [easy|].
    cbn in Ra. destruct (resolve_attribute m2 a') as [q|] eqn:E; [|discriminate].
    destruct (resolve_attributes m2 l0) as [l'|] eqn:E'; [|discriminate].
    intros [H|H]; [|eapply IH; eauto]. injection H as -> ->.
    unfold resolve_attribute in E. rewrite G in E.
    destruct (String.eqb_spec (xn_ns a) ""); [contradiction|].
    destruct (String.eqb_spec (xn_ns a) XML_NS); [contradiction|discriminate].
Qed.

Lemma undeclared_not_laid dbg t : forall up m, undeclared_name up t ->
  (forall u, In u (map snd (by_prefix m)) -> up u) -> exists x, layout dbg (ns_child m) t = inr x.
Proof.
  induction t as [n reqs kids IH | s] using rtree_ind'; intros up m U Up; [|inversion U].
  rewrite layout_elem. destruct (begin_tag dbg (ns_child m (xn_ns n)) n reqs) as [[ev m']|x] eqn:T; [|eauto].
  destruct (begin_asked _ _ _ _ _ _ up Up T) as (H1 & H2 & H3).
  inversion U as [? ? ? F|? ? ? a v Hin F|? ? ? c Hin Uc]; subst.
  - contradiction.
  - exfalso. eapply H3; eauto.
  - assert (E : exists x, layouts dbg m' kids = inr x); [|destruct E as (x & ->); eauto].
    clear -IH Hin Uc H1. induction IH as [|c' l Hc Hl IHl]; [easy|]. cbn.
    destruct Hin as [->|Hin].
    + destruct (Hc _ m' Uc H1) as (x & ->). eauto.
    + destruct (layout dbg (ns_child m') c'); [|eauto]. destruct (IHl Hin) as (x & ->). eauto.
Qed.

(** What goes wrong is always a panic. *)
Definition panics {A} (x : A + abort) : Prop := match x with inr y => exists m, y = Panic m | inl _ => True end.

Lemma namespace_panics dbg p u b : panics (builder_namespace dbg p u b).
Proof.
  unfold builder_namespace, nb_insert. destruct (dbg && starts_with "xml" p); cbn; eauto.
Qed.

Lemma attribute_panics a v b : panics (builder_attribute a v b).
Proof.
  unfold builder_attribute. destruct (existsb _ _); [|exact I].
  destruct (List.find _ _) as [[? ?]|]; cbn; eauto.
Qed.

Lemma start_panics o b k : wf_builder (b_ns b) -> panics (builder_start o b k).
Proof.
  intros W. unfold builder_start. destruct (finalize_ok _ W) as (m & -> & _).
  assert (P1 : panics (resolve_element m (b_name b))).
  { unfold resolve_element. destruct (bm_get (xn_ns (b_name b)) (by_url m)) as [[q [a|] [|] nd]|];
      repeat match goal with
             | |- context [if ?c then _ else _] => destruct c
             | |- context [match bm_get ?a ?b with _ => _ end] => destruct (bm_get a b)
             end; cbn; unfold default_set, undeclared; eauto. }
  destruct (resolve_element m (b_name b)); [|exact P1].
  assert (P2 : panics (resolve_attributes m (b_attrs b))).
  { generalize (b_attrs b). intros l. induction l as [|[a v] l IH]; cbn; [exact I|].
    assert (P : panics (resolve_attribute m a)).
    { unfold resolve_attribute. repeat match goal with
             | |- context [if ?c then _ else _] => destruct c
             | |- context [match bm_get ?a ?b with _ => _ end] => destruct (bm_get a b)
             | |- context [match q_assigned ?a with _ => _ end] => destruct (q_assigned a)
             end; cbn; unfold undeclared; eauto. }
    destruct (resolve_attribute m a); [|exact P]. destruct (resolve_attributes m l); [exact I|exact IH]. }
  destruct (resolve_attributes m (b_attrs b)); [|exact P2]. destruct (write _ _ _) as [[e|] k']; exact I.
Qed.

Lemma wf_namespace dbg p u b b' : wf_builder (b_ns b) -> builder_namespace dbg p u b = inl b' -> wf_builder (b_ns b').
Proof.
  intros W. unfold builder_namespace. destruct (nb_insert dbg p u (b_ns b)) as [x|] eqn:E; [|discriminate].
  intros [= <-]. eapply wf_nb_insert; eauto.
Qed.

Lemma wf_attribute a v b r b' : wf_builder (b_ns b) -> builder_attribute a v b = inl (r, b') -> wf_builder (b_ns b').
Proof.
  intros W. unfold builder_attribute. destruct (existsb _ _).
  - destruct (List.find _ _) as [[? ?]|]; [|discriminate]. now intros [= _ <-].
  - intros [= _ <-]. now apply wf_nb_attribute.
Qed.

Lemma run_panics dbg o :
  (forall d (p : wprog d) nss k, panics (run_w dbg o p nss k)) /\
  (forall d (q : bprog d) b nss k, wf_builder (b_ns b) -> panics (run_b dbg o q b nss k)).
Proof.
  apply prog_mut; cbn [run_w run_b]; intros; try exact I; try (cbn; eauto; fail).
  - destruct (write o (WChars s) k0) as [r k']. auto.
  - destruct nss as [|m nss]; [cbn; eauto|]. apply H, wf_child.
  - destruct (write o WEnd k0) as [r k']. auto.
  - pose proof (namespace_panics dbg p u b0) as P. destruct (builder_namespace dbg p u b0) as [b1|] eqn:E; [|exact P].
    apply H. eapply wf_namespace; eauto.
  - pose proof (attribute_panics n v b) as P. destruct (builder_attribute n v b) as [[r b1]|] eqn:E; [|exact P].
    apply H. eapply wf_attribute; eauto.
  - pose proof (start_panics o b k0 H1) as P. destruct (builder_start o b k0) as [[[m|e] k']|]; auto.
Qed.

Lemma to_panics dbg o n v : panics (to dbg o n v).
Proof.
  unfold to.
  assert (R : forall a b, wf_builder (b_ns b) -> match run_a dbg a b with
                          | inl (_, b') => wf_builder (b_ns b') | inr y => exists m, y = Panic m end).
  { induction a as [r|p u a IH|x w f IH|m]; intros b W; cbn; [exact W| | |eauto].
    - pose proof (namespace_panics dbg p u b) as P. destruct (builder_namespace dbg p u b) as [b1|] eqn:E; [|exact P].
      apply IH. eapply wf_namespace; eauto.
    - pose proof (attribute_panics x w b) as P. destruct (builder_attribute x w b) as [[r b1]|] eqn:E; [|exact P].
      apply IH. eapply wf_attribute; eauto. }
  specialize (R (s_attrs v) (BState n [] [] []) wf_nil).
  destruct (run_a dbg (s_attrs v) (BState n [] [] [])) as [[[e|] b]|]; [exact I| |exact R].
  pose proof (start_panics o b sink0 R) as P. destruct (builder_start o b sink0) as [[[m|e] k]|]; [|exact I|exact P].
  pose proof (proj1 (run_panics dbg o) 0 (s_kids v) [m] k) as P2.
  destruct (run_w dbg o (s_kids v) [m] k) as [[[e|] k']|]; [exact I| |exact P2]. destruct (write o WEnd k'); exact I.
Qed.

Theorem undeclared_to dbg o n v t : asked n v = Some t -> (forall i, o i = None) ->
  undeclared_name nothing_declared t -> exists m, to dbg o n v = inr (Panic m).
Proof.
  intros A Io U. destruct (undeclared_not_laid dbg t nothing_declared (Namespaces [] []) U) as (x & L).
  { intros u []. }
  assert (L' : layout dbg (fun _ => []) t = inr x).
  { destruct t; [rewrite layout_elem in *; exact L|exact L]. }
  destruct (not_laid_to _ _ _ _ _ _ A Io L') as (y & H). pose proof (to_panics dbg o n v) as P. rewrite H in P.
  destruct P as (m & ->). eauto.
Qed.

Theorem returns_or_panics dbg o n v :
  (exists r k, to dbg o n v = inl (r, k)) \/ exists m, to dbg o n v = inr (Panic m).
Proof.
  pose proof (to_panics dbg o n v) as P. destruct (to dbg o n v) as [[r k]|y]; [left; eauto|right].
  destruct P as (m & ->). eauto.
Qed.

(** ** Two cases in between *)

Definition g_up : serialize :=
  Ser (ANs "p" "urn:1" (ARet None))
      (WElem (XName "urn:2" "mid") (BNs "p" "urn:2" (BStart
         (WElem (XName "urn:1" "leaf") (BStart (WFinish (fun _ => WFinish (fun _ => WRet None))) (fun _ => WDrop (WRet None))))
         (fun _ => WRet None)))).

Theorem grandparent_not_enough : exists n v t, asked n v = Some t /\
  ~ undeclared_name nothing_declared t /\
  forall dbg, to dbg (fun _ => None) n v = inr undeclared.
Proof.
  exists (XName "urn:1" "root"), g_up. eexists. split; [vm_compute; reflexivity|]. split; [|now intros []].
  intros U. inversion U as [? ? ? F|? ? ? a v Hin F|? ? ? c Hin Uc]; subst; try cbn in Hin.
  { apply F. right. exists "p"%string. now left. }
  { destruct Hin as [Hin|[]]. discriminate. }
  destruct Hin as [<-|[]]. inversion Uc as [? ? ? F|? ? ? a v Hin F|? ? ? c Hin Ud]; subst; try cbn in Hin.
  { apply F. right. exists "p"%string. now left. }
  { destruct Hin as [Hin|[]]. discriminate. }
  destruct Hin as [<-|[]]. inversion Ud as [? ? ? F|? ? ? a v Hin F|? ? ? c Hin Ue]; subst; [|destruct Hin..].
  apply F. left. left. right. exists "p"%string. now left.
Qed.

Theorem order_matters : exists n p u a x,
  (forall dbg, exists k, to dbg (fun _ => None) n (Ser (ANs p u (AAttr a x (fun _ => ARet None))) (WRet None)) = inl (None, k)) /\
  (forall dbg, to dbg (fun _ => None) n (Ser (AAttr a x (fun _ => ANs p u (ARet None))) (WRet None)) = inr undeclared).
Proof.
  exists (XName "urn:1" "root"), ""%string, "urn:1"%string, (XName "urn:1" "a"), "x"%string. split.
  - intros []; eexists; vm_compute; reflexivity.
  - intros []; vm_compute; reflexivity.
Qed.
