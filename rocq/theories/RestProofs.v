From Coq Require Import Lia.
From Verif Require Import Base DisplayProofs Normalize Text Find FindProofs Types NsSpec NsMeaning ScopeSpec Ser SerSpec DeriveSer DSerSpec
  DSerProofs Reader ReaderSpec ReaderProofs DeriveDe DeSpec DeriveMixed DeriveMixedSer MixedSerSpec MixedSer DeriveFlat FlatSpec FlatProofs
  RTSpec RTProps Dom DomSpec DomProofs Rest RestSpec.

(** ** Values *)

Lemma all_map {A B C} (f : B -> option C) (g : A -> B) (h : A -> C) l :
  Forall (fun x => f (g x) = Some (h x)) l -> all f (map g l) = Some (map h l).
Proof. induction 1 as [|x l H HF IH]; [reflexivity|]. cbn [map all]. rewrite H, IH. reflexivity. Qed.

Lemma as_attribute_value a : as_attribute (attribute_value a) = Some a.
Proof. destruct a as [[u l] s]. reflexivity. Qed.

Lemma all_attributes attrs : all as_attribute (map attribute_value attrs) = Some attrs.
Proof.
  rewrite (all_map _ _ (fun a => a)); [now rewrite map_id|]. apply Forall_forall. intros a _. apply as_attribute_value.
Qed.

Lemma as_tree_value t : as_tree (tree_value t) = Some t.
Proof.
  induction t as [s|n attrs kids IH] using wtree_ind'; [reflexivity|]. cbn [tree_value as_tree].
  rewrite all_attributes, (all_map _ _ (fun t => t)), map_id by exact IH. destruct n; reflexivity.
Qed.

Lemma as_rest_value attrs kids : as_rest (rest_value attrs kids) = Some (attrs, kids).
Proof.
  unfold rest_value, as_rest. rewrite all_attributes, (all_map _ _ (fun t => t)), map_id; [reflexivity|].
  apply Forall_forall. intros t _. apply as_tree_value.
Qed.

(** ** Reading *)

Section Reading.
  Context (o : oracles) (alg : bs_alg) (rid : nat)
    (deser : ety -> einfo -> action (fstate building) (res verr value * list value)).
  Let P := rest_user rid deser.
  Let V := flat_visitors o alg P.

  Lemma rest_dom_read c : dom_reads V FOther c.
  Proof.
    apply dom_read.
    - intros b n v. eexists. reflexivity.
    - intros b s p. eexists. reflexivity.
    - intros b i. eexists. split; [reflexivity|]. intros x b'. eexists. reflexivity.
  Qed.

  Definition push_piece (b : building) (p : piece) : building :=
    match p with
    | PAttr n v => Building ((n, v) :: b_attributes b) (b_children b)
    | PText s _ => Building (b_attributes b) (add_piece s (b_children b))
    | PElem c => Building (b_attributes b) (dom_of c :: b_children b)
    end.

  Lemma take_elem path name attrs ns p kids pe b act :
    let c := NElem name attrs ns p kids pe in
    let path' := path ++ [SElem name p] in
    fu_element P b (EInfo name ns (List.length path')) = Take act ->
    fst (sem_act (sem_read V c path) path' p kids pe act) = inl (Ok tt, push_piece b (PElem c)).
  Proof.
    cbn zeta. intros E. cbn [P rest_user fu_element] in E. injection E as <-. cbn [sem_act].
    destruct (rest_dom_read (NElem name attrs ns p kids pe) _ _ _ _ _ _ eq_refl path) as (l & pl & -> & D).
    cbn [fst ei_name push_piece]. rewrite <- D. unfold finished. cbn [b_attributes b_children].
    now rewrite rev_involutive.
  Qed.

  Lemma fed_rest path ps : Forall (fun p => match p with PElem c => is_elem c = true | _ => True end) ps ->
    forall b b' rest, fed V P path b ps b' rest <-> rest = [] /\ b' = fold_left push_piece ps b.
  Proof.
    induction 1 as [|x ps Hx HF IH]; intros b b' rest.
    - split; [intros H; inversion H; auto|intros [-> ->]; constructor].
    - destruct x as [n v|s p|c].
      + split.
        * intros H. inversion H; subst; match goal with H : fu_attribute _ _ _ _ = _ |- _ => cbn in H; inversion H; subst end.
          now apply IH.
        * intros [-> ->]. eapply fed_attr_take; [reflexivity|]. now apply IH.
      + split.
        * intros H. inversion H; subst; match goal with H : fu_characters _ _ _ _ = _ |- _ => cbn in H; inversion H; subst end.
          now apply IH.
        * intros [-> ->]. eapply fed_text_take; [reflexivity|]. now apply IH.
      + destruct c as [name attrs ns p kids pe| | |]; try discriminate. split.
        * intros H. inversion H; subst.
          -- match goal with H : fu_element _ _ _ = Take _ |- _ => apply (take_elem path name attrs ns p kids pe) in H; rename H into E end.
             match goal with H : fst (sem_act _ _ _ _ _ _) = inl (Ok tt, ?s) |- _ => is_var s; pose proof (eq_trans (eq_sym E) H) as Q end.
             assert (Q1 : forall A B (x y : A), @inl A B x = inl y -> x = y) by (intros A B x y [=]; auto).
             apply Q1 in Q. injection Q as Q. subst s1.
             now apply IH.
          -- match goal with H : fu_element _ _ _ = Pass _ |- _ => discriminate H end.
        * intros [-> ->]. eapply fed_elem_take; [reflexivity| |now apply IH].
          apply take_elem. reflexivity.
  Qed.

  Lemma push_attrs attrs : forall b, fold_left push_piece (map attr_piece attrs) b =
    Building (rev (map (fun a => (from_xml_name (a_name a), a_value a)) attrs) ++ b_attributes b) (b_children b).
  Proof.
    induction attrs as [|a attrs IH]; intros b; cbn [map fold_left]; [now destruct b|].
    rewrite IH. cbn [attr_piece push_piece b_attributes b_children rev]. now rewrite <- app_assoc.
  Qed.

  Lemma push_kids kids : forall b, fold_left push_piece (flat_map kid_piece kids) b =
    Building (b_attributes b) (fold_left push_kid kids (b_children b)).
  Proof.
    induction kids as [|c kids IH]; intros b; cbn [flat_map fold_left]; [now destruct b|].
    rewrite fold_left_app, IH. destruct c; reflexivity.
  Qed.

  Lemma pieces_elems attrs kids :
    Forall (fun p => match p with PElem c => is_elem c = true | _ => True end) (pieces attrs kids).
  Proof.
    apply Forall_app. split; apply Forall_forall; intros p H.
    - apply in_map_iff in H. now destruct H as (a & <- & _).
    - apply in_flat_map in H. destruct H as (c & _ & H). destruct c; cbn in H; intuition; subst; reflexivity.
  Qed.

  Lemma rest_flats fs : (forall f id, In f fs -> f_mode f = MFlatten id -> id = rid) ->
    new_flats P fs = Some (map (fun _ => fresh) (filter is_flatten fs)).
  Proof.
    induction fs as [|f fs IH]; intros H; [reflexivity|]. cbn [new_flats filter]. rewrite IH by (intros; eapply H; eauto; now right).
    destruct (is_flatten f) eqn:E; unfold is_flatten in E; destruct (f_mode f) as [| |id|] eqn:M; try discriminate; try reflexivity.
    rewrite (H f id (or_introl eq_refl) M). cbn [P rest_user fu_new]. now rewrite Nat.eqb_refl.
  Qed.

  Lemma rest_keeps dbg fs f0 d pe v :
    fine_names fs -> filter is_flatten fs = [f0] -> f_mode f0 = MFlatten rid ->
    (dbg = true -> forall t i, propagating_act (fun a => forall v, fst a <> Ok v) (deser t i)) ->
    read_flat o alg P dbg fs (doc_events d) (FEndDocument pe) = Ok v <->
    exists ovs vs, read_flat o alg P dbg (own fs) (doc_events d) (FEndDocument pe) = Ok (VStruct ovs) /\
      merge fs ovs [rest_value (unknown_attrs fs d) (unknown_kids fs d)] vs /\ v = VStruct vs.
  Proof.
    intros FN F M PR.
    assert (NF : new_flats P fs = Some [fresh]).
    { rewrite rest_flats; [now rewrite F|]. intros f id Hf Mf.
      assert (In f (filter is_flatten fs)) as Hin. { apply filter_In. split; auto. unfold is_flatten. now rewrite Mf. }
      rewrite F in Hin. destruct Hin as [<-|[]]. congruence. }
    rewrite (flat_value o alg P dbg fs _ d pe v FN NF).
    2:{ intros E. split; [|auto]. intros s i act H. cbn in H. injection H as <-. intros e s' b. discriminate. }
    fold V.
    set (ps := pieces (spare_attrs fs (d_attrs d)) (spare_kids fs (d_kids d))).
    assert (FP : fu_finalize P (fold_left push_piece ps fresh) = Ok (rest_value (unknown_attrs fs d) (unknown_kids fs d))).
    { unfold ps, pieces. rewrite fold_left_app, push_attrs, push_kids. cbn [P rest_user fu_finalize fresh b_attributes b_children].
      rewrite app_nil_r, rev_involutive, push_weave_all, flat_map_filter. reflexivity. }
    split.
    - intros (ovs & fl' & rest & fvs & vs & R & FA & FZ & MG & ->). exists ovs, vs.
      inversion FA as [|s fl ps' s' r1 fl1 r2 FE FA']; subst.
      match goal with H : fed_all _ _ _ [] _ fl1 _ |- _ => inversion H; subst end.
      apply fed_rest in FE; [|apply pieces_elems]. destruct FE as [-> ->]. fold ps in FZ.
      inversion FZ as [|x y l1 l2 FZ1 FZ2]; subst. inversion FZ2; subst.
      rewrite FP in FZ1. injection FZ1 as <-. auto.
    - intros (ovs & vs & R & MG & ->). exists ovs, [fold_left push_piece ps fresh], [], [rest_value (unknown_attrs fs d) (unknown_kids fs d)], vs.
      split; [exact R|]. split; [|split; [constructor; [exact FP|constructor]|auto]].
      econstructor; [|constructor]. apply fed_rest; [apply pieces_elems|]. auto.
  Qed.
End Reading.

(** ** Writing *)

Lemma NoDup_app_intro {A} (l l' : list A) : NoDup l -> NoDup l' -> (forall x, In x l -> ~ In x l') -> NoDup (l ++ l').
Proof.
  induction 1 as [|x l N H IH]; intros N' D; [exact N'|]. cbn. constructor.
  - rewrite in_app_iff. intros [E|E]; [auto|]. apply (D x); [now left|exact E].
  - apply IH; auto. intros y Hy. apply D. now right.
Qed.

Lemma NoDup_app_l {A} (l l' : list A) : NoDup (l ++ l') -> NoDup l.
Proof.
  induction l as [|x l IH]; intros H; [constructor|]. inversion H; subst. constructor; auto.
  intros E. match goal with N : ~ _ |- _ => apply N, in_or_app; now left end.
Qed.

Lemma req_attrs_mappings nss : req_attrs (mappings nss) = [].
Proof. unfold mappings. induction nss; auto. Qed.

Lemma dom_hands_on px n attrs : hands_on (dom_start px n attrs).
Proof.
  unfold dom_start. induction (urls n attrs) as [|u us IH]; cbn [fold_right hands_on]; [|exact IH].
  induction attrs as [|[a v] attrs IH]; cbn [dom_attributes hands_on]; auto.
Qed.

Lemma rest_hands_on px v : hands_on (s_attrs (rest_serialize px v)).
Proof. unfold rest_serialize. destruct (as_rest v) as [[a k]|]; [apply dom_hands_on|exact I]. Qed.

Lemma merge_attrs o fs ovs fvs vs : merge fs ovs fvs vs -> forall l, attrs_are o fs vs l <-> attrs_are o (own fs) ovs l.
Proof.
  induction 1 as [|f fs v ovs fvs vs E M IH|f fs v ovs fvs vs E M IH]; intros l.
  - reflexivity.
  - unfold own. cbn [filter]. rewrite E. cbn [negb]. fold (own fs). split; intros H; inversion H; subst; try (eapply aa_here; eauto; now apply IH);
      try (eapply aa_none; eauto; now apply IH); apply aa_other; auto; now apply IH.
  - unfold own. cbn [filter]. rewrite E. cbn [negb]. fold (own fs). split; intros H.
    + inversion H; subst; try (unfold is_flatten in E; match goal with M : f_mode _ = _ |- _ => rewrite M in E end; discriminate).
      now apply IH.
    + apply aa_other; [|now apply IH]. unfold is_attribute, is_flatten in *. destruct (f_mode f); auto; discriminate.
Qed.

Lemma merge_kids R fs ovs fvs vs : merge fs ovs fvs vs -> forall l, own_kids R fs vs l <-> own_kids R (own fs) ovs l.
Proof.
  induction 1 as [|f fs v ovs fvs vs E M IH|f fs v ovs fvs vs E M IH]; intros l.
  - reflexivity.
  - unfold own. cbn [filter]. rewrite E. cbn [negb]. fold (own fs). split; intros H; inversion H; subst; try (eapply ok_here; eauto; now apply IH);
      apply ok_other; auto; now apply IH.
  - unfold own. cbn [filter]. rewrite E. cbn [negb]. fold (own fs). split; intros H.
    + inversion H; subst; try (unfold is_flatten in E; match goal with M : f_mode _ = _ |- _ => rewrite M in E end; discriminate).
      now apply IH.
    + apply ok_other; [|now apply IH]. unfold is_element, is_flatten in *. destruct (f_mode f); auto; discriminate.
Qed.

Lemma own_flattened R fs : forall ovs reqs kids, flattened R (own fs) ovs reqs kids -> reqs = [] /\ kids = [].
Proof.
  induction fs as [|f fs IH]; intros ovs reqs kids H; [inversion H; auto|].
  unfold own in H. cbn [filter] in H. destruct (is_flatten f) eqn:E; cbn [negb] in H; fold (own fs) in H; [eauto|].
  inversion H; subst; eauto.
  unfold is_flatten in E. match goal with M : f_mode _ = _ |- _ => rewrite M in E end. discriminate.
Qed.

Lemma own_no_flattened R fs : forall ovs, List.length ovs = List.length (own fs) -> flattened R (own fs) ovs [] [].
Proof.
  induction fs as [|f fs IH]; intros ovs L; unfold own in *; cbn [filter] in *.
  - destruct ovs; [constructor|discriminate].
  - destruct (is_flatten f) eqn:E; cbn [negb] in *; [now apply IH|]. destruct ovs as [|v ovs]; [discriminate|].
    apply fl_other; [exact E|]. apply IH. cbn in L. lia.
Qed.

Lemma merge_length fs ovs fvs vs : merge fs ovs fvs vs -> List.length ovs = List.length (own fs).
Proof.
  induction 1 as [|f fs v ovs fvs vs E M IH|f fs v ovs fvs vs E M IH]; [reflexivity| |];
    unfold own in *; cbn [filter]; rewrite E; cbn [negb List.length]; congruence.
Qed.

Lemma merge_no_flats fs ovs vs : merge fs ovs [] vs -> own fs = fs /\ ovs = vs.
Proof.
  intros H. remember [] as fvs eqn:Ef. induction H as [|f fs v ovs fvs vs E M IH|]; [auto| |discriminate].
  destruct (IH Ef) as [E1 ->]. unfold own in *. cbn [filter]. rewrite E. cbn [negb]. now rewrite E1.
Qed.

Lemma merge_flattened R fs ovs fv vs rid : merge fs ovs [fv] vs ->
  (forall f id, In f fs -> f_mode f = MFlatten id -> id = rid) ->
  forall reqs kids, flattened R fs vs reqs kids <-> R (ERef rid) fv reqs kids.
Proof.
  intros H. remember [fv] as fvs eqn:Ef. induction H as [|f fs v ovs fvs vs E M IH|f fs v ovs fvs vs E M IH]; intros HR reqs kids.
  - discriminate.
  - specialize (IH Ef). split; intros H.
    + inversion H; subst.
      * unfold is_flatten in E. match goal with M : f_mode _ = _ |- _ => rewrite M in E end. discriminate.
      * eapply IH; eauto. intros; eapply HR; eauto. now right.
    + apply fl_other; [exact E|]. apply IH; auto. intros; eapply HR; eauto. now right.
  - injection Ef as -> ->. destruct (merge_no_flats _ _ _ M) as [Eo <-]. split; intros H.
    + inversion H; subst; [|congruence].
      match goal with M : f_mode _ = MFlatten ?id |- _ => pose proof (HR _ _ (or_introl eq_refl) M) as ->; clear M end.
      match goal with H : flattened _ _ _ _ _ |- _ => rewrite <- Eo in H; apply own_flattened in H; destruct H as [-> ->] end.
      now rewrite !app_nil_r.
    + destruct (f_mode f) as [| |id|] eqn:Mf; try (unfold is_flatten in E; rewrite Mf in E; discriminate).
      pose proof (HR _ _ (or_introl eq_refl) Mf) as ->.
      rewrite <- (app_nil_r reqs), <- (app_nil_r kids). eapply fl_here; eauto. rewrite <- Eo.
      apply own_no_flattened. eapply merge_length; eauto.
Qed.

Lemma attrs_are_names o fs vs l : attrs_are o fs vs l ->
  forall a, In a (req_attrs l) -> In (fst a) (field_names is_attribute fs).
Proof.
  induction 1 as [|f fs opt t x s vs l M T H IH|f fs t vs l M H IH|f fs v vs l E H IH]; intros a Ha; cbn in Ha.
  - destruct Ha.
  - unfold field_names. cbn [filter]. unfold is_attribute at 1. rewrite M. cbn [map]. destruct Ha as [<-|Ha]; [now left|right]. now apply IH.
  - unfold field_names. cbn [filter]. unfold is_attribute at 1. rewrite M. cbn [map]. right. now apply IH.
  - unfold field_names. cbn [filter]. rewrite E. now apply IH.
Qed.

Definition known_elem (fs : list field) (t : wtree) : Prop :=
  exists n a k, t = TElem n a k /\ In n (field_names is_element fs).

Lemma own_kids_names R fs vs l : own_kids R fs vs l -> Forall (known_elem fs) (map tree_of l).
Proof.
  induction 1 as [|f fs k t v xs l vs l' M I E H IH|f fs v vs l E H IH].
  - constructor.
  - rewrite map_app. apply Forall_app. split.
    + clear - E M. induction E as [|v vs reqs kids l HR E IH]; cbn [map]; constructor; auto.
      cbn [tree_of]. do 3 eexists. split; [reflexivity|]. unfold field_names. cbn [filter]. unfold is_element at 1. rewrite M. now left.
    + eapply Forall_impl; [|exact IH]. intros u (n & a & ks & -> & Hn). do 3 eexists. split; [reflexivity|].
      unfold field_names in *. cbn [filter]. unfold is_element at 1. rewrite M. now right.
  - eapply Forall_impl; [|exact IH]. intros u (n & a & ks & -> & Hn). do 3 eexists. split; [reflexivity|].
    unfold field_names in *. cbn [filter]. rewrite E. exact Hn.
Qed.

Lemma own_names sel fs : (forall f, is_flatten f = true -> sel f = false) -> field_names sel (own fs) = field_names sel fs.
Proof.
  intros HS. unfold field_names, own. induction fs as [|f fs IH]; [reflexivity|]. cbn [filter].
  destruct (is_flatten f) eqn:E; cbn [negb filter]; [now rewrite (HS f E)|]. destruct (sel f); cbn [map]; now rewrite IH.
Qed.

Lemma flatten_attr f : is_flatten f = true -> is_attribute f = false.
Proof. unfold is_flatten, is_attribute. destruct (f_mode f); auto; discriminate. Qed.
Lemma flatten_elem f : is_flatten f = true -> is_element f = false.
Proof. unfold is_flatten, is_element. destruct (f_mode f); auto; discriminate. Qed.

Section Writing.
  Context (o : oracles) (env : tenv) (hand : nat -> option (value -> serialize)) (px : string -> string) (rid id oid : nat)
    (ident ident' : string) (root root' : dname) (nss : bmap string) (fs : list field) (f0 : field).
  Hypothesis hands : flattens_hand_on env hand.
  Hypothesis whole : env id = Some (TDStruct ident root nss fs).
  Hypothesis bare : env oid = Some (TDStruct ident' root' nss (own fs)).
  Hypothesis not_derived : env rid = None.
  Hypothesis by_hand : hand rid = Some (rest_serialize px).
  Hypothesis one_flat : filter is_flatten fs = [f0].
  Hypothesis is_rest : f_mode f0 = MFlatten rid.

  Lemma only_rid f i : In f fs -> f_mode f = MFlatten i -> i = rid.
  Proof.
    intros Hf Mf. assert (In f (filter is_flatten fs)) as Hin. { apply filter_In. split; auto. unfold is_flatten. now rewrite Mf. }
    rewrite one_flat in Hin. destruct Hin as [<-|[]]. congruence.
  Qed.

  Lemma rest_content ua uk reqs kids : NoDup (map fst ua) -> (forall c, In c uk -> expressible c) ->
    mcontent o env hand (ERef rid) (rest_value ua uk) reqs kids <->
    reqs = tag_reqs px (XName "" "") ua /\ kids = map (dom_request px) uk.
  Proof.
    intros N EX.
    assert (A1 : ask_a (s_attrs (rest_serialize px (rest_value ua uk))) [] = Some (tag_reqs px (XName "" "") ua)).
    { unfold rest_serialize. rewrite as_rest_value. cbn [s_attrs]. now apply ask_dom_start. }
    assert (A2 : ask_w (s_kids (rest_serialize px (rest_value ua uk))) [] [] = Some (map (dom_request px) uk)).
    { unfold rest_serialize. rewrite as_rest_value. cbn [s_kids]. unfold dom_children. rewrite ask_dom_kids; auto.
      2:{ apply Forall_forall. intros c _. apply ask_dom_child. }
      cbn zeta. rewrite put_root. reflexivity. }
    split.
    - intros H. inversion H; subst; try congruence.
      match goal with H : hand rid = Some _ |- _ => rewrite by_hand in H; injection H as <- end.
      split; congruence.
    - intros [-> ->]. eapply mco_hand; eauto.
  Qed.

  Definition added (T0 : rtree) (ua : list (xname * string)) (uk : list wtree) : rtree :=
    match T0 with
    | RElem n reqs kids => RElem n (reqs ++ tag_reqs px (XName "" "") ua) (kids ++ map (dom_request px) uk)
    | RText s => RText s
    end.

  Lemma tree_added T0 ua uk : tree_of (added T0 ua uk) = with_parts (tree_of T0) ua uk.
  Proof.
    destruct T0 as [n reqs kids|s]; [|reflexivity]. cbn [added tree_of with_parts].
    rewrite req_attrs_app, tag_reqs_attrs, map_app, map_map. f_equal. f_equal.
    rewrite <- (map_id uk) at 2. apply map_ext. intros t. apply tree_dom_request.
  Qed.

  Lemma rest_asked n ovs ua uk vs : merge fs ovs [rest_value ua uk] vs ->
    NoDup (map fst ua) -> (forall a, In a ua -> ~ In (fst a) (field_names is_attribute fs)) ->
    (forall c, In c uk -> expressible c) ->
    asked n (mser_value o env hand (ERef id) (VStruct vs)) =
    match asked n (mser_value o env hand (ERef oid) (VStruct ovs)) with
    | Some T0 => Some (added T0 ua uk)
    | None => None
    end.
  Proof.
    intros M N ND EX.
    assert (FL : forall reqs kids, flattened (mcontent o env hand) fs vs reqs kids <->
      reqs = tag_reqs px (XName "" "") ua /\ kids = map (dom_request px) uk).
    { intros. rewrite (merge_flattened _ _ _ _ _ rid M only_rid). now apply rest_content. }
    assert (W : forall rs ks, mcontent o env hand (ERef id) (VStruct vs) rs ks <->
      exists rs0 ks0, mcontent o env hand (ERef oid) (VStruct ovs) rs0 ks0 /\
        rs = rs0 ++ tag_reqs px (XName "" "") ua /\ ks = ks0 ++ map (dom_request px) uk).
    { intros rs ks. split.
      - intros H. inversion H; subst; try congruence.
        match goal with H : env id = Some (TDStruct _ _ _ _) |- _ => rewrite whole in H; injection H as <- <- <- <- end.
        match goal with H : flattened _ _ _ _ _ |- _ => apply FL in H; destruct H as [-> ->] end.
        do 2 eexists. split.
        + eapply (mco_struct _ _ _ oid); [exact bare|apply (merge_attrs _ _ _ _ _ M); eassumption|apply (merge_kids _ _ _ _ _ M); eassumption|].
          apply own_no_flattened. eapply merge_length; eauto.
        + rewrite !app_nil_r, <- app_assoc. auto.
      - intros (rs0 & ks0 & H & -> & ->). inversion H; subst; try congruence.
        match goal with H : env oid = Some (TDStruct _ _ _ _) |- _ => rewrite bare in H; injection H as <- <- <- <- end.
        match goal with H : flattened _ _ _ _ _ |- _ => apply own_flattened in H; destruct H as [-> ->] end.
        rewrite !app_nil_r, <- app_assoc. eapply (mco_struct _ _ _ id); [exact whole|apply (merge_attrs _ _ _ _ _ M); eassumption|apply (merge_kids _ _ _ _ _ M); eassumption|].
        apply FL. auto. }
    assert (A0 : forall T, asked n (mser_value o env hand (ERef oid) (VStruct ovs)) = Some T <->
      exists rs ks, mcontent o env hand (ERef oid) (VStruct ovs) rs ks /\ T = RElem n rs ks /\ distinct_attrs T)
      by (intros; now apply masked_iff).
    assert (A1 : forall T, asked n (mser_value o env hand (ERef id) (VStruct vs)) = Some T <->
      exists rs ks, mcontent o env hand (ERef id) (VStruct vs) rs ks /\ T = RElem n rs ks /\ distinct_attrs T)
      by (intros; now apply masked_iff).
    assert (D : forall rs ks, mcontent o env hand (ERef oid) (VStruct ovs) rs ks ->
      (distinct_attrs (RElem n rs ks) <-> distinct_attrs (added (RElem n rs ks) ua uk))).
    { intros rs ks C.
      assert (NM : forall a, In a (req_attrs rs) -> In (fst a) (field_names is_attribute fs)).
      { inversion C; subst; try congruence.
        match goal with H : env oid = Some (TDStruct _ _ _ _) |- _ => rewrite bare in H; injection H as <- <- <- <- end.
        match goal with H : flattened _ _ _ _ _ |- _ => apply own_flattened in H; destruct H as [-> ->] end.
        intros a. rewrite app_nil_r, req_attrs_app, in_app_iff. intros [Ha|Ha].
        - rewrite req_attrs_mappings in Ha. destruct Ha.
        - rewrite <- (own_names is_attribute fs flatten_attr). eapply attrs_are_names; eauto. }
      split; intros HD m reqs kids HS.
      - inversion HS; subst.
        + rewrite req_attrs_app, tag_reqs_attrs, map_app. apply NoDup_app_intro; auto.
          * apply (HD n rs ks). constructor.
          * intros x H1 H2. apply in_map_iff in H1, H2. destruct H1 as (a & <- & H1), H2 as (b & E & H2).
            apply (ND b H2). rewrite E. auto.
        + match goal with H : In _ (_ ++ _) |- _ => apply in_app_or in H; destruct H as [HK|HK] end.
          * eapply HD. eapply sub_kid; eauto.
          * apply in_map_iff in HK. destruct HK as (c & <- & Hc).
            match goal with H : subtree _ (dom_request _ _) |- _ => apply dom_subtree in H; [|now apply EX]; destruct H as (t' & Et & EX') end.
            destruct t' as [n' a' k'|]; [|discriminate]. cbn [dom_request] in Et. injection Et as -> -> ->. rewrite tag_reqs_attrs.
            inversion EX'; auto.
      - inversion HS; subst.
        + specialize (HD _ _ _ (sub_self _)). rewrite req_attrs_app, map_app in HD. eapply NoDup_app_l; eauto.
        + eapply HD. cbn [added]. eapply sub_kid; [|eassumption]. apply in_or_app. now left. }
    destruct (asked n (mser_value o env hand (ERef oid) (VStruct ovs))) as [T0|] eqn:E0.
    - apply A1. destruct (proj1 (A0 T0) eq_refl) as (rs & ks & C & -> & HD). cbn [added]. do 2 eexists. split; [|split; [reflexivity|]].
      + apply W. eauto.
      + now apply (D rs ks C).
    - destruct (asked n (mser_value o env hand (ERef id) (VStruct vs))) as [T|] eqn:E1; [|reflexivity]. exfalso.
      destruct (proj1 (A1 T) eq_refl) as (rs & ks & C & -> & HD). apply W in C. destruct C as (rs0 & ks0 & C & -> & ->).
      assert (X : None = Some (RElem n rs0 ks0)).
      { apply A0. do 2 eexists. split; [exact C|]. split; [reflexivity|]. now apply (D rs0 ks0 C). }
      discriminate X.
  Qed.
End Writing.

(** ** Both *)

Lemma in_weave c es : forall ts, In c (weave ts es) -> is_telem c = false \/ In c es.
Proof.
  induction es as [|e es IH]; intros [|s ts] H; cbn [weave] in H; auto; apply in_app_or in H; destruct H as [H|H].
  - unfold text_part in H. destruct (String.eqb s ""); [destruct H|]. destruct H as [<-|[]]. now left.
  - destruct H.
  - unfold text_part in H. destruct (String.eqb s ""); [destruct H|]. destruct H as [<-|[]]. now left.
  - destruct H as [<-|H]; [right; now left|]. destruct (IH _ H); [now left|right; now right].
Qed.

Lemma weave_in c es : In c es -> forall ts, In c (weave ts es).
Proof.
  induction es as [|e es IH]; intros H ts; [destruct H|]. destruct ts as [|s ts]; [exact H|]. cbn [weave].
  apply in_or_app. right. destruct H as [<-|H]; [now left|right]. now apply IH.
Qed.

Lemma NoDup_map_filter {A B} (f : A -> B) p (l : list A) : NoDup (map f l) -> NoDup (map f (filter p l)).
Proof.
  induction l as [|x l IH]; intros H; [constructor|]. cbn [map] in H. inversion H; subst. cbn [filter].
  destruct (p x); [|auto]. cbn [map]. constructor; auto. intros E. apply in_map_iff in E. destruct E as (y & Ey & Hy).
  apply filter_In in Hy. match goal with N : ~ _ |- _ => apply N end. rewrite <- Ey. apply in_map. tauto.
Qed.

Lemma unknown_attrs_distinct fs d : expressible (dom_of (d_root d)) -> NoDup (map fst (unknown_attrs fs d)).
Proof.
  intros EX. unfold d_root in EX. cbn [dom_of] in EX. inversion EX as [|n a k N _ _ _]; subst.
  unfold unknown_attrs. rewrite map_map in *. unfold spare_attrs. now apply NoDup_map_filter.
Qed.

Lemma xn_eqb_true a b : xn_eqb a b = true <-> a = b.
Proof.
  destruct a as [u l], b as [u' l']. unfold xn_eqb. cbn. rewrite andb_true_iff, !String.eqb_eq. split; [intros [-> ->]|intros [=]]; auto.
Qed.

Lemma existsb_name n l : existsb (xn_eqb n) l = true <-> In n l.
Proof.
  rewrite existsb_exists. split.
  - intros (x & Hx & E). apply xn_eqb_true in E. now subst.
  - intros H. exists n. split; [exact H|]. now apply xn_eqb_true.
Qed.

Lemma unknown_attrs_names fs d a : In a (unknown_attrs fs d) -> ~ In (fst a) (field_names is_attribute fs).
Proof.
  unfold unknown_attrs. rewrite in_map_iff. intros (x & <- & H) HI. apply filter_In in H. destruct H as [_ H]. cbn [fst] in HI.
  apply existsb_name in HI. rewrite HI in H. discriminate.
Qed.

Lemma unknown_kids_expressible fs d c : expressible (dom_of (d_root d)) -> In c (unknown_kids fs d) -> expressible c.
Proof.
  intros EX H. unfold d_root in EX. cbn [dom_of] in EX. inversion EX as [|n a k _ _ _ EK]; subst.
  apply in_weave in H. destruct H as [H|H]; [destruct c; [discriminate|constructor]|].
  apply EK. apply weave_in. rewrite flat_map_filter. apply in_map_iff in H. destruct H as (x & <- & H).
  apply filter_In in H. destruct H as [H E]. apply in_map. apply filter_In. split; [|exact E].
  unfold spare_kids in H. apply filter_In in H. tauto.
Qed.

(** An element with a name that no field is for. *)
Definition unknown_elem (fs : list field) (t : wtree) : Prop :=
  forall n a k, t = TElem n a k -> ~ In n (field_names is_element fs).

Lemma name_in_elem ns name attrs m p kids pe :
  name_in ns (NElem name attrs m p kids pe) = true <-> In (from_xml_name name) ns.
Proof.
  unfold name_in. rewrite existsb_exists. split.
  - intros (x & Hx & E). cbn in E. apply xn_eqb_true in E. now subst.
  - intros H. exists (from_xml_name name). split; [exact H|]. cbn. now apply xn_eqb_true.
Qed.

Lemma unknown_kids_names fs d c : In c (unknown_kids fs d) -> unknown_elem fs c.
Proof.
  intros H n a k ->. apply in_weave in H. destruct H as [H|H]; [discriminate|].
  apply in_map_iff in H. destruct H as (x & E & H). apply filter_In in H. destruct H as [H _].
  unfold spare_kids in H. apply filter_In in H. destruct H as [_ H]. destruct x as [name at' m p kids pe| | |]; try discriminate E.
  cbn [dom_of] in E. injection E as <- _ _. intros HI. apply (name_in_elem _ name at' m p kids pe) in HI. now rewrite HI in H.
Qed.

Lemma split_first kids : forall e es ts, filter is_elem kids = e :: es -> node_texts kids = ""%string :: ts ->
  exists k1 k2, kids = k1 ++ e :: k2 /\ forallb (fun c => negb (is_elem c)) k1 = true /\
    (forall l, node_texts (k1 ++ l) = node_texts l) /\ filter is_elem k2 = es /\ node_texts k2 = ts.
Proof.
  induction kids as [|c kids IH]; intros e es ts HE HT; [discriminate|].
  destruct c as [name attrs m p ks pe|cd s p|mi p|s p].
  - cbn in HE, HT. injection HE as <- <-. injection HT as <-. exists [], kids. repeat split; auto.
  - cbn [filter is_elem] in HE. cbn [node_texts] in HT.
    destruct (node_texts kids) as [|h r] eqn:N; [now apply node_texts_some in N|]. cbn [onto] in HT. injection HT as Hs <-.
    assert (s = ""%string) by (destruct s; [reflexivity|discriminate]). subst s. cbn in Hs. subst h.
    destruct (IH e es r HE eq_refl) as (k1 & k2 & -> & F & T & F2 & T2).
    exists (NText cd "" p :: k1), k2. repeat split; auto. intros l. cbn [List.app node_texts]. rewrite T.
    apply onto_empty, node_texts_some.
  - cbn [filter is_elem] in HE. cbn [node_texts] in HT. destruct (IH e es ts HE HT) as (k1 & k2 & -> & F & T & F2 & T2).
    exists (NMisc mi p :: k1), k2. repeat split; auto.
  - cbn [filter is_elem] in HE. cbn [node_texts] in HT. destruct (IH e es ts HE HT) as (k1 & k2 & -> & F & T & F2 & T2).
    exists (NBlank s p :: k1), k2. repeat split; auto.
Qed.

Lemma name_in_other ns c : is_elem c = false -> name_in ns c = false.
Proof. intros E. unfold name_in. induction ns as [|n ns IH]; [reflexivity|]. cbn [existsb]. rewrite IH. destruct c; try discriminate; reflexivity. Qed.

Lemma spare_no_elems fs k : forallb (fun c => negb (is_elem c)) k = true -> spare_kids fs k = k.
Proof.
  unfold spare_kids. induction k as [|c k IH]; [reflexivity|]. cbn. rewrite andb_true_iff. intros [E F].
  assert (name_in (field_names is_element fs) c = false) as ->.
  { apply name_in_other. now destruct (is_elem c). }
  cbn. now rewrite IH.
Qed.

Lemma filter_no_elems k : forallb (fun c => negb (is_elem c)) k = true -> filter is_elem k = [].
Proof. induction k as [|c k IH]; [reflexivity|]. cbn. rewrite andb_true_iff. intros [E F]. destruct (is_elem c); [discriminate|auto]. Qed.

Lemma spare_shown fs U : Forall (unknown_elem fs) U -> forall K kids,
  Forall (known_elem fs) K ->
  Forall2 shows (filter is_telem (K ++ U)) (filter is_elem kids) ->
  node_texts kids = map seen (texts (K ++ U)) ->
  Forall2 shows (filter is_telem U) (filter is_elem (spare_kids fs kids)) /\
  node_texts (spare_kids fs kids) = map seen (texts U).
Proof.
  intros HU. induction K as [|t K IH]; intros kids HK HS HT.
  - cbn [List.app] in *.
    assert (E : spare_kids fs kids = kids).
    { assert (G : forall es us, Forall2 shows us es -> Forall (unknown_elem fs) us ->
        Forall (fun c => name_in (field_names is_element fs) c = false) es).
      { induction 1 as [|u e us es Hue _ IH']; intros Hu; constructor; inversion Hu; subst; auto.
        inversion Hue; subst. destruct (name_in _ _) eqn:Nm; [|reflexivity]. apply name_in_elem in Nm.
        match goal with H : unknown_elem _ _ |- _ => now apply (H _ _ _ eq_refl) in Nm end. }
      specialize (G _ _ HS (Forall_filter _ _ _ HU)). clear - G. unfold spare_kids.
      induction kids as [|c kids IH]; [reflexivity|]. cbn [filter] in *. destruct (is_elem c) eqn:E.
      - inversion G as [|c' l' Hc G']; subst. rewrite Hc. cbn [negb]. now rewrite IH.
      - assert (name_in (field_names is_element fs) c = false) as ->.
        { apply name_in_other. now destruct (is_elem c). }
        cbn [negb]. now rewrite IH. }
    rewrite E. auto.
  - inversion HK as [|t' K' (n & a & k & -> & Hn) HK']; subst.
    cbn [List.app filter is_telem texts map] in HS, HT. inversion HS as [|u e us es Hue HS' E1 E2]; subst.
    change (seen "") with ""%string in HT.
    destruct (split_first kids e es (map seen (texts (K ++ U))) (eq_sym E2) HT) as (k1 & k2 & -> & F & T & <- & T2).
    assert (X : spare_kids fs (k1 ++ e :: k2) = k1 ++ spare_kids fs k2).
    { unfold spare_kids. rewrite filter_app. cbn [filter].
      assert (name_in (field_names is_element fs) e = true) as ->.
      { inversion Hue; subst. now apply name_in_elem. }
      cbn [negb]. f_equal. exact (spare_no_elems fs k1 F). }
    rewrite X, T, filter_app, (filter_no_elems k1 F). cbn [List.app]. now apply IH.
Qed.

Lemma unknown_again fs n A K ua U d' :
  (forall a, In a A -> In (fst a) (field_names is_attribute fs)) ->
  (forall a, In a ua -> ~ In (fst a) (field_names is_attribute fs)) ->
  Forall (known_elem fs) K -> Forall (unknown_elem fs) U ->
  shows (TElem n (A ++ ua) (K ++ U)) (d_root d') ->
  unknown_attrs fs d' = ua /\ TElem n [] (unknown_kids fs d') = clean (TElem n [] U).
Proof.
  intros HA Hua HK HU HS. unfold d_root in HS. inversion HS; subst.
  match goal with H : map _ (d_attrs d') = _ |- _ => rename H into EA end.
  split.
  - unfold unknown_attrs, spare_attrs.
    assert (G : forall l, map (fun a => (from_xml_name (a_name a), a_value a))
        (filter (fun a => negb (existsb (xn_eqb (from_xml_name (a_name a))) (field_names is_attribute fs))) l) =
      filter (fun x => negb (existsb (xn_eqb (fst x)) (field_names is_attribute fs)))
        (map (fun a => (from_xml_name (a_name a), a_value a)) l)).
    { induction l as [|x l IH]; [reflexivity|]. cbn [map filter fst]. destruct (negb _); cbn [map]; now rewrite IH. }
    rewrite G, EA, filter_app.
    assert (filter (fun x => negb (existsb (xn_eqb (fst x)) (field_names is_attribute fs))) A = []) as ->.
    { clear - HA. induction A as [|x A IH]; [reflexivity|]. cbn [filter].
      rewrite (proj2 (existsb_name (fst x) _)) by (apply HA; now left). apply IH. intros; apply HA; now right. }
    cbn [List.app]. clear - Hua. induction ua as [|x ua IH]; [reflexivity|]. cbn [filter].
    destruct (existsb (xn_eqb (fst x)) (field_names is_attribute fs)) eqn:E.
    + apply existsb_name in E. exfalso. apply (Hua x); [now left|exact E].
    + cbn [negb]. f_equal. apply IH. intros; apply Hua; now right.
  - match goal with H1 : Forall2 shows _ _, H2 : node_texts _ = _ |- _ => destruct (spare_shown fs U HU K (d_kids d') HK H1 H2) as [S1 S2] end.
    assert (SH : shows (TElem (from_xml_name (d_name d')) [] U) (NElem (d_name d') [] [] (d_pos d') (spare_kids fs (d_kids d')) (d_pe d')))
      by (constructor; auto).
    apply dom_of_shown in SH. rewrite <- SH. cbn [dom_of map]. unfold unknown_kids. now rewrite flat_map_filter.
Qed.

(** The parts that the struct writes of its own accord. *)
Lemma asked_known o env hand oid ident root nss fs ovs n T0 : flattens_hand_on env hand ->
  env oid = Some (TDStruct ident root nss (own fs)) ->
  asked n (mser_value o env hand (ERef oid) (VStruct ovs)) = Some T0 ->
  exists A K, tree_of T0 = TElem n A K /\
    (forall a, In a A -> In (fst a) (field_names is_attribute fs)) /\ Forall (known_elem fs) K.
Proof.
  intros HH E A. apply masked_iff in A; [|exact HH]. destruct A as (rs & ks & C & -> & _).
  inversion C; subst; try congruence.
  match goal with H : env oid = Some (TDStruct _ _ _ _) |- _ => rewrite E in H; injection H as <- <- <- <- end.
  match goal with H : flattened _ _ _ _ _ |- _ => apply own_flattened in H; destruct H as [-> ->] end.
  cbn [tree_of]. do 2 eexists. split; [reflexivity|]. rewrite !app_nil_r, req_attrs_app, req_attrs_mappings. split.
  - intros a Ha. rewrite <- (own_names is_attribute fs flatten_attr). eapply attrs_are_names; eauto.
  - match goal with H : own_kids _ _ _ _ |- _ => apply own_kids_names in H; eapply Forall_impl; [|exact H] end.
    intros t (m & a & k & -> & Hm). do 3 eexists. split; [reflexivity|]. now rewrite <- (own_names is_element fs flatten_elem).
Qed.

Theorem rest_survives : forall o alg dbg env hand px rid id oid ident ident' root root' nss fs f0 deser d pe v,
  flattens_hand_on env hand ->
  env id = Some (TDStruct ident root nss fs) -> env oid = Some (TDStruct ident' root' nss (own fs)) ->
  env rid = None -> hand rid = Some (rest_serialize px) ->
  fine_names fs -> filter is_flatten fs = [f0] -> f_mode f0 = MFlatten rid ->
  (dbg = true -> forall t i, propagating_act (fun a => forall v, fst a <> Ok v) (deser t i)) ->
  expressible (dom_of (d_root d)) ->
  read_flat o alg (rest_user rid deser) dbg fs (doc_events d) (FEndDocument pe) = Ok v ->
  exists ovs, read_flat o alg (rest_user rid deser) dbg (own fs) (doc_events d) (FEndDocument pe) = Ok (VStruct ovs) /\
  forall n,
    match asked n (mser_value o env hand (ERef oid) (VStruct ovs)) with
    | Some T0 => exists T, asked n (mser_value o env hand (ERef id) v) = Some T /\
        tree_of T = with_parts (tree_of T0) (unknown_attrs fs d) (unknown_kids fs d) /\
        forall t' d', indented (tree_of T) t' -> shows t' (d_root d') ->
          unknown_attrs fs d' = unknown_attrs fs d /\
          TElem n [] (unknown_kids fs d') = clean (TElem n [] (unknown_kids fs d))
    | None => asked n (mser_value o env hand (ERef id) v) = None
    end.
Proof.
  intros o alg dbg env hand px rid id oid ident ident' root root' nss fs f0 deser d pe v HH W B ND BH FN OF IR PR EX R.
  apply (rest_keeps o alg rid deser dbg fs f0) in R; auto. destruct R as (ovs & vs & R & M & ->).
  exists ovs. split; [exact R|]. intros n.
  rewrite (rest_asked o env hand px rid id oid ident ident' root root' nss fs f0 HH W B ND BH OF IR n ovs _ _ vs M).
  - destruct (asked n (mser_value o env hand (ERef oid) (VStruct ovs))) as [T0|] eqn:E0; [|reflexivity].
    eexists. split; [reflexivity|]. rewrite tree_added. split; [reflexivity|]. intros t' d' HI HS.
    destruct (asked_known o env hand oid _ _ _ fs ovs n T0 HH B E0) as (A & K & ET & HA & HK). rewrite ET in *. cbn [with_parts] in *.
    apply (unknown_again fs n A K); auto.
    + apply unknown_attrs_names.
    + apply Forall_forall. intros c Hc. eapply unknown_kids_names; eauto.
    + eapply shows_indented; eauto.
  - now apply unknown_attrs_distinct.
  - apply unknown_attrs_names.
  - intros c. now apply unknown_kids_expressible.
Qed.
