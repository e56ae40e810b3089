From Coq Require Import Lia.
From Verif Require Import Base DisplayProofs Normalize Text Find FindProofs Types NsSpec NsMeaning ScopeSpec Ser SerSpec DeriveSer DSerSpec
  DSerProofs Reader ReaderSpec ReaderProofs DeriveDe DeSpec DeriveMixed DeriveMixedSer MixedSerSpec MixedSer DeriveFlat FlatSpec FlatProofs
  RTSpec RTProps Dom DomSpec DomProofs RestSpec RestProofs Many ManySpec.

(** ** Names *)

Lemma choice_from_some cs : forall i n k t, NoDup (map fst cs) ->
  choice_from i cs n = Some (k, t) <-> exists j, k = i + j /\ nth_error cs j = Some (n, t).
Proof.
  induction cs as [|[m u] cs IH]; intros i n k t N; cbn [choice_from].
  - split; [discriminate|]. intros ([|j] & _ & H); discriminate.
  - inversion N as [|? ? Hm N']; subst. destruct (xn_eqb m n) eqn:E.
    + apply xn_eqb_true in E. subst m. split.
      * intros [= <- <-]. exists 0. split; [lia|reflexivity].
      * intros ([|j] & -> & H); cbn in H; [injection H as <-; now rewrite Nat.add_0_r|].
        exfalso. apply Hm. apply (in_map fst) with (x := (n, t)). eapply nth_error_In; eauto.
    + rewrite IH by exact N'. split.
      * intros (j & -> & H). exists (S j). split; [lia|exact H].
      * intros ([|j] & -> & H); cbn in H.
        -- injection H as -> ->. rewrite (proj2 (xn_eqb_true n n) eq_refl) in E. discriminate.
        -- exists j. split; [lia|exact H].
Qed.

Lemma choice_of_some cs n k t : NoDup (map fst cs) -> choice_of cs n = Some (k, t) <-> nth_error cs k = Some (n, t).
Proof.
  intros N. unfold choice_of. rewrite (choice_from_some cs 0 n k t N). split.
  - intros (j & -> & H). exact H.
  - intros H. exists k. auto.
Qed.

Lemma choice_from_none cs : forall i n, choice_from i cs n = None <-> ~ In n (map fst cs).
Proof.
  induction cs as [|[m u] cs IH]; intros i n; cbn [choice_from map In fst]; [intuition|].
  destruct (xn_eqb m n) eqn:E.
  - apply xn_eqb_true in E. subst m. split; [discriminate|]. intros H. exfalso. apply H. now left.
  - rewrite IH. split; [|intuition]. intros H [->|G]; [|auto].
    rewrite (proj2 (xn_eqb_true n n) eq_refl) in E. discriminate.
Qed.

(** ** Reading *)

Section Reading.
  Context (o : oracles) (alg : bs_alg) (mid : nat) (cs : choices)
    (deser : ety -> einfo -> action (fstate (list value)) (res verr value * list value)).
  Hypothesis names : NoDup (map fst cs).
  Let P := many_user mid cs deser.
  Let V := flat_visitors o alg P.

  Lemma sem_act_map {A B} (f : A -> B) rd path p kids pe (act : action (fstate (list value)) A) :
    fst (sem_act rd path p kids pe (amap f act)) =
    match fst (sem_act rd path p kids pe act) with inl a => inl (f a) | inr x => inr x end.
  Proof.
    destruct act as [a|k|s k]; cbn [amap sem_act]; [reflexivity| |].
    - destruct (sem_string path "" kids pe) as [[|e|x] pl]; reflexivity.
    - destruct (rd s) as [[[i|e|x] s'] pl]; reflexivity.
  Qed.

  Definition chosen_pieces (ps : list piece) : list node :=
    flat_map (fun p => match p with PElem c => if name_in (map fst cs) c then [c] else [] | _ => [] end) ps.

  Lemma take_item path name attrs ns p kids pe b k t s1 :
    nth_error cs k = Some (from_xml_name name, t) ->
    let c := NElem name attrs ns p kids pe in
    let path' := path ++ [SElem name p] in
    fst (sem_act (sem_read V c path) path' p kids pe (amap (fun '(r, _) =>
        match r with
        | Ok x => (Ok tt, VEnum k (Some x) :: b)
        | Err e => (Err e, b)
        | Abort x => (Abort x, b)
        end) (deser t (EInfo name ns (List.length path'))))) = inl (Ok tt, s1) <->
    exists v, s1 = v :: b /\ reads_as V deser cs path c v.
  Proof.
    intros NE. cbn zeta. rewrite sem_act_map. cbn [reads_as].
    destruct (fst (sem_act _ _ _ _ _ _)) as [[[x|e|y] l]|y] eqn:E.
    - split.
      + intros [= <-]. exists (VEnum k (Some x)). split; [reflexivity|]. exists k, t, x, l. auto.
      + intros (v & -> & k' & t' & x' & l' & NE' & -> & H).
        apply (choice_of_some cs _ _ _ names) in NE, NE'. rewrite NE in NE'. injection NE' as <- <-.
        rewrite E in H. injection H as <- <-. reflexivity.
    - split; [discriminate|]. intros (v & -> & k' & t' & x' & l' & NE' & -> & H).
      apply (choice_of_some cs _ _ _ names) in NE, NE'. rewrite NE in NE'. injection NE' as <- <-. congruence.
    - split; [discriminate|]. intros (v & -> & k' & t' & x' & l' & NE' & -> & H).
      apply (choice_of_some cs _ _ _ names) in NE, NE'. rewrite NE in NE'. injection NE' as <- <-. congruence.
    - split; [discriminate|]. intros (v & -> & k' & t' & x' & l' & NE' & -> & H).
      apply (choice_of_some cs _ _ _ names) in NE, NE'. rewrite NE in NE'. injection NE' as <- <-. congruence.
  Qed.

  Lemma name_in_choices name attrs ns p kids pe : name_in (map fst cs) (NElem name attrs ns p kids pe) =
    match choice_of cs (from_xml_name name) with Some _ => true | None => false end.
  Proof.
    destruct (choice_of cs (from_xml_name name)) as [[k t]|] eqn:E.
    - apply name_in_elem. apply (choice_of_some cs _ _ _ names) in E. apply (in_map fst) with (x := (from_xml_name name, t)).
      eapply nth_error_In; eauto.
    - destruct (name_in _ _) eqn:H; [|reflexivity]. apply name_in_elem in H. unfold choice_of in E.
      now apply choice_from_none in E.
  Qed.

  Lemma fed_many path ps : Forall (fun p => match p with PElem c => is_elem c = true | _ => True end) ps ->
    forall b b', (exists rest, fed V P path b ps b' rest) <->
      exists vs, b' = rev vs ++ b /\ Forall2 (reads_as V deser cs path) (chosen_pieces ps) vs.
  Proof.
    induction 1 as [|x ps Hx HF IH]; intros b b'.
    - split.
      + intros (r & H). inversion H; subst. exists []. split; [reflexivity|constructor].
      + intros (vs & -> & H). inversion H; subst. exists []. constructor.
    - destruct x as [n v|s p|c].
      + cbn [chosen_pieces flat_map]. fold (chosen_pieces ps). cbn [List.app]. rewrite <- IH. split; intros (r & H).
        * inversion H; subst; match goal with H : fu_attribute _ _ _ _ = _ |- _ => cbn in H; inversion H; subst end. eauto.
        * eexists. eapply fed_attr_pass; [reflexivity|exact H].
      + cbn [chosen_pieces flat_map]. fold (chosen_pieces ps). cbn [List.app]. rewrite <- IH. split; intros (r & H).
        * inversion H; subst; match goal with H : fu_characters _ _ _ _ = _ |- _ => cbn in H; inversion H; subst end. eauto.
        * eexists. eapply fed_text_pass; [reflexivity|exact H].
      + destruct c as [name attrs ns p kids pe| | |]; try discriminate.
        cbn [chosen_pieces flat_map]. fold (chosen_pieces ps). rewrite name_in_choices.
        destruct (choice_of cs (from_xml_name name)) as [[k t]|] eqn:CO.
        * pose proof (proj1 (choice_of_some cs _ _ _ names) CO) as NE. split.
          -- intros (r & H). inversion H; subst;
               match goal with H : fu_element _ _ _ = _ |- _ => cbn [P many_user fu_element ei_name] in H; rewrite CO in H end; [|discriminate].
             match goal with H : Take _ = Take _ |- _ => injection H as <- end.
             match goal with H : fst (sem_act _ _ _ _ _ _) = inl (Ok tt, ?s) |- _ => apply (take_item path name attrs ns p kids pe b k t s NE) in H; destruct H as (v & -> & RA) end.
             destruct (proj1 (IH _ _) (ex_intro _ r ltac:(eassumption))) as (vs & -> & F2). exists (v :: vs).
             split; [cbn [rev]; now rewrite <- app_assoc|]. now constructor.
          -- intros (vs & -> & F2). inversion F2 as [|? v ? vs' RA F2']; subst.
             destruct (proj2 (IH (v :: b) (rev vs' ++ v :: b)) ltac:(eauto)) as (r & H). exists r.
             cbn [rev]. rewrite <- app_assoc. cbn [List.app]. eapply fed_elem_take.
             ++ cbn [P many_user fu_element ei_name]. rewrite CO. reflexivity.
             ++ apply (take_item path name attrs ns p kids pe b k t _ NE). eauto.
             ++ exact H.
        * cbn [List.app]. rewrite <- IH. split; intros (r & H).
          -- inversion H; subst;
               match goal with H : fu_element _ _ _ = _ |- _ => cbn [P many_user fu_element ei_name] in H; rewrite CO in H end; [discriminate|].
             match goal with H : Pass _ = Pass _ |- _ => injection H as <- end. eauto.
          -- eexists. eapply fed_elem_pass; [cbn [P many_user fu_element ei_name]; now rewrite CO|exact H].
  Qed.

  Lemma chosen_spare attrs kids : chosen_pieces (pieces attrs kids) = filter (name_in (map fst cs)) kids.
  Proof.
    unfold chosen_pieces, pieces. rewrite flat_map_app.
    assert (flat_map (fun p => match p with PElem c => if name_in (map fst cs) c then [c] else [] | _ => [] end) (map attr_piece attrs) = []) as ->
      by (induction attrs; auto).
    cbn [List.app]. induction kids as [|c kids IH]; [reflexivity|]. cbn [flat_map filter]. rewrite flat_map_app, IH.
    destruct c; cbn [kid_piece flat_map List.app]; rewrite ?name_in_other by reflexivity; try reflexivity.
    destruct (name_in _ _); reflexivity.
  Qed.

  Lemma many_flats fs f0 : filter is_flatten fs = [f0] -> f_mode f0 = MFlatten mid -> new_flats P fs = Some [[]].
  Proof.
    intros F M. assert (H : forall f id, In f fs -> f_mode f = MFlatten id -> id = mid).
    { intros f id Hf Mf. assert (In f (filter is_flatten fs)) as Hin. { apply filter_In. split; auto. unfold is_flatten. now rewrite Mf. }
      rewrite F in Hin. destruct Hin as [<-|[]]. congruence. }
    assert (G : new_flats P fs = Some (map (fun _ => []) (filter is_flatten fs))); [|now rewrite G, F].
    clear F. induction fs as [|f fs IH]; [reflexivity|]. cbn [new_flats filter]. rewrite IH by (intros; eapply H; eauto; now right).
    destruct (is_flatten f) eqn:E; unfold is_flatten in E; destruct (f_mode f) as [| |id|] eqn:Mf; try discriminate; try reflexivity.
    rewrite (H f id (or_introl eq_refl) Mf). cbn [P many_user fu_new]. now rewrite Nat.eqb_refl.
  Qed.

  Lemma many_strict : (forall t i, propagating_act (fun a => forall v, fst a <> Ok v) (deser t i)) -> flat_strict P.
  Proof.
    intros PR. split; [|exact PR]. intros s i act H. cbn [P many_user fu_element] in H.
    destruct (choice_of cs (from_xml_name (ei_name i))) as [[k t]|]; [|discriminate]. injection H as <-.
    specialize (PR t i). destruct (deser t i) as [a|f|s0 f]; cbn [amap propagating_act] in *; auto.
    - intros e b. specialize (PR e). destruct (f (inr e)) as [[x|x|x] l]; cbn in *; try discriminate. now destruct (PR x).
    - intros e s' b. specialize (PR e s'). destruct (f (inr e) s') as [[x|x|x] l]; cbn in *; try discriminate. now destruct (PR x).
  Qed.

  Theorem many_read dbg fs f0 d pe v :
    fine_names fs -> filter is_flatten fs = [f0] -> f_mode f0 = MFlatten mid ->
    (dbg = true -> forall t i, propagating_act (fun a => forall v, fst a <> Ok v) (deser t i)) ->
    read_flat o alg P dbg fs (doc_events d) (FEndDocument pe) = Ok v <->
    exists ovs items vs, read_flat o alg P dbg (own fs) (doc_events d) (FEndDocument pe) = Ok (VStruct ovs) /\
      Forall2 (reads_as V deser cs [SElem (d_name d) (d_pos d)]) (chosen cs fs d) items /\
      merge fs ovs [VVec items] vs /\ v = VStruct vs.
  Proof.
    intros FN F M PR. rewrite (flat_value o alg P dbg fs [[]] d pe v FN (many_flats fs f0 F M)).
    2:{ intros E. now apply many_strict, PR. }
    fold V. unfold chosen. rewrite <- (chosen_spare (spare_attrs fs (d_attrs d))). split.
    - intros (ovs & fl' & rest & fvs & vs & R & FA & FZ & MG & ->).
      inversion FA as [|s fl ps' s' r1 fl1 r2 FE FA']; subst.
      match goal with H : fed_all _ _ _ [] _ fl1 _ |- _ => inversion H; subst end.
      destruct (proj1 (fed_many _ _ (pieces_elems _ _) _ _) (ex_intro _ _ FE)) as (items & -> & RA).
      inversion FZ as [|x y l1 l2 FZ1 FZ2]; subst. inversion FZ2; subst. cbn [P many_user fu_finalize] in FZ1.
      rewrite app_nil_r, rev_involutive in FZ1. injection FZ1 as <-. exists ovs, items, vs. auto.
    - intros (ovs & items & vs & R & RA & MG & ->).
      destruct (proj2 (fed_many _ _ (pieces_elems _ _) [] (rev items ++ [])) (ex_intro _ items (conj eq_refl RA))) as (r & FE).
      exists ovs, [rev items ++ []], r, [VVec items], vs. split; [exact R|]. split; [|split; [|auto]].
      + econstructor; [exact FE|constructor].
      + constructor; [|constructor]. cbn [P many_user fu_finalize]. now rewrite app_nil_r, rev_involutive.
  Qed.
End Reading.

(** ** Writing *)

Lemma many_hands_on nss cs sub v : hands_on (s_attrs (many_serialize nss cs sub v)).
Proof. destruct v; try exact I. cbn [many_serialize s_attrs]. apply hands_on_namespaces. exact I. Qed.

Section Writing.
  Context (o : oracles) (env : tenv) (hand : nat -> option (value -> serialize)) (mnss : bmap string) (cs : choices)
    (sub : ety -> value -> serialize) (mid id oid : nat)
    (ident ident' : string) (root root' : dname) (nss : bmap string) (fs : list field) (f0 : field).
  Hypothesis hands : flattens_hand_on env hand.
  Hypothesis whole : env id = Some (TDStruct ident root nss fs).
  Hypothesis bare : env oid = Some (TDStruct ident' root' nss (own fs)).
  Hypothesis not_derived : env mid = None.
  Hypothesis by_hand : hand mid = Some (many_serialize mnss cs sub).
  Hypothesis one_flat : filter is_flatten fs = [f0].
  Hypothesis is_many : f_mode f0 = MFlatten mid.

  Lemma only_mid f i : In f fs -> f_mode f = MFlatten i -> i = mid.
  Proof.
    intros Hf Mf. assert (In f (filter is_flatten fs)) as Hin. { apply filter_In. split; auto. unfold is_flatten. now rewrite Mf. }
    rewrite one_flat in Hin. destruct Hin as [<-|[]]. congruence.
  Qed.

  (** What an item asks for. *)
  Definition item_of (v : value) : option rtree :=
    match v with
    | VEnum k (Some x) => match nth_error cs k with Some (n, t) => asked n (sub t x) | None => None end
    | _ => None
    end.

  Lemma item_of_some v T : item_of v = Some T <-> asks_item cs sub v T.
  Proof.
    split.
    - intros H. destruct v as [| |k [x|]| | | |]; try discriminate. cbn [item_of] in H.
      destruct (nth_error cs k) as [[n t]|] eqn:E; [|discriminate]. exists k, n, t, x. auto.
    - intros (k & n & t & x & -> & E & H). cbn [item_of]. now rewrite E.
  Qed.

  Lemma writes_item {d} v : writes (fun k : option serr -> wprog d => write_item cs sub v k)
    (match item_of v with Some T => Some [T] | None => None end).
  Proof.
    destruct v as [| |i [x|]| | | |]; cbn [write_item item_of]; try apply writes_panic.
    destruct (nth_error cs i) as [[n t]|]; [|apply writes_panic].
    assert (W : writes (fun k' : option serr -> wprog (S d) => graft (s_kids (sub t x)) k') (ask_w (s_kids (sub t x)) [] [])).
    { intros k r st K. apply (graft_kids (s_kids (sub t x)) k r st K). }
    pose proof (writes_one n (s_attrs (sub t x)) _ _ W) as H. unfold asked.
    destruct (ask_a (s_attrs (sub t x)) []) as [rs|]; [|exact H]. destruct (ask_w (s_kids (sub t x)) [] []) as [ks|]; exact H.
  Qed.

  Lemma writes_items l : exists oks, (forall d, writes (fun k : option serr -> wprog d => for_each (write_item cs sub) l k) oks) /\
    (forall ks, oks = Some ks <-> Forall2 (asks_item cs sub) l ks).
  Proof.
    induction l as [|v l (ol & Wl & Cl)].
    - exists (Some []). split; [intros d; apply writes_nil|]. intros ks. split; [intros [= <-]; constructor|].
      intros H. inversion H. reflexivity.
    - eexists. split.
      + intros d. eapply writes_ext; [|apply writes_app; [apply writes_item|apply Wl]]. intros k. reflexivity.
      + intros ks. split.
        * intros B. apply both_inv in B. destruct B as (x & y & Bx & By & ->). destruct (item_of v) as [T|] eqn:E; [|discriminate].
          injection Bx as <-. cbn [List.app]. constructor; [now apply item_of_some|now apply Cl].
        * intros H. inversion H as [|? T ? Ts HT HTs]; subst. apply item_of_some in HT. rewrite HT.
          apply Cl in HTs. rewrite HTs. reflexivity.
  Qed.

  Lemma many_content items reqs kids :
    mcontent o env hand (ERef mid) (VVec items) reqs kids <-> reqs = mappings mnss /\ Forall2 (asks_item cs sub) items kids.
  Proof.
    destruct (writes_items items) as (oks & W & C).
    assert (A1 : ask_a (s_attrs (many_serialize mnss cs sub (VVec items))) [] = Some (mappings mnss)).
    { cbn [many_serialize s_attrs]. rewrite ask_namespaces. reflexivity. }
    assert (A2 : ask_w (s_kids (many_serialize mnss cs sub (VVec items))) [] [] = oks).
    { cbn [many_serialize s_kids]. rewrite (W 0 WRet [] []) by (intros e r s; reflexivity).
      destruct oks as [ks|]; [|reflexivity]. now rewrite add_kids_root. }
    split.
    - intros H. inversion H; subst; try congruence.
      match goal with H : hand mid = Some _ |- _ => rewrite by_hand in H; injection H as <- end.
      split; [congruence|]. now apply C.
    - intros [-> H]. apply C in H. eapply mco_hand; eauto. congruence.
  Qed.

  Lemma items_distinct items Ts : Forall2 (asks_item cs sub) items Ts -> Forall distinct_attrs Ts.
  Proof.
    induction 1 as [|v T items Ts (k & n & t & x & _ & _ & A) H IH]; constructor; auto. eapply asked_distinct; eauto.
  Qed.

  Theorem many_asked n ovs items vs : merge fs ovs [VVec items] vs -> forall T,
    asked n (mser_value o env hand (ERef id) (VStruct vs)) = Some T <->
    exists T0 Ts, asked n (mser_value o env hand (ERef oid) (VStruct ovs)) = Some T0 /\
      Forall2 (asks_item cs sub) items Ts /\ T = with_items T0 (mappings mnss) Ts.
  Proof.
    intros M T.
    assert (FL : forall reqs kids, flattened (mcontent o env hand) fs vs reqs kids <->
      reqs = mappings mnss /\ Forall2 (asks_item cs sub) items kids).
    { intros. rewrite (merge_flattened _ _ _ _ _ mid M only_mid). apply many_content. }
    rewrite (masked_iff o env hand hands). split.
    - intros (rs & ks & H & -> & D). inversion H; subst; try congruence.
      match goal with H : env id = Some (TDStruct _ _ _ _) |- _ => rewrite whole in H; injection H as <- <- <- <- end.
      match goal with H : flattened _ _ _ _ _ |- _ => apply FL in H; destruct H as [-> HTs] end.
      do 2 eexists. split; [|split; [exact HTs|]].
      + apply (masked_iff o env hand hands). do 2 eexists. split; [|split; [reflexivity|]].
        * eapply (mco_struct _ _ _ oid); [exact bare|apply (merge_attrs _ _ _ _ _ M); eassumption|apply (merge_kids _ _ _ _ _ M); eassumption|].
          apply own_no_flattened. eapply merge_length; eauto.
        * rewrite !app_nil_r. intros m reqs kids0 HS. inversion HS; subst.
          -- specialize (D _ _ _ (sub_self _)). rewrite !req_attrs_app in D. rewrite req_attrs_app.
             rewrite (req_attrs_mappings mnss), app_nil_r in D. exact D.
          -- eapply D. eapply sub_kid; [|eassumption]. apply in_or_app. now left.
      + cbn [with_items]. now rewrite !app_nil_r, <- app_assoc.
    - intros (T0 & Ts & A & HTs & ->). apply (masked_iff o env hand hands) in A. destruct A as (rs & ks & H & -> & D).
      cbn [with_items]. do 2 eexists. split; [|split; [reflexivity|]].
      + inversion H; subst; try congruence.
        match goal with H : env oid = Some (TDStruct _ _ _ _) |- _ => rewrite bare in H; injection H as <- <- <- <- end.
        match goal with H : flattened _ _ _ _ _ |- _ => apply own_flattened in H; destruct H as [-> ->] end.
        rewrite !app_nil_r, <- app_assoc. eapply (mco_struct _ _ _ id); [exact whole|apply (merge_attrs _ _ _ _ _ M); eassumption|apply (merge_kids _ _ _ _ _ M); eassumption|].
        apply FL. auto.
      + intros m reqs kids0 HS. inversion HS; subst.
        * rewrite req_attrs_app, req_attrs_mappings, app_nil_r. apply (D _ _ _ (sub_self _)).
        * match goal with H : In _ (_ ++ _) |- _ => apply in_app_or in H; destruct H as [HK|HK] end.
          -- eapply D. eapply sub_kid; eauto.
          -- pose proof (items_distinct _ _ HTs) as DI. rewrite Forall_forall in DI. eapply DI; eauto.
  Qed.
End Writing.

(** ** Both *)

Lemma tree_with_items T nss Ts : tree_of (with_items T (mappings nss) Ts) = with_parts (tree_of T) [] (map tree_of Ts).
Proof.
  destruct T as [n rs ks|s]; [|reflexivity]. cbn [with_items tree_of with_parts].
  now rewrite req_attrs_app, req_attrs_mappings, map_app.
Qed.

Lemma asked_elem n v T : asked n v = Some T -> exists rs ks, T = RElem n rs ks.
Proof.
  unfold asked. destruct (ask_a _ []) as [rs|]; [|discriminate]. destruct (ask_w _ [] []) as [ks|]; [|discriminate].
  intros [= <-]. eauto.
Qed.

Lemma filter_elems l : Forall (fun T => exists n rs ks, T = RElem n rs ks) l -> filter is_telem (map tree_of l) = map tree_of l.
Proof. induction 1 as [|T l (n & rs & ks & ->) H IH]; [reflexivity|]. cbn [map filter tree_of is_telem]. now rewrite IH. Qed.

Lemma filter_named cs l : filter (name_in cs) (filter is_elem l) = filter (name_in cs) l.
Proof.
  induction l as [|c l IH]; [reflexivity|]. cbn [filter]. destruct (is_elem c) eqn:E; cbn [filter]; rewrite IH; [reflexivity|].
  now rewrite name_in_other.
Qed.

Lemma filter_all_true {A} (p : A -> bool) l : Forall (fun x => p x = true) l -> filter p l = l.
Proof. induction 1 as [|x l H F IH]; [reflexivity|]. cbn [filter]. now rewrite H, IH. Qed.

Lemma filter_all_false {A} (p : A -> bool) l : Forall (fun x => p x = false) l -> filter p l = [].
Proof. induction 1 as [|x l H F IH]; [reflexivity|]. cbn [filter]. now rewrite H, IH. Qed.

(** In a document that shows the whole, the children called like choices show the items. *)
Lemma chosen_again cs fs sub n A K items Ts d' :
  (forall n, In n (map fst cs) -> ~ In n (field_names is_element fs)) ->
  Forall (known_elem fs) K -> Forall2 (asks_item cs sub) items Ts ->
  shows (TElem n A (K ++ map tree_of Ts)) (d_root d') ->
  Forall2 (fun T c => shows (tree_of T) c) Ts (chosen cs fs d').
Proof.
  intros DJ HK HT HS. unfold d_root in HS. inversion HS; subst.
  match goal with H : Forall2 shows _ _ |- _ => rename H into F2 end.
  assert (EL : Forall (fun T => exists n rs ks, T = RElem n rs ks /\ In n (map fst cs)) Ts).
  { clear - HT. induction HT as [|v T items Ts (k & n & t & x & -> & E & H) HT IH]; constructor; auto.
    destruct (asked_elem _ _ _ H) as (rs & ks & ->). do 3 eexists. split; [reflexivity|].
    apply (in_map fst) with (x := (n, t)). eapply nth_error_In; eauto. }
  rewrite filter_app in F2. rewrite (filter_elems Ts) in F2 by (eapply Forall_impl; [|exact EL]; intros T (m & rs & ks & E & _); eauto).
  apply Forall2_app_inv_l in F2. destruct F2 as (l1 & l2 & F1 & F2 & E).
  assert (G : chosen cs fs d' = l2).
  { unfold chosen, spare_kids. rewrite <- filter_named.
    assert (X : forall l, filter is_elem (filter (fun k => negb (name_in (field_names is_element fs) k)) l) =
      filter (fun k => negb (name_in (field_names is_element fs) k)) (filter is_elem l)).
    { induction l as [|c l IH]; [reflexivity|]. cbn [filter]. destruct (negb _) eqn:E1, (is_elem c) eqn:E2; cbn [filter]; rewrite ?E1, ?E2, IH; reflexivity. }
    rewrite X, E, !filter_app.
    assert (filter (fun k => negb (name_in (field_names is_element fs) k)) l1 = []) as ->.
    { apply filter_all_false. apply (Forall_filter _ is_telem) in HK. clear - F1 HK. induction F1 as [|t c ts l S F1 IH]; [constructor|].
      inversion HK as [|? ? (m & a & k & -> & Hm) HK']; subst. constructor; [|auto].
      inversion S; subst. now rewrite (proj2 (name_in_elem _ _ _ _ _ _ _) Hm). }
    cbn [filter List.app].
    assert (NI : Forall (fun c => exists name at' ns p ks pe, c = NElem name at' ns p ks pe /\ In (from_xml_name name) (map fst cs)) l2).
    { clear - F2 EL. remember (map tree_of Ts) as ts eqn:Et. revert Ts Et EL. induction F2 as [|t c ts l S F2 IH]; intros Ts Et EL; [constructor|].
      destruct Ts as [|T Ts]; [discriminate|]. injection Et as -> ->. inversion EL as [|? ? (m & rs & ks & -> & Hm) EL']; subst.
      cbn [tree_of] in S. constructor; [|eauto]. inversion S; subst. do 6 eexists. split; [reflexivity|exact Hm]. }
    rewrite (filter_all_true (fun k => negb (name_in (field_names is_element fs) k))).
    - apply filter_all_true. eapply Forall_impl; [|exact NI]. intros c (name & at' & ns' & p' & ks & pe' & -> & H). now apply name_in_elem.
    - eapply Forall_impl; [|exact NI]. intros c (name & at' & ns' & p' & ks & pe' & -> & H).
      destruct (name_in _ _) eqn:N; [|reflexivity]. apply name_in_elem in N. now destruct (DJ _ H). }
  rewrite G. clear - F2. revert l2 F2. induction Ts as [|T Ts IH]; intros l2 F2; inversion F2; subst; constructor; auto.
Qed.

Theorem many_survives : forall o alg dbg env hand mnss cs sub mid id oid ident ident' root root' nss fs f0 deser n ovs items vs T t' d' pe,
  flattens_hand_on env hand ->
  env id = Some (TDStruct ident root nss fs) -> env oid = Some (TDStruct ident' root' nss (own fs)) ->
  env mid = None -> hand mid = Some (many_serialize mnss cs sub) ->
  fine_names fs -> filter is_flatten fs = [f0] -> f_mode f0 = MFlatten mid ->
  NoDup (map fst cs) -> (forall n, In n (map fst cs) -> ~ In n (field_names is_element fs)) ->
  (dbg = true -> forall t i, propagating_act (fun a => forall v, fst a <> Ok v) (deser t i)) ->
  merge fs ovs [VVec items] vs ->
  asked n (mser_value o env hand (ERef id) (VStruct vs)) = Some T -> indented (tree_of T) t' -> shows t' (d_root d') ->
  let P := many_user mid cs deser in
  (forall v T1 c, In v items -> asks_item cs sub v T1 -> shows (tree_of T1) c ->
     reads_as (flat_visitors o alg P) deser cs [SElem (d_name d') (d_pos d')] c v) ->
  read_flat o alg P dbg (own fs) (doc_events d') (FEndDocument pe) = Ok (VStruct ovs) ->
  read_flat o alg P dbg fs (doc_events d') (FEndDocument pe) = Ok (VStruct vs).
Proof.
  intros o alg dbg env hand mnss cs sub mid id oid ident ident' root root' nss fs f0 deser n ovs items vs T t' d' pe
    HH W B ND BH FN OF IM N DJ PR M A HI HS P SV R.
  apply (many_asked o env hand mnss cs sub mid id oid ident ident' root root' nss fs f0 HH W B ND BH OF IM n ovs items vs M) in A.
  destruct A as (T0 & Ts & A & HTs & ->).
  destruct (asked_known o env hand oid _ _ _ fs ovs n T0 HH B A) as (At & K & ET & HA & HK).
  assert (SH : shows (tree_of (with_items T0 (mappings mnss) Ts)) (d_root d')) by (eapply shows_indented; eauto).
  rewrite tree_with_items, ET in SH. cbn [with_parts] in SH. rewrite app_nil_r in SH.
  pose proof (chosen_again cs fs sub n At K items Ts d' DJ HK HTs SH) as F2.
  apply (many_read o alg mid cs deser N dbg fs f0 d' pe _ FN OF IM PR). exists ovs, items, vs. split; [exact R|]. split; [|auto].
  fold P. clear - F2 HTs SV. revert items HTs SV. induction F2 as [|T1 c Ts l S F2 IH]; intros items HTs SV.
  - inversion HTs; subst. constructor.
  - inversion HTs as [|v T' items' Ts' HT HTs']; subst. constructor.
    + eapply SV; eauto. now left.
    + apply IH; [exact HTs'|]. intros v' T2 c' Hv. apply SV. now right.
Qed.

(** ** Choices with text *)

Lemma sem_string_texts path pe kids : forall acc, filter is_elem kids = [] ->
  exists s, node_texts kids = [s] /\ sem_string path acc kids pe = (Ok (acc ++ s)%string, (path, pe)).
Proof.
  induction kids as [|c kids IH]; intros acc H.
  - exists ""%string. split; [reflexivity|]. cbn. now rewrite append_nil_r.
  - destruct c as [| cd s p| |]; [discriminate| | |]; cbn [filter is_elem] in H; cbn [node_texts sem_string].
    + destruct (IH (acc ++ s)%string H) as (s' & -> & ->). exists (s ++ s')%string. split; [reflexivity|]. now rewrite append_assoc.
    + apply IH. exact H.
    + apply IH. exact H.
Qed.

Lemma text_item o St (V : visitors (fstate St)) env cs path k n t x s T1 c :
  nth_error cs k = Some (n, EText t) -> to_text o t x = Some s -> parse_text o t (seen s) = Ok x ->
  asked n (ser_value o env (EText t) (VText x)) = Some T1 -> shows (tree_of T1) c ->
  reads_as V (text_deser o) cs path c (VEnum k (Some (VText x))).
Proof.
  intros NE TT PT A S. unfold asked, ser_value in A. cbn [s_attrs s_kids ser_attrs ser_kids ask_a] in A. rewrite TT in A.
  cbn in A. injection A as <-. cbn [tree_of map req_attrs] in S. inversion S; subst.
  match goal with H : Forall2 shows _ _ |- _ => cbn in H; inversion H end.
  cbn [reads_as]. exists k, (EText t), (VText x), []. split; [exact NE|]. split; [reflexivity|]. cbn zeta.
  cbn [text_deser deserialize_text amap sem_act].
  destruct (sem_string_texts (path ++ [SElem name p]) pe kids' ""%string ltac:(auto)) as (s' & E1 & ->).
  match goal with H : node_texts kids' = _ |- _ => rewrite E1 in H; cbn in H; rewrite ?append_nil_r in H; injection H as -> end.
  cbn. rewrite PT. reflexivity.
Qed.
