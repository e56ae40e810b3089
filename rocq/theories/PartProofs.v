(** A value is read and written like its parts on their own: proofs. *)
From Verif Require Import Base Normalize Text Find FindProofs Types Ser SerSpec SerProofs Reader ReaderSpec DeSpec DeriveDe DeProps
  DeriveSer DSerSpec DSerProofs DSerProps PartSpec ReorderSer.
From Verif Require NsSpec NsMain NsMeaning.

Section Read.
  Context (o : oracles) (alg : bs_alg) (env : tenv).
  Hypothesis Hok : names_ok env.
  Notation R := (reads o env).
  Notation A := (read_alone o alg env).

  Lemma alone_iff t c v : is_elem c = true -> A t c v <-> R t c v.
  Proof.
    intros He. split.
    - intros (d & dbg & pe & <- & H). now apply read_as_iff in H.
    - intros H. destruct c as [name attrs ns p kids pe| | |]; try discriminate.
      exists (Doc (0, 0)%N [] name attrs ns p kids pe []), true, (0, 0)%N. split; [reflexivity|]. now apply read_as_iff.
  Qed.

  Lemma named_elem n kids : Forall (fun c => is_elem c = true) (named n kids).
  Proof.
    apply Forall_forall. intros c H. apply filter_In in H as [_ H]. destruct c; [reflexivity|discriminate..].
  Qed.

  Lemma occurs_iff (P Q : node -> value -> Prop) k cs v : Forall (fun c => forall v, P c v -> Q c v) cs ->
    occurs P k cs v -> occurs Q k cs v.
  Proof.
    intros F H. inversion H as [c x X|c x X|? vs N X]; subst; inversion F; subst; try (constructor; auto; fail); try contradiction.
    constructor; [discriminate|]. clear - F X. revert F.
    induction X as [|z y l0 l1 H _ IH]; intros F; [constructor|]. inversion F; subst. constructor; auto.
  Qed.

  Lemma field_iff (P Q : ety -> node -> value -> Prop) attrs kids f v :
    (forall t c v, is_elem c = true -> P t c v -> Q t c v) ->
    field_holds o P attrs kids f v -> field_holds o Q attrs kids f v.
  Proof.
    intros PQ H. inversion H as [k t ? M X|k t ? M X Y|opt t s x M X Y|opt t ? M X Y]; subst.
    - eapply fh_element; [exact M|]. eapply occurs_iff; [|exact X]. eapply Forall_impl; [|apply named_elem]. cbn. auto.
    - eapply fh_no_element; eauto.
    - eapply fh_attribute; eauto.
    - eapply fh_no_attribute; eauto.
  Qed.

  Lemma choice_iff (P Q : ety -> node -> value -> Prop) ws kids v :
    (forall t c v, is_elem c = true -> P t c v -> Q t c v) -> choice P ws kids v -> choice Q ws kids v.
  Proof.
    intros PQ H. inversion H as [i w X Y Z W|i w k t x X Y Z W]; subst.
    - eapply choice_unit; eauto.
    - eapply choice_field; eauto. eapply occurs_iff; [|exact W]. eapply Forall_impl; [|apply named_elem]. cbn. auto.
  Qed.

  Lemma fields_iff (P Q : ety -> node -> value -> Prop) attrs kids l fs vs :
    (forall t c v, is_elem c = true -> P t c v -> Q t c v) ->
    fields_hold o env P attrs kids l fs vs -> fields_hold o env Q attrs kids l fs vs.
  Proof.
    intros PQ H. induction H; [constructor|apply fhs_own; auto; eapply field_iff; eauto|eapply fhs_flatten; eauto; eapply choice_iff; eauto].
  Qed.

  Theorem struct_parts dbg id i r n fs d pe vs : env id = Some (TDStruct i r n fs) ->
    read_as o alg env dbg (ERef id) (doc_events d) (FEndDocument pe) = Ok (VStruct vs) <->
    fields_hold o env A (d_attrs d) (d_kids d) (unclaimed fs (d_kids d)) fs vs.
  Proof.
    intros E. rewrite read_as_iff by exact Hok. split; intros H.
    - inversion H as [|? ? ? ? fs0 ? ? ? ? ? ? ? E0 X|? ? ? ? ? ? ? ? ? ? ? ? ? E0 X]; subst; [|congruence].
      rewrite E in E0. injection E0 as <- <- <- <-. eapply fields_iff; [|exact X]. intros t c v He. now apply alone_iff.
    - econstructor; [exact E|]. eapply fields_iff; [|exact H]. intros t c v He. now apply alone_iff.
  Qed.

  Theorem enum_parts dbg id i r n ws sk d pe v : env id = Some (TDEnum i r n ws sk) ->
    read_as o alg env dbg (ERef id) (doc_events d) (FEndDocument pe) = Ok v <-> choice A ws (d_kids d) v.
  Proof.
    intros E. rewrite read_as_iff by exact Hok. split; intros H.
    - inversion H as [|? ? ? ? fs0 ? ? ? ? ? ? ? E0 X|? ? ? ? ? ? ? ? ? ? ? ? ? E0 X]; subst; [congruence|].
      rewrite E in E0. injection E0 as <- <- <- <- <-. eapply choice_iff; [|exact X]. intros t c x He. now apply alone_iff.
    - eapply reads_enum; [exact E|]. eapply choice_iff; [|exact H]. intros t c x He. now apply alone_iff.
  Qed.

  (** What is around an element does not matter. *)
  Theorem alone_all t d dbg pe v : A t (d_root d) v <-> read_as o alg env dbg t (doc_events d) (FEndDocument pe) = Ok v.
  Proof. rewrite alone_iff by reflexivity. now rewrite read_as_iff. Qed.
End Read.

Section Write.
  Context (o : oracles) (env : tenv) (pol : NsSpec.policy).
  Hypothesis HL : legal_env env.
  Hypothesis HD : no_default env.
  Hypothesis HC : pol = NsSpec.SkipIfAnywhere -> coherent_env env.
  Notation C := (content o env).

  Lemma alone_tree t v n rs ks : C t v rs ks ->
    (exists id d, env id = Some d /\ In n (expanded (td_root d) :: elem_names d)) ->
    written_alone o env pol t n v (tree_of (RElem n rs ks)).
  Proof.
    intros Hc (id & d & E & Hn) dbg w k H. destruct (success_content o env dbg w t v n k H) as (rs' & ks' & Hc' & A & _).
    destruct (content_det o env v _ _ _ _ _ Hc Hc') as [<- <-].
    destruct (content_asks o env _ _ _ _ n Hc) as (A1 & A2 & A3).
    eapply NsMeaning.to_meaning; [exact H|exact A| | |].
    - intros p u Ha. destruct (A1 p u Ha) as (i & d0 & E0 & Hin). exact (HL i d0 p u E0 Hin).
    - apply NsMeaning.default_apart. destruct HD as [D|D]; [left|right].
      + intros u Ha. destruct (A1 _ u Ha) as (i & d0 & E0 & Hin). exact (D i d0 u E0 Hin).
      + intros e He. destruct (A3 e He) as [->|(i & d0 & E0 & Hin)]; [eapply D; eauto|]. eapply D; eauto. now right.
    - intros Hp. destruct (HC Hp) as (f & F1 & F2). exists f. split.
      + intros p u Ha. destruct (A1 p u Ha) as (i & d0 & E0 & Hin). eauto.
      + intros u a Hu Ha. destruct (A1 _ u Hu) as (i & d0 & E0 & Hin). destruct (A2 a Ha) as (i' & d' & E' & Hin'). eauto.
  Qed.

  Lemma elems_alone n t xs l : (exists id d, env id = Some d /\ In n (expanded (td_root d) :: elem_names d)) ->
    elems_are C n t xs l -> Forall2 (written_alone o env pol t n) xs (map tree_of l).
  Proof. intros Hn H. induction H; cbn; constructor; auto. now apply alone_tree. Qed.

  Lemma own_alone id i r n fs0 : env id = Some (TDStruct i r n fs0) -> forall fs vs l, incl fs fs0 ->
    own_kids C fs vs l -> own_parts o env pol fs vs (map tree_of l).
  Proof.
    intros E fs vs l I H. induction H as [|f fs k t v xs l vs l' M It EA _ IH|f fs v vs l M _ IH]; [constructor| |].
    - rewrite map_app. eapply op_element; eauto; [|apply IH; intros x Hx; apply I; now right].
      apply elems_alone; [|exact EA]. exists id, (TDStruct i r n fs0). split; [exact E|]. right. cbn [elem_names].
      apply (in_map (fun f => expanded (f_name f))), filter_In. split; [apply I; now left|]. unfold is_element. now rewrite M.
    - apply op_other; [exact M|]. apply IH. intros x Hx; apply I; now right.
  Qed.

  Lemma flat_alone fs vs rs l : flattened C fs vs rs l -> flat_parts o env pol fs vs (req_attrs rs) (map tree_of l).
  Proof.
    intros H. induction H as [|f fs id v vs reqs kids reqs' kids' M Hc _ IH|f fs v vs reqs kids M _ IH]; [constructor| |now apply fp_other].
    rewrite req_attrs_apps, map_app. eapply fp_flatten; eauto. intros n Rn. apply (alone_tree (ERef id) v n reqs kids Hc).
    unfold root_name in Rn. destruct (env id) as [d|] eqn:E; [|discriminate]. exists id, d. split; [exact E|]. left. destruct d; now injection Rn.
  Qed.

  Lemma attrs_alone fs vs rs : attrs_are o fs vs rs -> attr_parts o fs vs (req_attrs rs).
  Proof.
    intros H. induction H as [|f fs opt t x s vs l M T _ IH|f fs t vs l M _ IH|f fs v vs l M _ IH]; cbn; [constructor| | |].
    - destruct opt; [eapply ap_some; eauto|eapply ap_one; eauto].
    - eapply ap_none; eauto.
    - now apply ap_other.
  Qed.

  Theorem struct_written dbg w id i r n fs vs k : env id = Some (TDStruct i r n fs) ->
    serialize_root o env dbg w id (VStruct vs) = inl (None, k) ->
    exists attrs own attrs' flat, attr_parts o fs vs attrs /\ own_parts o env pol fs vs own /\ flat_parts o env pol fs vs attrs' flat /\
      NsSpec.meaning [] (NsSpec.emit pol [] (k_out k)) = Some (NsSpec.tree_events (TElem (expanded r) (attrs ++ attrs') (own ++ flat))).
  Proof.
    intros E H. destruct (root_meaning o env dbg w id _ k pol HL HD HC H) as (m & rs & ks & Rn & Hc & M).
    unfold root_name in Rn. rewrite E in Rn. injection Rn as <-.
    inversion Hc as [|? ? ? ? fs0 ? attrs ks1 rs' ks2 E0 HA HO HF| | |]; subst. rewrite E in E0. injection E0 as <- <- <- <-.
    exists (req_attrs attrs), (map tree_of ks1), (req_attrs rs'), (map tree_of ks2).
    split; [now apply attrs_alone|]. split; [eapply own_alone; eauto; intros x Hx; exact Hx|]. split; [now apply flat_alone|].
    cbn [tree_of] in M. rewrite !req_attrs_apps, ReorderSer.mappings_none, map_app in M. exact M.
  Qed.

  Theorem enum_written dbg w id i r n ws sk j p k : env id = Some (TDEnum i r n ws sk) ->
    serialize_root o env dbg w id (VEnum j p) = inl (None, k) ->
    exists v l, nth_error (sorted_variants ws) j = Some v /\ variant_parts o env pol v p l /\
      NsSpec.meaning [] (NsSpec.emit pol [] (k_out k)) = Some (NsSpec.tree_events (TElem (expanded r) [] l)).
  Proof.
    intros E H. destruct (root_meaning o env dbg w id _ k pol HL HD HC H) as (m & rs & ks & Rn & Hc & M).
    unfold root_name in Rn. rewrite E in Rn. injection Rn as <-.
    inversion Hc as [| |? ? ? ? ws0 sk0 ? w0 E0 J0 W0|? ? ? ? ws0 sk0 ? w0 k0 t1 ? xs ks1 E0 J0 W0 I0 EA|]; subst;
      rewrite E in E0; injection E0 as <- <- <- <- <-; cbn [tree_of map] in M; rewrite ReorderSer.mappings_none in M.
    - eexists _, _. split; [exact J0|]. split; [|exact M]. now apply vp_unit.
    - eexists _, _. split; [exact J0|]. split; [|exact M]. eapply vp_payload; eauto. apply elems_alone; [|exact EA].
      exists id, (TDEnum i r n ws sk). split; [exact E|]. right. cbn [elem_names].
      apply (in_map (fun w => expanded (v_name w))). eapply Permutation.Permutation_in; [apply sort_perm|]. eapply nth_error_In; eauto.
  Qed.
End Write.
