(** Derived serialization: success, panics and what the output means. *)
From Verif Require Import Base Normalize Text Find FindProofs Types BMap Ser SerSpec SerTree SerPoison NsProofs NsSpec NsMain
  NsMeaning NsChoice DeriveSer DSerSpec DSerProofs DSerPanic
  MixedSer.

Section Props.
  Context (o : oracles) (env : tenv).
  Notation typed := (typed o env).
  Notation content := (content o env).

  (** ** No panic *)

  Lemma names_of_env : names_declared env -> no_default env -> prefixes_ok env -> exists A : Prop,
    (A <-> forall id d u, env id = Some d -> ~ In (""%string, u) (td_nss d)) /\
    (forall id d p u, env id = Some d -> In (p, u) (td_nss d) -> map_ok A p u) /\
    (forall id d n, env id = Some d -> In n (expanded (td_root d) :: elem_names d) ->
       (xn_ns n = ""%string /\ A) \/ xn_ns n = XML_NS \/ exists p, In (p, xn_ns n) (td_nss d)) /\
    (forall id d n, env id = Some d -> In n (attr_names d) ->
       xn_ns n = ""%string \/ xn_ns n = XML_NS \/ exists p, In (p, xn_ns n) (td_nss d)).
  Proof.
    intros Hn Hd Hp. exists (forall id d u, env id = Some d -> ~ In (""%string, u) (td_nss d)).
    split; [reflexivity|]. split; [|split].
    - intros id d p u E H. destruct (Hp id d p u E H) as [P1 P2]. split; [|split]; auto.
      intros A ->. eapply A; eauto.
    - intros id d n E H. pose proof (Hn id d E) as F. rewrite Forall_forall in F.
      destruct (F n) as [F1|[F1|F1]]; auto.
      { destruct H as [H|H]; [now left|right]. apply in_or_app. now left. }
      left. split; auto. destruct Hd as [Hd|Hd]; [exact Hd|]. exfalso. eapply Hd; eauto.
    - intros id d n E H. pose proof (Hn id d E) as F. rewrite Forall_forall in F.
      apply F. right. apply in_or_app. now right.
  Qed.

  Theorem root_no_panic dbg w id v : typed (ERef id) v ->
    names_declared env -> prefixes_ok env -> no_default env ->
    exists r k, serialize_root o env dbg w id v = inl (r, k).
  Proof.
    intros T Hn Hp Hd. destruct (names_of_env Hn Hd Hp) as (A & HA & H1 & H2 & H3).
    destruct (content_total o env v _ T) as (rs & ks & C).
    unfold serialize_root.
    assert (exists d, env id = Some d /\ root_name env id = Some (expanded (td_root d)) /\
                      forall p u, In (p, u) (td_nss d) -> In (ReqNs p u) rs) as (d & E & R & I).
    { unfold root_name. inversion C; subst;
        match goal with E : env id = Some _ |- _ => rewrite E end; eexists; (split; [reflexivity|]);
        (split; [reflexivity|]); cbn [td_nss]; intros p u Hin; try apply in_or_app; try left; now apply In_mappings. }
    rewrite R. destruct (value_fine o env dbg w A H1 (fun id d n E Hin => H2 id d n E (or_intror Hin)) H3
                           (ERef id) v (expanded (td_root d)) rs ks C) as ([r k] & ->); [|eauto].
    destruct (H2 id d (expanded (td_root d)) E (or_introl eq_refl)) as [?|[?|(p & Hin)]]; eauto.
  Qed.

  (** ** Success *)

  Lemma attrs_req_attrs fs vs rs : attrs_are o fs vs rs ->
    exists keep, map fst (req_attrs rs) = map (fun f => expanded (f_name f)) keep /\
      (NoDup (map (fun f => expanded (f_name f)) (filter is_attribute fs)) ->
       NoDup (map (fun f => expanded (f_name f)) keep)) /\
      incl keep (filter is_attribute fs).
  Proof.
    induction 1 as [|f fs opt t x s vs l M T _ (keep & E & N & I)|f fs t vs l M _ (keep & E & N & I)|f fs v vs l M _ (keep & E & N & I)].
    - exists []. split; [reflexivity|]. split; auto. intros x [].
    - exists (f :: keep). assert (Ef : is_attribute f = true) by (unfold is_attribute; now rewrite M).
      cbn. rewrite Ef, E. split; [reflexivity|]. split.
      + cbn. intros Hn. inversion Hn as [|? ? Hni Hn']; subst. constructor; auto.
        intros Hin. apply Hni. apply in_map_iff in Hin. destruct Hin as (g & Eg & Hg).
        apply in_map_iff. exists g. split; auto.
      + intros g [<-|Hg]; [now left|right]. auto.
    - exists keep. assert (Ef : is_attribute f = true) by (unfold is_attribute; now rewrite M).
      cbn. rewrite Ef. split; auto. split.
      + cbn. intros Hn. inversion Hn; auto.
      + intros g Hg. right. auto.
    - exists keep. cbn. rewrite M. auto.
  Qed.

  Lemma mappings_attrs nss : req_attrs (mappings nss) = [].
  Proof. induction nss as [|[p u] nss IH]; cbn; auto. Qed.

  Lemma enum_attrs id ident root nss ws sk v rs ks : env id = Some (TDEnum ident root nss ws sk) ->
    content (ERef id) v rs ks -> req_attrs rs = [].
  Proof.
    intros E C. inversion C; subst; try apply mappings_attrs. congruence.
  Qed.

  Hypothesis apart : attrs_apart env.

  Lemma flat_attrs fs vs rs ks : flattened content fs vs rs ks ->
    (forall f id', In f fs -> f_mode f = MFlatten id' ->
      exists ident' root' nss' ws sk, env id' = Some (TDEnum ident' root' nss' ws sk)) -> req_attrs rs = [].
  Proof.
    induction 1 as [|f fs id v vs r k r2 k2 M C F IH|f fs v vs r l M F IH]; intros H; auto.
    - destruct (H f id (or_introl eq_refl) M) as (i1 & r1 & n1 & w1 & s1 & E).
      rewrite req_attrs_app, (enum_attrs _ _ _ _ _ _ _ _ _ E C). apply IH. intros g id' Hg. apply H. now right.
    - apply IH. intros g id' Hg. apply H. now right.
  Qed.

  Lemma content_NoDup t v rs ks : content t v rs ks -> NoDup (map fst (req_attrs rs)).
  Proof.
    intros C. inversion C; subst; try (rewrite mappings_attrs; constructor); [constructor|].
    destruct (apart _ _ _ _ _ ltac:(eassumption)) as [N F].
    rewrite !req_attrs_app, mappings_attrs. erewrite (flat_attrs fs vs reqs'); eauto. rewrite app_nil_r. cbn.
    destruct (attrs_req_attrs _ _ _ ltac:(eassumption)) as (keep & -> & K & _). auto.
  Qed.

  Lemma content_ok_reqs t v rs ks : content t v rs ks -> add_reqs [] rs = Some rs.
  Proof. intros C. apply (add_reqs_NoDup rs []). eapply content_NoDup; eauto. Qed.

  Definition ok_kids (v : value) : Prop := forall t rs ks, content t v rs ks -> forallb tree_ok ks = true.

  Lemma elems_ok n t vs ks : Forall ok_kids vs -> elems_are content n t vs ks -> forallb tree_ok ks = true.
  Proof.
    intros F H. induction H as [|v vs rs kids l C _ IH]; [reflexivity|].
    inversion F as [|v' vs' Hv F']; subst. cbn. rewrite (content_ok_reqs _ _ _ _ C), (Hv _ _ _ C). auto.
  Qed.

  Lemma content_ok v : ok_kids v.
  Proof.
    induction v using value_ind''; intros t rs ks C; inversion C; subst; auto.
    - rewrite forallb_app. apply andb_true_intro. split.
      + match goal with F : own_kids content fs vs kids |- _ => clear - F H apart; rename F into F' end.
        induction F' as [|f fs k t v xs l vs l2 M I E _ IH|f fs v vs l M _ IH]; auto.
        * inversion H as [|v' vs' Hv Hb']; subst. rewrite forallb_app. apply andb_true_intro. split; auto.
          eapply elems_ok; [|eassumption]. eapply below_items; eauto.
        * inversion H; subst. auto.
      + match goal with F : flattened content fs vs reqs' kids' |- _ => clear - F H apart; rename F into F' end.
        induction F' as [|f fs id v vs r k r2 k2 M C F IH|f fs v vs r l M F IH]; auto.
        * inversion H as [|v' vs' [Hv _] Hb']; subst. rewrite forallb_app. apply andb_true_intro. split; eauto.
        * inversion H; subst. auto.
    - eapply elems_ok; [|eassumption]. eapply below_items; [apply H; reflexivity|eauto].
  Qed.

  Lemma asked_content t v rs ks n : content t v rs ks ->
    asked n (ser_value o env t v) = Some (RElem n rs ks).
  Proof.
    intros C. rewrite (asked_value o env t v rs ks n C). cbn [tree_ok].
    now rewrite (content_ok_reqs _ _ _ _ C), (content_ok _ _ _ _ C).
  Qed.

  Theorem root_succeeds dbg w id v : typed (ERef id) v ->
    names_declared env -> prefixes_ok env -> no_default env -> (forall i, w i = None) ->
    exists k, serialize_root o env dbg w id v = inl (None, k).
  Proof.
    intros T Hn Hp Hd Io. destruct (root_no_panic dbg w id v T Hn Hp Hd) as (r & k & H).
    exists k. rewrite H. unfold serialize_root in H. destruct (root_name env id) as [n|]; [|discriminate].
    destruct (content_total o env v _ T) as (rs & ks & C).
    rewrite (asked_to dbg w n _ _ r k (asked_content _ _ _ _ n C) Io H). reflexivity.
  Qed.
End Props.

(** ** The tree *)
Section Tree.
  Context (o : oracles) (env : tenv).
  Notation typed := (typed o env).
  Notation content := (content o env).

  Theorem success_content dbg w t v n k :
    serialize_with_name o env dbg w t v n = inl (None, k) ->
    exists rs ks, content t v rs ks /\ asked n (ser_value o env t v) = Some (RElem n rs ks) /\
      map ev_sev (k_out k) = tree_sevs (tree_of (RElem n rs ks)).
  Proof.
    intros H. destruct (to_writes dbg w n _ k H) as (t' & A & E & _).
    destruct (asks_for_content _ _ _ _ _ _ A) as (rs & ks & C & ->). eauto.
  Qed.

  Definition reqs_from (rs : list req) : Prop :=
    (forall p u, In (ReqNs p u) rs -> exists id d, env id = Some d /\ In (p, u) (td_nss d)) /\
    (forall n v, In (ReqAttr n v) rs -> exists id d, env id = Some d /\ In n (attr_names d)).

  Definition from_env (t : rtree) : Prop := forall n reqs kids, subtree (RElem n reqs kids) t ->
    (exists id d, env id = Some d /\ In n (elem_names d)) /\ reqs_from reqs.

  Lemma reqs_from_app a b : reqs_from a -> reqs_from b -> reqs_from (a ++ b).
  Proof.
    intros [A1 A2] [B1 B2]. split; intros ? ? H; apply in_app_or in H; destruct H; eauto.
  Qed.

  Lemma mappings_from id d : env id = Some d -> reqs_from (mappings (td_nss d)).
  Proof.
    intros E. split.
    - intros p u H. apply In_mappings in H. eauto.
    - intros n v H. unfold mappings in H. apply in_map_iff in H. destruct H as (x & E' & _). discriminate.
  Qed.

  Lemma attrs_from id ident root nss fs0 fs vs rs : env id = Some (TDStruct ident root nss fs0) -> incl fs fs0 ->
    attrs_are o fs vs rs -> reqs_from rs.
  Proof.
    intros E I. induction 1 as [|f fs opt t x s vs l M T _ IH|f fs t vs l M _ IH|f fs v vs l M _ IH].
    - split; intros ? ? [].
    - destruct IH as [I1 I2]; [intros g Hg; apply I; now right|]. split.
      + intros p u [H|H]; [discriminate|eauto].
      + intros n v [H|H]; [|eauto]. injection H as <- <-. exists id, (TDStruct ident root nss fs0). split; auto.
        cbn. apply in_map_iff. exists f. split; auto. apply filter_In. split; [apply I; now left|].
        unfold is_attribute. now rewrite M.
    - apply IH. intros g Hg. apply I. now right.
    - apply IH. intros g Hg. apply I. now right.
  Qed.

  Definition all_from (v : value) : Prop := forall t rs ks, content t v rs ks ->
    reqs_from rs /\ Forall from_env ks.

  Lemma from_elem n rs ks : (exists id d, env id = Some d /\ In n (elem_names d)) -> reqs_from rs ->
    Forall from_env ks -> from_env (RElem n rs ks).
  Proof.
    intros Hn Hr Hk n' rs' ks' S. inversion S; subst; auto.
    rewrite Forall_forall in Hk. eapply Hk; eauto.
  Qed.

  Lemma elems_from n t vs ks : Forall all_from vs -> (exists id d, env id = Some d /\ In n (elem_names d)) ->
    elems_are content n t vs ks -> Forall from_env ks.
  Proof.
    intros F Hn H. induction H as [|v vs rs kids l C _ IH]; [constructor|].
    inversion F as [|v' vs' Hv F']; subst. destruct (Hv _ _ _ C). constructor; auto. now apply from_elem.
  Qed.

  Lemma content_from v : all_from v.
  Proof.
    induction v using value_ind''; intros t rs ks C; inversion C; subst.
    - split; [split; intros ? ? []|]. constructor; [|constructor]. intros n r k S. inversion S.
    - assert (F : reqs_from reqs' /\ Forall from_env kids').
      { match goal with F : flattened content fs vs reqs' kids' |- _ => clear - F H; rename F into F' end.
        induction F' as [|f fs id v vs r k r2 k2 M C F IH|f fs v vs r l M F IH].
        - split; [split; intros ? ? []|constructor].
        - inversion H as [|v' vs' [Hv _] Hb']; subst. destruct (Hv _ _ _ C). destruct (IH Hb').
          split; [now apply reqs_from_app|]. now apply Forall_app.
        - inversion H; subst. auto. }
      destruct F as [F1 F2]. split.
      + apply reqs_from_app; [|apply reqs_from_app; auto].
        * eapply (mappings_from id (TDStruct ident root nss fs)); eauto.
        * eapply attrs_from; eauto. apply incl_refl.
      + apply Forall_app. split; auto.
        match goal with F : own_kids content fs vs kids, E : env id = _ |- _ =>
          clear - F H E; rename F into F', E into E' end.
        assert (I : incl fs fs) by apply incl_refl. revert E' I. generalize fs at 1 3. intros fs0 E' I.
        induction F' as [|f fs k t v xs l vs l2 M It E _ IH|f fs v vs l M _ IH]; [constructor| |].
        * inversion H as [|v' vs' Hv Hb']; subst. apply Forall_app. split.
          -- eapply elems_from; [eapply below_items; eauto| |eauto].
             exists id, (TDStruct ident root nss fs0). split; auto. cbn. apply in_map_iff. exists f. split; auto.
             apply filter_In. split; [apply I; now left|]. unfold is_element. now rewrite M.
          -- apply IH; auto. intros g Hg. apply I. now right.
        * inversion H; subst. apply IH; auto. intros g Hg. apply I. now right.
    - split; [eapply (mappings_from id (TDEnum ident root nss ws sk)); eauto|]. constructor; [|constructor].
      apply from_elem; [|split; intros ? ? []|constructor].
      exists id, (TDEnum ident root nss ws sk). split; auto. cbn. apply in_map_iff. exists w. split; auto.
      eapply Permutation.Permutation_in; [apply sort_perm|]. eapply nth_error_In; eauto.
    - split; [eapply (mappings_from id (TDEnum ident root nss ws sk)); eauto|].
      eapply elems_from; [eapply below_items; [apply H; reflexivity|eauto]| |eauto].
      exists id, (TDEnum ident root nss ws sk). split; auto. cbn. apply in_map_iff. exists w. split; auto.
      eapply Permutation.Permutation_in; [apply sort_perm|]. eapply nth_error_In; eauto.
    - split; [eapply (mappings_from id (TDEnum ident root nss ws true)); eauto|constructor].
  Qed.

  (** Everything a tree asks for is declared in the program, except for the name of its root. *)
  Lemma content_asks t v rs ks n : content t v rs ks ->
    (forall p u, asks_ns (RElem n rs ks) p u -> exists id d, env id = Some d /\ In (p, u) (td_nss d)) /\
    (forall a, asks_attr (RElem n rs ks) a -> exists id d, env id = Some d /\ In a (attr_names d)) /\
    (forall e, asks_elem (RElem n rs ks) e -> e = n \/ exists id d, env id = Some d /\ In e (elem_names d)).
  Proof.
    intros C. destruct (content_from v t rs ks C) as [[R1 R2] K]. rewrite Forall_forall in K.
    split; [|split].
    - intros p u (n' & reqs & kids & S & Hin). inversion S; subst; eauto.
      destruct (K _ ltac:(eassumption) _ _ _ ltac:(eassumption)) as [_ [H _]]. eauto.
    - intros a (n' & reqs & kids & x & S & Hin). inversion S; subst; eauto.
      destruct (K _ ltac:(eassumption) _ _ _ ltac:(eassumption)) as [_ [_ H]]. eauto.
    - intros e (reqs & kids & S). inversion S; subst; auto.
      destruct (K _ ltac:(eassumption) _ _ _ ltac:(eassumption)) as [H _]. auto.
  Qed.

  Theorem root_meaning dbg w id v k pol :
    legal_env env -> no_default env -> (pol = SkipIfAnywhere -> coherent_env env) ->
    serialize_root o env dbg w id v = inl (None, k) ->
    exists n rs ks, root_name env id = Some n /\ content (ERef id) v rs ks /\
      meaning [] (emit pol [] (k_out k)) = Some (tree_events (tree_of (RElem n rs ks))).
  Proof.
    intros L D Co H. unfold serialize_root in H. destruct (root_name env id) as [n|] eqn:Rn; [|discriminate].
    destruct (success_content dbg w (ERef id) v n k H) as (rs & ks & C & A & _).
    exists n, rs, ks. split; auto. split; auto.
    destruct (content_asks _ _ _ _ n C) as (A1 & A2 & A3).
    eapply to_meaning; [exact H|exact A| | |].
    - intros p u Ha. destruct (A1 p u Ha) as (i & d & E & Hin). exact (L i d p u E Hin).
    - apply default_apart. destruct D as [D|D]; [left|right].
      + intros u Ha. destruct (A1 _ u Ha) as (i & d & E & Hin). exact (D i d u E Hin).
      + intros e He. destruct (A3 e He) as [->|(i & d & E & Hin)].
        * unfold root_name in Rn. destruct (env id) as [d|] eqn:E; [|discriminate].
          eapply (D id d); eauto. left. destruct d; now injection Rn.
        * eapply D; eauto. now right.
    - intros Hp. destruct (Co Hp) as (f & F1 & F2). exists f. split.
      + intros p u Ha. destruct (A1 p u Ha) as (i & d & E & Hin). eauto.
      + intros u a Hu Ha. destruct (A1 _ u Hu) as (i & d & E & Hin). destruct (A2 a Ha) as (i' & d' & E' & Hin'). eauto.
  Qed.
End Tree.

Lemma skipped_content o env id ident root nss ws reqs kids :
  env id = Some (TDEnum ident root nss ws true) ->
  content o env (ERef id) VSkipped reqs kids <-> reqs = mappings nss /\ kids = [].
Proof.
  intros E. split.
  - intros C. inversion C; subst. split; [congruence|reflexivity].
  - intros [-> ->]. eapply co_skipped; eauto.
Qed.

Lemma with_name_no_panic o env dbg w t v n : typed o env t v ->
  names_declared env -> prefixes_ok env -> no_default env ->
  (xn_ns n = ""%string /\ (forall id d u, env id = Some d -> ~ In (""%string, u) (td_nss d)) \/
   xn_ns n = XML_NS \/
   exists id d p, t = ERef id /\ env id = Some d /\ In (p, xn_ns n) (td_nss d)) ->
  exists r k, serialize_with_name o env dbg w t v n = inl (r, k).
Proof.
  intros T Hn Hp Hd Hu. destruct (names_of_env env Hn Hd Hp) as (A & HA & H1 & H2 & H3).
  destruct (content_total o env v _ T) as (rs & ks & C).
  destruct (value_fine o env dbg w A H1 (fun id d n E Hin => H2 id d n E (or_intror Hin)) H3
              t v n rs ks C) as ([r k] & ->); [|eauto].
  destruct Hu as [[U1 U2]|[U|(id & d & p & -> & E & Hin)]]; [left; split; auto; now apply HA|now right; left|].
  right; right. exists p.
  inversion C; subst; match goal with E' : env id = Some _ |- _ => rewrite E in E'; injection E' as -> end;
    cbn [td_nss] in Hin; try apply in_or_app; try left; now apply In_mappings.
Qed.
