(** Derived serialization does not panic. *)
From Verif Require Import Base Normalize Text Find FindProofs Types BMap Ser SerSpec SerTree NsProofs NsSpec NsMain
  NsMeaning NsChoice DeriveSer DSerSpec DSerProofs.

Definition fine {A} (x : A + abort) : Prop := exists r, x = inl r.

(** ** Requests on a builder *)

Fixpoint run_reqs (dbg : bool) (rs : list req) (b : bstate) : (option serr * bstate) + abort :=
  match rs with
  | [] => inl (None, b)
  | ReqNs p u :: rs' =>
      match builder_namespace dbg p u b with inl b' => run_reqs dbg rs' b' | inr x => inr x end
  | ReqAttr n v :: rs' =>
      match builder_attribute n v b with
      | inl (None, b') => run_reqs dbg rs' b'
      | inl (Some e, b') => inl (Some e, b')
      | inr x => inr x
      end
  end.

Lemma run_reqs_app dbg rs1 : forall rs2 b, run_reqs dbg (rs1 ++ rs2) b =
  match run_reqs dbg rs1 b with
  | inl (None, b') => run_reqs dbg rs2 b'
  | inl (Some e, b') => inl (Some e, b')
  | inr x => inr x
  end.
Proof.
  induction rs1 as [|[p u|n v] rs1 IH]; intros rs2 b; cbn; [reflexivity| |].
  - destruct (builder_namespace dbg p u b); auto.
  - destruct (builder_attribute n v b) as [[[e|] b']|x]; auto.
Qed.

Lemma run_a_then dbg a : forall a' b, run_a dbg (a_then a a') b =
  match run_a dbg a b with
  | inl (None, b') => run_a dbg a' b'
  | inl (Some e, b') => inl (Some e, b')
  | inr x => inr x
  end.
Proof.
  induction a as [[e|]|p u a IH|n v f IH|m]; intros a' b; cbn; auto.
  - destruct (builder_namespace dbg p u b); auto.
  - destruct (builder_attribute n v b) as [[r b']|x]; auto.
Qed.

Lemma run_namespaces dbg nss : forall a b, run_a dbg (write_namespaces nss a) b =
  match run_reqs dbg (mappings nss) b with inl (_, b') => run_a dbg a b' | inr x => inr x end.
Proof.
  induction nss as [|[p u] nss IH]; intros a b; cbn; [reflexivity|].
  destruct (builder_namespace dbg p u b); auto.
Qed.

Lemma run_mappings dbg nss : forall b, match run_reqs dbg (mappings nss) b with inl (Some _, _) => False | _ => True end.
Proof.
  induction nss as [|[p u] nss IH]; intros b; cbn; [exact I|]. destruct (builder_namespace dbg p u b); [apply IH|exact I].
Qed.

Lemma run_embed {d} dbg o a (q : option serr -> bprog d) : forall b nss k, run_b dbg o (embed a q) b nss k =
  match run_a dbg a b with inl (r, b') => run_b dbg o (q r) b' nss k | inr x => inr x end.
Proof.
  induction a as [r|p u a IH|n v f IH|m]; intros b nss k; cbn; auto.
  - destruct (builder_namespace dbg p u b); auto.
  - destruct (builder_attribute n v b) as [[r b']|x]; auto.
Qed.

Lemma run_w_elem {d} dbg o n (q : bprog d) m nss k :
  run_w dbg o (WElem n q) (m :: nss) k = run_b dbg o q (writer_element m n) (m :: nss) k.
Proof. reflexivity. Qed.

Section Attrs.
  Context (o : oracles) (env : tenv) (dbg : bool).
  Notation content := (content o env).

  Definition runs_reqs (v : value) : Prop := forall t rs ks, content t v rs ks ->
    forall b, run_a dbg (ser_attrs o env v t) b = run_reqs dbg rs b.

  Lemma run_attr_fields w fs vs rs :
    (forall f v, w f v = match f_mode f with
                         | MAttribute opt t => write_attr o (expanded (f_name f)) opt t v
                         | _ => APanic ill_typed
                         end) ->
    attrs_are o fs vs rs -> forall b, run_a dbg (a_each is_attribute w vs fs) b = run_reqs dbg rs b.
  Proof.
    intros Hw. induction 1 as [|f fs opt t x s vs l M T _ IH|f fs t vs l M _ IH|f fs v vs l M _ IH]; intros b.
    - reflexivity.
    - cbn [a_each]. unfold is_attribute. rewrite M, run_a_then, Hw, M.
      assert (E : write_attr o (expanded (f_name f)) opt t (if opt then VSome (VText x) else VText x)
                  = AAttr (expanded (f_name f)) s ARet) by (destruct opt; cbn; now rewrite T).
      rewrite E. cbn [run_a run_reqs].
      destruct (builder_attribute (expanded (f_name f)) s b) as [[[e|] b']|y]; auto.
    - cbn [a_each]. unfold is_attribute. rewrite M, run_a_then, Hw, M. cbn. apply IH.
    - cbn [a_each]. rewrite M. apply IH.
  Qed.

  Lemma run_flattened w fs vs rs ks : Forall (below runs_reqs) vs ->
    (forall f v, w f v = match f_mode f with
                         | MFlatten id => ser_attrs o env v (ERef id)
                         | _ => APanic ill_typed
                         end) ->
    flattened content fs vs rs ks -> forall b, run_a dbg (a_each is_flatten w vs fs) b = run_reqs dbg rs b.
  Proof.
    intros Hb Hw H. revert Hb.
    induction H as [|f fs id v vs r k r2 k2 M C _ IH|f fs v vs r l M _ IH]; intros Hb b.
    - reflexivity.
    - inversion Hb as [|v' vs' [Hv _] Hb']; subst.
      cbn [a_each]. unfold is_flatten. rewrite M, run_a_then, Hw, M, (Hv _ _ _ C), run_reqs_app.
      destruct (run_reqs dbg r b) as [[[e|] b']|y]; auto.
    - inversion Hb as [|v' vs' _ Hb']; subst. cbn [a_each]. rewrite M. now apply IH.
  Qed.

  Lemma run_attrs v : runs_reqs v.
  Proof.
    induction v using value_ind''; intros t rs ks C b; inversion C; subst; cbn [ser_attrs];
      try match goal with E : env _ = Some _ |- _ => rewrite E end.
    - reflexivity.
    - rewrite run_namespaces, run_reqs_app. pose proof (run_mappings dbg nss b) as P.
      destruct (run_reqs dbg (mappings nss) b) as [[[e|] b']|y]; [easy| |reflexivity].
      rewrite run_a_then, run_reqs_app. erewrite run_attr_fields; [|intros ? ?; reflexivity|eassumption].
      destruct (run_reqs dbg attrs b') as [[[e|] b'']|y]; auto.
      eapply run_flattened; eauto; intros ? ?; reflexivity.
    - rewrite run_namespaces. pose proof (run_mappings dbg nss b) as P.
      destruct (run_reqs dbg (mappings nss) b) as [[[e|] b']|y]; easy.
    - rewrite run_namespaces. pose proof (run_mappings dbg nss b) as P.
      destruct (run_reqs dbg (mappings nss) b) as [[[e|] b']|y]; easy.
    - rewrite run_namespaces. pose proof (run_mappings dbg nss b) as P.
      destruct (run_reqs dbg (mappings nss) b) as [[[e|] b']|y]; easy.
  Qed.
End Attrs.

(** ** Texts that cannot be printed

    [o']: what the texts are said to be; [o]: the texts are these, or an error is returned. *)
Section Early.
  Context (o o' : oracles) (env : tenv) (dbg : bool).
  Notation content := (content o' env).

  Definition prints : Prop := forall t x s, to_text o' t x = Some s ->
    to_text o t x = Some s \/ (to_text o t x = None /\ exists m, text_error o t x = Some m).
  Hypothesis Hp : prints.

  (** [a] makes the requests [rs], or some of them and returns an error. *)
  Definition makes (a : aprog) (rs : list req) : Prop := forall b, exists rs1 rs2 r, rs = rs1 ++ rs2 /\
    (r = None -> rs2 = []) /\
    run_a dbg a b = match run_reqs dbg rs1 b with inl (None, b') => inl (r, b') | x => x end.

  Lemma makes_nil : makes (ARet None) [].
  Proof. intros b. exists [], [], None. split; auto. Qed.

  Lemma makes_then a a' rs rs' : makes a rs -> makes a' rs' -> makes (a_then a a') (rs ++ rs').
  Proof.
    intros H H' b. destruct (H b) as (r1 & r2 & r & E & N & R). rewrite run_a_then, R.
    destruct r as [e|].
    - exists r1, (r2 ++ rs'), (Some e). split; [subst; now rewrite app_assoc|]. split; [discriminate|].
      destruct (run_reqs dbg r1 b) as [[[e'|] b']|y]; reflexivity.
    - rewrite (N eq_refl), app_nil_r in E. subst r1.
      destruct (run_reqs dbg rs b) as [[[e'|] b']|y] eqn:X.
      + exists rs, rs', (Some e'). split; [reflexivity|]. split; [discriminate|]. now rewrite X.
      + destruct (H' b') as (q1 & q2 & q & E' & N' & R'). exists (rs ++ q1), q2, q.
        split; [subst; now rewrite app_assoc|]. split; [exact N'|]. now rewrite run_reqs_app, X, R'.
      + exists rs, rs', (Some (SMsg "")). split; [reflexivity|]. split; [discriminate|]. now rewrite X.
  Qed.

  Lemma makes_namespaces nss a rs : makes a rs -> makes (write_namespaces nss a) (mappings nss ++ rs).
  Proof.
    intros H b. rewrite run_namespaces. pose proof (run_mappings dbg nss b) as P.
    destruct (run_reqs dbg (mappings nss) b) as [[[e|] b']|y] eqn:X; [easy| |].
    - destruct (H b') as (q1 & q2 & q & E' & N' & R'). exists (mappings nss ++ q1), q2, q.
      split; [subst; now rewrite app_assoc|]. split; [exact N'|]. now rewrite run_reqs_app, X, R'.
    - exists (mappings nss), rs, (Some (SMsg "")). split; [reflexivity|]. split; [discriminate|]. now rewrite X.
  Qed.

  Lemma makes_attr n opt t x s : to_text o' t x = Some s ->
    makes (write_attr o n opt t (if opt then VSome (VText x) else VText x)) [ReqAttr n s].
  Proof.
    intros T b. destruct (Hp t x s T) as [E|(E & m & E')].
    - exists [ReqAttr n s], [], None. split; [reflexivity|]. split; [auto|].
      destruct opt; cbn; rewrite E; cbn; destruct (builder_attribute n s b) as [[[e|] b']|y]; reflexivity.
    - exists [], [ReqAttr n s], (Some (SMsg m)). split; [reflexivity|]. split; [discriminate|].
      destruct opt; cbn; rewrite E, E'; reflexivity.
  Qed.

  Lemma makes_attr_fields w fs vs rs :
    (forall f v, w f v = match f_mode f with
                         | MAttribute opt t => write_attr o (expanded (f_name f)) opt t v
                         | _ => APanic ill_typed
                         end) ->
    attrs_are o' fs vs rs -> makes (a_each is_attribute w vs fs) rs.
  Proof.
    intros Hw. induction 1 as [|f fs opt t x s vs l M T _ IH|f fs t vs l M _ IH|f fs v vs l M _ IH].
    - apply makes_nil.
    - cbn [a_each]. unfold is_attribute. rewrite M, Hw, M.
      apply (makes_then _ _ [ReqAttr (expanded (f_name f)) s] l); [now apply makes_attr|exact IH].
    - cbn [a_each]. unfold is_attribute. rewrite M, Hw, M.
      apply (makes_then _ _ [] l); [apply makes_nil|exact IH].
    - cbn [a_each]. now rewrite M.
  Qed.

  Definition makes_reqs (v : value) : Prop := forall t rs ks, content t v rs ks -> makes (ser_attrs o env v t) rs.

  Lemma makes_flattened w fs vs rs ks : Forall (below makes_reqs) vs ->
    (forall f v, w f v = match f_mode f with
                         | MFlatten id => ser_attrs o env v (ERef id)
                         | _ => APanic ill_typed
                         end) ->
    flattened content fs vs rs ks -> makes (a_each is_flatten w vs fs) rs.
  Proof.
    intros Hb Hw H. revert Hb.
    induction H as [|f fs id v vs r k r2 k2 M C _ IH|f fs v vs r l M _ IH]; intros Hb.
    - apply makes_nil.
    - inversion Hb as [|v' vs' [Hv _] Hb']; subst.
      cbn [a_each]. unfold is_flatten. rewrite M, Hw, M. apply makes_then; eauto.
    - inversion Hb as [|v' vs' _ Hb']; subst. cbn [a_each]. rewrite M. now apply IH.
  Qed.

  Lemma make_attrs v : makes_reqs v.
  Proof.
    induction v using value_ind''; intros t rs ks C; inversion C; subst; cbn [ser_attrs];
      try match goal with E : env _ = Some _ |- _ => rewrite E end.
    - apply makes_nil.
    - apply makes_namespaces, makes_then; [eapply makes_attr_fields; eauto; intros ? ?; reflexivity|].
      eapply makes_flattened; eauto; intros ? ?; reflexivity.
    - rewrite <- (app_nil_r (mappings nss)). apply makes_namespaces, makes_nil.
    - rewrite <- (app_nil_r (mappings nss)). apply makes_namespaces, makes_nil.
    - rewrite <- (app_nil_r (mappings nss)). apply makes_namespaces, makes_nil.
  Qed.
End Early.

(** ** Invariants of builders and namespaces *)

Section Inv.
  (** [A]: no default namespace is declared anywhere. *)
  Context (A : Prop).

  Definition has_url (b : bstate) (u : string) : Prop :=
    exists e, bm_get u (b_ns b) = Some e /\ q_required e = true.

  Definition attr_ok (b : bstate) (n : xname) : Prop :=
    xn_ns n = ""%string \/
    match bm_get (xn_ns n) (b_ns b) with
    | Some e => q_required e = true /\ (q_needs e = true \/ q_prefix e <> ""%string)
    | None => xn_ns n = XML_NS
    end.

  Definition name_ok (b : bstate) : Prop :=
    match bm_get (xn_ns (b_name b)) (b_ns b) with
    | Some e => q_required e = true
    | None => xn_ns (b_name b) = XML_NS \/ (xn_ns (b_name b) = ""%string /\ A)
    end.

  Record binv (b : bstate) : Prop := {
    bi_wf : wf_builder (b_ns b);
    bi_attrs : attrs_inv b;
    bi_quiet : A -> entries (fun _ e => q_prefix e <> ""%string) (b_ns b);
    bi_ok : forall n v, In (n, v) (b_attrs b) -> attr_ok b n;
  }.

  (** A mapping that may be asked for. *)
  Definition map_ok (p u : string) : Prop :=
    starts_with "xml" p = false /\ ~ (p = ""%string /\ u = XML_NS) /\ (A -> p <> ""%string).

  Fixpoint declared_in (seen : list string) (rs : list req) : Prop :=
    match rs with
    | [] => True
    | ReqNs _ u :: rs' => declared_in (u :: seen) rs'
    | ReqAttr n _ :: rs' =>
        (xn_ns n = ""%string \/ xn_ns n = XML_NS \/ In (xn_ns n) seen) /\ declared_in seen rs'
    end.

  Lemma declared_in_mono rs : forall s s', incl s s' -> declared_in s rs -> declared_in s' rs.
  Proof.
    induction rs as [|[p u|n v] rs IH]; intros s s' I; cbn; auto.
    - apply IH. intros x [->|H]; [now left|]. right. auto.
    - intros [[H|[H|H]] H']; split; eauto.
  Qed.

  Lemma declared_in_app rs1 : forall s rs2, declared_in s rs1 -> declared_in s rs2 -> declared_in s (rs1 ++ rs2).
  Proof.
    induction rs1 as [|[p u|n v] rs1 IH]; intros s rs2; cbn; auto.
    - intros H1 H2. apply IH; auto. eapply declared_in_mono; [|exact H2]. intros x Hx. now right.
    - intros [H H1] H2. split; auto.
  Qed.

  Lemma declared_in_ns s rs1 rs2 : (forall r, In r rs1 -> exists p u, r = ReqNs p u) ->
    declared_in (s ++ map (fun r => match r with ReqNs _ u => u | _ => ""%string end) rs1) rs2 ->
    declared_in s (rs1 ++ rs2).
  Proof.
    revert s. induction rs1 as [|r rs1 IH]; intros s H D; cbn in *.
    - now rewrite app_nil_r in D.
    - destruct (H r (or_introl eq_refl)) as (p & u & ->). cbn. apply IH; auto.
      eapply declared_in_mono; [|exact D]. intros x Hx. apply in_app_or in Hx. cbn.
      destruct Hx as [Hx|[Hx|Hx]]; auto; right; apply in_or_app; auto.
  Qed.

  Lemma ns_step dbg p u b : binv b -> map_ok p u -> exists b',
    builder_namespace dbg p u b = inl b' /\ binv b' /\ b_name b' = b_name b /\ has_url b' u /\
    (name_ok b -> name_ok b') /\ (forall v, has_url b v -> has_url b' v).
  Proof.
    intros B (X & Xd & Xa). unfold builder_namespace.
    destruct (nb_insert dbg p u (b_ns b)) as [b1|y] eqn:E.
    2: { unfold nb_insert in E. rewrite X, Bool.andb_false_r in E. discriminate. }
    exists (BState (b_name b) b1 (b_attrs b) (b_seen b)). split; [reflexivity|].
    assert (W : wf_builder b1) by (eapply wf_nb_insert; [apply B|exact E]).
    assert (G : forall v, bm_get v b1 = if String.eqb v u then
               Some match bm_get u (b_ns b) with
                    | None => NsEntry p None true false
                    | Some e => NsEntry (if q_required e then q_prefix e else p) (q_assigned e) true (q_needs e)
                    end else bm_get v (b_ns b)).
    { intros v. unfold nb_insert in E. rewrite X, Bool.andb_false_r in E. injection E as <-.
      destruct (bm_get u (b_ns b)) as [e|]; rewrite bm_get_insert; reflexivity. }
    split; [split|split; [|split; [|split]]]; cbn [b_ns b_attrs b_name b_seen].
    - exact W.
    - exact (bi_attrs _ B).
    - intros a v e. rewrite G. destruct (String.eqb v u).
      + intros [= <-]. destruct (bm_get u (b_ns b)) as [e0|] eqn:E0; cbn; [|auto].
        destruct (q_required e0); [|auto]. eapply (bi_quiet _ B a); eauto.
      + apply (bi_quiet _ B a).
    - intros n v Hin. destruct (bi_ok _ B n v Hin) as [H|H]; [now left|right].
      cbn [b_ns]. rewrite G. destruct (String.eqb_spec (xn_ns n) u) as [Eu|_]; [|exact H]. subst u.
      destruct (bm_get (xn_ns n) (b_ns b)) as [e0|]; cbn; (split; [reflexivity|]).
      + destruct H as [H1 [H2|H2]]; [now left|right]. now rewrite H1.
      + right. intros ->. apply Xd. auto.
    - reflexivity.
    - red. cbn [b_ns]. rewrite G, String.eqb_refl. destruct (bm_get u (b_ns b)) as [e0|]; eexists; split; reflexivity.
    - unfold name_ok. cbn [b_name b_ns]. rewrite G. destruct (String.eqb (xn_ns (b_name b)) u); [|auto].
      intros _. destruct (bm_get u (b_ns b)); reflexivity.
    - intros v (e & H1 & H2). unfold has_url. cbn [b_ns]. rewrite G. destruct (String.eqb_spec v u) as [Eu|_]; [|eauto].
      destruct (bm_get u (b_ns b)) as [e0|]; eexists; split; reflexivity.
  Qed.

  Lemma attr_step n v b : binv b -> (xn_ns n = ""%string \/ xn_ns n = XML_NS \/ has_url b (xn_ns n)) ->
    exists r b', builder_attribute n v b = inl (r, b') /\ binv b' /\ b_name b' = b_name b /\
    (name_ok b -> name_ok b') /\ (forall u, has_url b u -> has_url b' u).
  Proof.
    intros B D. destruct (existsb (xn_eqb n) (map fst (b_attrs b))) eqn:Ex.
    - apply existsb_In in Ex. apply in_map_iff in Ex. destruct Ex as ([a old] & Ea & Hin). cbn in Ea. subst a.
      rewrite (attribute_again b n v old (bi_attrs _ B) Hin). eexists. exists b. split; [reflexivity|]. auto.
    - assert (Hni : ~ In n (map fst (b_attrs b))) by (rewrite <- existsb_In; congruence).
      destruct (attribute_new b n v (bi_attrs _ B) Hni) as (b1 & E1 & A1 & I1).
      exists None, b1. split; [exact E1|].
      unfold builder_attribute in E1. destruct (existsb (xn_eqb n) (b_seen b)).
      { destruct (List.find (fun a => xn_eqb (fst a) n) (b_attrs b)) as [[? ?]|]; discriminate. }
      injection E1 as <-. cbn [b_attrs] in A1.
      assert (G : forall u, bm_get u (nb_attribute (xn_ns n) (b_ns b)) =
                  match bm_get u (b_ns b) with
                  | Some e => Some (if String.eqb u (xn_ns n) then NsEntry (q_prefix e) (q_assigned e) true true else e)
                  | None => None
                  end).
      { intros u. unfold nb_attribute. destruct (bm_get (xn_ns n) (b_ns b)) as [e|] eqn:E.
        - rewrite bm_get_insert. destruct (String.eqb_spec u (xn_ns n)) as [->|_]; [now rewrite E|].
          destruct (bm_get u (b_ns b)); reflexivity.
        - destruct (String.eqb_spec u (xn_ns n)) as [->|_]; [now rewrite E|]. destruct (bm_get u (b_ns b)); reflexivity. }
      split; [split|split; [|split]]; cbn [b_ns b_name b_attrs].
      + apply wf_nb_attribute, B.
      + exact I1.
      + intros a u e. rewrite G. destruct (bm_get u (b_ns b)) as [e0|] eqn:E0; [|discriminate].
        intros [= <-]. pose proof (bi_quiet _ B a u e0 E0) as Q. destruct (String.eqb u (xn_ns n)); exact Q.
      + intros n' v' Hin. apply in_app_or in Hin. unfold attr_ok. cbn [b_ns]. rewrite G. destruct Hin as [Hin|[Hin|[]]].
        * destruct (bi_ok _ B n' v' Hin) as [H|H]; [now left|right].
          destruct (bm_get (xn_ns n') (b_ns b)) as [e0|]; [|exact H].
          destruct (String.eqb (xn_ns n') (xn_ns n)); cbn; auto.
        * injection Hin as <- <-. destruct D as [D|[D|(e & D1 & D2)]]; [now left| |].
          -- right. destruct (bm_get (xn_ns n) (b_ns b)); [|exact D]. rewrite String.eqb_refl. cbn. auto.
          -- right. rewrite D1, String.eqb_refl. cbn. auto.
      + reflexivity.
      + unfold name_ok. cbn [b_ns b_name]. rewrite G. destruct (bm_get (xn_ns (b_name b)) (b_ns b)); [|auto].
        destruct (String.eqb (xn_ns (b_name b)) (xn_ns n)); auto.
      + intros u (e & H1 & H2). unfold has_url. cbn [b_ns]. rewrite G, H1.
        destruct (String.eqb u (xn_ns n)); eexists; split; [reflexivity|reflexivity|reflexivity|exact H2].
  Qed.

  Lemma reqs_fine dbg rs : forall seen b, binv b -> (forall u, In u seen -> has_url b u) ->
    (forall p u, In (ReqNs p u) rs -> map_ok p u) -> declared_in seen rs ->
    exists r b', run_reqs dbg rs b = inl (r, b') /\ binv b' /\ b_name b' = b_name b /\
      (name_ok b -> name_ok b') /\ (forall u, has_url b u -> has_url b' u) /\
      (r = None -> forall p u, In (ReqNs p u) rs -> has_url b' u).
  Proof.
    induction rs as [|[p u|n v] rs IH]; intros seen b B S M D; cbn [run_reqs].
    - exists None, b. split; [reflexivity|]. split; auto. split; auto. split; auto. split; auto. intros _ p u [].
    - destruct (ns_step dbg p u b B (M _ _ (or_introl eq_refl))) as (b1 & E1 & B1 & N1 & U1 & K1 & P1).
      rewrite E1. cbn in D. destruct (IH (u :: seen) b1 B1) as (r & b2 & E2 & B2 & N2 & K2 & P2 & Q2).
      + intros x [<-|Hx]; auto.
      + intros p' u' Hin. apply M. now right.
      + exact D.
      + exists r, b2. split; [exact E2|]. split; auto. split; [congruence|]. split; auto. split; auto.
        intros Hr p' u' [Hin|Hin]; [|eauto]. injection Hin as <- <-. auto.
    - cbn in D. destruct D as [D D'].
      destruct (attr_step n v b B) as (r1 & b1 & E1 & B1 & N1 & K1 & P1).
      { destruct D as [D|[D|D]]; auto. }
      rewrite E1. destruct r1 as [e|].
      + exists (Some e), b1. split; [reflexivity|]. split; auto. split; auto. split; auto. split; auto. discriminate.
      + destruct (IH seen b1 B1) as (r & b2 & E2 & B2 & N2 & K2 & P2 & Q2); auto.
        { intros p' u' Hin. apply M. now right. }
        exists r, b2. split; [exact E2|]. split; auto. split; [congruence|]. split; auto. split; auto.
        intros Hr p' u' [Hin|Hin]; [discriminate|eauto].
  Qed.

  (** The namespaces of an open element. *)
  Definition minv (m : namespaces) : Prop :=
    NoDup (map snd (by_prefix m)) /\ (A -> ~ In ""%string (map fst (by_prefix m))).

  Lemma start_fine o b k : binv b -> name_ok b -> exists r k', builder_start o b k = inl (r, k') /\
    forall m, r = inl m -> minv m /\ forall u, has_url b u -> In u (map snd (by_prefix m)).
  Proof.
    intros B N. unfold builder_start. destruct (finalize_ok _ (bi_wf _ B)) as (m & -> & Fo).
    assert (R1 : exists p, resolve_element m (b_name b) = inl p).
    { unfold resolve_element. red in N. destruct (bm_get (xn_ns (b_name b)) (b_ns b)) as [e|] eqn:E.
      - destruct (fo_url _ _ Fo _ _ E) as (a & Ha & Hr & _). rewrite Ha, N. destruct a as [p|]; [eauto|].
        exfalso. exact (Hr N eq_refl).
      - rewrite (fo_only _ _ Fo _ E). destruct N as [-> | [-> a]].
        + rewrite String.eqb_refl. eauto.
        + replace (String.eqb "" XML_NS) with false by reflexivity. rewrite String.eqb_refl.
          destruct (bm_get "" (by_prefix m)) as [u|] eqn:Eu; [|eauto].
          exfalso. destruct (fo_prefix _ _ Fo _ _ Eu) as (e & He & e' & He' & Ha).
          destruct (fo_url _ _ Fo _ _ He) as (a' & Ha' & _ & Hp). rewrite He' in Ha'. injection Ha' as ->.
          cbn in Ha. subst a'. destruct (Hp _ eq_refl) as (_ & Hf & _).
          eapply from_request_ne; [|exact Hf|reflexivity]. exact (bi_quiet _ B a _ _ He). }
    destruct R1 as (p & ->).
    assert (R2 : exists l, resolve_attributes m (b_attrs b) = inl l).
    { pose proof (bi_ok _ B) as O. revert O. generalize (b_attrs b). intros l.
      induction l as [|[n v] l IH]; intros O; cbn; [eauto|].
      assert (exists q, resolve_attribute m n = inl q) as (q & ->).
      { unfold resolve_attribute. destruct (String.eqb_spec (xn_ns n) "") as [|Hne]; [eauto|].
        destruct (O n v (or_introl eq_refl)) as [?|H]; [contradiction|].
        destruct (bm_get (xn_ns n) (b_ns b)) as [e|] eqn:E.
        - destruct (fo_url _ _ Fo _ _ E) as (a & Ha & Hr & Hp). rewrite Ha. cbn [q_assigned].
          destruct H as [H1 H2]. destruct a as [q|]; [|exfalso; exact (Hr H1 eq_refl)].
          destruct (Hp _ eq_refl) as (_ & Hf & Hnn).
          assert (q <> ""%string).
          { destruct H2 as [H2|H2]; [auto|]. eapply from_request_ne; eauto. }
          destruct (String.eqb_spec q ""); [contradiction|eauto].
        - rewrite (fo_only _ _ Fo _ E), H, String.eqb_refl. eauto. }
      destruct IH as (l' & ->); [|eauto]. intros n' v' Hin. apply (O n' v'). now right. }
    destruct R2 as (l & ->).
    destruct (write o (WStart p l (by_prefix m)) k) as [[e|] k'] eqn:W; do 2 eexists; (split; [reflexivity|]).
    - discriminate.
    - intros m' [= <-]. split; [split|].
      + eapply final_values; eauto.
      + intros a Hin. apply in_map_iff in Hin. destruct Hin as ([p' u] & E & Hin). cbn in E. subst p'.
        apply (sorted_In _ _ _ (fo_sorted _ _ Fo)) in Hin.
        destruct (fo_prefix _ _ Fo _ _ Hin) as (e & He & e' & He' & Ha).
        destruct (fo_url _ _ Fo _ _ He) as (a' & Ha' & _ & Hp). rewrite He' in Ha'. injection Ha' as ->.
        cbn in Ha. subst a'. destruct (Hp _ eq_refl) as (_ & Hf & _).
        eapply from_request_ne; [|exact Hf|reflexivity]. exact (bi_quiet _ B a _ _ He).
      + intros u (e & He & Hr). destruct (fo_url _ _ Fo _ _ He) as (a & Ha & Hq & Hp).
        destruct a as [q|]; [|exfalso; exact (Hq Hr eq_refl)]. destruct (Hp _ eq_refl) as (Hg & _).
        apply in_map_iff. exists (q, u). split; auto. now apply bm_get_In.
  Qed.

  Lemma child_fine m n : minv m ->
    (xn_ns n = ""%string /\ A \/ xn_ns n = XML_NS \/ In (xn_ns n) (map snd (by_prefix m))) ->
    binv (writer_element m n) /\ name_ok (writer_element m n).
  Proof.
    intros [Hn Hq] H. split; [split|]; cbn.
    - apply wf_child.
    - apply fresh_inv.
    - intros a u e He. apply child_entries in He. destruct He as [He _]. intros E. rewrite E in He.
      apply (Hq a). apply in_map_iff. now exists (""%string, u).
    - intros ? ? [].
    - unfold name_ok. cbn [b_name b_ns writer_element]. rewrite (child_get m (xn_ns n) (xn_ns n) Hn).
      unfold parent_prefix. destruct (List.find (fun d => String.eqb (xn_ns n) (snd d)) (by_prefix m)) as [[p u]|] eqn:E.
      + cbn. apply String.eqb_refl.
      + cbn. destruct H as [H|[H|H]]; auto. exfalso. apply in_map_iff in H. destruct H as ([p u] & Hu & Hin).
        pose proof (List.find_none _ _ E _ Hin) as F. cbn in F, Hu. subst u. rewrite String.eqb_refl in F. discriminate.
  Qed.
End Inv.

(** ** Programs *)

Section Calm.
  Context (o o' : oracles) (env : tenv) (dbg : bool) (w : io) (A : Prop).
  Notation content := (content o' env).
  Hypothesis Hprint : prints o o'.

  Hypothesis env_maps : forall id d p u, env id = Some d -> In (p, u) (td_nss d) -> map_ok A p u.
  Hypothesis env_elems : forall id d n, env id = Some d -> In n (elem_names d) ->
    (xn_ns n = ""%string /\ A) \/ xn_ns n = XML_NS \/ exists p, In (p, xn_ns n) (td_nss d).
  Hypothesis env_attrs : forall id d n, env id = Some d -> In n (attr_names d) ->
    xn_ns n = ""%string \/ xn_ns n = XML_NS \/ exists p, In (p, xn_ns n) (td_nss d).

  Definition calm {d} (m : namespaces) (p : (option serr -> wprog d) -> wprog d) : Prop :=
    forall k nss sink, (forall r sink', fine (run_w dbg w (k r) (m :: nss) sink')) ->
    fine (run_w dbg w (p k) (m :: nss) sink).

  Lemma calm_nil {d} m : calm m (fun k : option serr -> wprog d => k None).
  Proof. intros k nss sink H. apply H. Qed.

  Lemma calm_then {d} m (p q : (option serr -> wprog d) -> wprog d) : calm m p -> calm m q ->
    calm m (fun k => p (on_ok k (q k))).
  Proof. intros Hp Hq k nss sink H. apply Hp. intros [e|] sink'; cbn; [apply H|]. now apply Hq. Qed.

  (** What is known of the requests of a value. *)
  Definition reqs_good (rs : list req) : Prop :=
    (forall p u, In (ReqNs p u) rs -> map_ok A p u) /\ declared_in [] rs.

  Lemma reqs_good_app a b : reqs_good a -> reqs_good b -> reqs_good (a ++ b).
  Proof.
    intros [A1 A2] [B1 B2]. split.
    - intros p u H. apply in_app_or in H. destruct H; auto.
    - now apply declared_in_app.
  Qed.

  Lemma In_mappings p u nss : In (ReqNs p u) (mappings nss) <-> In (p, u) nss.
  Proof.
    unfold mappings. rewrite in_map_iff. split.
    - intros ([p' u'] & [= -> ->] & H). exact H.
    - intros H. now exists (p, u).
  Qed.

  Lemma declared_attrs seen fs vs rs : attrs_are o' fs vs rs ->
    (forall f, In f fs -> is_attribute f = true -> let n := expanded (f_name f) in
       xn_ns n = ""%string \/ xn_ns n = XML_NS \/ In (xn_ns n) seen) ->
    declared_in seen rs /\ forall p u, ~ In (ReqNs p u) rs.
  Proof.
    induction 1 as [|f fs opt t x s vs l M T _ IH|f fs t vs l M _ IH|f fs v vs l M _ IH]; intros H.
    - split; [exact I|auto].
    - destruct IH as [I1 I2]; [intros g Hg; apply H; now right|]. split; [split; auto|].
      + apply (H f); [now left|]. unfold is_attribute. now rewrite M.
      + intros p u [E|E]; [discriminate|]. eapply I2; eauto.
    - apply IH. intros g Hg; apply H; now right.
    - apply IH. intros g Hg; apply H; now right.
  Qed.

  Lemma mappings_good id d : env id = Some d -> reqs_good (mappings (td_nss d)).
  Proof.
    intros E. split.
    - intros p u H. apply In_mappings in H. eauto.
    - rewrite <- (app_nil_r (mappings _)). apply declared_in_ns; [|exact I].
      intros r Hr. unfold mappings in Hr. apply in_map_iff in Hr. destruct Hr as ([p u] & <- & _). eauto.
  Qed.

  Lemma content_good v : forall t rs ks, content t v rs ks -> reqs_good rs.
  Proof.
    induction v using value_ind''; intros t rs ks C; inversion C; subst.
    - split; [intros ? ? []|exact I].
    - rewrite app_assoc. apply reqs_good_app.
      + match goal with E : env id = Some ?d |- _ => pose proof (mappings_good _ _ E) as [M1 _] end.
        match goal with E : attrs_are o' fs vs attrs |- _ =>
          destruct (declared_attrs (map snd nss) _ _ _ E) as [D1 D2] end.
        { intros f Hf Ha. cbn. destruct (env_attrs id _ (expanded (f_name f)) ltac:(eassumption)) as [?|[?|(p & Hp)]]; auto.
          - cbn. apply in_map_iff. exists f. split; auto. apply filter_In. auto.
          - right. right. apply in_map_iff. exists (p, xn_ns (expanded (f_name f))). auto. }
        split.
        * intros p u Hin. apply in_app_or in Hin. destruct Hin as [Hin|Hin]; [auto|]. now apply D2 in Hin.
        * apply declared_in_ns.
          -- intros r Hr. unfold mappings in Hr. apply in_map_iff in Hr. destruct Hr as ([p u] & <- & _). eauto.
          -- cbn. eapply declared_in_mono; [|exact D1]. unfold mappings. rewrite map_map. cbn.
             intros x Hx. exact Hx.
      + clear C. match goal with E : flattened content fs vs reqs' kids' |- _ => rename E into F end.
        clear - F H. induction F as [|f fs id v vs r k r2 k2 M C F IH|f fs v vs r l M F IH].
        * split; [intros ? ? []|exact I].
        * inversion H as [|v' vs' [Hv _] Hb']; subst. apply reqs_good_app; eauto.
        * inversion H as [|v' vs' [Hv _] Hb']; subst. auto.
    - eapply (mappings_good id (TDEnum ident root nss ws sk)); eauto.
    - eapply (mappings_good id (TDEnum ident root nss ws sk)); eauto.
    - eapply (mappings_good id (TDEnum ident root nss ws true)); eauto.
  Qed.

  Lemma declared_in_l a : forall s b, declared_in s (a ++ b) -> declared_in s a.
  Proof.
    induction a as [|[p u|n v] a IH]; intros s b; cbn; [easy|eauto|]. intros [H1 H2]. split; eauto.
  Qed.

  (** The requests of a value on a builder. *)
  Lemma asked_fine v t rs ks : content t v rs ks -> forall b, binv A b ->
    exists r b', run_a dbg (ser_attrs o env v t) b = inl (r, b') /\ binv A b' /\ b_name b' = b_name b /\
      (name_ok A b -> name_ok A b') /\ (r = None -> forall p u, In (ReqNs p u) rs -> has_url b' u).
  Proof.
    intros C b B. destruct (content_good v t rs ks C) as [G1 G2].
    destruct (make_attrs o o' env dbg Hprint v t rs ks C b) as (rs1 & rs2 & r & E & N & ->). subst rs.
    destruct (reqs_fine A dbg rs1 [] _ B ltac:(intros ? [])) as (r1 & b1 & -> & B1 & Nb & K & P & Q).
    - intros p u Hin. apply G1. apply in_or_app. now left.
    - exact (declared_in_l _ _ _ G2).
    - destruct r1 as [e|].
      + exists (Some e), b1. split; [reflexivity|]. split; [exact B1|]. split; [exact Nb|]. split; [exact K|discriminate].
      + exists r, b1. split; [reflexivity|]. split; [exact B1|]. split; [exact Nb|]. split; [exact K|].
        intros ->. rewrite (N eq_refl), app_nil_r. exact (Q eq_refl).
  Qed.

  Definition serves (m : namespaces) (rs : list req) : Prop :=
    minv A m /\ forall p u, In (ReqNs p u) rs -> In u (map snd (by_prefix m)).

  Lemma serves_app m a b : serves m (a ++ b) <-> serves m a /\ serves m b.
  Proof.
    unfold serves. split.
    - intros [H1 H2]. split; (split; [exact H1|]); intros p u H; eapply H2; apply in_or_app; eauto.
    - intros [[H1 H2] [_ H3]]. split; auto. intros p u H. apply in_app_or in H. destruct H; eauto.
  Qed.

  Definition nok (m : namespaces) (n : xname) : Prop :=
    xn_ns n = ""%string /\ A \/ xn_ns n = XML_NS \/ In (xn_ns n) (map snd (by_prefix m)).

  Lemma serves_name m id d n : env id = Some d -> serves m (mappings (td_nss d)) -> In n (elem_names d) -> nok m n.
  Proof.
    intros E [_ S] H. destruct (env_elems id d n E H) as [?|[?|(p & Hp)]]; [now left|right; now left|].
    right. right. eapply S. apply In_mappings. eauto.
  Qed.

  Lemma calm_one {d} m n t v rs ks (kids : (option serr -> wprog (S d)) -> wprog (S d)) :
    minv A m -> nok m n -> content t v rs ks -> (forall m', serves m' rs -> calm m' kids) ->
    calm m (write_one n (ser_attrs o env v t) kids).
  Proof.
    intros Hm Hn C Hk k nss sink H. unfold write_one.
    rewrite run_w_elem, run_embed.
    destruct (child_fine A m n Hm Hn) as [B N].
    destruct (asked_fine v t rs ks C _ B) as (r & b & -> & B' & Nb & K & Q).
    destruct r as [e|]; [apply H|]. cbn [run_b].
    destruct (start_fine A w b sink B' (K N)) as (r & k' & Es & M). rewrite Es.
    destruct r as [m'|e]; [|apply H]. destruct (M _ eq_refl) as [M1 M2].
    apply Hk.
    - split; auto. intros p u Hin. eapply M2, Q; eauto.
    - intros [e|] sink'; cbn [run_w].
      + apply H.
      + destruct (write w WEnd sink') as [r' k'']. apply H.
  Qed.

  Lemma calm_for_each {d} m (one : value -> (option serr -> wprog d) -> wprog d) vs :
    (forall v, In v vs -> calm m (one v)) -> calm m (for_each one vs).
  Proof.
    induction vs as [|v vs IH]; intros H; [apply calm_nil|].
    cbn [for_each]. apply (calm_then m (one v) (for_each one vs)).
    - apply H. now left.
    - apply IH. intros x Hx. apply H. now right.
  Qed.

  Lemma calm_field {d} m (one : value -> (option serr -> wprog d) -> wprog d) kd v vs :
    items kd v vs -> (forall x, In x vs -> calm m (one x)) -> calm m (write_field one kd v).
  Proof.
    intros I H. destruct I; cbn [write_field]; try (apply H; now left); [apply calm_nil|].
    now apply calm_for_each.
  Qed.

  Lemma elems_each n t vs ks : elems_are content n t vs ks -> forall v, In v vs -> exists rs ks', content t v rs ks'.
  Proof.
    induction 1 as [|v vs rs kids l Hr _ IH]; intros x; [intros []|]. intros [<-|Hx]; eauto.
  Qed.

  Definition calm_kids (v : value) : Prop := forall t rs ks, content t v rs ks ->
    forall m, serves m rs -> forall d, calm m (fun k : option serr -> wprog d => ser_kids o env v t k).

  Lemma calm_elems {d} m n t kd v vs ks : below calm_kids v -> items kd v vs -> elems_are content n t vs ks ->
    minv A m -> nok m n ->
    calm m (write_field (fun v (k : option serr -> wprog d) =>
                           write_one n (ser_attrs o env v t) (fun k' => ser_kids o env v t k') k) kd v).
  Proof.
    intros Hb I E Hm Hn. eapply calm_field; eauto. intros x Hx.
    destruct (elems_each _ _ _ _ E x Hx) as (rs & ks' & C).
    pose proof (below_items _ _ _ _ Hb I) as F. rewrite Forall_forall in F.
    eapply calm_one; eauto. intros m' S. eapply F; eauto.
  Qed.

  Lemma calm_own {d} m w' fs vs ks : Forall (below calm_kids) vs -> minv A m ->
    (forall f, In f fs -> is_element f = true -> nok m (expanded (f_name f))) ->
    (forall f v (k : option serr -> wprog d), w' f v k = match f_mode f with
       | MElement kd t => write_field (fun v k => write_one (expanded (f_name f)) (ser_attrs o env v t)
                                                     (fun k' => ser_kids o env v t k') k) kd v k
       | _ => WPanic ill_typed
       end) ->
    own_kids content fs vs ks -> calm m (w_each is_element w' vs fs).
  Proof.
    intros Hb Hm Hn Hw H. revert Hb Hn.
    induction H as [|f fs k t v xs l vs l2 M I E _ IH|f fs v vs l M _ IH]; intros Hb Hn.
    - apply calm_nil.
    - inversion Hb as [|v' vs' Hv Hb']; subst. cbn [w_each].
      assert (Ef : is_element f = true) by (unfold is_element; now rewrite M). rewrite Ef.
      apply (calm_then m (w' f v) (w_each is_element w' vs fs)).
      + intros k0 nss sink Hk. rewrite Hw, M. revert k0 nss sink Hk.
        change (calm m (write_field (fun v0 (k1 : option serr -> wprog d) =>
                           write_one (expanded (f_name f)) (ser_attrs o env v0 t) (fun k' => ser_kids o env v0 t k') k1) k v)).
        eapply calm_elems; eauto. apply Hn; auto. now left.
      + apply IH; auto. intros g Hg. apply Hn. now right.
    - inversion Hb as [|v' vs' Hv Hb']; subst. cbn [w_each]. rewrite M.
      apply IH; auto. intros g Hg. apply Hn. now right.
  Qed.

  Lemma calm_flat {d} m w' fs vs rs ks : Forall (below calm_kids) vs -> serves m rs ->
    (forall f v (k : option serr -> wprog d), w' f v k = match f_mode f with
       | MFlatten id => ser_kids o env v (ERef id) k
       | _ => WPanic ill_typed
       end) ->
    flattened content fs vs rs ks -> calm m (w_each is_flatten w' vs fs).
  Proof.
    intros Hb S Hw H. revert Hb S.
    induction H as [|f fs id v vs r k r2 k2 M C _ IH|f fs v vs r l M _ IH]; intros Hb S.
    - apply calm_nil.
    - inversion Hb as [|v' vs' [Hv _] Hb']; subst. apply serves_app in S. destruct S as [S1 S2]. cbn [w_each].
      assert (Ef : is_flatten f = true) by (unfold is_flatten; now rewrite M). rewrite Ef.
      apply (calm_then m (w' f v) (w_each is_flatten w' vs fs)).
      + intros k0 nss sink Hk. rewrite Hw, M. eapply Hv; eauto.
      + now apply IH.
    - inversion Hb as [|v' vs' Hv Hb']; subst. cbn [w_each]. rewrite M. now apply IH.
  Qed.

  Lemma kids_calm v : calm_kids v.
  Proof.
    induction v using value_ind''; intros t rs ks C m S d; inversion C; subst; intros k0 nsl sink Hk; cbn [ser_kids];
      repeat match goal with
      | E : env _ = Some _ |- _ => rewrite E
      | E : nth_error (sorted_variants _) _ = Some _ |- _ => rewrite E
      | E : v_ty _ = _ |- _ => rewrite E
      end.
    - destruct (Hprint t0 x s ltac:(eassumption)) as [E|(E & m' & E')]; rewrite E; [|rewrite E'; apply Hk].
      cbn [run_w]. destruct (write w (WChars s) sink). apply Hk.
    - apply serves_app in S. destruct S as [S1 S2]. apply serves_app in S2. destruct S2 as [_ S2].
      match goal with |- fine (run_w dbg w (w_each is_element ?w1 vs fs (on_ok k0 (w_each is_flatten ?w2 vs fs k0))) _ _) =>
        apply (calm_then m (w_each is_element w1 vs fs) (w_each is_flatten w2 vs fs)); [| |exact Hk] end.
      + eapply calm_own; [exact H|exact (proj1 S1)| |intros ? ? ?; reflexivity|eassumption].
        intros f Hf Ef. eapply (serves_name m id (TDStruct ident root nss fs)); eauto.
        cbn. apply in_map_iff. exists f. split; auto. apply filter_In. auto.
      + eapply calm_flat; eauto; intros ? ? ?; reflexivity.
    - assert (Hn : nok m (expanded (v_name w0))).
      { eapply (serves_name m id (TDEnum ident root nss ws sk)); eauto. cbn. apply in_map_iff. exists w0. split; auto.
        eapply Permutation.Permutation_in; [apply sort_perm|]. eapply nth_error_In; eauto. }
      cbn [run_w run_b].
      destruct (child_fine A m _ (proj1 S) Hn) as [B N].
      destruct (start_fine A w _ sink B N) as (r & k' & Es & _). rewrite Es.
      destruct r as [m'|e]; [|apply Hk]. cbn [run_w]. destruct (write w WEnd k') as [r' k'']. cbn. apply Hk.
    - assert (Hn : nok m (expanded (v_name w0))).
      { eapply (serves_name m id (TDEnum ident root nss ws sk)); eauto. cbn. apply in_map_iff. exists w0. split; auto.
        eapply Permutation.Permutation_in; [apply sort_perm|]. eapply nth_error_In; eauto. }
      revert k0 nsl sink Hk.
      match goal with |- forall k0 nsl sink, _ -> fine (run_w dbg w (write_field ?one ?kd ?x k0) _ _) =>
        change (calm m (write_field one kd x)) end.
      eapply calm_elems; eauto. apply S.
    - apply Hk.
  Qed.

  Theorem values_fine t v name rs ks : content t v rs ks ->
    (xn_ns name = ""%string /\ A \/ xn_ns name = XML_NS \/ exists p, In (ReqNs p (xn_ns name)) rs) ->
    fine (serialize_with_name o env dbg w t v name).
  Proof.
    intros C Hn. unfold serialize_with_name, to, ser_value. cbn [s_attrs s_kids].
    assert (B : binv A (BState name [] [] [])).
    { split; cbn; [apply wf_nil|split; [constructor|tauto]|intros _ u e; discriminate|intros ? ? []]. }
    destruct (asked_fine v t rs ks C _ B) as (r & b & -> & B' & Nb & K & Q).
    destruct r as [e|]; [eexists; reflexivity|].
    assert (N : name_ok A b).
    { destruct Hn as [Hn|[Hn|(p & Hn)]].
      - apply K. unfold name_ok. cbn. auto.
      - apply K. unfold name_ok. cbn. auto.
      - destruct (Q eq_refl _ _ Hn) as (e & He & Hr). unfold name_ok. rewrite Nb. cbn [b_name]. now rewrite He. }
    destruct (start_fine A w b sink0 B' N) as (r & k' & Es & M). rewrite Es.
    destruct r as [m|e]; [|eexists; reflexivity]. destruct (M _ eq_refl) as [M1 M2].
    destruct (kids_calm v t rs ks C m) with (d := 0) (k := WRet) (nss := @nil namespaces) (sink := k') as ([[e|] k2] & ->).
    - split; auto. intros p u Hin. eapply M2, Q; eauto.
    - intros r sink'. eexists. reflexivity.
    - eexists. reflexivity.
    - destruct (write w WEnd k2); eexists; reflexivity.
  Qed.
End Calm.

Lemma prints_self o : prints o o.
Proof. intros t x s. auto. Qed.

Theorem value_fine o env dbg w A :
  (forall id d p u, env id = Some d -> In (p, u) (td_nss d) -> map_ok A p u) ->
  (forall id d n, env id = Some d -> In n (elem_names d) ->
     (xn_ns n = ""%string /\ A) \/ xn_ns n = XML_NS \/ exists p, In (p, xn_ns n) (td_nss d)) ->
  (forall id d n, env id = Some d -> In n (attr_names d) ->
     xn_ns n = ""%string \/ xn_ns n = XML_NS \/ exists p, In (p, xn_ns n) (td_nss d)) ->
  forall t v name rs ks, content o env t v rs ks ->
  (xn_ns name = ""%string /\ A \/ xn_ns name = XML_NS \/ exists p, In (ReqNs p (xn_ns name)) rs) ->
  fine (serialize_with_name o env dbg w t v name).
Proof. intros H1 H2 H3. exact (values_fine o o env dbg w A (prints_self o) H1 H2 H3). Qed.
