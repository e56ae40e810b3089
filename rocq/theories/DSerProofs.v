(** Derived serialization asks the API for the tree of [DSerSpec.v]. *)
From Verif Require Import Base Normalize Text Find Types Ser SerSpec SerTree DeriveSer DSerSpec.

(** ** Induction over values *)
Fixpoint value_ind' (P : value -> Prop)
  (HT : forall x, P (VText x)) (HS : forall vs, Forall P vs -> P (VStruct vs))
  (HE : forall i p, (forall x, p = Some x -> P x) -> P (VEnum i p)) (HK : P VSkipped)
  (HN : P VNone) (HO : forall v, P v -> P (VSome v)) (HV : forall l, Forall P l -> P (VVec l))
  (v : value) {struct v} : P v :=
  let rec := value_ind' P HT HS HE HK HN HO HV in
  let all := fix all (l : list value) : Forall P l :=
    match l with [] => Forall_nil P | x :: l' => Forall_cons x (rec x) (all l') end in
  match v with
  | VText x => HT x
  | VStruct vs => HS vs (all vs)
  | VEnum i p => HE i p (match p as q return forall x, q = Some x -> P x with
                         | None => fun x H => match H with end
                         | Some y => fun x H => match H in _ = z return match z with Some w => P w | None => True end
                                                with eq_refl => rec y end
                         end)
  | VSkipped => HK
  | VNone => HN
  | VSome v => HO v (rec v)
  | VVec l => HV l (all l)
  end.

(** The items of a value of a kind: [P] of the value gives [P] of the items, when [P] is hereditary. *)
Definition below (P : value -> Prop) (v : value) : Prop :=
  P v /\ match v with VSome w => P w | VVec l => Forall P l | _ => True end.

Lemma value_ind'' (P : value -> Prop) :
  (forall x, P (VText x)) -> (forall vs, Forall (below P) vs -> P (VStruct vs)) ->
  (forall i p, (forall x, p = Some x -> below P x) -> P (VEnum i p)) -> P VSkipped ->
  P VNone -> (forall v, below P v -> P (VSome v)) -> (forall l, Forall (below P) l -> P (VVec l)) ->
  forall v, P v.
Proof.
  intros HT HS HE HK HN HO HV v. enough (H : below P v) by apply H.
  induction v using value_ind'; unfold below; (split; [|try exact I]).
  - apply HT.
  - apply HS. assumption.
  - apply HE. assumption.
  - apply HK.
  - apply HN.
  - apply HO. assumption.
  - apply IHv.
  - apply HV. assumption.
  - eapply Forall_impl; [|eassumption]. now intros a [Ha _].
Qed.

Lemma below_items P k v l : below P v -> items k v l -> Forall P l.
Proof. intros [H1 H2] I. destruct I; auto. Qed.

Section Proofs.
  Context (o : oracles) (env : tenv).
  Notation typed := (typed o env).
  Notation content := (content o env).

  (** ** Every value of the type has a tree, and only one *)

  Lemma items_det k v l l' : items k v l -> items k v l' -> l = l'.
  Proof. intros H; inversion H; subst; intros H'; inversion H'; now subst. Qed.

  Lemma attrs_total R fs vs : Forall2 (typed_field o R) fs vs -> exists l, attrs_are o fs vs l.
  Proof.
    induction 1 as [|f v fs vs Hf _ [l IH]]; [exists []; constructor|].
    destruct Hf as [k t v0 l0 M I F|t x M T|t M|t x M T|id v0 M T|t x M T].
    - exists l. apply aa_other; auto. unfold is_attribute. now rewrite M.
    - destruct (to_text o t x) as [s|] eqn:E; [|easy]. eexists.
      apply (aa_here o f fs false t x s); eauto.
    - exists l. eapply aa_none; eauto.
    - destruct (to_text o t x) as [s|] eqn:E; [|easy]. eexists.
      apply (aa_here o f fs true t x s); eauto.
    - exists l. apply aa_other; auto. unfold is_attribute. now rewrite M.
    - exists l. apply aa_other; auto. unfold is_attribute. now rewrite M.
  Qed.

  Lemma attrs_det fs vs l : attrs_are o fs vs l -> forall l', attrs_are o fs vs l' -> l = l'.
  Proof.
    induction 1 as [|f fs opt t x s vs l M T _ IH|f fs t vs l M _ IH|f fs v vs l M _ IH]; intros l' H'.
    - now inversion H'.
    - inversion H' as [|f1 fs1 opt1 t1 x1 s1 vs1 l1 M1 T1 H1|f1 fs1 t1 vs1 l1 M1 H1|f1 fs1 v1 vs1 l1 M1 H1]; subst.
      + rewrite M in M1. injection M1 as <- <-. destruct opt.
        * match goal with H : VSome _ = VSome _ |- _ => injection H as -> end.
          rewrite T in T1. injection T1 as ->. f_equal. now apply IH.
        * match goal with H : VText _ = VText _ |- _ => injection H as -> end.
          rewrite T in T1. injection T1 as ->. f_equal. now apply IH.
      + destruct opt; discriminate.
      + unfold is_attribute in M1. rewrite M in M1. discriminate.
    - inversion H' as [|f1 fs1 opt1 t1 x1 s1 vs1 l1 M1 T1 H1|f1 fs1 t1 vs1 l1 M1 H1|f1 fs1 v1 vs1 l1 M1 H1]; subst.
      + destruct opt1; discriminate.
      + now apply IH.
      + now apply IH.
    - inversion H' as [|f1 fs1 opt1 t1 x1 s1 vs1 l1 M1 T1 H1|f1 fs1 t1 vs1 l1 M1 H1|f1 fs1 v1 vs1 l1 M1 H1]; subst.
      + unfold is_attribute in M. rewrite M1 in M. discriminate.
      + now apply IH.
      + now apply IH.
  Qed.

  Definition has_content (v : value) : Prop := forall t, typed t v -> exists r k, content t v r k.
  Definition one_content (v : value) : Prop :=
    forall t r k r' k', content t v r k -> content t v r' k' -> r = r' /\ k = k'.

  Lemma elems_total n t l : Forall has_content l -> Forall (typed t) l ->
    exists ks, elems_are content n t l ks.
  Proof.
    induction 1 as [|v l Hv _ IH]; intros T; inversion T as [|v' l' Tv Tl]; subst.
    - exists []. constructor.
    - destruct (Hv t Tv) as (r & k & Hc). destruct (IH Tl) as (ks & Hk).
      exists (RElem n r k :: ks). now constructor.
  Qed.

  Lemma elems_det n t l : Forall one_content l -> forall ks ks',
    elems_are content n t l ks -> elems_are content n t l ks' -> ks = ks'.
  Proof.
    induction 1 as [|v l Hv _ IH]; intros ks ks' H H'.
    - inversion H; inversion H'; now subst.
    - inversion H as [|v1 l1 r1 k1 m1 C1 E1]; inversion H' as [|v2 l2 r2 k2 m2 C2 E2]; subst.
      destruct (Hv _ _ _ _ _ C1 C2) as [-> ->]. f_equal. now apply IH.
  Qed.

  Lemma own_total fs vs : Forall (below has_content) vs -> Forall2 (typed_field o typed) fs vs ->
    exists l, own_kids content fs vs l.
  Proof.
    intros Hb H. revert Hb. induction H as [|f v fs vs Hf _ IH]; intros Hb.
    - exists []. constructor.
    - inversion Hb as [|v' vs' Hv Hb']; subst. destruct (IH Hb') as (l & Hl).
      destruct Hf as [k t v0 l0 M I F|t x M T|t M|t x M T|id v0 M T|t x M T].
      2-6: exists l; apply ok_other; auto; unfold is_element; now rewrite M.
      destruct (elems_total (expanded (f_name f)) t l0) as (ks & Hk); auto.
      { eapply below_items; eauto. }
      exists (ks ++ l). eapply ok_here; eauto.
  Qed.

  Lemma own_det fs vs l : Forall (below one_content) vs -> own_kids content fs vs l ->
    forall l', own_kids content fs vs l' -> l = l'.
  Proof.
    intros Hb H. revert Hb.
    induction H as [|f fs k t v xs l vs l2 M I E _ IH|f fs v vs l M _ IH]; intros Hb l' H'.
    - now inversion H'.
    - inversion Hb as [|v' vs' Hv Hb']; subst.
      inversion H' as [|f1 fs1 k1 t1 v1 xs1 l1 vs1 l3 M1 I1 E1 H1|f1 fs1 v1 vs1 l1 M1 H1]; subst.
      + rewrite M in M1. injection M1 as <- <-. rewrite (items_det _ _ _ _ I1 I) in *.
        rewrite (elems_det _ _ _ (below_items _ _ _ _ Hv I) _ _ E E1). f_equal. now apply IH.
      + unfold is_element in M1. rewrite M in M1. discriminate.
    - inversion Hb as [|v' vs' Hv Hb']; subst.
      inversion H' as [|f1 fs1 k1 t1 v1 xs1 l1 vs1 l3 M1 I1 E1 H1|f1 fs1 v1 vs1 l1 M1 H1]; subst.
      + unfold is_element in M. rewrite M1 in M. discriminate.
      + now apply IH.
  Qed.

  Lemma flat_total fs vs : Forall (below has_content) vs -> Forall2 (typed_field o typed) fs vs ->
    exists r l, flattened content fs vs r l.
  Proof.
    intros Hb H. revert Hb. induction H as [|f v fs vs Hf _ IH]; intros Hb.
    - exists [], []. constructor.
    - inversion Hb as [|v' vs' Hv Hb']; subst. destruct (IH Hb') as (r & l & Hl).
      destruct Hf as [k t v0 l0 M I F|t x M T|t M|t x M T|id v0 M T|t x M T].
      1-4,6: exists r, l; apply fl_other; auto; unfold is_flatten; now rewrite M.
      destruct Hv as [Hv _]. destruct (Hv _ T) as (r0 & k0 & Hc).
      exists (r0 ++ r), (k0 ++ l). eapply fl_here; eauto.
  Qed.

  Lemma flat_det fs vs r l : Forall (below one_content) vs -> flattened content fs vs r l ->
    forall r' l', flattened content fs vs r' l' -> r = r' /\ l = l'.
  Proof.
    intros Hb H. revert Hb.
    induction H as [|f fs id v vs r k r2 k2 M C _ IH|f fs v vs r l M _ IH]; intros Hb r' l' H'.
    - now inversion H'.
    - inversion Hb as [|v' vs' Hv Hb']; subst.
      inversion H' as [|f1 fs1 id1 v1 vs1 r1 k1 r3 k3 M1 C1 H1|f1 fs1 v1 vs1 r1 l1 M1 H1]; subst.
      + rewrite M in M1. injection M1 as <-. destruct Hv as [Hv _].
        destruct (Hv _ _ _ _ _ C C1) as [-> ->]. destruct (IH Hb' _ _ H1) as [-> ->]. auto.
      + unfold is_flatten in M1. rewrite M in M1. discriminate.
    - inversion Hb as [|v' vs' Hv Hb']; subst.
      inversion H' as [|f1 fs1 id1 v1 vs1 r1 k1 r3 k3 M1 C1 H1|f1 fs1 v1 vs1 r1 l1 M1 H1]; subst.
      + unfold is_flatten in M. rewrite M1 in M. discriminate.
      + now apply IH.
  Qed.

  Lemma content_total v : has_content v.
  Proof.
    induction v using value_ind''; intros t T; inversion T; subst.
    - destruct (to_text o t0 x) as [s|] eqn:E; [|easy]. exists [], [RText s]. now constructor.
    - destruct (attrs_total _ _ _ H3) as (a & Ha). destruct (own_total _ _ H H3) as (l & Hl).
      destruct (flat_total _ _ H H3) as (r & l' & Hr).
      eexists. eexists. eapply co_struct; eauto.
    - eexists. eexists. eapply co_unit; eauto.
    - destruct (elems_total (expanded (v_name w)) t0 l) as (ks & Hk); auto.
      { eapply below_items; [apply H; reflexivity|eauto]. }
      eexists. eexists. eapply co_payload; eauto.
    - eexists. eexists. eapply co_skipped; eauto.
  Qed.

  Lemma content_det v : one_content v.
  Proof.
    induction v using value_ind''; intros t r k r' k' C C'.
    - inversion C; subst. inversion C'; subst. split; congruence.
    - inversion C as [|id ident root nss fs vs0 at1 k1 r1 k2 E A O F| | |]; subst.
      inversion C' as [|id' ident' root' nss' fs' vs' at1' k1' r1' k2' E' A' O' F'| | |]; subst.
      rewrite E in E'. injection E' as <- <- <- <-.
      rewrite (attrs_det _ _ _ A _ A'), (own_det _ _ _ H O _ O').
      destruct (flat_det _ _ _ _ H F _ _ F') as [-> ->]. auto.
    - inversion C as [| |id ident root nss ws sk i0 w E N W|id ident root nss ws sk i0 w k0 t0 x xs l E N W I L|]; subst;
      inversion C' as [| |id' ident' root' nss' ws' sk' i0' w' E' N' W'|id' ident' root' nss' ws' sk' i0' w' k0' t0' x' xs' l' E' N' W' I' L'|]; subst;
      rewrite E in E'; injection E' as <- <- <- <- <-; rewrite N in N'; injection N' as <-; split; auto.
      rewrite W in W'. injection W' as <- <-. rewrite (items_det _ _ _ _ I' I) in *.
      eapply elems_det; [|exact L|exact L']. eapply below_items; [apply H; reflexivity|exact I].
    - inversion C; subst. inversion C'; subst. split; congruence.
    - inversion C.
    - inversion C.
    - inversion C.
  Qed.

  Ltac rewrite_env := repeat match goal with
    | E : env _ = Some _ |- _ => rewrite E
    | E : nth_error (sorted_variants _) _ = Some _ |- _ => rewrite E
    | E : v_ty _ = _ |- _ => rewrite E
    | E : to_text _ _ _ = Some _ |- _ => rewrite E
    end.

  (** ** What the program asks for *)

  (** Requests made on a builder: [None] if an attribute is repeated. *)
  Fixpoint add_reqs (l : list req) (rs : list req) : option (list req) :=
    match rs with
    | [] => Some l
    | ReqNs p u :: rs' => add_reqs (l ++ [ReqNs p u]) rs'
    | ReqAttr n v :: rs' =>
        match attr_value n l with
        | Some _ => None
        | None => add_reqs (l ++ [ReqAttr n v]) rs'
        end
    end.

  Lemma add_reqs_app rs1 : forall l rs2,
    add_reqs l (rs1 ++ rs2) = match add_reqs l rs1 with Some l' => add_reqs l' rs2 | None => None end.
  Proof.
    induction rs1 as [|[p u|n v] rs1 IH]; intros l rs2; cbn; auto.
    destruct (attr_value n l); auto.
  Qed.

  Lemma add_reqs_Some rs : forall l l', add_reqs l rs = Some l' -> l' = l ++ rs.
  Proof.
    induction rs as [|[p u|n v] rs IH]; intros l l'; cbn.
    - intros [= <-]. now rewrite app_nil_r.
    - intros H. apply IH in H. now rewrite <- app_assoc in H.
    - destruct (attr_value n l); [discriminate|]. intros H. apply IH in H. now rewrite <- app_assoc in H.
  Qed.

  Lemma attr_value_None n l : attr_value n l = None <-> ~ In n (map fst (req_attrs l)).
  Proof.
    unfold attr_value. induction (req_attrs l) as [|[a v] m IH]; cbn.
    - split; auto.
    - destruct (xn_eqb a n) eqn:E.
      + apply xn_eqb_eq' in E. subst. split; [discriminate|]. intros H. exfalso. apply H. now left.
      + rewrite IH. split.
        * intros H [->|H']; [|contradiction]. assert (xn_eqb n n = true) by now apply xn_eqb_eq'. congruence.
        * intros H H'. apply H. now right.
  Qed.

  Lemma add_reqs_NoDup rs : forall l, NoDup (map fst (req_attrs (l ++ rs))) -> add_reqs l rs = Some (l ++ rs).
  Proof.
    induction rs as [|[p u|n v] rs IH]; intros l H; cbn.
    - now rewrite app_nil_r.
    - change (ReqNs p u :: rs) with ([ReqNs p u] ++ rs) in *. rewrite app_assoc in *. now apply IH.
    - change (ReqAttr n v :: rs) with ([ReqAttr n v] ++ rs) in *. rewrite app_assoc in *.
      replace (attr_value n l) with (@None string); [now apply IH|]. symmetry. apply attr_value_None.
      rewrite req_attrs_app, req_attrs_app in H. cbn in H. rewrite <- app_assoc in H. rewrite map_app in H.
      cbn in H. apply NoDup_remove_2 in H. intros I. apply H. apply in_or_app. now left.
  Qed.

  Lemma ask_a_then a : forall b l,
    ask_a (a_then a b) l = match ask_a a l with Some l' => ask_a b l' | None => None end.
  Proof.
    induction a as [[e|]|p u a IH|n v f IH|m]; intros b l; cbn [a_then ask_a]; auto.
    unfold add_attr. destruct (attr_value n l); apply IH.
  Qed.

  Lemma ask_namespaces nss : forall a l, ask_a (write_namespaces nss a) l = ask_a a (l ++ mappings nss).
  Proof.
    induction nss as [|[p u] nss IH]; intros a l; cbn; [now rewrite app_nil_r|].
    rewrite IH. now rewrite <- app_assoc.
  Qed.

  Lemma add_mappings nss : forall l, add_reqs l (mappings nss) = Some (l ++ mappings nss).
  Proof.
    induction nss as [|[p u] nss IH]; intros l; cbn; [now rewrite app_nil_r|]. rewrite IH. now rewrite <- app_assoc.
  Qed.

  Lemma ask_attr_fields w fs vs rs :
    (forall f v, w f v = match f_mode f with
                         | MAttribute opt t => write_attr o (expanded (f_name f)) opt t v
                         | _ => APanic ill_typed
                         end) ->
    attrs_are o fs vs rs -> forall l, ask_a (a_each is_attribute w vs fs) l = add_reqs l rs.
  Proof.
    intros Hw. induction 1 as [|f fs opt t x s vs l M T _ IH|f fs t vs l M _ IH|f fs v vs l M _ IH]; intros l0.
    - reflexivity.
    - cbn [a_each]. unfold is_attribute. rewrite M, ask_a_then, Hw, M.
      assert (E : write_attr o (expanded (f_name f)) opt t (if opt then VSome (VText x) else VText x)
                  = AAttr (expanded (f_name f)) s ARet) by (destruct opt; cbn; now rewrite T).
      rewrite E. cbn [ask_a add_reqs]. unfold add_attr.
      destruct (attr_value (expanded (f_name f)) l0); [reflexivity|]. cbn [ask_a]. apply IH.
    - cbn [a_each]. unfold is_attribute. rewrite M, ask_a_then, Hw, M. cbn. apply IH.
    - cbn [a_each]. rewrite M. apply IH.
  Qed.

  Definition asks_reqs (v : value) : Prop := forall t rs ks, content t v rs ks ->
    forall l, ask_a (ser_attrs o env v t) l = add_reqs l rs.

  Lemma ask_flattened w fs vs rs ks : Forall (below asks_reqs) vs ->
    (forall f v, w f v = match f_mode f with
                         | MFlatten id => ser_attrs o env v (ERef id)
                         | _ => APanic ill_typed
                         end) ->
    flattened content fs vs rs ks -> forall l, ask_a (a_each is_flatten w vs fs) l = add_reqs l rs.
  Proof.
    intros Hb Hw H. revert Hb.
    induction H as [|f fs id v vs r k r2 k2 M C _ IH|f fs v vs r l M _ IH]; intros Hb l0.
    - reflexivity.
    - inversion Hb as [|v' vs' [Hv _] Hb']; subst.
      cbn [a_each]. unfold is_flatten. rewrite M, ask_a_then, Hw, M, (Hv _ _ _ C), add_reqs_app.
      destruct (add_reqs l0 r); [now apply IH|reflexivity].
    - inversion Hb as [|v' vs' _ Hb']; subst. cbn [a_each]. rewrite M. now apply IH.
  Qed.

  Lemma ask_attrs v : asks_reqs v.
  Proof.
    induction v using value_ind''; intros t rs ks C l0; inversion C; subst; cbn [ser_attrs].
    - reflexivity.
    - rewrite_env; rewrite ask_namespaces, ask_a_then, add_reqs_app, add_mappings, add_reqs_app.
      erewrite ask_attr_fields; [|intros ? ?; reflexivity|eassumption].
      destruct (add_reqs (l0 ++ mappings nss) attrs); [|reflexivity].
      eapply ask_flattened; eauto; intros ? ?; reflexivity.
    - rewrite_env; rewrite ask_namespaces, add_mappings. reflexivity.
    - rewrite_env; rewrite ask_namespaces, add_mappings. reflexivity.
    - rewrite_env; rewrite ask_namespaces, add_mappings. reflexivity.
  Qed.

  (** No element repeats an attribute. *)
  Fixpoint tree_ok (t : rtree) : bool :=
    match t with
    | RElem _ rs ks => match add_reqs [] rs with Some _ => forallb tree_ok ks | None => false end
    | RText _ => true
    end.

  Definition add_kids (ks : list rtree) (c : list rtree * list frame) : list rtree * list frame :=
    fold_left (fun c t => add_kid t (fst c) (snd c)) ks c.

  Lemma add_kids_frame ks : forall n l done root st,
    add_kids ks (root, Frame n l done :: st) = (root, Frame n l (done ++ ks) :: st).
  Proof.
    induction ks as [|k ks IH]; intros n l done root st; cbn; [now rewrite app_nil_r|].
    rewrite IH. now rewrite <- app_assoc.
  Qed.

  Lemma add_kids_root ks : forall root, add_kids ks (root, []) = (root ++ ks, []).
  Proof.
    induction ks as [|k ks IH]; intros root; cbn; [now rewrite app_nil_r|]. rewrite IH. now rewrite <- app_assoc.
  Qed.

  Definition strict {d} (k : option serr -> wprog d) : Prop :=
    forall e root st, ask_w (k (Some e)) root st = None.

  Lemma strict_on_ok {d} (k : option serr -> wprog d) p : strict k -> strict (on_ok k p).
  Proof. intros H e root st. apply H. Qed.

  (** [p k] writes [ks] and goes on with [k]. *)
  Definition puts {d} (p : (option serr -> wprog d) -> wprog d) (ks : list rtree) : Prop :=
    forall k root st, strict k ->
    ask_w (p k) root st =
      if forallb tree_ok ks then let '(root', st') := add_kids ks (root, st) in ask_w (k None) root' st'
      else None.

  Lemma puts_nil {d} : puts (fun k : option serr -> wprog d => k None) [].
  Proof. intros k root st _. reflexivity. Qed.

  Lemma puts_app {d} (p q : (option serr -> wprog d) -> wprog d) ks1 ks2 : puts p ks1 -> puts q ks2 ->
    puts (fun k => p (on_ok k (q k))) (ks1 ++ ks2).
  Proof.
    intros H1 H2 k root st Hk. rewrite H1 by now apply strict_on_ok. rewrite forallb_app.
    destruct (forallb tree_ok ks1); [|reflexivity]. unfold add_kids. rewrite fold_left_app.
    fold (add_kids ks1 (root, st)). destruct (add_kids ks1 (root, st)) as [root' st'].
    cbn [on_ok andb]. rewrite H2; auto.
  Qed.

  Lemma ask_embed {d} a (q : option serr -> bprog d) n root st :
    (forall e l, ask_b (q (Some e)) n l root st = None) -> forall l,
    ask_b (embed a q) n l root st = match ask_a a l with Some l' => ask_b (q None) n l' root st | None => None end.
  Proof.
    intros Hq. induction a as [[e|]|p u a IH|m v f IH|m]; intros l; cbn [embed ask_a ask_b]; auto.
    destruct (add_attr m v l) as [r l']. apply IH.
  Qed.

  Lemma puts_one {d} n attrs (kids : (option serr -> wprog (S d)) -> wprog (S d)) rs ks :
    ask_a attrs [] = add_reqs [] rs -> puts kids ks ->
    puts (write_one n attrs kids) [RElem n rs ks].
  Proof.
    intros Ha Hk k root st K. unfold write_one. cbn [ask_w].
    rewrite ask_embed by (intros; reflexivity). rewrite Ha. cbn [forallb tree_ok].
    destruct (add_reqs [] rs) as [l'|] eqn:E; [|reflexivity]. apply add_reqs_Some in E. cbn in E. subst.
    cbn [ask_b]. rewrite Hk by (intros e r s; reflexivity).
    destruct (forallb tree_ok ks); [|reflexivity]. cbn [andb]. rewrite add_kids_frame. cbn [ask_w fr_name fr_reqs fr_kids app].
    cbn [add_kids fold_left fst snd]. destruct (add_kid _ root st). reflexivity.
  Qed.

  Lemma puts_ext {d} (p q : (option serr -> wprog d) -> wprog d) ks : (forall k, p k = q k) -> puts q ks -> puts p ks.
  Proof. intros E H k root st Hk. rewrite E. auto. Qed.

  Lemma puts_for_each {d} (one : value -> (option serr -> wprog d) -> wprog d) R n t vs ks :
    elems_are R n t vs ks ->
    (forall v rs ks, In v vs -> R t v rs ks -> puts (one v) [RElem n rs ks]) -> puts (for_each one vs) ks.
  Proof.
    induction 1 as [|v vs rs kids l Hr _ IH]; intros H.
    - apply puts_nil.
    - change (RElem n rs kids :: l) with ([RElem n rs kids] ++ l). eapply puts_ext; [|apply puts_app].
      + intros k. cbn [for_each]. reflexivity.
      + apply H; auto. now left.
      + apply IH. intros v' r' k' I' R'. apply H; auto. now right.
  Qed.

  Lemma puts_field {d} (one : value -> (option serr -> wprog d) -> wprog d) R n t kd v vs ks :
    items kd v vs -> elems_are R n t vs ks ->
    (forall v rs ks, In v vs -> R t v rs ks -> puts (one v) [RElem n rs ks]) -> puts (write_field one kd v) ks.
  Proof.
    intros I E H. destruct I; cbn [write_field].
    - inversion E as [|v' vs' rs kids l R1 E1]; subst. inversion E1; subst. apply H; auto. now left.
    - inversion E; subst. apply puts_nil.
    - inversion E as [|v' vs' rs kids l' R1 E1]; subst. inversion E1; subst. apply H; auto. now left.
    - eapply puts_for_each; eauto.
  Qed.

  Definition puts_kids (v : value) : Prop := forall t rs ks, content t v rs ks ->
    forall d, puts (fun k : option serr -> wprog d => ser_kids o env v t k) ks.

  Lemma puts_elem d n t v rs ks : puts_kids v -> content t v rs ks ->
    puts (fun k : option serr -> wprog d => write_one n (ser_attrs o env v t) (fun k' => ser_kids o env v t k') k) [RElem n rs ks].
  Proof. intros H C. apply puts_one; [eapply ask_attrs; eauto|]. eapply H; eauto. Qed.

  Lemma puts_own {d} w fs vs ks : Forall (below puts_kids) vs ->
    (forall f v (k : option serr -> wprog d), w f v k = match f_mode f with
       | MElement kd t => write_field (fun v k => write_one (expanded (f_name f)) (ser_attrs o env v t)
                                                     (fun k' => ser_kids o env v t k') k) kd v k
       | _ => WPanic ill_typed
       end) ->
    own_kids content fs vs ks -> puts (w_each is_element w vs fs) ks.
  Proof.
    intros Hb Hw H. revert Hb.
    induction H as [|f fs k t v xs l vs l2 M I E _ IH|f fs v vs l M _ IH]; intros Hb.
    - apply puts_nil.
    - inversion Hb as [|v' vs' Hv Hb']; subst. eapply puts_ext; [|apply puts_app].
      + intros k0. cbn [w_each]. unfold is_element. rewrite M. reflexivity.
      + eapply puts_ext; [intros k0; rewrite Hw, M; reflexivity|].
        eapply puts_field; eauto. intros x rs ks Hx C. apply puts_elem; auto.
        pose proof (below_items _ _ _ _ Hv I) as F. rewrite Forall_forall in F. auto.
      + now apply IH.
    - inversion Hb as [|v' vs' Hv Hb']; subst. eapply puts_ext; [|now apply IH].
      intros k0. cbn [w_each]. now rewrite M.
  Qed.

  Lemma puts_flat {d} w fs vs rs ks : Forall (below puts_kids) vs ->
    (forall f v (k : option serr -> wprog d), w f v k = match f_mode f with
       | MFlatten id => ser_kids o env v (ERef id) k
       | _ => WPanic ill_typed
       end) ->
    flattened content fs vs rs ks -> puts (w_each is_flatten w vs fs) ks.
  Proof.
    intros Hb Hw H. revert Hb.
    induction H as [|f fs id v vs r k r2 k2 M C _ IH|f fs v vs r l M _ IH]; intros Hb.
    - apply puts_nil.
    - inversion Hb as [|v' vs' [Hv _] Hb']; subst. eapply puts_ext; [|apply puts_app].
      + intros k0. cbn [w_each]. unfold is_flatten. rewrite M. reflexivity.
      + eapply puts_ext; [intros k0; rewrite Hw, M; reflexivity|]. eapply Hv; eauto.
      + now apply IH.
    - inversion Hb as [|v' vs' Hv Hb']; subst. eapply puts_ext; [|now apply IH].
      intros k0. cbn [w_each]. now rewrite M.
  Qed.

  Lemma ask_kids v : puts_kids v.
  Proof.
    induction v using value_ind''; intros t rs ks C d; inversion C; subst.
    - intros k root0 st Hk. cbn [ser_kids]. rewrite_env. cbn. destruct (add_kid (RText s) root0 st). reflexivity.
    - eapply puts_ext; [|apply puts_app].
      + intros k. cbn [ser_kids]. rewrite_env. reflexivity.
      + eapply puts_own; eauto; intros ? ? ?; reflexivity.
      + eapply puts_flat; eauto; intros ? ? ?; reflexivity.
    - intros k root0 st Hk. cbn [ser_kids]. rewrite_env. cbn. destruct (add_kid _ root0 st). reflexivity.
    - eapply puts_ext; [intros k0; cbn [ser_kids]; rewrite_env; reflexivity|].
      eapply puts_field; eauto. intros y rs' ks' Hy C'. apply puts_elem; auto.
      pose proof (below_items _ _ _ _ (H x eq_refl) ltac:(eassumption)) as F. rewrite Forall_forall in F. auto.
    - eapply puts_ext; [intros k; cbn [ser_kids]; rewrite_env; reflexivity|]. apply puts_nil.
  Qed.

  Theorem asked_value t v rs ks n : content t v rs ks ->
    asked n (ser_value o env t v) = if tree_ok (RElem n rs ks) then Some (RElem n rs ks) else None.
  Proof.
    intros C. unfold asked, ser_value. cbn [s_attrs s_kids]. rewrite (ask_attrs _ _ _ _ C). cbn [tree_ok].
    destruct (add_reqs [] rs) as [l|] eqn:E; [|reflexivity]. apply add_reqs_Some in E. cbn in E. subst.
    rewrite (ask_kids _ _ _ _ C) by (intros e r s; reflexivity).
    destruct (forallb tree_ok ks); [|reflexivity]. now rewrite add_kids_root.
  Qed.
End Proofs.
