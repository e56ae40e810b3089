(** Derived deserializers leak what LeakSpec.v says. *)
From Coq Require Import Lia.
From Verif Require Import Base Normalize Text TextProofs Find FindProofs Types Reader ReaderSpec ReaderProofs
  ReaderMore DeriveDe DeSpec DeDet DeTotal DeProofs DeMain DeProps ErrSpec LeakSpec ErrProofs.

(** Where a list first breaks a condition. *)
Lemma first_bad {A} (P : list A -> A -> Prop) k1 c k2 k1' c' k2' :
  (forall a x b, k1 = a ++ x :: b -> P a x) -> (forall a x b, k1' = a ++ x :: b -> P a x) ->
  ~ P k1 c -> ~ P k1' c' -> k1 ++ c :: k2 = k1' ++ c' :: k2' -> k1 = k1' /\ c = c'.
Proof.
  intros H1 H2 N1 N2 E.
  assert (G : forall (k k' : list A) (x x' : A) (m m' : list A), k ++ x :: m = k' ++ x' :: m' ->
    (k = k' /\ x = x') \/ (exists b, k' = k ++ x :: b) \/ (exists b, k = k' ++ x' :: b)).
  { clear. induction k as [|y k IH]; intros [|y' k'] x x' m m' E; cbn in E; inversion E as [[E1 E2]]; subst.
    - auto.
    - right. left. exists k'. reflexivity.
    - right. right. exists k. reflexivity.
    - destruct (IH _ _ _ _ _ E2) as [[-> ->]|[(b & ->)|(b & ->)]]; [auto| |]; right; [left|right]; exists b; reflexivity. }
  destruct (G _ _ _ _ _ _ E) as [H|[(b & ->)|(b & ->)]]; auto.
  - exfalso. apply N1. eapply H2. reflexivity.
  - exfalso. apply N2. eapply H1. reflexivity.
Qed.

Section Det.
  Context (o : oracles) (env : tenv).
  Hypothesis Hok : names_ok env.
  Hypothesis Hc : compiles env.
  Notation R := (reads o env).

  Lemma all_det kids : Forall (det R) kids.
  Proof. apply Forall_forall. intros n _ t v1 v2. now apply reads_det. Qed.

  Lemma field_so_far_det attrs kids f v1 v2 :
    field_so_far o env attrs kids f v1 -> field_so_far o env attrs kids f v2 -> v1 = v2.
  Proof.
    intros H1 H2.
    inversion H1 as [k t v Hm Ho|k t Hm Hn|opt t s x Hm Hv Hp|opt t Hm Hn];
    inversion H2 as [k' t' v' Hm' Ho'|k' t' Hm' Hn'|opt' t' s' x' Hm' Hv' Hp'|opt' t' Hm' Hn'];
      try congruence; try subst.
    - rewrite Hm in Hm'. inversion Hm'; subst. f_equal. eapply occurs_det; [|exact Ho|exact Ho']. apply all_det.
    - exfalso. rewrite Hn' in Ho. eapply occurs_nil; eauto.
    - exfalso. rewrite Hn in Ho'. eapply occurs_nil; eauto.
    - rewrite Hm in Hm'. inversion Hm'; subst. rewrite Hv in Hv'. inversion Hv'; subst.
      rewrite Hp in Hp'. inversion Hp'; subst. auto.
  Qed.

  Lemma choice_filter vs kids v : choice R vs kids v -> filter (name_in (variant_names vs)) kids <> [].
  Proof.
    intro H. inversion H as [i w Hi Hv Hne Heq|i w k t x Hi Hv Heq Ho]; auto. rewrite Heq.
    intro E. rewrite E in Ho. eapply occurs_nil; eauto.
  Qed.

  Lemma choice_so_far_det vs kids v1 v2 : no_empty_ns vs -> NoDup (variant_names vs) ->
    choice_so_far o env vs kids v1 -> choice_so_far o env vs kids v2 -> v1 = v2.
  Proof.
    intros Hns Hnd H1 H2. destruct H1 as [v1 H1|H1], H2 as [v2 H2|H2]; auto.
    - f_equal. exact (choice_det R vs kids v1 v2 Hns Hnd (all_det kids) H1 H2).
    - now apply choice_filter in H1.
    - now apply choice_filter in H2.
  Qed.

  Lemma flatten_not f id : f_mode f = MFlatten id -> is_flatten f = false -> False.
  Proof. unfold is_flatten. intros ->. discriminate. Qed.

  Lemma fields_so_far_det attrs kids l fs v1 v2 :
    fields_so_far o env attrs kids l fs v1 -> fields_so_far o env attrs kids l fs v2 -> v1 = v2.
  Proof.
    intros H1. revert v2.
    induction H1 as [l|l f fs v vs Hf Hh Hr IH|l f fs id ident root nss variants sk v vs Hm Hid Hch Hr IH];
      intros v2 H2.
    - inversion H2. auto.
    - inversion H2 as [|? ? ? v' vs' Hf' Hh' Hr'|? ? ? ? ? ? ? ? ? ? ? Hm']; subst.
      + f_equal; [exact (field_so_far_det _ _ _ _ _ Hh Hh')|auto].
      + exfalso. eapply flatten_not; eauto.
    - inversion H2 as [|? ? ? v' vs' Hf' Hh' Hr'|? ? ? id' ident' root' nss' variants' sk' v' vs' Hm' Hid' Hch' Hr']; subst.
      + exfalso. eapply flatten_not; eauto.
      + rewrite Hm in Hm'. inversion Hm'; subst. rewrite Hid in Hid'. inversion Hid'; subst.
        destruct (Hok _ _ Hid). f_equal; [eapply choice_so_far_det; eauto|auto].
  Qed.

  Lemma so_far_det id d attrs kids v1 v2 : env id = Some d ->
    so_far o env d attrs kids v1 -> so_far o env d attrs kids v2 -> v1 = v2.
  Proof.
    intros Hid. destruct d; cbn.
    - apply fields_so_far_det.
    - destruct (Hok _ _ Hid). now apply choice_so_far_det.
  Qed.

  Lemma holds_lacks attrs kids f v : field_holds o R attrs kids f v -> field_lacks attrs kids f = None.
  Proof.
    intro H. unfold field_lacks.
    destruct H as [k t v Hm Ho|k t v Hm Hn Ha|opt t s x Hm Hv Hp|opt t v Hm Hn Ha]; rewrite Hm.
    - rewrite existsb_filter_cons.
      + destruct k, (f_default f); auto.
      + intro E. unfold named in Ho. rewrite E in Ho. eapply occurs_nil; eauto.
    - destruct k; auto. inversion Ha as [w Hd|? ? Hm'|? ? Hm'|? ? Hm']; try congruence. now rewrite Hd.
    - rewrite Hv. destruct opt, (f_default f); auto.
    - destruct opt; auto. inversion Ha as [w Hd|? ? Hm'|? ? Hm'|? ? Hm']; try congruence. now rewrite Hd.
  Qed.

  Lemma choice_lacks ident vs l v : choice R vs l v -> enum_lacks ident vs l = None.
  Proof. intro H. unfold enum_lacks. apply choice_filter in H. now rewrite existsb_filter_cons. Qed.

  Lemma fields_until_det attrs kids l fs v1 v2 :
    fields_until o env attrs kids l fs v1 -> fields_until o env attrs kids l fs v2 -> v1 = v2.
  Proof.
    intro H1. revert v2.
    assert (Hown : forall l f v, is_flatten f = false -> field_holds o R attrs kids f v -> fields_lack env attrs kids l [f] = None).
    { intros l0 f v Hf Hh. cbn. unfold flattened. destruct (f_mode f) eqn:Hm; try (now rewrite (holds_lacks _ _ _ _ Hh)).
      exfalso. eapply flatten_not; eauto. }
    assert (Hflat : forall l f id ident root nss variants sk v, f_mode f = MFlatten id ->
      env id = Some (TDEnum ident root nss variants sk) -> choice R variants l v -> fields_lack env attrs kids l [f] = None).
    { intros l0 f id ident root nss variants sk v Hm Hid Hch. cbn. unfold flattened. now rewrite Hm, Hid, (choice_lacks ident _ _ _ Hch). }
    induction H1 as [l f fs vs Hl Hs|l f fs v vs Hf Hh Hr IH|l f fs id ident root nss variants sk v vs Hm Hid Hch Hr IH];
      intros v2 H2.
    - inversion H2 as [? ? ? ? Hl' Hs'|? ? ? v' vs' Hf' Hh' Hr'|? ? ? id' ident' root' nss' variants' sk' v' vs' Hm' Hid' Hch' Hr']; subst.
      + eapply fields_so_far_det; eauto.
      + exfalso. eauto.
      + exfalso. eauto.
    - inversion H2 as [? ? ? ? Hl' Hs'|? ? ? v' vs' Hf' Hh' Hr'|? ? ? id' ident' root' nss' variants' sk' v' vs' Hm' Hid' Hch' Hr']; subst.
      + exfalso. eauto.
      + f_equal; [exact (field_holds_det o R _ _ _ _ _ (all_det _) Hh Hh')|auto].
      + exfalso. eapply flatten_not; eauto.
    - inversion H2 as [? ? ? ? Hl' Hs'|? ? ? v' vs' Hf' Hh' Hr'|? ? ? id' ident' root' nss' variants' sk' v' vs' Hm' Hid' Hch' Hr']; subst.
      + exfalso. eauto.
      + exfalso. eapply flatten_not; eauto.
      + rewrite Hm in Hm'. inversion Hm'; subst. rewrite Hid in Hid'. inversion Hid'; subst.
        destruct (Hok _ _ Hid) as [Hns Hnd]. f_equal; [|auto].
        exact (choice_det R _ _ _ _ Hns Hnd (all_det l) Hch Hch').
  Qed.

  Lemma until_missing_det d attrs kids v1 v2 :
    until_missing o env d attrs kids v1 -> until_missing o env d attrs kids v2 -> v1 = v2.
  Proof. destruct d; cbn; [apply fields_until_det|congruence]. Qed.

  (** What leaks also fails. *)
  Lemma leaks_fails t n l : leaks o env t n l -> forall parents, exists f, fails o env t parents n f.
  Proof.
    induction 1 as [t name attrs ns p kids pe He|t name attrs ns p kids pe m He Hm
      |id d name a1 a a2 ns p kids pe m vs Hid Ha Hm Hs|id d name attrs ns p k1 c k2 pe m vs Hid Ha Hk Hm Hs
      |id d name attrs ns p k1 c k2 pe t vs inner Hid Ha Hk Hm Hl IH Hs|id d name attrs ns p kids pe m vs Hid Ha Hk Hm Hs];
      intro parents.
    - destruct (sem_string_elem kids [] "" pe He) as (k1 & cn & ca & cns & cp & ck & cpe & k2 & -> & H1 & _).
      eexists. now apply fails_text_child.
    - eexists. eapply fails_text; eauto.
    - eexists. eapply fails_attribute; eauto.
    - destruct c as [cn ca cns cp ck cpe| | |]; try (rewrite child_demand_skip in Hm by reflexivity; discriminate).
      eexists. eapply fails_rejected; eauto.
    - destruct c as [cn ca cns cp ck cpe| | |]; try (rewrite child_demand_skip in Hm by reflexivity; discriminate).
      destruct (IH (parents ++ [SElem name p])) as (f & Hf). eexists. eapply fails_nested; eauto.
    - eexists. eapply fails_incomplete; eauto.
  Qed.

  Lemma leaks_not_reads t n l v : leaks o env t n l -> ~ R t n v.
  Proof.
    intros Hl Hv. destruct n as [name attrs ns p kids pe| | |]; try (now inversion Hl).
    destruct (leaks_fails t _ l Hl []) as (f & Hf).
    set (n := NElem name attrs ns p kids pe) in *. set (i := EInfo name ns 0).
    destruct (errs_all o Bisect env Hok Hc n [] i t eq_refl) as (_ & E2 & _).
    destruct (reads_all o Bisect env Hok n [] i t eq_refl) as [_ R2]. unfold run in R2.
    destruct (E2 f Hf) as (l' & pl & E). fold n in R2. cbn [app] in *. rewrite E in R2.
    destruct (R2 (ex_intro _ v Hv)) as (a & b & [= <-] & G). discriminate.
  Qed.

  Definition bad_child (d : tdesc) (k1 : list node) (c : node) : Prop :=
    (exists m, child_demand env d k1 c = Reject m) \/
    (exists t inner, child_demand env d k1 c = ReadAs t /\ leaks o env t c inner).

  Lemma bad_child_met d k1 c : bad_child d k1 c -> ~ met o env (child_demand env d k1 c) c.
  Proof.
    intros [(m & E)|(t & inner & E & Hl)]; rewrite E; cbn; [tauto|]. intros (v & Hv). eapply leaks_not_reads; eauto.
  Qed.

  Lemma leaks_ref_inv id d name attrs ns p kids pe l : env id = Some d ->
    leaks o env (ERef id) (NElem name attrs ns p kids pe) l ->
    (exists a1 a a2 m, attrs = a1 ++ a :: a2 /\ all_fine (attrs_check o d) a1 /\ attrs_check o d a1 a = Err m /\
       so_far o env d a1 [] l) \/
    (all_fine (attrs_check o d) attrs /\ exists k1 c k2 vs inner, kids = k1 ++ c :: k2 /\
       all_met o env (child_demand env d) k1 /\ bad_child d k1 c /\ l = vs ++ inner /\ so_far o env d attrs k1 vs /\
       match child_demand env d k1 c with ReadAs t => leaks o env t c inner | _ => inner = [] end) \/
    (all_fine (attrs_check o d) attrs /\ all_met o env (child_demand env d) kids /\ lacks env d attrs kids <> None /\
     until_missing o env d attrs kids l).
  Proof.
    intros Hid H.
    inversion H as [| |id' d' ? a1 a a2 ? ? ? ? m vs Hid' Ha Hm Hs|id' d' ? ? ? ? k1 c k2 ? m vs Hid' Ha Hk Hm Hs
      |id' d' ? ? ? ? k1 c k2 ? t vs inner Hid' Ha Hk Hm Hl Hs|id' d' ? ? ? ? ? ? m vs Hid' Ha Hk Hm Hs]; subst;
      rewrite Hid in Hid'; inversion Hid'; subst d'.
    - left. exists a1, a, a2, m. auto.
    - right. left. split; auto. exists k1, c, k2, l, []. rewrite app_nil_r, Hm. unfold bad_child. repeat split; eauto.
    - right. left. split; auto. exists k1, c, k2, vs, inner. rewrite Hm. unfold bad_child.
      split; auto. split; auto. split; [right; eauto|]. auto.
    - right. right. split; auto. split; auto. split; auto. congruence.
  Qed.

  Theorem leaks_det : forall n t l1 l2, leaks o env t n l1 -> leaks o env t n l2 -> l1 = l2.
  Proof.
    intro n. induction n as [name attrs ns p kids pe IH| | |] using node_ind'; intros t l1 l2 H1 H2; try now inversion H1.
    destruct t as [t|id]; [inversion H1; inversion H2; congruence|].
    destruct (env id) as [d|] eqn:Hid; [|inversion H1; congruence].
    pose proof (leaks_ref_inv id d _ _ _ _ _ _ _ Hid H1) as G1. pose proof (leaks_ref_inv id d _ _ _ _ _ _ _ Hid H2) as G2.
    assert (Ha : forall a1 a m, attrs_check o d a1 a = Err m -> attrs_check o d a1 a <> Ok tt) by congruence.
    destruct G1 as [(a1 & a & a2 & m & -> & F1 & E1 & S1)|[(F1 & k1 & c & k2 & vs & inner & K1 & M1 & B1 & -> & S1 & I1)|(F1 & M1 & L1 & U1)]];
    destruct G2 as [(b1 & b & b2 & m' & E & F2 & E2 & S2)|[(F2 & j1 & c' & j2 & vs' & inner' & K2 & M2 & B2 & -> & S2 & I2)|(F2 & M2 & L2 & U2)]].
    - destruct (first_bad (fun a x => attrs_check o d a x = Ok tt) a1 a a2 b1 b b2) as [-> ->]; eauto.
      eapply so_far_det; eauto.
    - exfalso. eapply Ha; eauto.
    - exfalso. eapply Ha; eauto.
    - exfalso. subst. eapply Ha; eauto.
    - rewrite K1 in K2.
      destruct (first_bad (fun k x => met o env (child_demand env d k x) x) k1 c k2 j1 c' j2) as [-> ->]; eauto using bad_child_met.
      f_equal; [eapply so_far_det; eauto|].
      destruct (child_demand env d j1 c') as [|m|t]; try congruence.
      rewrite Forall_forall in IH. eapply IH; eauto. rewrite K1. apply in_or_app. right. now left.
    - exfalso. eapply bad_child_met; eauto.
    - exfalso. subst. eapply Ha; eauto.
    - exfalso. eapply bad_child_met; eauto.
    - eapply until_missing_det; eauto.
  Qed.
End Det.

(** ** At the level of the reader *)

Lemma leaked_sem o alg env dbg t d pe :
  leaked_by o alg env dbg t (doc_events d) (FEndDocument pe) =
  match sem_act (sem_read (derived o alg env) (d_root d) []) [SElem (d_name d) (d_pos d)] (d_pos d) (d_kids d) (d_pe d)
          (deserialize o env t (EInfo (d_name d) (d_ns d) 1)) with
  | (inl (_, l), _) => l
  | _ => []
  end.
Proof.
  unfold leaked_by. destruct (root_doc dbg d pe) as (rest & _ & ->).
  set (r1 := at_elem _ _ _ _ _ _ _). unfold r1 at 1. cbn [at_elem r_stack app nth_error se_name].
  set (V := derived o alg env). set (act := deserialize o env t _).
  assert (HA : agrees_act dbg (fun x => is_ok (fst x)) (FEndDocument pe) [] rest
    (run_action dbg V (read_loop dbg V (S (List.length (r_src r1)))) 0 (d_attrs d) (d_ns d) act r1)
    (sem_act (sem_read V (d_root d) []) [SElem (d_name d) (d_pos d)] (d_pos d) (d_kids d) (d_pe d) act)).
  { apply (run_action_sem dbg V).
    - apply read_loop_sem. intros _. apply derived_propagating.
    - unfold r1. cbn [at_elem r_src]. rewrite app_length. lia.
    - intros _. pose proof (de_root_propagating o env t (EInfo (d_name d) (d_ns d) 1)) as H. unfold de_root in H.
      fold act in H. destruct act; cbn in *; auto.
      + intros e. specialize (H e). destruct (k (inr e)) as [[v|e'|x] l]; auto. cbn in *. now destruct (H v).
      + intros e s. specialize (H e s). destruct (k (inr e) s) as [[v|e'|x] l]; auto. cbn in *. now destruct (H v). }
  unfold agrees_act in HA. destruct (sem_act _ _ _ _ _ act) as [[[x l]|x] pl]; cbn [fst snd] in HA.
  - destruct HA as (r' & -> & _). reflexivity.
  - destruct (run_action _ _ _ _ _ _ _ _) as [? ?]. cbn in HA. subst. reflexivity.
Qed.

Theorem what_leaks o alg env dbg t d pe e l : names_ok env -> compiles env ->
  read_as o alg env dbg t (doc_events d) (FEndDocument pe) = Err e ->
  leaked_by o alg env dbg t (doc_events d) (FEndDocument pe) = l <-> leaks o env t (d_root d) l.
Proof.
  intros Hok Hc He.
  assert (G : leaks o env t (d_root d) (leaked_by o alg env dbg t (doc_events d) (FEndDocument pe))).
  { rewrite leaked_sem. rewrite read_as_sem in He. unfold sem_doc, de_root in He. rewrite sem_act_amap in He.
    destruct (errs_all o alg env Hok Hc (d_root d) [] (EInfo (d_name d) (d_ns d) 1) t eq_refl) as (_ & _ & E3).
    cbn [app] in E3. fold (d_root d) in E3.
    destruct (sem_act _ _ _ _ _ (deserialize _ _ _ _)) as [[[x l']|x] pl]; cbn [fst snd inl_map] in *; [|discriminate].
    specialize (E3 x l' pl eq_refl). destruct x as [v|e'|x]; try discriminate. exact E3. }
  split; [intros <-; exact G|]. intro H. eapply leaks_det; eauto.
Qed.

Theorem leak_or_value o env t d : names_ok env -> compiles env -> oracles_total o -> known_ty env t ->
  (exists l, leaks o env t (d_root d) l) <-> ~ exists v, reads o env t (d_root d) v.
Proof.
  intros Hok Hc Ho Hk. split.
  - intros (l & Hl) (v & Hv). eapply leaks_not_reads; eauto.
  - intro Hn. destruct (read_as_err o Bisect env false t d (0%N, 0%N)) as (e & He); auto.
    + intros v Hv. apply Hn. eauto.
    + eexists. eapply (what_leaks o Bisect env false); eauto.
Qed.
