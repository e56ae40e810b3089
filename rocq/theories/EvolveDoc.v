(** Compatible changes of types: documents written and read by programs before and after the change. *)
From Verif Require Import Base Normalize Text Find FindProofs Types Ser SerSpec Reader ReaderSpec ReaderProofs DeSpec DeDet DeriveDe DeProps
  DeriveSer DSerSpec DSerProofs DSerProps RTSpec RTProofs RTProps EvolveSpec Evolve.
From Coq Require Import Lia.

Section Free.
  Context (o : oracles) (env env' : tenv) (new : list xname).
  Hypothesis EV : evolves env env' new.
  Notation content := (content o env).

  (** A tree without new names (but for its root). *)
  Inductive plain : rtree -> Prop :=
  | pl_text : forall s, plain (RText s)
  | pl_elem : forall n reqs kids, (forall m s, In (m, s) (req_attrs reqs) -> ~ In m new) ->
      Forall (fun c => plain c /\ match c with RElem m _ _ => ~ In m new | RText _ => True end) kids -> plain (RElem n reqs kids).

  Definition plain_reqs (reqs : list req) : Prop := forall m s, In (m, s) (req_attrs reqs) -> ~ In m new.
  Definition plain_kids (kids : list rtree) : Prop :=
    Forall (fun c => plain c /\ match c with RElem m _ _ => ~ In m new | RText _ => True end) kids.

  Lemma plain_reqs_app a b : plain_reqs a -> plain_reqs b -> plain_reqs (a ++ b).
  Proof.
    intros Ha Hb m s. induction a as [|[p u|n x] a IH]; cbn; [apply Hb| |].
    - intros H. apply IH; [exact Ha|exact H].
    - intros [H|H]; [injection H as <- <-; eapply Ha; left; reflexivity|]. apply IH; [|exact H]. intros m' s' H'. eapply Ha. right. exact H'.
  Qed.

  Lemma plain_mappings nss : plain_reqs (mappings nss).
  Proof. intros m s. induction nss as [|[p u] l IH]; cbn; auto. Qed.

  Lemma old_field id i r n fs f : env id = Some (TDStruct i r n fs) -> In f fs -> ~ In (expanded (f_name f)) new.
  Proof.
    intros E Hf. destruct (EV _ _ E) as (d' & _ & D). destruct d' as [? ? ? fs'|]; [|contradiction]. cbn in D. clear E.
    induction D as [|g g' gs gs' (EN & NN & _) _ IH|g' gs gs' _ _ _ _ IH]; [contradiction| |auto].
    destruct Hf as [<-|Hf]; [rewrite EN; exact NN|auto].
  Qed.

  Lemma old_variant id i r n ws sk w : env id = Some (TDEnum i r n ws sk) -> In w ws -> ~ In (expanded (v_name w)) new.
  Proof.
    intros E Hw. destruct (EV _ _ E) as (d' & _ & D). destruct d' as [|? ? ? ws' ?]; [contradiction|]. apply (proj1 D w Hw).
  Qed.

  Definition plainly (v : value) : Prop := forall t reqs kids, content t v reqs kids -> plain_reqs reqs /\ plain_kids kids.

  Lemma elems_plain n t xs l : ~ In n new -> Forall plainly xs -> elems_are content n t xs l -> plain_kids l.
  Proof.
    intros Hn G H. induction H as [|v vs reqs kids l Hc _ IH]; [constructor|]. inversion G as [|? ? Gv Gs]; subst.
    destruct (Gv _ _ _ Hc) as [H1 H2]. constructor; [|exact (IH Gs)]. split; [|exact Hn]. now constructor.
  Qed.

  Lemma attrs_plain fs vs l : (forall f, In f fs -> ~ In (expanded (f_name f)) new) -> attrs_are o fs vs l -> plain_reqs l.
  Proof.
    intros N H. induction H as [|f fs opt t x s vs l M T _ IH|f fs t vs l M _ IH|f fs v vs l M _ IH]; try (apply IH; intros; apply N; now right).
    - easy.
    - intros m s' [H|H]; [injection H as <- <-; apply N; now left|]. eapply IH; [|exact H]. intros; apply N; now right.
  Qed.

  Lemma own_plain fs vs l : (forall f, In f fs -> ~ In (expanded (f_name f)) new) -> Forall (below plainly) vs ->
    own_kids content fs vs l -> plain_kids l.
  Proof.
    intros N G H. induction H as [|f fs k t v xs l vs l' M I L _ IH|f fs v vs l M _ IH]; [constructor| |]; inversion G as [|? ? Gv Gs]; subst.
    - apply Forall_app. split; [|apply IH; auto; intros; apply N; now right].
      eapply elems_plain; [apply N; now left|eapply below_items; eauto|exact L].
    - apply IH; auto. intros; apply N; now right.
  Qed.

  Lemma flat_plain fs vs reqs l : Forall (below plainly) vs -> flattened content fs vs reqs l -> plain_reqs reqs /\ plain_kids l.
  Proof.
    intros G H. induction H as [|f fs id v vs r1 k1 r2 k2 M C _ IH|f fs v vs r k M _ IH]; [split; [easy|constructor]| |];
      inversion G as [|? ? Gv Gs]; subst; auto.
    destruct (proj1 Gv _ _ _ C) as [H1 H2]. destruct (IH Gs) as [H3 H4]. split; [now apply plain_reqs_app|]. now apply Forall_app.
  Qed.

  Lemma content_plain v : plainly v.
  Proof.
    induction v using value_ind''; intros t reqs kids C; inversion C; subst.
    - split; [easy|]. repeat constructor.
    - destruct (flat_plain _ _ _ _ H H5) as [F1 F2]. split.
      + apply plain_reqs_app; [apply plain_mappings|]. apply plain_reqs_app; [|exact F1]. eapply attrs_plain; eauto using old_field.
      + apply Forall_app. split; [|exact F2]. eapply own_plain; eauto using old_field.
    - split; [apply plain_mappings|]. constructor; [|constructor]. split; [constructor; [easy|constructor]|].
      eapply old_variant; eauto using sorted_in'.
    - split; [apply plain_mappings|]. eapply elems_plain; [eapply old_variant; eauto using sorted_in'| |eassumption].
      eapply below_items; [apply H; reflexivity|eassumption].
    - split; [apply plain_mappings|constructor].
  Qed.

  (** What the parser shows of such a tree. *)
  Lemma shows_free n : forall t, plain t -> shows (tree_of t) n -> free_of new n.
  Proof.
    induction n as [name attrs ns p kids pe IH| | |] using node_ind'; intros t P S; try (now constructor).
    inversion P as [s|m reqs ks HA HK]; subst; cbn [tree_of] in S; [inversion S|].
    inversion S as [? ? ? ? ? ? ? ? ? E1 E2 E3 E4]; subst.
    assert (HE : forall c, In c kids -> is_elem c = true -> free_of new c /\ name_in new c = false).
    { intros c Hc Ec. assert (Hi : In c (filter is_elem kids)) by (apply filter_In; auto).
      assert (exists t', In t' (filter is_telem (map tree_of ks)) /\ shows t' c) as (t' & Ht & St).
      { clear - E3 Hi. revert Hi. generalize dependent (filter is_elem kids). intros l F. induction F as [|a b la lb Hab _ IHF]; [easy|].
        intros [<-|Hi]; [exists a; split; [now left|exact Hab]|]. destruct (IHF Hi) as (t' & H1 & H2). exists t'. split; [now right|exact H2]. }
      apply filter_In in Ht as [Ht Et]. apply in_map_iff in Ht as (r & <- & Hr).
      rewrite Forall_forall in HK. destruct (HK r Hr) as [Pr Nr]. rewrite Forall_forall in IH. split; [exact (IH c Hc r Pr St)|].
      destruct r as [m' rs' ks'|s]; [|discriminate]. cbn [tree_of] in St. inversion St as [? ? ? name' ? ? ? ? ? F1]; subst.
      apply name_in_false. intros q Hq. cbn. destruct (xn_eqb (from_xml_name name') q) eqn:X; [|reflexivity].
      apply xn_eqb_eq in X. subst. contradiction. }
    constructor.
    - rewrite Forall_forall. intros a Ha. eapply HA. rewrite <- E2. apply in_map_iff. exists a. split; [reflexivity|exact Ha].
    - rewrite Forall_forall. intros c Hc. destruct (is_elem c) eqn:Ec; [now apply HE|].
      apply name_in_false. intros q _. now destruct c.
    - rewrite Forall_forall. intros c Hc. destruct (is_elem c) eqn:Ec; [now apply HE|]. destruct c; try discriminate; constructor.
  Qed.
End Free.

Section Doc.
  Context (o : oracles) (alg : bs_alg) (env env' : tenv) (new : list xname) (fill : field -> value -> Prop).
  Hypotheses (EV : evolves env env' new) (Hok : names_ok env) (Hok' : names_ok env').
  Notation up := (up env env' new fill).

  Theorem old_document dbg dbg' t d pe pe' v : (forall f v, absent f v -> fill f v) -> defaults_kept env env' new fill ->
    free_of new (d_root d) -> read_as o alg env dbg t (doc_events d) (FEndDocument pe) = Ok v ->
    exists v', read_as o alg env' dbg' t (doc_events d) (FEndDocument pe') = Ok v' /\ up t v v'.
  Proof.
    intros HF HD Fr H. apply read_as_iff in H; [|exact Hok].
    destruct (old_reads o env env' new fill EV HF HD (d_root d) Fr t v H) as (v' & R & U). exists v'. split; [|exact U].
    now apply read_as_iff.
  Qed.

  Theorem new_document dbg dbg' t d pe pe' v v' : defaults_old env env' new fill ->
    read_as o alg env' dbg' t (doc_events d) (FEndDocument pe') = Ok v' -> up t v v' ->
    read_as o alg env dbg t (doc_events d) (FEndDocument pe) = Ok v.
  Proof.
    intros HD H U. apply read_as_iff in H; [|exact Hok']. apply read_as_iff; [exact Hok|].
    exact (new_reads o env env' new fill EV HD (d_root d) t v v' H U).
  Qed.

  Theorem old_writer dbg w id v k pol : (forall f v, absent f v -> fill f v) -> defaults_kept env env' new fill ->
    compiles env -> legal_env env -> no_default env -> (pol = NsSpec.SkipIfAnywhere -> coherent_env env) ->
    serialize_root o env dbg w id v = inl (None, k) -> survives o env (ERef id) v ->
    exists t, NsSpec.meaning [] (NsSpec.emit pol [] (k_out k)) = Some (NsSpec.tree_events t) /\ is_telem t = true /\
      forall t' d, indented t t' -> shows t' (d_root d) -> exists v', up (ERef id) v v' /\
        forall dbg' pe, read_as o alg env' dbg' (ERef id) (doc_events d) (FEndDocument pe) = Ok v'.
  Proof.
    intros HF HD Hc HL Hd Hpol S Sv.
    destruct (root_meaning o env dbg w id v k pol HL Hd Hpol S) as (n & rs & ks & _ & C & M).
    exists (tree_of (RElem n rs ks)). split; [exact M|]. split; [reflexivity|].
    intros t' d HI HS. assert (HS' : shows (tree_of (RElem n rs ks)) (d_root d)) by (eapply shows_indented; eauto).
    pose proof (proj2 (rt_all o env Hc Hok v (ERef id) n rs ks (d_root d) C HS') Sv) as R.
    assert (Fr : free_of new (d_root d)).
    { eapply shows_free; [|exact HS']. destruct (content_plain o env env' new EV v _ _ _ C). now constructor. }
    destruct (old_reads o env env' new fill EV HF HD (d_root d) Fr _ v R) as (v' & R' & U). exists v'. split; [exact U|].
    intros dbg' pe. now apply read_as_iff.
  Qed.

  Theorem new_writer dbg w id v v' k pol : defaults_old env env' new fill ->
    compiles env' -> legal_env env' -> no_default env' -> (pol = NsSpec.SkipIfAnywhere -> coherent_env env') ->
    serialize_root o env' dbg w id v' = inl (None, k) -> survives o env' (ERef id) v' -> up (ERef id) v v' ->
    exists t, NsSpec.meaning [] (NsSpec.emit pol [] (k_out k)) = Some (NsSpec.tree_events t) /\ is_telem t = true /\
      forall t' d, indented t t' -> shows t' (d_root d) ->
        forall dbg' pe, read_as o alg env dbg' (ERef id) (doc_events d) (FEndDocument pe) = Ok v.
  Proof.
    intros HD Hc HL Hd Hpol S Sv U.
    destruct (round_trip o env' alg dbg w id v' k pol Hc Hok' HL Hd Hpol S) as (t & M & Ht & R).
    exists t. split; [exact M|]. split; [exact Ht|]. intros t' d HI HS dbg' pe.
    eapply (new_document dbg' dbg' _ _ _ pe); [exact HD| |exact U]. apply (R t' d HI HS). exact Sv.
  Qed.
End Doc.

(** Without defaults nothing else is required of the kept fields. *)
Lemma kept_evolves new fs fs' f f' : fields_evolve new fs fs' -> kept new fs fs' f f' -> field_evolves new f f'.
Proof.
  intros H K. revert H. induction K as [f f' fs fs' NN|f f' g g' fs fs' NN _ IH|f f' g' fs fs' HN _ IH]; intros H; inversion H; subst; auto; try contradiction.
  match goal with X : field_evolves _ _ _ |- _ => destruct X as (_ & X & _) end. contradiction.
Qed.

Lemma no_defaults env env' new fill : evolves env env' new ->
  for_kept env env' new (fun f f' => f_default f = None /\ f_default f' = None) ->
  defaults_kept env env' new fill /\ defaults_old env env' new fill.
Proof.
  intros EV HN. split; intros id i r n fs i' r' n' fs' E E' f f' K;
    destruct (HN _ _ _ _ _ _ _ _ _ E E' f f' K) as [D D'];
    (assert (FE : field_evolves new f f')
      by (destruct (EV _ _ E) as (d' & X & DE); rewrite E' in X; injection X as <-; eapply kept_evolves; eauto));
    destruct FE as (EN & NN & ME).
  - intros v A. inversion A as [|t _ M|t _ M|t _ M]; subst; try congruence; rewrite M in ME.
    + inversion ME as [? k' ? W M1 M2| |]; subst. inversion W; subst.
      * exists VNone. split; [eapply abs_opt; eauto|]. eapply fu_element; eauto; constructor.
      * exists (VVec []). split; [eapply abs_vec; eauto|]. eapply fu_element; eauto; constructor.
    + inversion ME as [? k' ? W M1 M2| |]; subst. inversion W; subst.
      exists (VVec []). split; [eapply abs_vec; eauto|]. eapply fu_element; eauto; constructor.
    + inversion ME as [|? opt' ? W M1 M2|]; subst. rewrite (W eq_refl) in *.
      exists VNone. split; [eapply abs_attr; eauto|]. eapply fu_no_attribute; eauto.
  - intros v v' U A. inversion A as [|t _ M|t _ M|t _ M]; subst; try congruence; rewrite M in ME.
    + inversion U as [k k' t' ? ? l l' M1 M2 I I' F2| | |]; subst; try congruence.
      rewrite M in M2. injection M2 as <- <-. inversion I'; subst. inversion F2; subst. inversion I; subst.
      * eapply abs_opt; eauto.
      * eapply abs_vec; eauto.
    + inversion U as [k k' t' ? ? l l' M1 M2 I I' F2| | |]; subst; try congruence.
      rewrite M in M2. injection M2 as <- <-. inversion I'; subst. inversion F2; subst. inversion I; subst.
      * eapply abs_opt; eauto.
      * eapply abs_vec; eauto.
    + inversion U as [|opt opt' t' x M1 M2 E1 E2|t' M1 M2 E1 E2|]; subst; try congruence.
      * rewrite M in M2. injection M2 as <- <-. discriminate.
      * eapply abs_attr; eauto.
Qed.
