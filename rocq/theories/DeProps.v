(** Derived types read from whole documents. *)
From Coq Require Import Lia.
From Verif Require Import Base Normalize Text TextProofs Find FindProofs Types Reader ReaderSpec ReaderProofs
  ReaderTotal ReaderOk ReaderMore ReaderXml ReaderProps DeriveDe DeSpec DeProofs DeMain DeDet DeLike DeTotal.

Section Props.
  Context (o : oracles) (alg : bs_alg) (env : tenv).
  Notation V := (derived o alg env).
  Notation R := (reads o env).

  Lemma read_as_sem dbg t d pe :
    read_as o alg env dbg t (doc_events d) (FEndDocument pe) = sem_doc V (de_root o env t) d.
  Proof. apply read_sem. intros _. split; [apply derived_propagating|apply de_root_propagating]. Qed.

  Theorem read_as_iff dbg t d pe v : names_ok env ->
    read_as o alg env dbg t (doc_events d) (FEndDocument pe) = Ok v <-> R t (d_root d) v.
  Proof.
    intro Hok. rewrite read_as_sem. unfold sem_doc, de_root.
    pose proof (reads_all o alg env Hok (d_root d) [] (EInfo (d_name d) (d_ns d) 1) t eq_refl) as [H1 H2].
    cbn [app] in H1, H2. fold (d_root d) in H1, H2. unfold run in H1, H2.
    pose proof (run_amap (sem_read V (d_root d) []) [SElem (d_name d) (d_pos d)] (d_pos d) (d_kids d) (d_pe d)
      fst (deserialize o env t (EInfo (d_name d) (d_ns d) 1))) as Hr. unfold run in Hr.
    destruct (sem_act _ _ _ _ _ (amap fst _)) as [r pl]. cbn [fst] in Hr.
    destruct (sem_act _ _ _ _ _ (deserialize _ _ _ _)) as [[[r' l]|x] pl']; cbn [fst inl_map] in *; subst r.
    - assert (Hv : R t (d_root d) v <-> r' = Ok v).
      { split.
        - intro Hv. destruct (H2 (ex_intro _ v Hv)) as (a & b & [= <-] & E).
          unfold get_ok in E. cbn in E. destruct r' as [w| |]; try discriminate.
          f_equal. eapply reads_det; eauto.
        - intros ->. apply (H1 (Ok v, l) v); reflexivity. }
      rewrite Hv. destruct r'; (split; intro E; inversion E; auto).
    - split; [discriminate|]. intro Hv. destruct (H2 (ex_intro _ v Hv)) as (a & b & E & _). discriminate.
  Qed.

  (** If it is not [Ok], it is [Err]. *)
  Lemma read_as_err dbg t d pe : names_ok env -> compiles env -> oracles_total o -> known_ty env t ->
    (forall v, ~ R t (d_root d) v) -> exists e, read_as o alg env dbg t (doc_events d) (FEndDocument pe) = Err e.
  Proof.
    intros Hok Hc Ho Hk Hn.
    pose proof (read_as_total o alg env Hc Ho dbg t (doc_events d) (FEndDocument pe) Hk (doc_deliverable d pe)) as Ht.
    destruct (read_as o alg env dbg t (doc_events d) (FEndDocument pe)) as [v|e|x] eqn:E; [|eauto|].
    - apply read_as_iff in E; auto. exfalso. eapply Hn; eauto.
    - exfalso. now apply (Ht x).
  Qed.

  (** Elements that are alike read alike. *)
  Lemma read_as_like dbg t d1 d2 pe1 pe2 v : names_ok env -> like env t (d_root d1) (d_root d2) ->
    read_as o alg env dbg t (doc_events d1) (FEndDocument pe1) = Ok v <->
    read_as o alg env dbg t (doc_events d2) (FEndDocument pe2) = Ok v.
  Proof. intros Hok HL. rewrite !read_as_iff by auto. now apply like_reads_iff. Qed.

  Lemma read_as_renamed dbg t d1 d2 pe1 pe2 v : names_ok env -> renamed (d_root d1) (d_root d2) ->
    read_as o alg env dbg t (doc_events d1) (FEndDocument pe1) = Ok v <->
    read_as o alg env dbg t (doc_events d2) (FEndDocument pe2) = Ok v.
  Proof. intros Hok HL. apply read_as_like; auto. now apply renamed_like. Qed.

  Lemma read_as_root_name dbg t d name pe1 pe2 v : names_ok env ->
    read_as o alg env dbg t (doc_events d) (FEndDocument pe1) = Ok v <->
    read_as o alg env dbg t (doc_events (Doc (d_start d) (d_prolog d) name (d_attrs d) (d_ns d) (d_pos d)
      (d_kids d) (d_pe d) (d_epilogue d))) (FEndDocument pe2) = Ok v.
  Proof.
    intro Hok. apply read_as_renamed; auto. constructor.
    - apply Forall2_refl. auto.
    - apply Forall2_refl. intros a _. split; [now intro|]. clear.
      induction a as [n attrs ns p kids pe IH| | |] using node_ind'; constructor.
      + apply Forall2_refl. auto.
      + apply Forall2_refl. intros a Ha. split; [now intro|]. rewrite Forall_forall in IH. auto.
  Qed.

  Lemma read_as_known dbg id ident root nss fs d1 d2 pe1 pe2 v :
    names_ok env -> env id = Some (TDStruct ident root nss fs) ->
    filter (fun a => existsb (xn_eqb (from_xml_name (a_name a))) (field_names is_attribute fs)) (d_attrs d1) =
    filter (fun a => existsb (xn_eqb (from_xml_name (a_name a))) (field_names is_attribute fs)) (d_attrs d2) ->
    filter (name_in (known_names env fs)) (d_kids d1) = filter (name_in (known_names env fs)) (d_kids d2) ->
    read_as o alg env dbg (ERef id) (doc_events d1) (FEndDocument pe1) = Ok v <->
    read_as o alg env dbg (ERef id) (doc_events d2) (FEndDocument pe2) = Ok v.
  Proof. intros. apply read_as_like; auto. eapply like_known; eauto. Qed.

  Lemma read_as_known_enum dbg id ident root nss vs sk d1 d2 pe1 pe2 v :
    names_ok env -> env id = Some (TDEnum ident root nss vs sk) ->
    filter (name_in (variant_names vs)) (d_kids d1) = filter (name_in (variant_names vs)) (d_kids d2) ->
    read_as o alg env dbg (ERef id) (doc_events d1) (FEndDocument pe1) = Ok v <->
    read_as o alg env dbg (ERef id) (doc_events d2) (FEndDocument pe2) = Ok v.
  Proof. intros. apply read_as_like; auto. eapply like_known_enum; eauto. Qed.

  Lemma read_as_reordered dbg id ident root nss fs d1 d2 pe1 pe2 v :
    names_ok env -> env id = Some (TDStruct ident root nss fs) -> existsb is_flatten fs = false ->
    (forall n, In n (field_names is_attribute fs) -> attr_values n (d_attrs d1) = attr_values n (d_attrs d2)) ->
    (forall n, In n (field_names is_element fs) -> named n (d_kids d1) = named n (d_kids d2)) ->
    read_as o alg env dbg (ERef id) (doc_events d1) (FEndDocument pe1) = Ok v <->
    read_as o alg env dbg (ERef id) (doc_events d2) (FEndDocument pe2) = Ok v.
  Proof. intros. apply read_as_like; auto. eapply like_reordered; eauto. Qed.

  (** ** Single fields *)

  Lemma fields_hold_in attrs kids l fs vs : fields_hold o env R attrs kids l fs vs ->
    forall f, In f fs -> is_flatten f = false -> exists v, field_holds o R attrs kids f v.
  Proof.
    induction 1 as [|l f fs v vs Hf Hh Hr IH|l f fs id ident root nss variants sk v vs Hm Hid Hc Hr IH];
      intros g Hg Hgf; [destruct Hg|..]; (destruct Hg as [->|Hg]; [|auto]).
    - eauto.
    - unfold is_flatten in Hgf. now rewrite Hm in Hgf.
  Qed.

  (** An own field with which the struct cannot be read: it occurs twice, or not at all although
      required. *)
  Definition violates (attrs : list attr) (kids : list node) (f : field) : Prop :=
    match f_mode f with
    | MElement k _ =>
        (k <> KVec /\ 2 <= List.length (named (expanded (f_name f)) kids)) \/
        (k = KOne /\ f_default f = None /\ named (expanded (f_name f)) kids = [])
    | MAttribute opt _ =>
        2 <= List.length (attr_values (expanded (f_name f)) attrs) \/
        (opt = false /\ f_default f = None /\ attr_values (expanded (f_name f)) attrs = [])
    | _ => False
    end.

  Lemma violates_not_holds attrs kids f v : violates attrs kids f -> ~ field_holds o R attrs kids f v.
  Proof.
    unfold violates. intros Hv Hh.
    inversion Hh as [k t x Hm Ho|k t x Hm Hn Hab|opt t s x Hm Hs Hp|opt t x Hm Hn Hab]; subst; rewrite Hm in Hv.
    - destruct Hv as [[Hk Hl]|(Hk & _ & Hn)].
      + destruct Ho; cbn in Hl; try lia. congruence.
      + rewrite Hn in Ho. eapply occurs_nil; eauto.
    - destruct Hv as [[Hk Hl]|(Hk & Hd & _)].
      + rewrite Hn in Hl. cbn in Hl. lia.
      + inversion Hab; congruence.
    - rewrite Hs in Hv. destruct Hv as [Hl|(_ & _ & Hl)]; [cbn in Hl; lia|discriminate].
    - destruct Hv as [Hl|(Ho & Hd & _)].
      + rewrite Hn in Hl. cbn in Hl. lia.
      + inversion Hab; congruence.
  Qed.

  Lemma struct_violated id ident root nss fs name attrs ns p kids pe v f :
    env id = Some (TDStruct ident root nss fs) -> In f fs -> violates attrs kids f ->
    ~ R (ERef id) (NElem name attrs ns p kids pe) v.
  Proof.
    intros Hid Hf Hv Hr. inversion Hr as [|? ? ? ? fs' ? ? ? ? ? ? vs Hid' HF|]; try subst v; [|congruence].
    assert (fs' = fs) by congruence. subst fs'.
    destruct (fields_hold_in _ _ _ _ _ HF f Hf) as (x & Hx).
    - unfold is_flatten. unfold violates in Hv. now destruct (f_mode f).
    - eapply violates_not_holds; eauto.
  Qed.

  Lemma read_as_violated dbg id ident root nss fs d pe f :
    names_ok env -> compiles env -> oracles_total o ->
    env id = Some (TDStruct ident root nss fs) -> In f fs -> violates (d_attrs d) (d_kids d) f ->
    exists e, read_as o alg env dbg (ERef id) (doc_events d) (FEndDocument pe) = Err e.
  Proof.
    intros Hok Hc Ho Hid Hf Hv. apply read_as_err; auto.
    - cbn. congruence.
    - intro v. eapply struct_violated; eauto.
  Qed.

  (** ** Enums *)

  Lemma read_as_enum dbg id ident root nss vs sk d pe v : names_ok env ->
    env id = Some (TDEnum ident root nss vs sk) ->
    read_as o alg env dbg (ERef id) (doc_events d) (FEndDocument pe) = Ok v <->
    choice R vs (d_kids d) v.
  Proof.
    intros Hok Hid. rewrite read_as_iff by auto. split.
    - intro H. inversion H as [| |? ? ? ? vs' ? ? ? ? ? ? ? ? Hid' Hch]; [congruence|].
      assert (vs' = vs) by congruence. now subst.
    - intro H. eapply reads_enum; eauto.
  Qed.

  (** No child, or children of two different variants. *)
  Lemma choice_mixed vs kids c1 c2 v : In c1 kids -> In c2 kids ->
    name_in (variant_names vs) c1 = true -> name_in (variant_names vs) c2 = true ->
    (exists n, has_name n c1 = true /\ has_name n c2 = false) ->
    ~ choice R vs kids v.
  Proof.
    intros H1 H2 E1 E2 (n & En1 & En2) Hc.
    assert (Hall : exists n, filter (name_in (variant_names vs)) kids = named n kids) by (inversion Hc; eauto).
    destruct Hall as (m & Hm).
    assert (Hin : forall c, In c kids -> name_in (variant_names vs) c = true -> has_name m c = true).
    { intros c Hi He. assert (I : In c (named m kids)) by (rewrite <- Hm; apply filter_In; auto). now apply filter_In in I. }
    assert (m = n) by (apply (has_name_inj m n c1); auto). subst. rewrite (Hin c2) in En2 by auto. discriminate.
  Qed.

  Lemma choice_none vs kids v : existsb (name_in (variant_names vs)) kids = false -> ~ choice R vs kids v.
  Proof.
    intros H Hc.
    assert (E : filter (name_in (variant_names vs)) kids = []).
    { clear Hc. induction kids as [|k kids IH]; cbn in *; auto. apply orb_false_iff in H as [-> H]. auto. }
    inversion Hc; try congruence. rewrite E in H2. rewrite <- H2 in H3. eapply occurs_nil; eauto.
  Qed.

  Lemma read_as_mixed dbg id ident root nss vs sk d pe c1 c2 :
    names_ok env -> compiles env -> oracles_total o -> env id = Some (TDEnum ident root nss vs sk) ->
    In c1 (d_kids d) -> In c2 (d_kids d) ->
    name_in (variant_names vs) c1 = true -> name_in (variant_names vs) c2 = true ->
    (exists n, has_name n c1 = true /\ has_name n c2 = false) ->
    exists e, read_as o alg env dbg (ERef id) (doc_events d) (FEndDocument pe) = Err e.
  Proof.
    intros Hok Hc Ho Hid H1 H2 H3 H4 H5. apply read_as_err; auto; [cbn; congruence|].
    intros v Hv. apply (read_as_iff true _ _ (d_pos d)) in Hv; auto. eapply read_as_enum in Hv; eauto.
    now apply (choice_mixed vs (d_kids d) c1 c2 v).
  Qed.

  Lemma read_as_no_variant dbg id ident root nss vs sk d pe :
    names_ok env -> compiles env -> oracles_total o -> env id = Some (TDEnum ident root nss vs sk) ->
    existsb (name_in (variant_names vs)) (d_kids d) = false ->
    exists e, read_as o alg env dbg (ERef id) (doc_events d) (FEndDocument pe) = Err e.
  Proof.
    intros Hok Hc Ho Hid H1. apply read_as_err; auto; [cbn; congruence|].
    intros v Hv. apply (read_as_iff true _ _ (d_pos d)) in Hv; auto. eapply read_as_enum in Hv; eauto.
    now apply (choice_none vs (d_kids d) v).
  Qed.

  (** ** Flattened fields *)

  (** What is left for flattened fields declared after [fs]. *)
  Fixpoint offered (fs : list field) (l : list node) : list node :=
    match fs with
    | [] => l
    | f :: fs' =>
        match f_mode f with
        | MFlatten id =>
            match env id with
            | Some (TDEnum _ _ _ vs _) => offered fs' (before_first (variant_names vs) l)
            | _ => offered fs' l
            end
        | _ => offered fs' l
        end
    end.

  Lemma fields_hold_flatten attrs kids fs1 f fs2 id ident root nss variants sk : forall l vs,
    f_mode f = MFlatten id -> env id = Some (TDEnum ident root nss variants sk) ->
    fields_hold o env R attrs kids l (fs1 ++ f :: fs2) vs ->
    exists v, nth_error vs (List.length fs1) = Some v /\ choice R variants (offered fs1 l) v.
  Proof.
    induction fs1 as [|g fs1 IH]; cbn [app List.length offered]; intros l vs Hm Hid HF.
    - inversion HF as [|? ? ? v' vs' Hf' Hh' Hr'|? ? ? id' ident' root' nss' variants' sk' v' vs' Hm' Hid' Hc' Hr']; subst.
      + unfold is_flatten in Hf'. now rewrite Hm in Hf'.
      + assert (id' = id) by congruence. subst. assert (E : Some (TDEnum ident root nss variants sk) = Some (TDEnum ident' root' nss' variants' sk')) by congruence.
        inversion E; subst. eexists. split; [reflexivity|auto].
    - inversion HF as [|? ? ? v' vs' Hf' Hh' Hr'|? ? ? id' ident' root' nss' variants' sk' v' vs' Hm' Hid' Hc' Hr']; subst.
      + unfold is_flatten in Hf'. destruct (f_mode g); try discriminate; apply IH; auto.
      + rewrite Hm', Hid'. apply IH; auto.
  Qed.

  Lemma read_as_flatten dbg id ident root nss fs1 f fs2 id' ident' root' nss' variants sk d pe v :
    names_ok env -> env id = Some (TDStruct ident root nss (fs1 ++ f :: fs2)) ->
    f_mode f = MFlatten id' -> env id' = Some (TDEnum ident' root' nss' variants sk) ->
    read_as o alg env dbg (ERef id) (doc_events d) (FEndDocument pe) = Ok v ->
    exists vs x, v = VStruct vs /\ nth_error vs (List.length fs1) = Some x /\
      choice R variants (offered fs1 (unclaimed (fs1 ++ f :: fs2) (d_kids d))) x.
  Proof.
    intros Hok Hid Hm Hid' Hr. apply read_as_iff in Hr; auto.
    inversion Hr as [|? ? ? ? fs' ? ? ? ? ? ? vs Hid'' HF|]; try subst v; [|congruence].
    assert (fs' = fs1 ++ f :: fs2) by congruence. subst fs'.
    destruct (fields_hold_flatten _ _ _ _ _ _ _ _ _ _ _ _ _ Hm Hid' HF) as (x & Hx1 & Hx2). eauto.
  Qed.
End Props.

(** ** Leaks *)

(** User code preserves [Inv] as long as it does not fail. *)
Definition ok_act {St A} (Inv : St -> Prop) (good : A -> Prop) (act : action St A) : Prop :=
  match act with
  | ANoRead a => good a
  | AReadString k => forall x, good (k x)
  | AReadTo s0 k => Inv s0 /\ (forall i s, Inv s -> good (k (inl i) s)) /\ (forall e s, good (k (inr e) s))
  end.

Section OkInv.
  Context {St : Type} (dbg : bool) (V : visitors St) (Inv : St -> Prop).
  Hypothesis Hattr : forall s n v x s', Inv s -> v_attribute V s n v = (Ok x, s') -> Inv s'.
  Hypothesis Hchars : forall s str p x s', Inv s -> v_characters V s str p = (Ok x, s') -> Inv s'.
  Hypothesis Helem : forall s i, Inv s -> ok_act Inv (fun a => forall b s', a = (Ok b, s') -> Inv s') (v_element V s i).

  Lemma attrs_loop_inv stack p attrs : forall s x s', Inv s ->
    attrs_loop V stack p attrs s = (Ok x, s') -> Inv s'.
  Proof.
    induction attrs as [|a attrs IH]; cbn; intros s x s' Hs.
    - intros [= _ <-]. auto.
    - destruct (v_attribute V s _ _) as [[y|e|z] s1] eqn:E; try discriminate. eauto.
  Qed.

  Lemma run_action_inv {A} (good : A -> Prop) body sp attrs ns (act : action St A) r a r' :
    (forall ns s r i s' r', Inv s -> body sp ns s r = (Ok i, s', r') -> Inv s') ->
    ok_act Inv good act -> run_action dbg V body sp attrs ns act r = (inl a, r') -> good a.
  Proof.
    intros Hb Ha. destruct act as [b|k|s0 k]; cbn [run_action ok_act] in *.
    - intro E0; inversion E0; subst; auto.
    - destruct (read_string dbg sp r) as [[s|e|x] r1]; try discriminate; intro E0; inversion E0; subst; auto.
    - destruct Ha as (H0 & Hk & Hf). destruct (nth_error (r_stack r) sp) as [el|]; [|discriminate].
      destruct (attrs_loop V _ _ attrs s0) as [[[]|e|x] s1] eqn:E.
      + apply attrs_loop_inv in E; auto. destruct (body sp ns s1 r) as [[[i|e|x] s2] r2] eqn:E2; try discriminate.
        * intro E0; inversion E0; subst. apply Hk. eauto.
        * intro E0; inversion E0; subst; auto.
      + intro E0; inversion E0; subst; auto.
      + discriminate.
  Qed.

  Lemma read_loop_inv : forall fuel sp ns s r i s' r', Inv s ->
    read_loop dbg V fuel sp ns s r = (Ok i, s', r') -> Inv s'.
  Proof.
    induction fuel as [|fuel IH]; cbn [read_loop]; intros sp ns s r i s' r' Hs; [discriminate|].
    destruct (stack_check dbg sp r); [|discriminate].
    destruct (next dbg r) as [[[[attrs ns'|name|str] p]|e|x] r1]; try discriminate.
    - destruct (nth_error (r_stack r1) (S sp)) as [el|]; [|discriminate].
      destruct (run_action dbg V (read_loop dbg V fuel) (S sp) attrs ns' _ r1) as [[[[b|e|x] s1]|x] r2] eqn:E; try discriminate.
      assert (Hs1 : Inv s1).
      { refine (run_action_inv (fun a => forall b s', a = (Ok b, s') -> Inv s') _ _ _ _ _ _ _ _ _ (Helem _ _ Hs) E b s1 eq_refl).
        intros. eapply IH; eauto. }
      destruct (return_to_depth dbg (S sp) r2) as [[[]|e|x] r3]; try discriminate. eauto.
    - intros [= _ <- _]. auto.
    - destruct (v_characters V s str p) as [[y|e|z] s1] eqn:E; try discriminate. eauto.
  Qed.
End OkInv.

(** The values leaked while reading a [T] from a stream. *)
Definition leaked_by (o : oracles) (alg : bs_alg) (env : tenv) (dbg : bool) (t : ety)
  (src : list (xevent * position)) (fin : final) : list value :=
  match root dbg (reader_new src fin) with
  | (Ok (attrs, ns), r1) =>
      match nth_error (r_stack r1) 0 with
      | Some el =>
          match run_action dbg (derived o alg env) (read_loop dbg (derived o alg env) (S (List.length (r_src r1))))
                  0 attrs ns (deserialize o env t (EInfo (se_name el) ns 1)) r1 with
          | (inl (_, l), _) => l
          | _ => []
          end
      | None => []
      end
  | _ => []
  end.

Section Leak.
  Context (o : oracles) (alg : bs_alg) (env : tenv).
  Notation V := (derived o alg env).

  Definition unleaked (s : vstate) : Prop := vs_leaked s = [].
  Definition clean {A} (a : res verr A * list value) : Prop := forall v l, a = (Ok v, l) -> l = [].
  Definition clean3 {A} (a : res verr unit * A * list value) : Prop := forall b s l, a = (Ok b, s, l) -> l = [].

  Lemma ok_amap {St A B} Inv (good : A -> Prop) (good' : B -> Prop) (f : A -> B) (act : action St A) :
    ok_act Inv good act -> (forall a, good a -> good' (f a)) -> ok_act Inv good' (amap f act).
  Proof. destruct act; cbn; intros H H1; [auto|auto|]. destruct H as (? & ? & ?). auto. Qed.

  Lemma deserialize_clean t i : ok_act unleaked clean (deserialize o env t i).
  Proof.
    destruct t as [t|id]; cbn.
    - intros x v l [= _ <-]. auto.
    - destruct (new_visitor env id) as [s0|] eqn:E; cbn; [|intros v l; discriminate].
      split; [|split].
      + unfold new_visitor in E. destruct (env id) as [[? ? ? fs|]|]; try discriminate.
        * destruct (new_slots env fs); try discriminate. inversion E. reflexivity.
        * inversion E. reflexivity.
      + intros _ s Hs v l. unfold finalize. destruct (vs_kind s) as [fs ss|e].
        * destruct (finalize_slots fs ss) as [[[]|e|x] ss']; try discriminate. intros [= _ <-]. auto.
        * unfold enum_finalize. destruct (e_init e); cbn; [|discriminate]. intros [= _ <-]. auto.
      + intros e s v l. discriminate.
  Qed.

  Lemma field_init_clean k t i : ok_act unleaked clean (field_init o env k t i).
  Proof.
    eapply ok_amap; [apply deserialize_clean|]. intros [r l] H v l'. destruct r; cbn; try discriminate.
    intros [= _ <-]. eapply H; reflexivity.
  Qed.

  Lemma field_update_clean k t old i : ok_act unleaked clean (field_update o env k t old i).
  Proof.
    destruct k; cbn [field_update]; try (intros v l; discriminate).
    eapply ok_amap; [apply deserialize_clean|]. intros [r l] H v l'. destruct r; cbn; try discriminate.
    destruct (push_value old a); try discriminate. intros [= _ <-]. eapply H; reflexivity.
  Qed.

  Lemma enum_element_clean e i act : enum_element o alg env e i = Some act -> ok_act unleaked clean3 act.
  Proof.
    unfold enum_element. destruct (e_init e).
    - intros [= <-]. destruct (e_mem e) as [[| |j p| | | |]|]; try (intros ? ? ?; discriminate).
      destruct (nth_error _ j) as [v|]; try (intros ? ? ?; discriminate).
      destruct (find _ _ _) as [j'|]; try (intros ? ? ? [= _ _ <-]; reflexivity).
      destruct (Nat.eqb j' j); try (intros ? ? ?; discriminate).
      destruct (v_ty v) as [[k t]|]; try (intros ? ? ? [= _ _ <-]; reflexivity).
      destruct p as [f|]; try (intros ? ? ?; discriminate).
      eapply ok_amap; [apply field_update_clean|].
      intros [[r|r|r] l] H b s l'; try discriminate. intros [= _ _ <-]. eapply H; reflexivity.
    - destruct (find _ _ _) as [j|]; [|discriminate]. intros [= <-].
      destruct (nth_error _ j) as [v|]; try (intros ? ? ?; discriminate).
      destruct (v_ty v) as [[k t]|].
      + eapply ok_amap; [apply field_init_clean|].
        intros [[r|r|r] l] H b s l'; try discriminate. destruct (e_mem e); try discriminate.
        intros [= _ _ <-]. eapply H; reflexivity.
      + destruct (e_mem e); intros b s l; try discriminate. intros [= _ _ <-]. auto.
  Qed.

  Lemma delegate_clean ss i act : delegate_element o alg env ss i = Some act -> ok_act unleaked clean3 act.
  Proof.
    revert act. induction ss as [|s ss IH]; cbn; intros act; [discriminate|].
    assert (Hrest : forall act, option_map (amap (fun '(r, ss'', l) => (r, s :: ss'', l))) (delegate_element o alg env ss i) = Some act ->
      ok_act unleaked clean3 act).
    { intros act0. destruct (delegate_element o alg env ss i) as [a|]; cbn; [|discriminate]. intros [= <-].
      eapply ok_amap; [apply IH; reflexivity|]. intros [[r s1] l1] H b s' l [= -> _ <-]. eapply H; reflexivity. }
    destruct s as [pr m|e]; auto.
    destruct (enum_element o alg env e i) eqn:E; auto. intros [= <-].
    apply enum_element_clean in E. eapply ok_amap; [exact E|]. intros [[r s1] l1] H b s' l [= -> _ <-]. eapply H; reflexivity.
  Qed.

  Lemma element_field_clean k t pr m i : ok_act unleaked clean3 (element_field o env k t pr m i).
  Proof.
    unfold element_field. destruct pr.
    - destruct m as [old|]; try (intros ? ? ?; discriminate). eapply ok_amap; [apply field_update_clean|].
      intros [[r|r|r] l] H b s l'; try discriminate. intros [= _ _ <-]. eapply H; reflexivity.
    - eapply ok_amap; [apply field_init_clean|].
      intros [[r|r|r] l] H b s l'; cbn; try discriminate. destruct (write_mem m r); try discriminate.
      intros [= _ _ <-]. eapply H; reflexivity.
  Qed.

  Lemma put_unleaked s ss l : unleaked s -> l = [] -> unleaked (put s ss l).
  Proof. unfold unleaked, put. intros H ->. destruct (vs_kind s); auto. Qed.

  Theorem ok_no_leak dbg t src fin v : read_as o alg env dbg t src fin = Ok v ->
    leaked_by o alg env dbg t src fin = [].
  Proof.
    unfold read_as, read, leaked_by. destruct (root dbg (reader_new src fin)) as [[[attrs ns]|e|x] r1]; try discriminate.
    destruct (nth_error (r_stack r1) 0) as [el|]; [|discriminate].
    unfold de_root.
    set (act := deserialize o env t (EInfo (se_name el) ns 1)).
    set (body := read_loop dbg V (S (List.length (r_src r1)))).
    assert (Hm : forall A B (f : A -> B) (act : action vstate A),
      run_action dbg V body 0 attrs ns (amap f act) r1 =
      let (x, r) := run_action dbg V body 0 attrs ns act r1 in
      (match x with inl a => inl (f a) | inr x => inr x end, r)).
    { intros A B f [a|k|s0 k]; cbn [amap run_action]; auto.
      - destruct (read_string dbg 0 r1) as [[s|e|x] r2]; auto.
      - destruct (nth_error (r_stack r1) 0) as [el'|]; auto.
        destruct (attrs_loop V _ _ attrs s0) as [[[]|e|x] s1]; auto.
        destruct (body 0 ns s1 r1) as [[[i|e|x] s2] r2]; auto. }
    rewrite Hm. destruct (run_action dbg V body 0 attrs ns act r1) as [[[r l]|x] r2] eqn:E; [|discriminate].
    cbn. destruct r as [w|e|x]; try discriminate. intros _.
    assert (G : clean (Ok w, l)); [|eapply G; reflexivity].
    eapply (run_action_inv dbg V unleaked); [..|apply deserialize_clean|exact E].
    - intros s n u x s' Hs. cbn. destruct (vs_kind s) as [fs ss|es] eqn:Ek.
      + unfold struct_attribute. destruct (find_field alg is_attribute fs n) as [p|].
        * destruct (nth_error fs p) as [[nm [] d]|]; try discriminate.
          destruct (nth_error ss p) as [[pr m|]|]; try discriminate.
          destruct (attribute_field o n opt t0 pr m u) as [r sl]. intros [= _ <-]. now apply put_unleaked.
        * rewrite delegate_pass by reflexivity. intros [= _ <-]. now apply put_unleaked.
      + cbn. intros [= _ <-]. exact Hs.
    - intros ns1 s r i s' r' Hs. apply (read_loop_inv dbg V unleaked); auto.
      + intros s1 n u x s1' Hs1. cbn. destruct (vs_kind s1) as [fs ss|es] eqn:Ek.
        * unfold struct_attribute. destruct (find_field alg is_attribute fs n) as [p|].
          -- destruct (nth_error fs p) as [[nm [] d]|]; try discriminate.
             destruct (nth_error ss p) as [[pr m|]|]; try discriminate.
             destruct (attribute_field o n opt t0 pr m u) as [r0 sl]. intros [= _ <-]. now apply put_unleaked.
          -- rewrite delegate_pass by reflexivity. intros [= _ <-]. now apply put_unleaked.
        * cbn. intros [= _ <-]. exact Hs1.
      + intros s1 str p x s1' Hs1. cbn. destruct (vs_kind s1) as [fs ss|es] eqn:Ek.
        * unfold struct_characters. rewrite delegate_pass by reflexivity. intros [= _ <-]. now apply put_unleaked.
        * cbn. intros [= _ <-]. exact Hs1.
      + intros s1 j Hs1. cbn. destruct (vs_kind s1) as [fs ss|es] eqn:Ek.
        * unfold struct_element. destruct (find_field alg is_element fs _) as [p|].
          -- destruct (nth_error fs p) as [[nm [] d]|]; try (intros ? ?; discriminate).
             destruct (nth_error ss p) as [[pr m|]|]; try (intros ? ?; discriminate).
             eapply ok_amap; [apply element_field_clean|]. intros [[r0 sl] l0] H b s2.
             destruct r0; cbn; try discriminate. intros [= _ <-]. apply put_unleaked; auto. eapply H; reflexivity.
          -- destruct (delegate_element o alg env ss j) as [act0|] eqn:E0.
             ++ apply delegate_clean in E0. eapply ok_amap; [exact E0|]. intros [[r0 sl] l0] H b s2.
                destruct r0; cbn; try discriminate. intros [= _ <-]. apply put_unleaked; auto. eapply H; reflexivity.
             ++ intros b s2 [= _ <-]. exact Hs1.
        * destruct (enum_element o alg env es j) as [act0|] eqn:E0.
          -- apply enum_element_clean in E0. eapply ok_amap; [exact E0|]. intros [[r0 sl] l0] H b s2.
             destruct r0; cbn; try discriminate. intros [= _ <-]. unfold unleaked. cbn.
             assert (l0 = []) as -> by (eapply H; reflexivity). exact Hs1.
          -- intros b s2 [= _ <-]. exact Hs1.
  Qed.
End Leak.
