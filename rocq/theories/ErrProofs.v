(** Derived deserializers report the error of ErrSpec.v. *)
From Coq Require Import Lia.
From Verif Require Import Base Normalize Text TextProofs Find FindProofs Types Reader ReaderSpec ReaderProofs
  ReaderMore DeriveDe DeSpec DeTotal DeProofs DeMain DeProps ErrSpec LeakSpec.

(** ** Lists *)

Lemma find_unique {A B} (g : A -> B) (p : A -> bool) l x : NoDup (map g l) -> In x l -> p x = true ->
  (forall y, p y = true -> g y = g x) -> List.find p l = Some x.
Proof.
  intros Hn Hin Hp Hu. induction l as [|y l IH]; [contradiction|]. cbn. inversion Hn as [|? ? Hni Hn']; subst.
  destruct (p y) eqn:E.
  - destruct Hin as [->|Hin]; auto. exfalso. apply Hni. rewrite (Hu y E). now apply in_map.
  - destruct Hin as [->|Hin]; [congruence|auto].
Qed.

Lemma find_filter {A} (sel p : A -> bool) l : List.find (fun x => sel x && p x) l = List.find p (filter sel l).
Proof. induction l as [|x l IH]; cbn; auto. destruct (sel x); cbn; [destruct (p x)|]; auto. Qed.

Lemma existsb_filter_nil {A} (p : A -> bool) l : filter p l = [] -> existsb p l = false.
Proof. induction l as [|x l IH]; cbn; auto. destruct (p x); [discriminate|auto]. Qed.

Lemma existsb_filter_cons {A} (p : A -> bool) l : filter p l <> [] -> existsb p l = true.
Proof. induction l as [|x l IH]; cbn; [congruence|]. destruct (p x); auto. Qed.

(** ** Actions *)

Definition always {St A} (P : A -> Prop) (act : action St A) : Prop :=
  match act with
  | ANoRead a => P a
  | AReadString k => forall x, P (k x)
  | AReadTo _ k => forall x s, P (k x s)
  end.

Lemma always_amap {St A B} (P : B -> Prop) (f : A -> B) (act : action St A) :
  always (fun a => P (f a)) act -> always P (amap f act).
Proof. destruct act; cbn; auto. Qed.

Lemma always_all {St A} (P : A -> Prop) (act : action St A) : (forall a, P a) -> always P act.
Proof. intro H. destruct act; cbn; auto. Qed.

Lemma sem_act_always {St A} (P : A -> Prop) rd path p kids pe (act : action St A) a pl :
  always P act -> sem_act rd path p kids pe act = (inl a, pl) -> P a.
Proof.
  destruct act as [b|k|s0 k]; cbn.
  - intros H [= <- _]. exact H.
  - intros H. destruct (sem_string path "" kids pe) as [[|?|?] ?]; intros [= <- _]; auto.
  - intros H. destruct (rd s0) as [[[| |] s] pl']; intros [= <- _]; auto.
Qed.

Lemma sem_act_amap {St A B} (f : A -> B) rd path p kids pe (act : action St A) :
  sem_act rd path p kids pe (amap f act) =
  (inl_map f (fst (sem_act rd path p kids pe act)), snd (sem_act rd path p kids pe act)).
Proof.
  destruct act; cbn; auto.
  - destruct (sem_string _ _ _ _) as [[|? |?] ?]; reflexivity.
  - destruct (rd s0) as [[[]] ]; reflexivity.
Qed.

Lemma amap_amap {St A B C} (g : B -> C) (f : A -> B) (act : action St A) :
  amap g (amap f act) = amap (fun a => g (f a)) act.
Proof. now destruct act. Qed.

(** ** What the visitors do with a child *)

(** How an action ends: [r] the outcome, [l] what a read nested in it leaked.  On an error the part [s] of the
    visitor that dealt with the child is as it was. *)
Definition done {A} (r : res verr unit) (l : list value) (x : res verr A * list value) : Prop :=
  map_ok (fun _ => tt) (fst x) = r /\ snd x = l.
Definition done2 {S} (s : S) (r : res verr unit) (l : list value) (x : res verr unit * S * list value) : Prop :=
  fst (fst x) = r /\ snd x = l /\ (forall e, r = Err e -> snd (fst x) = s).
Definition done3 (s : vstate) (r : res verr unit) (l : list value) (x : res verr bool * vstate) : Prop :=
  map_ok (fun _ => tt) (fst x) = r /\ vs_leaked (snd x) = l ++ vs_leaked s /\
  (forall e, r = Err e -> vs_kind (snd x) = vs_kind s).

Lemma set_nth_same {A} (l : list A) q x : nth_error l q = Some x -> set_nth q x l = l.
Proof. revert q. induction l as [|y l IH]; intros [|q] H; cbn in *; try discriminate; [congruence|]. now rewrite IH. Qed.

Section Acts.
  Context (o : oracles) (alg : bs_alg) (env : tenv).
  Context (R : ety -> node -> value -> Prop).
  Context (c : node) (i : einfo).
  Notation name := (from_xml_name (ei_name i)).
  Hypothesis Hc : forall n, has_name n c = xn_eqb name n.
  Hypothesis Hn : node_name c = name.

  Definition acts {A} (d : demand) (post : res verr unit -> list value -> A -> Prop) (act : action vstate A) : Prop :=
    match d with
    | Ignore => exists a, act = ANoRead a /\ post (Ok tt) [] a
    | Reject m => exists a, act = ANoRead a /\ post (Err (Wrap m)) [] a
    | ReadAs t => exists f, act = amap f (deserialize o env t i) /\
        forall r l, post (map_ok (fun _ => tt) r) l (f (r, l))
    end.

  Lemma acts_amap {A B} d (post : _ -> _ -> A -> Prop) (post' : _ -> _ -> B -> Prop) (g : A -> B) act :
    (forall r l a, post r l a -> post' r l (g a)) -> acts d post act -> acts d post' (amap g act).
  Proof.
    intro Hg. destruct d as [|m|t]; cbn.
    - intros (a & -> & Ha). exists (g a). auto.
    - intros (a & -> & Ha). exists (g a). auto.
    - intros (f & -> & H). exists (fun x => g (f x)). split; [apply amap_amap|]. auto.
  Qed.

  Lemma init_acts k t : acts (ReadAs t) done (field_init o env k t i).
  Proof. eexists. split; [reflexivity|]. intros [v|e|x] l; split; reflexivity. Qed.

  Lemma update_acts k t old : (k = KVec -> exists vs, old = VVec vs) ->
    acts (match k with KVec => ReadAs t | _ => duplicate c end) done (field_update o env k t old i).
  Proof.
    intro Ho. destruct k; cbn [field_update].
    - eexists. split; [reflexivity|]. unfold done. cbn. rewrite Hn. auto.
    - eexists. split; [reflexivity|]. unfold done. cbn. rewrite Hn. auto.
    - destruct (Ho eq_refl) as (vs & ->). eexists. split; [reflexivity|]. intros [v|e|x] l; split; reflexivity.
  Qed.

  Lemma occurs_vec k t occ v : occurs (R t) k occ v -> k = KVec -> exists vs, v = VVec vs.
  Proof. intros H ->. inversion H. eauto. Qed.

  Lemma field_acts k t occ present mem : field_after R k t occ present mem ->
    acts (match k, occ with KVec, _ | _, [] => ReadAs t | _, _ => duplicate c end) (done2 (SField present mem))
      (element_field o env k t present mem i).
  Proof.
    intros [(-> & -> & ->)|(-> & v & -> & Ho)]; cbn [element_field].
    - replace (match k with KVec | _ => ReadAs t end) with (ReadAs t) by now destruct k.
      eapply acts_amap; [|apply (init_acts k t)].
      intros r l [[x|e|x] l'] [<- <-]; cbn; split; auto; split; auto; discriminate.
    - assert (Hne : occ <> []) by (inversion Ho; congruence).
      eapply acts_amap with (post := done).
      { intros r l [[x|e|x] l'] [<- <-]; cbn; split; auto; split; auto; discriminate. }
      pose proof (update_acts k t v (occurs_vec k t occ v Ho)) as H.
      destruct k, occ; try congruence; exact H.
  Qed.

  (** ** Enums *)
  Section Enum.
    Context (vs : list variant) (Hns : no_empty_ns vs) (Hnd : NoDup (variant_names vs)).

    Lemma variant_for_spec v : In v vs -> expanded (v_name v) = name -> variant_for vs c = Some v.
    Proof.
      intros Hin He. unfold variant_for. apply (find_unique (fun v => expanded (v_name v))); auto.
      - rewrite Hc. now apply xn_eqb_eq.
      - intros y Hy. rewrite Hc in Hy. apply xn_eqb_eq in Hy. congruence.
    Qed.

    Lemma variant_for_none : name_in (variant_names vs) c = false -> variant_for vs c = None.
    Proof.
      intro H. unfold variant_for. destruct (List.find _ vs) as [v|] eqn:E; auto.
      apply find_some in E as [Hin Hh]. exfalso.
      assert (T : name_in (variant_names vs) c = true); [|congruence].
      apply name_in_spec. exists (expanded (v_name v)). split; auto. now apply (in_map (fun v => expanded (v_name v))).
    Qed.

    Lemma sorted_in j v : nth_error (sorted_variants vs) j = Some v -> In v vs.
    Proof. intro H. apply nth_error_In in H. eapply Permutation.Permutation_in; [|exact H]. apply sort_perm. Qed.

    Lemma enum_acts l e act : estate_after R vs l e -> enum_element o alg env e i = Some act ->
      acts (enum_demand vs l c) (done2 e) act.
    Proof.
      intros [Hv He]. unfold enum_element. rewrite Hv. unfold enum_demand.
      destruct He as [(Hf & Hi & Hm)|(Hi & x & Hm & Hch)]; rewrite Hi.
      - destruct (find alg name (variant_table vs)) as [j|] eqn:E; [|discriminate].
        apply (find_variant alg i vs Hns Hnd) in E as (v & Hj & Hname). rewrite Hj, Hm, Hf.
        rewrite (variant_for_spec v (sorted_in _ _ Hj) Hname).
        destruct (v_ty v) as [[k t]|]; intros [= <-].
        + eapply acts_amap; [|apply (init_acts k t)].
          intros r l0 [[y|er|y] l'] [<- <-]; cbn; split; auto; split; auto; discriminate.
        + eexists. split; [reflexivity|]. cbn. split; auto. split; auto. discriminate.
      - assert (Hx : exists j v q, x = VEnum j q /\ nth_error (sorted_variants vs) j = Some v /\
          filter (name_in (variant_names vs)) l <> [] /\
          filter (name_in (variant_names vs)) l = named (expanded (v_name v)) l /\
          match v_ty v with
          | None => q = None
          | Some (k, t) => exists y, q = Some y /\ occurs (R t) k (named (expanded (v_name v)) l) y
          end).
        { inversion Hch as [j v Hj Hty Hne E|j v k t y Hj Hty E Ho]; subst.
          - exists j, v, None. rewrite Hty. auto.
          - exists j, v, (Some y). rewrite Hty. repeat split; auto; [|eauto].
            rewrite E. intro K. rewrite K in Ho. inversion Ho. congruence. }
        destruct Hx as (j & v & q & -> & Hj & Hne & Hall & Hq). rewrite Hm, Hj. intros [= <-].
        destruct (filter (name_in (variant_names vs)) l) as [|first rest] eqn:Ef; [congruence|].
        assert (Hfirst : has_name (expanded (v_name v)) first = true).
        { assert (Hin : In first (named (expanded (v_name v)) l)) by (rewrite <- Hall; now left).
          unfold named in Hin. apply filter_In in Hin. tauto. }
        destruct (find alg name (variant_table vs)) as [j'|] eqn:E.
        + apply (find_variant alg i vs Hns Hnd) in E as (v' & Hj' & Hname).
          rewrite (variant_for_spec v' (sorted_in _ _ Hj') Hname).
          destruct (Nat.eqb j' j) eqn:Ej.
          * apply Nat.eqb_eq in Ej. subst j'. rewrite Hj in Hj'. inversion Hj'; subst v'. rewrite Hfirst.
            destruct (v_ty v) as [[k t]|].
            -- destruct Hq as (y & -> & Hy). cbn iota beta.
               pose proof (update_acts k t y (occurs_vec k t _ y Hy)) as H.
               eapply acts_amap with (post := done) in H; [destruct k; exact H|].
               intros r l0 [[z|er|z] l'] [<- <-]; cbn; split; auto; split; auto; discriminate.
            -- eexists. split; [reflexivity|]. cbn. split; auto.
          * destruct (has_name (expanded (v_name v')) first) eqn:Eh.
            { exfalso. assert (expanded (v_name v) = expanded (v_name v')) by (eapply has_name_inj; eauto).
              assert (j = j') by (eapply (variant_name_inj vs Hnd); eauto). subst. rewrite Nat.eqb_refl in Ej. discriminate. }
            eexists. split; [reflexivity|]. unfold done2. cbn. rewrite Hn.
            assert (En : node_name first = expanded (v_name v)).
            { destruct first; cbn in Hfirst |- *; try discriminate. now apply xn_eqb_eq. }
            rewrite En. auto.
        + assert (Hnm : name_in (variant_names vs) c = false) by (now apply (find_no_variant alg c i Hc vs Hns Hnd)).
          rewrite variant_for_none by auto. eexists. split; [reflexivity|]. cbn. split; auto.
    Qed.

    Lemma enum_ignores l e : estate_after R vs l e -> enum_element o alg env e i = None ->
      enum_demand vs l c = Ignore /\ existsb (name_in (variant_names vs)) (l ++ [c]) = false.
    Proof.
      intros He Hp. apply (enum_pass o alg env R c i Hc vs Hns Hnd l e He) in Hp as [Hf Hnm].
      unfold enum_demand. rewrite variant_for_none by auto. split; auto.
      rewrite existsb_app. rewrite existsb_filter_nil by auto. cbn. now rewrite Hnm.
    Qed.

    Lemma enum_takes l e act : estate_after R vs l e -> enum_element o alg env e i = Some act ->
      existsb (name_in (variant_names vs)) (l ++ [c]) = true.
    Proof.
      intros He Ha. rewrite existsb_app. destruct (existsb (name_in (variant_names vs)) l) eqn:E1; auto.
      destruct (name_in (variant_names vs) c) eqn:E2; cbn; [now rewrite E2|].
      exfalso. assert (enum_element o alg env e i = None); [|congruence].
      apply (enum_pass o alg env R c i Hc vs Hns Hnd l e He). split; auto.
      destruct (filter (name_in (variant_names vs)) l) as [|k l'] eqn:Ef; auto. exfalso.
      rewrite existsb_filter_cons in E1; [discriminate|]. rewrite Ef. discriminate.
    Qed.
  End Enum.

  Hypothesis Hok : names_ok env.

  Lemma flat_acts attrs ks l fs ss : slots_after o env R attrs ks l fs ss ->
    match delegate_element o alg env ss i with
    | None => flat_demand env fs l c = Ignore
    | Some act => acts (flat_demand env fs l c) (done2 ss) act
    end.
  Proof.
    induction 1 as [l|l f fs k t pr mem ss Hm Hf Hr IH|l f fs opt t pr mem ss Hm Hf Hr IH
                    |l f fs id ident root nss vs sk e ss Hm Hid He Hr IH]; cbn.
    - reflexivity.
    - unfold flattened. rewrite Hm. destruct (delegate_element o alg env ss i); cbn; auto.
      eapply acts_amap; [|exact IH].
        intros r l0 [[r0 ss0] l1] (H1 & H2 & H3). unfold done2. cbn in *. split; auto. split; auto. intros er Her. f_equal. eauto.
    - unfold flattened. rewrite Hm. destruct (delegate_element o alg env ss i); cbn; auto.
      eapply acts_amap; [|exact IH].
        intros r l0 [[r0 ss0] l1] (H1 & H2 & H3). unfold done2. cbn in *. split; auto. split; auto. intros er Her. f_equal. eauto.
    - unfold flattened. rewrite Hm, Hid. destruct (Hok id _ Hid) as [Hns Hnd].
      destruct (enum_element o alg env e i) as [act|] eqn:Ee.
      + rewrite (enum_takes vs Hns Hnd l e act He Ee).
        eapply acts_amap; [|apply (enum_acts vs Hns Hnd l e act He Ee)].
        intros r l0 [[r0 e0] l1] (H1 & H2 & H3). unfold done2. cbn in *. split; auto. split; auto. intros er Her. do 2 f_equal. eauto.
      + destruct (enum_ignores vs Hns Hnd l e He Ee) as [_ Hx]. rewrite Hx.
        apply (enum_pass o alg env R c i Hc vs Hns Hnd l e He) in Ee as [Hfl _].
        rewrite before_first_miss in IH by auto.
        destruct (delegate_element o alg env ss i); cbn; auto.
        eapply acts_amap; [|exact IH].
        intros r l0 [[r0 ss0] l1] (H1 & H2 & H3). unfold done2. cbn in *. split; auto. split; auto. intros er Her. f_equal. eauto.
  Qed.

  Lemma field_for_spec fs f : NoDup (field_names is_element fs) -> In f fs -> is_element f = true ->
    expanded (f_name f) = name -> field_for fs c = Some f.
  Proof.
    intros Hnd Hin Hs He. unfold field_for. rewrite find_filter.
    apply (find_unique (fun f => expanded (f_name f))); auto.
    - now apply filter_In.
    - rewrite Hc. now apply xn_eqb_eq.
    - intros y Hy. rewrite Hc in Hy. apply xn_eqb_eq in Hy. congruence.
  Qed.

  Lemma field_for_none fs : ~ In name (field_names is_element fs) -> field_for fs c = None.
  Proof.
    intro H. unfold field_for. rewrite find_filter. destruct (List.find _ _) as [f|] eqn:E; auto.
    apply find_some in E as [Hin Hh]. exfalso. apply H. rewrite Hc in Hh. apply xn_eqb_eq in Hh. rewrite Hh.
    unfold field_names. now apply (in_map (fun f => expanded (f_name f))).
  Qed.

  Lemma struct_acts fs attrs ks ss lk : NoDup (field_names is_element fs) ->
    slots_after o env R attrs ks (unclaimed fs ks) fs ss ->
    let s := VState (VkStruct fs ss) lk in
    acts (struct_demand env fs ks c) (done3 s) (v_element (derived o alg env) s i).
  Proof.
    intros Hnd Hs s. subst s. cbn [derived v_element vs_kind]. unfold struct_element, struct_demand.
    rewrite find_field_lookup.
    destruct (lookup alg is_element fs name) as [q|] eqn:El.
    - apply lookup_spec in El as (f & Hq & Hsel & Hname); auto.
      rewrite (field_for_spec fs f); auto; [|eapply nth_error_In; eauto].
      unfold is_element in Hsel. destruct (f_mode f) as [k t| | |] eqn:Hm; try discriminate.
      destruct (slots_element o env R c i Hc attrs ks (unclaimed fs ks) fs ss q f k t Hnd Hq Hm Hname Hs)
        as (pr & mem & G1 & G2 & _ & _).
      rewrite Hq, G1. destruct f as [fn fm fd]. cbn in Hm. subst fm.
      pose proof (field_acts k t _ pr mem G2) as H.
      eapply acts_amap with (g := fun '(r, sl, l) => (map_ok (fun _ : unit => false) r, put (VState (VkStruct fs ss) lk) (set_nth q sl ss) l)) (post' := done3 (VState (VkStruct fs ss) lk)) in H.
      2:{ intros r l [[[[]|e|x] sl] l'] (<- & <- & H3); cbn in *; split; auto; split; auto; try discriminate.
          intros er Her. rewrite (H3 er Her), set_nth_same by exact G1. reflexivity. }
      cbn [f_name] in *. rewrite Hname. unfold named in H.
      destruct (filter (has_name name) ks) eqn:Ef.
      + rewrite existsb_filter_nil by auto. destruct k; exact H.
      + rewrite existsb_filter_cons by (rewrite Ef; discriminate). destruct k; exact H.
    - assert (Hni : ~ In name (field_names is_element fs)) by (apply lookup_none in El; auto).
      rewrite field_for_none by auto.
      pose proof (flat_acts attrs ks (unclaimed fs ks) fs ss Hs) as H.
      destruct (delegate_element o alg env ss i) as [act|].
      + eapply acts_amap; [|exact H].
        intros r l [[[[]|e|x] ss'] l'] (<- & <- & H3); cbn in *; split; auto; split; auto; try discriminate.
        intros er Her. now rewrite (H3 er Her).
      + rewrite H. eexists. split; [reflexivity|]. split; auto.
  Qed.
End Acts.

(** ** The identifiers in messages do not change *)

Definition slot_ident (s : slot) : option string :=
  match s with SField _ _ => None | SFlat e => Some (e_ident e) end.
Definition idents (ss : list slot) : list (option string) := map slot_ident ss.

(** What a flattened field's visitor says its type is called. *)
Definition field_ident (env : tenv) (f : field) : option string := option_map fst (flattened env f).

Definition state_ids (s : vstate) : list (option string) :=
  match vs_kind s with VkStruct _ ss => idents ss | VkEnum e => [Some (e_ident e)] end.

Lemma idents_set_nth ss q s s' : nth_error ss q = Some s -> slot_ident s = slot_ident s' ->
  idents (set_nth q s' ss) = idents ss.
Proof.
  unfold idents. revert q. induction ss as [|x ss IH]; intros [|q]; cbn; try discriminate.
  - intros [= ->] ->. reflexivity.
  - intros H1 H2. f_equal. eauto.
Qed.

Section Idents.
  Context (o : oracles) (alg : bs_alg) (env : tenv).
  Notation V := (derived o alg env).

  Lemma enum_ident e i act : enum_element o alg env e i = Some act ->
    always (fun '(_, e', _) => e_ident e' = e_ident e) act.
  Proof.
    unfold enum_element. intro H.
    repeat match type of H with context[match ?x with _ => _ end] => destruct x end; inversion H; subst; cbn; auto;
      try (apply always_amap, always_all; intros [[?|?|?] ?]; cbn; auto; fail);
      try (destruct (field_update _ _ _ _ _ _)); cbn; auto.
  Qed.

  Lemma delegate_ident ss i act : delegate_element o alg env ss i = Some act ->
    always (fun '(_, ss', _) => idents ss' = idents ss) act.
  Proof.
    revert act. induction ss as [|s ss IH]; cbn [delegate_element]; [discriminate|]. intro act.
    assert (Hrest : option_map (amap (fun '(r, ss'', l) => (r, s :: ss'', l))) (delegate_element o alg env ss i) = Some act ->
      always (fun '(_, ss', _) => idents ss' = idents (s :: ss)) act).
    { destruct (delegate_element o alg env ss i) as [a|]; [|discriminate]. cbn [option_map]. intros [= <-].
      specialize (IH a eq_refl). apply always_amap.
      destruct a as [[[r ss''] l]|k|s0 k]; cbn [always] in *.
      - unfold idents in *. cbn. now rewrite IH.
      - intro x. specialize (IH x). destruct (k x) as [[r ss''] l]. unfold idents in *. cbn. now rewrite IH.
      - intros x s1. specialize (IH x s1). destruct (k x s1) as [[r ss''] l]. unfold idents in *. cbn. now rewrite IH. }
    destruct s as [pr m|e]; [exact Hrest|].
    destruct (enum_element o alg env e i) as [a|] eqn:Ee; [|exact Hrest].
    intros [= <-]. apply enum_ident in Ee. apply always_amap.
    destruct a as [[[r e'] l]|k|s0 k]; cbn [always] in *.
    - unfold idents. cbn. now rewrite Ee.
    - intro x. specialize (Ee x). destruct (k x) as [[r e'] l]. unfold idents. cbn. now rewrite Ee.
    - intros x s1. specialize (Ee x s1). destruct (k x s1) as [[r e'] l]. unfold idents. cbn. now rewrite Ee.
  Qed.

  Lemma element_field_ident k t pr mem i :
    always (fun '(_, s, _) => slot_ident s = None) (element_field o env k t pr mem i).
  Proof.
    unfold element_field. destruct pr; [destruct mem as [old|]; [|reflexivity]|].
    - apply always_amap, always_all. intros [[|?|?] ?]; reflexivity.
    - apply always_amap, always_all. intros [r l]. destruct (bind r (write_mem mem)); reflexivity.
  Qed.

  Lemma element_ids s i : always (fun x => state_ids (snd x) = state_ids s) (v_element V s i).
  Proof.
    cbn [derived v_element]. unfold state_ids at 2. destruct s as [[fs ss|e] lk]; cbn [vs_kind].
    - unfold struct_element. destruct (find_field alg is_element fs (from_xml_name (ei_name i))) as [q|].
      + destruct (nth_error fs q) as [[fn [k t| | |] fd]|]; try reflexivity.
        destruct (nth_error ss q) as [[pr mem|e]|] eqn:Eq; try reflexivity.
        apply always_amap. pose proof (element_field_ident k t pr mem i) as H.
        destruct (element_field o env k t pr mem i) as [[[r sl] l]|k'|s0 k']; cbn in *.
        * eapply idents_set_nth; [exact Eq|]. now rewrite H.
        * intro x. specialize (H x). destruct (k' x) as [[r sl] l]. cbn. eapply idents_set_nth; [exact Eq|]. now rewrite H.
        * intros x s1. specialize (H x s1). destruct (k' x s1) as [[r sl] l]. cbn. eapply idents_set_nth; [exact Eq|]. now rewrite H.
      + destruct (delegate_element o alg env ss i) as [act|] eqn:Ed; [|reflexivity].
        apply always_amap. apply delegate_ident in Ed.
        destruct act as [[[r ss'] l]|k'|s0 k']; cbn in *; auto.
        * intro x. specialize (Ed x). destruct (k' x) as [[r ss'] l]. exact Ed.
        * intros x s1. specialize (Ed x s1). destruct (k' x s1) as [[r ss'] l]. exact Ed.
    - destruct (enum_element o alg env e i) as [act|] eqn:Ee; [|reflexivity].
      apply always_amap. apply enum_ident in Ee.
      destruct act as [[[r e'] l]|k'|s0 k']; cbn in *; [now rewrite Ee|..].
      + intro x. specialize (Ee x). destruct (k' x) as [[r e'] l]. cbn. now rewrite Ee.
      + intros x s1. specialize (Ee x s1). destruct (k' x s1) as [[r e'] l]. cbn. now rewrite Ee.
  Qed.

  Lemma new_slots_ids fs ss : new_slots env fs = Some ss -> idents ss = map (field_ident env) fs.
  Proof.
    revert ss. induction fs as [|f fs IH]; cbn; intros ss H; [now inversion H|].
    destruct (new_slots env fs) as [ss0|]; [|discriminate]. specialize (IH _ eq_refl).
    unfold idents in *. cbn [map]. unfold field_ident at 1, flattened.
    destruct (f_mode f) as [k t|opt t|id|t] eqn:Hm; try discriminate.
    - inversion H. cbn. now rewrite IH.
    - inversion H. cbn. now rewrite IH.
    - destruct (env id) as [[|ident root nss vs sk]|] eqn:Hid; try discriminate. inversion H. cbn. now rewrite IH.
  Qed.
End Idents.

(** ** Faults, element by element *)

Section Fault.
  Context (o : oracles) (env : tenv).

  Section Kids.
    Context (D : list node -> node -> demand) (path : list selem).

    Fixpoint met_from (ks kids : list node) : Prop :=
      match kids with
      | [] => True
      | c :: kids' => met o env (D ks c) c /\ met_from (ks ++ [c]) kids'
      end.

    Definition bad_here (ks : list node) (c : node) (e : error) : Prop :=
      match c with
      | NElem cn _ _ cp _ _ =>
          (exists m, D ks c = Reject m /\ e = Error (EDeserializer m) (path ++ [SElem cn cp]) cp) \/
          (exists t f, D ks c = ReadAs t /\ fails o env t path c f /\ e = blame f (path ++ [SElem cn cp]) cp)
      | _ => False
      end.

    Fixpoint bad_from (ks kids : list node) (e : error) : Prop :=
      match kids with
      | [] => False
      | c :: kids' => bad_here ks c e \/ met o env (D ks c) c /\ bad_from (ks ++ [c]) kids' e
      end.

    Lemma met_from_spec kids : forall ks,
      met_from ks kids <-> forall k1 c k2, kids = k1 ++ c :: k2 -> met o env (D (ks ++ k1) c) c.
    Proof.
      induction kids as [|c kids IH]; intros ks; cbn.
      - split; auto. intros _ [|x k1] c k2 H; discriminate.
      - rewrite IH. split.
        + intros [H1 H2] [|x k1] c' k2 E; cbn in E; inversion E; subst.
          * now rewrite app_nil_r.
          * replace (ks ++ x :: k1) with ((ks ++ [x]) ++ k1) by now rewrite <- app_assoc. eauto.
        + intro H. split.
          * specialize (H [] c kids eq_refl). now rewrite app_nil_r in H.
          * intros k1 c' k2 ->. specialize (H (c :: k1) c' k2 eq_refl).
            replace (ks ++ c :: k1) with ((ks ++ [c]) ++ k1) in H by now rewrite <- app_assoc. exact H.
    Qed.

    Lemma met_from_all kids : met_from [] kids <-> all_met o env D kids.
    Proof. apply met_from_spec. Qed.

    Lemma bad_from_spec kids e : forall ks, bad_from ks kids e <->
      exists k1 c k2, kids = k1 ++ c :: k2 /\ met_from ks k1 /\ bad_here (ks ++ k1) c e.
    Proof.
      induction kids as [|c kids IH]; intros ks; cbn.
      - split; [easy|]. intros ([|x k1] & c & k2 & E & _); discriminate.
      - rewrite IH. split.
        + intros [H|[H1 (k1 & c' & k2 & -> & H2 & H3)]].
          * exists [], c, kids. rewrite app_nil_r. cbn. auto.
          * exists (c :: k1), c', k2. cbn. split; auto. split; auto.
            replace (ks ++ c :: k1) with ((ks ++ [c]) ++ k1) by now rewrite <- app_assoc. exact H3.
        + intros ([|x k1] & c' & k2 & E & H2 & H3); cbn in E; inversion E; subst.
          * rewrite app_nil_r in H3. now left.
          * right. cbn in H2. split; [tauto|]. exists k1, c', k2. split; auto. split; [tauto|].
            replace (ks ++ x :: k1) with ((ks ++ [x]) ++ k1) in H3 by now rewrite <- app_assoc. exact H3.
    Qed.
  End Kids.

  Section Attrs.
    Context (C : list attr -> attr -> res string unit).

    Fixpoint fine_from (a1 attrs : list attr) : Prop :=
      match attrs with
      | [] => True
      | a :: attrs' => C a1 a = Ok tt /\ fine_from (a1 ++ [a]) attrs'
      end.

    Fixpoint abad_from (a1 attrs : list attr) (m : string) : Prop :=
      match attrs with
      | [] => False
      | a :: attrs' => C a1 a = Err m \/ C a1 a = Ok tt /\ abad_from (a1 ++ [a]) attrs' m
      end.

    Lemma fine_from_spec attrs : forall b,
      fine_from b attrs <-> forall a1 a a2, attrs = a1 ++ a :: a2 -> C (b ++ a1) a = Ok tt.
    Proof.
      induction attrs as [|a attrs IH]; intros b; cbn.
      - split; auto. intros _ [|x a1] a a2 H; discriminate.
      - rewrite IH. split.
        + intros [H1 H2] [|x a1] a' a2 E; cbn in E; inversion E; subst.
          * now rewrite app_nil_r.
          * replace (b ++ x :: a1) with ((b ++ [x]) ++ a1) by now rewrite <- app_assoc. eauto.
        + intro H. split.
          * specialize (H [] a attrs eq_refl). now rewrite app_nil_r in H.
          * intros a1 a' a2 ->. specialize (H (a :: a1) a' a2 eq_refl).
            replace (b ++ a :: a1) with ((b ++ [a]) ++ a1) in H by now rewrite <- app_assoc. exact H.
    Qed.

    Lemma fine_from_all attrs : fine_from [] attrs <-> all_fine C attrs.
    Proof. apply fine_from_spec. Qed.

    Lemma abad_from_spec attrs m : forall b, abad_from b attrs m <->
      exists a1 a a2, attrs = a1 ++ a :: a2 /\ fine_from b a1 /\ C (b ++ a1) a = Err m.
    Proof.
      induction attrs as [|a attrs IH]; intros b; cbn.
      - split; [easy|]. intros ([|x a1] & a & a2 & E & _); discriminate.
      - rewrite IH. split.
        + intros [H|[H1 (a1 & a' & a2 & -> & H2 & H3)]].
          * exists [], a, attrs. rewrite app_nil_r. cbn. auto.
          * exists (a :: a1), a', a2. cbn. split; auto. split; auto.
            replace (b ++ a :: a1) with ((b ++ [a]) ++ a1) by now rewrite <- app_assoc. exact H3.
        + intros ([|x a1] & a' & a2 & E & H2 & H3); cbn in E; inversion E; subst.
          * rewrite app_nil_r in H3. now left.
          * right. cbn in H2. split; [tauto|]. exists a1, a', a2. split; auto. split; [tauto|].
            replace (b ++ x :: a1) with ((b ++ [x]) ++ a1) in H3 by now rewrite <- app_assoc. exact H3.
    Qed.
  End Attrs.
End Fault.

(** ** Attributes *)

Section AttrsRun.
  Context (o : oracles) (alg : bs_alg) (env : tenv).
  Context (R : ety -> node -> value -> Prop).
  Notation V := (derived o alg env).
  Notation slots_after := (slots_after o env R).

  Lemma attr_field_spec fs f a : NoDup (field_names is_attribute fs) -> In f fs -> is_attribute f = true ->
    expanded (f_name f) = from_xml_name (a_name a) -> attr_field fs a = Some f.
  Proof.
    intros Hnd Hin Hs He. unfold attr_field. rewrite find_filter.
    apply (find_unique (fun f => expanded (f_name f))); auto.
    - now apply filter_In.
    - now apply xn_eqb_eq.
    - intros y Hy. apply xn_eqb_eq in Hy. congruence.
  Qed.

  Lemma attr_field_none fs a : ~ In (from_xml_name (a_name a)) (field_names is_attribute fs) ->
    attr_field fs a = None.
  Proof.
    intro H. unfold attr_field. rewrite find_filter. destruct (List.find _ _) as [f|] eqn:E; auto.
    apply find_some in E as [Hin Hh]. exfalso. apply H. apply xn_eqb_eq in Hh. rewrite Hh.
    unfold field_names. now apply (in_map (fun f => expanded (f_name f))).
  Qed.

  Lemma attr_step fs a1 ss lk a : NoDup (field_names is_attribute fs) -> slots_after a1 [] [] fs ss ->
    let r := v_attribute V (VState (VkStruct fs ss) lk) (from_xml_name (a_name a)) (a_value a) in
    match attr_check o fs a1 a with
    | Ok _ => exists x ss', r = (Ok x, VState (VkStruct fs ss') lk) /\
        slots_after (a1 ++ [a]) [] [] fs ss' /\ idents ss' = idents ss
    | Err m => r = (Err (Wrap m), VState (VkStruct fs ss) lk)
    | Abort x => exists s', r = (Abort x, s')
    end.
  Proof.
    intros Hnd Hs r. subst r. cbn [derived v_attribute vs_kind]. unfold struct_attribute. rewrite find_field_lookup.
    unfold attr_check. destruct (lookup alg is_attribute fs (from_xml_name (a_name a))) as [q|] eqn:El.
    - apply lookup_spec in El as (f & Hq & Hsel & Hname); auto.
      rewrite (attr_field_spec fs f); auto; [|eapply nth_error_In; eauto].
      unfold is_attribute in Hsel. destruct (f_mode f) as [|opt t| |] eqn:Hm; try discriminate.
      destruct (slots_attribute o env R a1 [] [] fs ss q f opt t a Hnd Hq Hm Hname Hs) as (pr & mem & G1 & G2 & G3 & _).
      pose proof (attribute_field_step o (from_xml_name (a_name a)) opt t _ pr mem (a_value a) G2) as Hst.
      rewrite Hq, G1. destruct f as [fn fm fd]. cbn [f_mode f_name] in *. subst fm. rewrite Hname.
      destruct G2 as [(E & -> & ->)|(-> & s & x & E & Hx & ->)]; rewrite E in *.
      + unfold attribute_field, attr_init in *. destruct (parse_text o t (a_value a)) as [y|m|y] eqn:Ep; cbn in Hst |- *; eauto.
        2:{ rewrite set_nth_same by exact G1. reflexivity. }
        exists None. eexists _. split; [reflexivity|]. split; [apply G3; exact Hst|].
        eapply idents_set_nth; [exact G1|reflexivity].
      + cbn. rewrite set_nth_same by exact G1. reflexivity.
    - assert (Hni : ~ In (from_xml_name (a_name a)) (field_names is_attribute fs)) by (apply lookup_none in El; auto).
      rewrite attr_field_none by auto. rewrite delegate_pass by reflexivity. rewrite put_struct.
      do 2 eexists. split; [reflexivity|]. split; [|reflexivity].
      eapply slots_after_attrs; [|exact Hs]. intros f Hf He. symmetry. apply attr_values_same.
      intro E. apply Hni. unfold field_names. apply in_map_iff. exists f. split; auto. now apply filter_In.
  Qed.

  Lemma attrs_run fs path p : NoDup (field_names is_attribute fs) ->
    forall attrs a1 ss lk, slots_after a1 [] [] fs ss ->
    let r := sem_attrs V path p attrs (VState (VkStruct fs ss) lk) in
    (forall s', r = (Ok tt, s') -> fine_from (attr_check o fs) a1 attrs /\
       exists ss', s' = VState (VkStruct fs ss') lk /\ slots_after (a1 ++ attrs) [] [] fs ss' /\ idents ss' = idents ss) /\
    (fine_from (attr_check o fs) a1 attrs -> exists s', r = (Ok tt, s')) /\
    (forall e s', r = (Err e, s') -> (exists m, e = Error (EDeserializer m) path p /\ abad_from (attr_check o fs) a1 attrs m) /\
       exists b a b' m ss', attrs = b ++ a :: b' /\ fine_from (attr_check o fs) a1 b /\ attr_check o fs (a1 ++ b) a = Err m /\
         s' = VState (VkStruct fs ss') lk /\ slots_after (a1 ++ b) [] [] fs ss') /\
    (forall m, abad_from (attr_check o fs) a1 attrs m -> exists s', r = (Err (Error (EDeserializer m) path p), s')).
  Proof.
    intros Hnd. induction attrs as [|a attrs IH]; intros a1 ss lk Hs r; subst r; cbn [sem_attrs fine_from abad_from].
    - split; [|split; [|split]]; try discriminate; eauto.
      + intros s' [= <-]. rewrite app_nil_r. eauto 6.
      + intros m [].
    - pose proof (attr_step fs a1 ss lk a Hnd Hs) as Hst. cbn zeta in Hst.
      destruct (attr_check o fs a1 a) as [[]|m|x] eqn:Ec.
      + destruct Hst as (x & ss' & -> & Hs' & Hid).
        destruct (IH (a1 ++ [a]) ss' lk Hs') as (I1 & I2 & I3 & I4). rewrite <- app_assoc in I1. cbn [app] in I1.
        split; [|split; [|split]].
        * intros s1 E. apply I1 in E as (F & ss1 & -> & H1 & H2). split; auto. exists ss1.
          split; auto. split; auto. congruence.
        * intros [_ F]. auto.
        * intros e s1 E. apply I3 in E as [(m & -> & B) (b & a' & b' & m' & ss1 & -> & F & Hm & -> & Hs1)]. split; [eauto|].
          rewrite <- app_assoc in Hm, Hs1. exists (a :: b), a', b', m', ss1. cbn. auto.
        * intros m [B|[_ B]]; [discriminate|auto].
      + rewrite Hst. cbn [wrap]. split; [|split; [|split]].
        * discriminate.
        * intros [F _]. discriminate.
        * intros e s1 [= <- <-]. split; [eauto|]. exists [], a, attrs, m, ss. rewrite app_nil_r. cbn. auto.
        * intros m' [[= <-]|[B _]]; [eauto|discriminate].
      + destruct Hst as (s' & ->). split; [|split; [|split]]; try discriminate.
        * intros [F _]. discriminate.
        * intros m' [B|[B _]]; discriminate.
  Qed.
End AttrsRun.

(** ** What is missing at the end *)

Section Final.
  Context (o : oracles) (env : tenv).
  Notation R := (reads o env).
  Notation slots_after := (slots_after o env R).

  Lemma enum_lacks_run ident vs l e : estate_after R vs l e -> e_ident e = ident ->
    enum_finalize e = match enum_lacks ident vs l with Some m => Err (Wrap m) | None => Ok e end.
  Proof.
    intros [_ He] <-. unfold enum_finalize, enum_lacks.
    destruct He as [(Hf & -> & _)|(-> & x & _ & Hch)].
    - now rewrite existsb_filter_nil.
    - assert (Hne : filter (name_in (variant_names vs)) l <> []).
      { inversion Hch as [j v Hj Hty Hne E|j v k t y Hj Hty E Ho]; subst; auto.
        rewrite E. intro K. rewrite K in Ho. inversion Ho. congruence. }
      now rewrite existsb_filter_cons.
  Qed.

  Lemma so_far_run attrs kids l fs ss : slots_after attrs kids l fs ss ->
    fields_so_far o env attrs kids l fs (live_slots ss).
  Proof.
    unfold live_slots. induction 1 as [l|l f fs k t pr mem ss Hm Hf Hr IH|l f fs opt t pr mem ss Hm Hf Hr IH
                    |l f fs id ident root nss vs sk e ss Hm Hid He Hr IH]; cbn.
    - constructor.
    - apply fss_own; auto; [unfold is_flatten; now rewrite Hm|].
      destruct Hf as [(E & -> & ->)|(-> & v & -> & Ho)].
      + eapply fs_no_element; eauto.
      + eapply fs_element; eauto.
    - apply fss_own; auto; [unfold is_flatten; now rewrite Hm|].
      destruct Hf as [(E & -> & ->)|(-> & s & x & E & Hx & ->)].
      + eapply fs_no_attribute; eauto.
      + eapply fs_attribute; eauto.
    - eapply fss_flatten; eauto. destruct He as [_ [(Hf & _ & ->)|(_ & x & -> & Hch)]].
      + now apply cs_none.
      + now apply cs_some.
  Qed.

  Lemma lacks_run attrs kids l fs ss : slots_after attrs kids l fs ss -> idents ss = map (field_ident env) fs ->
    exists ss', finalize_slots fs ss =
      (match fields_lack env attrs kids l fs with Some m => Err (Wrap m) | None => Ok tt end, ss') /\
      (fields_lack env attrs kids l fs <> None -> fields_until o env attrs kids l fs (live_slots ss')).
  Proof.
    intro Hs. pose proof (so_far_run _ _ _ _ _ Hs) as Hso. revert Hso.
    induction Hs as [l|l f fs k t pr mem ss Hm Hf Hr IH|l f fs opt t pr mem ss Hm Hf Hr IH
                    |l f fs id ident root nss vs sk e ss Hm Hid He Hr IH]; intros Hso Hi.
    - cbn. eexists. split; [reflexivity|]. congruence.
    - unfold idents in *. cbn [map] in Hi. injection Hi as _ Hi'.
      destruct (IH (so_far_run _ _ _ _ _ Hr) Hi') as (ss' & Hss & Hu).
      assert (Hfl : is_flatten f = false) by (unfold is_flatten; now rewrite Hm).
      assert (Hlack : forall m, field_lacks attrs kids f = Some m -> fields_lack env attrs kids l [f] <> None).
      { intros m E. cbn. unfold flattened. rewrite Hm, E. discriminate. }
      cbn [fields_lack finalize_slots]. unfold flattened. rewrite Hm. unfold field_lacks in *. rewrite Hm in *.
      destruct Hf as [(E & -> & ->)|(-> & v & -> & Ho)].
      + assert (Hab : forall v, absent f v -> field_holds o R attrs kids f v) by (intros; eapply fh_no_element; eauto).
        unfold finalize_slot. pose proof E as E'. unfold named in E'. rewrite existsb_filter_nil in * by auto. unfold missing. rewrite Hm.
        destruct (f_default f) as [d|] eqn:Ed.
        * replace (match k with KOne | _ => None end) with (@None string) in * by now destruct k.
          cbn. rewrite Hss. eexists. split; [reflexivity|]. intro Hne. cbn. apply fu_own; auto. apply Hab. now constructor.
        * destruct k; cbn.
          -- eexists. split; [reflexivity|]. intros _. eapply fu_here; eauto.
          -- rewrite Hss. eexists. split; [reflexivity|]. intro Hne. cbn. apply fu_own; auto. apply Hab. eapply abs_opt; eauto.
          -- rewrite Hss. eexists. split; [reflexivity|]. intro Hne. cbn. apply fu_own; auto. apply Hab. eapply abs_vec; eauto.
      + cbn [finalize_slot]. rewrite Hss.
        assert (Hne : named (expanded (f_name f)) kids <> []) by (inversion Ho; congruence).
        pose proof Hne as Hne'. unfold named in Hne'. rewrite existsb_filter_cons by auto.
        replace (match k, f_default f with KOne, None => None | _, _ => None end) with (@None string) by now destruct k, (f_default f).
        eexists. split; [reflexivity|]. intro Hl. cbn. apply fu_own; auto. eapply fh_element; eauto.
    - unfold idents in *. cbn [map] in Hi. injection Hi as _ Hi'.
      destruct (IH (so_far_run _ _ _ _ _ Hr) Hi') as (ss' & Hss & Hu).
      assert (Hfl : is_flatten f = false) by (unfold is_flatten; now rewrite Hm).
      assert (Hlack : forall m, field_lacks attrs kids f = Some m -> fields_lack env attrs kids l [f] <> None).
      { intros m E. cbn. unfold flattened. rewrite Hm, E. discriminate. }
      cbn [fields_lack finalize_slots]. unfold flattened. rewrite Hm. unfold field_lacks in *. rewrite Hm in *.
      destruct Hf as [(E & -> & ->)|(-> & s & x & E & Hx & ->)]; rewrite E in *.
      + assert (Hab : forall v, absent f v -> field_holds o R attrs kids f v) by (intros; eapply fh_no_attribute; eauto).
        unfold finalize_slot, missing. rewrite Hm. destruct (f_default f) as [d|] eqn:Ed.
        * replace (if opt then None else None) with (@None string) in * by now destruct opt.
          cbn. rewrite Hss. eexists. split; [reflexivity|]. intro Hne. cbn. apply fu_own; auto. apply Hab. now constructor.
        * destruct opt; cbn.
          -- rewrite Hss. eexists. split; [reflexivity|]. intro Hne. cbn. apply fu_own; auto. apply Hab. eapply abs_attr; eauto.
          -- eexists. split; [reflexivity|]. intros _. eapply fu_here; eauto.
      + cbn [finalize_slot]. rewrite Hss.
        replace (if opt then _ else _) with (@None string) by now destruct opt, (f_default f).
        eexists. split; [reflexivity|]. intro Hl. cbn. apply fu_own; auto. eapply fh_attribute; eauto.
    - unfold idents in *. cbn [map] in Hi. injection Hi as He1 Hi'.
      destruct (IH (so_far_run _ _ _ _ _ Hr) Hi') as (ss' & Hss & Hu).
      unfold field_ident, flattened in He1. rewrite Hm, Hid in He1. cbn in He1. inversion He1 as [He2].
      cbn [fields_lack finalize_slots]. unfold flattened. rewrite Hm, Hid.
      unfold finalize_slot. rewrite (enum_lacks_run (e_ident e) vs l e He eq_refl). rewrite He2.
      destruct (enum_lacks ident vs l) as [m|] eqn:El; cbn.
      + eexists. split; [reflexivity|]. intros _. eapply fu_here; eauto. cbn. unfold flattened. rewrite Hm, Hid, El. discriminate.
      + rewrite Hss. eexists. split; [reflexivity|]. intro Hne. cbn.
        destruct He as [_ [(Hf & _ & _)|(_ & x & -> & Hch)]].
        * exfalso. unfold enum_lacks in El. rewrite existsb_filter_nil in El by auto. discriminate.
        * cbn. eapply fu_flatten; eauto.
  Qed.
End Final.

(** ** Children *)

Definition verr_of (f : fault) : verr := match f with Here m => Wrap m | Inside e => Propagate e end.

Lemma verr_of_inj f g : verr_of f = verr_of g -> f = g.
Proof. destruct f, g; cbn; congruence. Qed.

Lemma wrap_verr f st p : wrap (verr_of f) st p = blame f st p.
Proof. now destruct f. Qed.

Section KidsRun.
  Context (o : oracles) (alg : bs_alg) (env : tenv).
  Notation R := (reads o env).
  Notation V := (derived o alg env).
  Notation fails := (fails o env).
  Hypothesis Hok : names_ok env.

  Definition errs_ok (n : node) : Prop :=
    match n with
    | NElem name attrs ns p kids pe => forall parents i t, ei_name i = name ->
        let path := parents ++ [SElem name p] in
        let r := sem_act (sem_read V n parents) path p kids pe (deserialize o env t i) in
        (forall e l pl, r = (inl (Err e, l), pl) -> exists f, e = verr_of f /\ fails t parents n f /\
           match f with Here _ => pl = (path, pe) | Inside _ => True end) /\
        (forall f, fails t parents n f -> exists l pl, r = (inl (Err (verr_of f), l), pl)) /\
        (forall x l pl, r = (inl (x, l), pl) ->
           match x with Ok _ => l = [] | Err _ => leaks o env t n l | Abort _ => True end)
    | _ => True
    end.

  (** The visitor's state when a child made it fail: [At] of the children before, and what was leaked while reading
      the child. *)
  Definition leak_from (At : list node -> vstate -> Prop) (D : list node -> node -> demand) (ks kids : list node)
    (s' : vstate) : Prop :=
    exists k1 c k2 s1, kids = k1 ++ c :: k2 /\ met_from o env D ks k1 /\ At (ks ++ k1) s1 /\ vs_kind s' = vs_kind s1 /\
      ((exists m, D (ks ++ k1) c = Reject m) /\ vs_leaked s' = [] \/
       exists t, D (ks ++ k1) c = ReadAs t /\ leaks o env t c (vs_leaked s')).

  Lemma leak_from_cons At D ks k kids s' : met o env (D ks k) k -> leak_from At D (ks ++ [k]) kids s' ->
    leak_from At D ks (k :: kids) s'.
  Proof.
    intros Hm (k1 & c & k2 & s1 & -> & H1 & H2 & H3 & H4). exists (k :: k1), c, k2, s1.
    rewrite <- app_assoc in H2, H4. cbn [app] in *. split; auto. split; [split; auto|]. auto.
  Qed.

  Lemma kids_run (At : list node -> vstate -> Prop) (D : list node -> node -> demand) :
    (forall ks s name cattrs cns cp ck cpe i, ei_name i = name -> At ks s ->
       acts o env i (D ks (NElem name cattrs cns cp ck cpe)) (done3 s) (v_element V s i)) ->
    (forall ks s name cattrs cns cp ck cpe parents i, ei_name i = name ->
       let c := NElem name cattrs cns cp ck cpe in
       (forall t, computes (sem_read V c parents) (parents ++ [SElem name cp]) cp ck cpe
          (deserialize o env t i) get_ok (R t c)) ->
       At ks s ->
       computes (sem_read V c parents) (parents ++ [SElem name cp]) cp ck cpe
         (v_element V s i) get_st (At (ks ++ [c]))) ->
    (forall ks k, is_elem k = false -> D ks k = Ignore) ->
    (forall ks s k, is_elem k = false -> At (ks ++ [k]) s <-> At ks s) ->
    (forall ks s str p, At ks s -> exists x s', v_characters V s str p = (Ok x, s') /\ At ks s' /\ state_ids s' = state_ids s /\
       vs_leaked s' = vs_leaked s) ->
    forall kids, Forall errs_ok kids ->
    forall ks path fin s, At ks s ->
    let r := sem_kids V (sem_read V) path fin kids s in
    (forall x s' pl, r = ((Ok x, s'), pl) -> met_from o env D ks kids /\ At (ks ++ kids) s' /\
       state_ids s' = state_ids s /\ pl = (path, snd fin)) /\
    (met_from o env D ks kids -> exists x s' pl, r = ((Ok x, s'), pl)) /\
    (forall e s' pl, r = ((Err e, s'), pl) -> bad_from o env D path ks kids e) /\
    (forall e, bad_from o env D path ks kids e -> exists s' pl, r = ((Err e, s'), pl)) /\
    (vs_leaked s = [] -> forall x s' pl, r = ((x, s'), pl) ->
       match x with Ok _ => vs_leaked s' = [] | Err _ => leak_from At D ks kids s' | Abort _ => True end).
  Proof.
    intros Hact Hel Hign Hne Hch kids Hk. induction Hk as [|k kids Hk _ IH]; intros ks path fin s Hs r; subst r.
    - rewrite app_nil_r. cbn. split; [|split; [|split; [|split]]]; try discriminate; eauto.
      + intros x s' pl [= _ <- <-]. auto.
      + intros e [].
      + intros Hl x s' pl [= <- <- _]. auto.
    - assert (Happ : ks ++ k :: kids = (ks ++ [k]) ++ kids) by now rewrite <- app_assoc.
      rewrite Happ.
      assert (Hskip : is_elem k = false -> forall s s0, At ks s -> state_ids s = state_ids s0 -> vs_leaked s = vs_leaked s0 ->
        let r := sem_kids V (sem_read V) path fin kids s in
        (forall x s' pl, r = ((Ok x, s'), pl) -> met_from o env D ks (k :: kids) /\ At ((ks ++ [k]) ++ kids) s' /\
           state_ids s' = state_ids s0 /\ pl = (path, snd fin)) /\
        (met_from o env D ks (k :: kids) -> exists x s' pl, r = ((Ok x, s'), pl)) /\
        (forall e s' pl, r = ((Err e, s'), pl) -> bad_from o env D path ks (k :: kids) e) /\
        (forall e, bad_from o env D path ks (k :: kids) e -> exists s' pl, r = ((Err e, s'), pl)) /\
        (vs_leaked s0 = [] -> forall x s' pl, r = ((x, s'), pl) ->
           match x with Ok _ => vs_leaked s' = [] | Err _ => leak_from At D ks (k :: kids) s' | Abort _ => True end)).
      { intros E s1 s0 H1 H2 H3 r. destruct (IH (ks ++ [k]) path fin s1) as (I1 & I2 & I3 & I4 & I5); [now apply Hne|].
        assert (Hcons : forall s', leak_from At D (ks ++ [k]) kids s' -> leak_from At D ks (k :: kids) s').
        { intro s'. apply leak_from_cons. now rewrite (Hign ks k E). }
        cbn [met_from bad_from]. rewrite (Hign ks k E). cbn [met].
        split; [|split; [|split; [|split]]].
        - intros x s' pl G. apply I1 in G as (G1 & G2 & G3 & G4). rewrite G3. auto.
        - intros [_ G]. auto.
        - intros e s' pl G. right. split; auto. eapply I3; eauto.
        - intros e [G|[_ G]]; [|auto]. exfalso. destruct k; try contradiction. discriminate.
        - intros Hl x s' pl G. rewrite <- H3 in Hl. specialize (I5 Hl x s' pl G). destruct x; auto. }
      destruct k as [name cattrs cns cp ck cpe|cd str p|m p|b p]; cbn [sem_kids].
      + clear Hskip. set (c := NElem name cattrs cns cp ck cpe) in *.
        set (i := EInfo name cns (List.length (path ++ [SElem name cp]))).
        pose proof (Hel ks s name cattrs cns cp ck cpe path i eq_refl
          (fun t => reads_all o alg env Hok c path i t eq_refl) Hs) as [G1 _].
        fold c in G1. unfold run in G1.
        pose proof (Hact ks s name cattrs cns cp ck cpe i eq_refl Hs) as Ha. fold c in Ha.
        pose proof (element_ids o alg env s i) as Hids.
        pose proof (fun a pl => sem_act_always _ (sem_read V c path) (path ++ [SElem name cp]) cp ck cpe _ a pl Hids) as Hids'.
        cbn [met_from bad_from].
        change (bad_here o env D path ks c) with (fun e =>
          (exists m, D ks c = Reject m /\ e = Error (EDeserializer m) (path ++ [SElem name cp]) cp) \/
          (exists t f, D ks c = ReadAs t /\ fails t path c f /\ e = blame f (path ++ [SElem name cp]) cp)).
        cbv beta.
        destruct (D ks c) as [|m|t] eqn:Ed; cbn [acts] in Ha.
        * (* not read *)
          destruct Ha as ([b s'] & Ha & Hd & Hlk & Hkd). rewrite Ha in *. cbn [sem_act] in *. cbn [fst snd app] in Hd, Hlk, Hkd.
          destruct b as [b|e|x]; try discriminate.
          specialize (Hids' (Ok b, s') _ eq_refl). cbn [snd] in Hids'.
          assert (Hs' : At (ks ++ [c]) s') by (apply (G1 (Ok b, s') s'); reflexivity).
          destruct (IH (ks ++ [c]) path fin s' Hs') as (I1 & I2 & I3 & I4 & I5).
          assert (Hm : met o env (D ks c) c) by (rewrite Ed; cbn [met]; eauto). cbn [met].
          split; [|split; [|split; [|split]]].
          -- intros x s1 pl G. apply I1 in G as (G2 & G3 & G4 & G5). rewrite G4. auto.
          -- intros [_ G]. auto.
          -- intros e s1 pl G. right. split; auto. eapply I3; eauto.
          -- intros e [[(m & G & _)|(t & f & G & _)]|[_ G]]; [discriminate|discriminate|auto].
          -- intros Hl x s1 pl G. rewrite <- Hlk in Hl. specialize (I5 Hl x s1 pl G). destruct x; auto.
             now apply leak_from_cons.
        * (* rejected *)
          destruct Ha as ([b s'] & Ha & Hd & Hlk & Hkd). rewrite Ha in *. cbn [sem_act] in *. cbn [fst snd app] in Hd, Hlk, Hkd.
          destruct b as [b|e|x]; try discriminate. cbn in Hd. inversion Hd; subst e. cbn [met wrap fst].
          split; [|split; [|split; [|split]]].
          -- discriminate.
          -- intros [[] _].
          -- intros e s1 pl [= <- _ _]. left. left. eauto.
          -- intros e [[(m' & [= <-] & ->)|(t & f & G & _)]|[[] _]]; [eauto|discriminate].
          -- intros Hl x s1 pl [= <- <- _]. exists [], c, kids, s. rewrite app_nil_r. cbn [app met_from].
             rewrite (Hkd _ eq_refl), Hlk, Ed. repeat split; auto. left. eauto.
        * (* read *)
          destruct Ha as (g & Ha & H1). rewrite Ha in *. rewrite sem_act_amap in *.
          pose proof (reads_all o alg env Hok c path i t eq_refl) as [R1 R2]. unfold run in R1, R2. fold c in R1, R2.
          destruct (Hk path i t eq_refl) as (E1 & E2 & E3). fold c in E1, E2, E3.
          destruct (sem_act (sem_read V c path) (path ++ [SElem name cp]) cp ck cpe (deserialize o env t i)) as [[[rr l]|x] pl] eqn:Ea; cbn [fst snd inl_map] in *.
          -- destruct (g (rr, l)) as [b s'] eqn:Eg.
             destruct rr as [v|e|x].
             ++ specialize (H1 (Ok v) l). rewrite Eg in H1. destruct H1 as (H1 & Hlk & _). cbn [fst snd] in H1, Hlk.
                destruct b as [b|e|x]; try discriminate.
                rewrite (E3 (Ok v) l pl eq_refl) in Hlk. cbn [app] in Hlk.
                assert (Hv : R t c v) by (apply (R1 (Ok v, l) v); reflexivity).
                specialize (Hids' (Ok b, s') _ eq_refl). cbn [snd] in Hids'.
                assert (Hs' : At (ks ++ [c]) s') by (apply (G1 (Ok b, s') s'); reflexivity).
                destruct (IH (ks ++ [c]) path fin s' Hs') as (I1 & I2 & I3 & I4 & I5).
          assert (Hm : met o env (D ks c) c) by (rewrite Ed; cbn [met]; eauto). cbn [met].
                split; [|split; [|split; [|split]]].
                ** intros x s1 pl' G. apply I1 in G as (G2 & G3 & G4 & G5). rewrite G4. eauto 6.
                ** intros [_ G]. auto.
                ** intros e s1 pl' G. right. split; [eauto|]. eapply I3; eauto.
                ** intros e [[(m & G & _)|(t' & f & [= <-] & G & _)]|[_ G]]; [discriminate| |auto].
                   apply E2 in G as (l' & pl' & G). discriminate.
                ** intros Hl x s1 pl' G. rewrite <- Hlk in Hl. specialize (I5 Hl x s1 pl' G). destruct x; auto.
                   now apply leak_from_cons.
             ++ specialize (H1 (Err e) l). rewrite Eg in H1. destruct H1 as (H2 & Hlk & Hkd). cbn [fst snd map_ok] in H2, Hlk, Hkd.
                destruct b as [b|e'|x]; try discriminate. inversion H2; subst e'.
                pose proof (E3 (Err e) l pl eq_refl) as Hleak. cbn iota in Hleak.
                destruct (E1 e l pl eq_refl) as (f & -> & Hf & Hpl).
                assert (Hw : wrap (verr_of f) (fst pl) cp = blame f (path ++ [SElem name cp]) cp).
                { rewrite wrap_verr. destruct f; [now rewrite Hpl|reflexivity]. }
                rewrite Hw. cbn [met].
                split; [|split; [|split; [|split]]].
                ** discriminate.
                ** intros [(v & Hv) _]. destruct (R2 (ex_intro _ v Hv)) as (a & b & [= <-] & G). discriminate.
                ** intros e s1 pl' [= <- _ _]. left. right. eauto.
                ** intros e [[(m & G & _)|(t' & f' & [= <-] & G & ->)]|[(v & Hv) _]]; [discriminate| |].
                   --- apply E2 in G as (l' & pl' & [= G _ _]). apply verr_of_inj in G. subst f'. eauto.
                   --- destruct (R2 (ex_intro _ v Hv)) as (a & b & [= <-] & G). discriminate.
                ** intros Hl x s1 pl' [= <- <- _]. exists [], c, kids, s. rewrite app_nil_r. cbn [app met_from].
                   rewrite (Hkd _ eq_refl), Hlk, Hl, app_nil_r, Ed. repeat split; auto. right. eauto.
             ++ specialize (H1 (Abort x) l). rewrite Eg in H1. destruct H1 as (H3 & _). cbn [fst map_ok] in H3.
                destruct b as [b|e'|y]; try discriminate.
                cbn [met]. split; [|split; [|split; [|split]]]; try discriminate.
                ** intros [(v & Hv) _]. destruct (R2 (ex_intro _ v Hv)) as (a & b & [= <-] & G). discriminate.
                ** intros e [[(m & G & _)|(t' & f' & [= <-] & G & ->)]|[(v & Hv) _]]; [discriminate| |].
                   --- apply E2 in G as (l' & pl' & G). discriminate.
                   --- destruct (R2 (ex_intro _ v Hv)) as (a & b & [= <-] & G). discriminate.
                ** intros Hl z s1 pl' [= <- _ _]. auto.
          -- cbn [met]. split; [|split; [|split; [|split]]]; try discriminate.
             ++ intros [(v & Hv) _]. destruct (R2 (ex_intro _ v Hv)) as (a & b & G & _). discriminate.
             ++ intros e [[(m & G & _)|(t' & f' & [= <-] & G & ->)]|[(v & Hv) _]]; [discriminate| |].
                ** apply E2 in G as (l' & pl' & G). discriminate.
                ** destruct (R2 (ex_intro _ v Hv)) as (a & b & G & _). discriminate.
             ++ intros Hl z s1 pl' [= <- _ _]. auto.
      + destruct (Hch ks s str p Hs) as (x & s' & -> & Hs' & Hi & Hlk). apply Hskip; auto.
      + apply Hskip; auto.
      + apply Hskip; auto.
  Qed.
End KidsRun.

(** ** The main result *)

Section Main.
  Context (o : oracles) (alg : bs_alg) (env : tenv).
  Notation R := (reads o env).
  Notation V := (derived o alg env).
  Hypothesis Hok : names_ok env.
  Hypothesis Hc : compiles env.

  Lemma has_name_skip n k : is_elem k = false -> has_name n k = false.
  Proof. destruct k; cbn; congruence. Qed.

  Lemma find_false {A} (p : A -> bool) l : (forall x, p x = false) -> List.find p l = None.
  Proof. intro H. induction l as [|x l IH]; cbn; auto. now rewrite H. Qed.

  Lemma enum_demand_skip vs l k : is_elem k = false -> enum_demand vs l k = Ignore.
  Proof.
    intro H. unfold enum_demand, variant_for. rewrite find_false; auto. intro v. now apply has_name_skip.
  Qed.

  Lemma flat_demand_skip fs l k : is_elem k = false -> flat_demand env fs l k = Ignore.
  Proof.
    intro H. induction fs as [|f fs IH]; cbn; auto. destruct (flattened env f) as [[ident vs]|]; auto.
    rewrite enum_demand_skip by auto. now destruct (existsb _ _).
  Qed.

  Lemma child_demand_skip d ks k : is_elem k = false -> child_demand env d ks k = Ignore.
  Proof.
    intro H. destruct d as [ident root nss fs|ident root nss vs sk]; cbn.
    - unfold struct_demand, field_for. rewrite find_false.
      + now apply flat_demand_skip.
      + intro f. now rewrite has_name_skip, andb_false_r.
    - now apply enum_demand_skip.
  Qed.

  Lemma new_slots_compiles fs : Forall (field_compiles env) fs -> new_slots env fs <> None.
  Proof. intro H. destruct (new_slots_total env Hc fs H) as (ss & -> & _). discriminate. Qed.

  (** From the pieces of an element of a derived type to its fault. *)
  Lemma fails_intro id d parents name attrs ns p kids pe : env id = Some d ->
    let path := parents ++ [SElem name p] in
    let F := fails o env (ERef id) parents (NElem name attrs ns p kids pe) in
    let C := attrs_check o d in let D := child_demand env d in
    (forall m, abad_from C [] attrs m -> F (Inside (Error (EDeserializer m) path p))) /\
    (forall e, fine_from C [] attrs -> bad_from o env D path [] kids e -> F (Inside e)) /\
    (forall m, fine_from C [] attrs -> met_from o env D [] kids -> lacks env d attrs kids = Some m -> F (Here m)) /\
    (forall f, F f ->
       (exists m, abad_from C [] attrs m /\ f = Inside (Error (EDeserializer m) path p)) \/
       (fine_from C [] attrs /\ exists e, bad_from o env D path [] kids e /\ f = Inside e) \/
       (fine_from C [] attrs /\ met_from o env D [] kids /\ exists m, lacks env d attrs kids = Some m /\ f = Here m)).
  Proof.
    intros Hid path F C D. subst path F C D. split; [|split; [|split]].
    - intros m H. apply abad_from_spec in H as (a1 & a & a2 & -> & H1 & H2). cbn [app] in H2.
      eapply fails_attribute; eauto. now apply fine_from_all.
    - intros e Ha H. apply fine_from_all in Ha. apply bad_from_spec in H as (k1 & c & k2 & -> & H1 & H2).
      cbn [app] in H2. apply met_from_all in H1.
      destruct c as [cn ca cns cp ck cpe| | |]; try contradiction. unfold bad_here in H2. rewrite <- app_assoc in H2.
      destruct H2 as [(m & H2 & ->)|(t & f & H2 & H3 & ->)].
      + eapply fails_rejected; eauto.
      + eapply fails_nested; eauto.
    - intros m Ha Hk Hl. apply fine_from_all in Ha. apply met_from_all in Hk. eapply fails_incomplete; eauto.
    - intros f H. inversion H as [| |id' d' ? ? a1 a a2 ? ? ? ? m Hid' Ha Hm
        |id' d' ? ? ? ? ? k1 cn ca cns cp ck cpe k2 ? m Hid' Ha Hk Hm
        |id' d' ? ? ? ? ? k1 cn ca cns cp ck cpe k2 ? t f' Hid' Ha Hk Hm Hf
        |id' d' ? ? ? ? ? ? ? m Hid' Ha Hk Hm]; subst; rewrite Hid in Hid'; inversion Hid'; subst d'.
      + left. exists m. split; auto. apply abad_from_spec. exists a1, a, a2. split; auto. split; auto. now apply fine_from_all.
      + right. left. split; [now apply fine_from_all|]. eexists. split; [|reflexivity].
        apply bad_from_spec. exists k1. eexists. exists k2. split; [reflexivity|]. split; [now apply met_from_all|].
        left. exists m. rewrite <- app_assoc. auto.
      + right. left. split; [now apply fine_from_all|]. eexists. split; [|reflexivity].
        apply bad_from_spec. exists k1. eexists. exists k2. split; [reflexivity|]. split; [now apply met_from_all|].
        right. exists t, f'. rewrite <- app_assoc. auto.
      + right. right. split; [now apply fine_from_all|]. split; [now apply met_from_all|]. eauto.
  Qed.

  (** Reading an element with a visitor, and finalizing it. *)
  Lemma errs_ref id d s0 name attrs ns p kids pe parents : env id = Some d -> new_visitor env id = Some s0 ->
    let n := NElem name attrs ns p kids pe in
    let path := parents ++ [SElem name p] in
    let ra := sem_attrs V path p attrs s0 in
    let C := attrs_check o d in let D := child_demand env d in
    forall (At : vstate -> Prop) (At' : vstate -> Prop),
    (forall s', ra = (Ok tt, s') -> fine_from C [] attrs /\ At s') ->
    (fine_from C [] attrs -> exists s', ra = (Ok tt, s')) ->
    (forall e s', ra = (Err e, s') -> exists m, e = Error (EDeserializer m) path p /\ abad_from C [] attrs m) ->
    (forall m, abad_from C [] attrs m -> exists s', ra = (Err (Error (EDeserializer m) path p), s')) ->
    (forall s, At s -> let rk := sem_kids V (sem_read V) path (name, ns, pe) kids s in
      (forall x s' pl, rk = ((Ok x, s'), pl) -> met_from o env D [] kids /\ At' s' /\ pl = (path, pe)) /\
      (met_from o env D [] kids -> exists x s' pl, rk = ((Ok x, s'), pl)) /\
      (forall e s' pl, rk = ((Err e, s'), pl) -> bad_from o env D path [] kids e) /\
      (forall e, bad_from o env D path [] kids e -> exists s' pl, rk = ((Err e, s'), pl))) ->
    (forall s, At' s -> exists r l, finalize s = (r, l) /\
       match lacks env d attrs kids with Some m => r = Err (Wrap m) | None => forall e, r <> Err e end) ->
    (forall e s', ra = (Err e, s') -> leaks o env (ERef id) n (live s')) ->
    (forall s, fine_from C [] attrs -> At s -> forall x s' pl, sem_kids V (sem_read V) path (name, ns, pe) kids s = ((x, s'), pl) ->
       match x with Ok _ => vs_leaked s' = [] | Err _ => leaks o env (ERef id) n (live s') | Abort _ => True end) ->
    (forall s, fine_from C [] attrs -> met_from o env D [] kids -> At' s -> vs_leaked s = [] ->
       match fst (finalize s) with Ok _ => snd (finalize s) = [] | Err _ => leaks o env (ERef id) n (snd (finalize s)) | Abort _ => True end) ->
    let r := sem_act (sem_read V n parents) path p kids pe (AReadTo s0 (fun x s =>
        match x with inl _ => finalize s | inr e => (Err e, live s) end)) in
    (forall e l pl, r = (inl (Err e, l), pl) -> exists f, e = verr_of f /\ fails o env (ERef id) parents n f /\
       match f with Here _ => pl = (path, pe) | Inside _ => True end) /\
    (forall f, fails o env (ERef id) parents n f -> exists l pl, r = (inl (Err (verr_of f), l), pl)) /\
    (forall x l pl, r = (inl (x, l), pl) ->
       match x with Ok _ => l = [] | Err _ => leaks o env (ERef id) n l | Abort _ => True end).
  Proof.
    intros Hid Hnew n path ra C D At At' A1 A2 A3 A4 K F LA LK LF r. subst r.
    destruct (fails_intro id d parents name attrs ns p kids pe Hid) as (T1 & T2 & T3 & T4).
    fold path n C D in T1, T2, T3, T4. cbn [sem_act]. change (sem_read V n parents s0) with (sem_read V (NElem name attrs ns p kids pe) parents s0). cbn [sem_read]. fold path n. fold ra.
    destruct ra as [[[]|e|x] s1] eqn:Ea.
    - destruct (A1 s1 eq_refl) as [Hfine Hat]. specialize (LK s1 Hfine Hat). destruct (K s1 Hat) as (K1 & K2 & K3 & K4).
      assert (Hnb : forall m, ~ abad_from C [] attrs m) by (intros m B; destruct (A4 m B) as (s' & [=])).
      destruct (sem_kids V (sem_read V) path (name, ns, pe) kids s1) as [[[x|e|x] s2] pl] eqn:Ek.
      + destruct (K1 x s2 pl eq_refl) as (Hmet & Hat' & ->). destruct (F s2 Hat') as (rf & lf & Ef & Hl). specialize (LK (Ok x) s2 (path, pe) eq_refl). cbn iota in LK.
        specialize (LF s2 Hfine Hmet Hat' LK). rewrite Ef in LF. cbn [fst snd] in LF. rewrite Ef.
        split; [|split].
        * intros e l pl' [= -> <- <-]. destruct (lacks env d attrs kids) as [m|] eqn:El.
          -- inversion Hl; subst e. exists (Here m). auto.
          -- exfalso. now apply (Hl e).
        * intros f Hf. apply T4 in Hf as [(m & B & _)|[(_ & e & B & _)|(_ & _ & m & El & ->)]].
          -- now apply Hnb in B.
          -- destruct (K4 e B) as (s' & pl' & [=]).
          -- rewrite El in Hl. subst rf. cbn. eauto.
        * intros y l pl' [= <- <- _]. exact LF.
      + split; [|split].
        * intros e' l pl' [= <- _ _]. exists (Inside e). cbn. split; auto. split; auto. apply T2; auto. eapply K3; eauto.
        * intros f Hf. apply T4 in Hf as [(m & B & _)|[(_ & e' & B & ->)|(_ & M & _)]].
          -- now apply Hnb in B.
          -- destruct (K4 e' B) as (s' & pl' & [= <- _ _]). cbn. eauto.
          -- destruct (K2 M) as (x & s' & pl' & [=]).
        * intros y l pl' [= <- <- _]. exact (LK (Err e) s2 pl eq_refl).
      + split; [discriminate|]. split; [|discriminate]. intros f Hf. apply T4 in Hf as [(m & B & _)|[(_ & e' & B & ->)|(_ & M & _)]].
        * now apply Hnb in B.
        * destruct (K4 e' B) as (s' & pl' & [=]).
        * destruct (K2 M) as (x' & s' & pl' & [=]).
    - assert (Hnf : ~ fine_from C [] attrs) by (intro B; destruct (A2 B) as (s' & [=])).
      split; [|split].
      + intros e' l pl' [= <- _ _]. destruct (A3 e s1 eq_refl) as (m & -> & B).
        eexists (Inside _). cbn. split; [reflexivity|]. split; auto.
      + intros f Hf. apply T4 in Hf as [(m & B & ->)|[(B & _)|(B & _)]]; try contradiction.
        destruct (A4 m B) as (s' & [= -> _]). cbn. eauto.
      + intros y l pl' [= <- <- _]. exact (LA e s1 eq_refl).
    - split; [discriminate|]. split; [|discriminate]. intros f Hf. apply T4 in Hf as [(m & B & ->)|[(B & _)|(B & _)]].
      + destruct (A4 m B) as (s' & [=]).
      + destruct (A2 B) as (s' & [=]).
      + destruct (A2 B) as (s' & [=]).
  Qed.

  Lemma first_elem_unique k1 cn ca cns cp ck cpe k2 k1' cn' ca' cns' cp' ck' cpe' k2' :
    existsb is_elem k1 = false -> existsb is_elem k1' = false ->
    k1 ++ NElem cn ca cns cp ck cpe :: k2 = k1' ++ NElem cn' ca' cns' cp' ck' cpe' :: k2' -> cn' = cn /\ cp' = cp.
  Proof.
    revert k1'. induction k1 as [|x k1 IH]; intros [|y k1'] H1 H2 E; cbn [app] in E; inversion E; subst; auto.
    - cbn in H2. discriminate.
    - cbn in H1. discriminate.
    - cbn in H1, H2. apply orb_false_iff in H1, H2. eapply IH; [..|eassumption]; tauto.
  Qed.

  Lemma fails_text_inv t parents name attrs ns p kids pe f :
    fails o env (EText t) parents (NElem name attrs ns p kids pe) f ->
    (exists k1 cn ca cns cp ck cpe k2, kids = k1 ++ NElem cn ca cns cp ck cpe :: k2 /\ existsb is_elem k1 = false /\
       f = Inside (Error (EMsg (MUnexpectedElement cn)) (parents ++ [SElem name p] ++ [SElem cn cp]) cp)) \/
    (exists m, existsb is_elem kids = false /\ parse_text o t (text_of kids) = Err m /\ f = Here m).
  Proof. inversion 1; subst; [left; do 8 eexists; eauto|right; eauto]. Qed.

  Theorem errs_all : forall n, errs_ok o alg env n.
  Proof.
    induction n as [name attrs ns p kids pe IH| | |] using node_ind'; cbn [errs_ok]; auto.
    intros parents i t Hi. set (path := parents ++ [SElem name p]).
    set (n := NElem name attrs ns p kids pe) in *.
    destruct t as [t|id].
    - (* text *)
      cbn [deserialize]. unfold deserialize_text. cbn [amap sem_act].
      destruct (existsb is_elem kids) eqn:Ee.
      + destruct (sem_string_elem kids path "" pe Ee) as (k1 & cn & ca & cns & cp & ck & cpe & k2 & Hk & H1 & H2).
        rewrite H2. cbn [map_ok]. split; [|split].
        * intros e l pl [= <- _ _]. exists (Inside (Error (EMsg (MUnexpectedElement cn)) (path ++ [SElem cn cp]) cp)).
          cbn. split; auto. split; auto. unfold n, path. rewrite Hk, <- app_assoc. now apply fails_text_child.
        * intros f Hf. apply fails_text_inv in Hf as [(k1' & cn' & ca' & cns' & cp' & ck' & cpe' & k2' & Hk' & H1' & ->)|(m & Hn & _)].
          -- rewrite Hk in Hk'. destruct (first_elem_unique _ _ _ _ _ _ _ _ _ _ _ _ _ _ _ _ H1 H1' Hk') as [-> ->].
             cbn. unfold path. rewrite <- app_assoc. eauto.
          -- congruence.
        * intros x l pl [= <- <- _]. now apply leaks_text_child.
      + rewrite sem_string_text by auto. cbn [append]. split; [|split].
        * intros e l pl [= H _ <-]. destruct (parse_text o t (text_of kids)) as [x|m|x] eqn:Ep; cbn in H; try discriminate.
          inversion H; subst e. exists (Here m). split; auto. split; auto. now apply fails_text.
        * intros f Hf. apply fails_text_inv in Hf as [(k1' & cn' & ca' & cns' & cp' & ck' & cpe' & k2' & Hk' & H1' & ->)|(m & Hn & Hm & ->)].
          -- exfalso. subst kids. rewrite existsb_app in Ee. apply orb_false_iff in Ee. cbn in Ee. destruct Ee. discriminate.
          -- rewrite Hm. cbn. eauto.
        * intros x l pl [= <- <- _]. destruct (parse_text o t (text_of kids)) as [x|m|x] eqn:Ep; cbn; auto.
          eapply leaks_text; eauto.
    - unfold deserialize.
      destruct (env id) as [d|] eqn:Hid.
      2:{ unfold new_visitor. rewrite Hid. cbn [sem_act]. split; [discriminate|]. split.
          - intros f Hf. inversion Hf; congruence.
          - intros x l pl [= <- <- _]. auto. }
      pose proof (Hok id d Hid) as Hn. pose proof (Hc id d Hid) as Hcd.
      destruct (new_visitor env id) as [s0|] eqn:Hnew.
      2:{ exfalso. unfold new_visitor in Hnew. rewrite Hid in Hnew. destruct d; [|discriminate].
          apply new_slots_compiles in Hcd. destruct (new_slots env fields); [discriminate|congruence]. }
      destruct d as [ident root nss fs|ident root nss vs sk].
      + (* struct *)
        destruct Hn as [Hnde Hnda]. unfold new_visitor in Hnew. rewrite Hid in Hnew.
        destruct (new_slots env fs) as [ss0|] eqn:Hss; [|discriminate]. cbn in Hnew. inversion Hnew; subst s0.
        pose proof (new_slots_ids env fs ss0 Hss) as Hids.
        destruct (attrs_run o alg env R fs path p Hnda attrs [] ss0 [] (new_slots_after o env R fs ss0 Hss))
          as (A1 & A2 & A3 & A4). cbn [app] in A1.
        set (D := child_demand env (TDStruct ident root nss fs)).
        assert (Hrun : forall s, struct_at o env fs attrs [] s ->
          let r := sem_kids V (sem_read V) path (name, ns, pe) kids s in
          (forall x s' pl, r = ((Ok x, s'), pl) -> met_from o env D [] kids /\ struct_at o env fs attrs kids s' /\
             state_ids s' = state_ids s /\ pl = (path, pe)) /\
          (met_from o env D [] kids -> exists x s' pl, r = ((Ok x, s'), pl)) /\
          (forall e s' pl, r = ((Err e, s'), pl) -> bad_from o env D path [] kids e) /\
          (forall e, bad_from o env D path [] kids e -> exists s' pl, r = ((Err e, s'), pl)) /\
          (vs_leaked s = [] -> forall x s' pl, r = ((x, s'), pl) ->
             match x with Ok _ => vs_leaked s' = [] | Err _ => leak_from o env (struct_at o env fs attrs) D [] kids s' | Abort _ => True end)).
        { intros s Hat.
          apply (kids_run o alg env Hok (struct_at o env fs attrs) D) with
            (kids := kids) (ks := @nil node) (path := path) (fin := (name, ns, pe)) (s := s); auto.
          - intros ks s1 cn ca cns cp ck cpe i' Hi' (ss1 & lk1 & -> & Hs1). unfold D. cbn [child_demand].
            apply (struct_acts o alg env R) with (attrs := attrs); auto.
            + intro m. now rewrite Hi'.
            + cbn. now rewrite Hi'.
          - intros. apply step_struct; auto.
          - intros. now apply child_demand_skip.
          - intros. now apply struct_at_skip.
          - intros ks s1 str q (ss & lk & -> & Hs). cbn. unfold struct_characters. rewrite delegate_pass by reflexivity.
            rewrite put_struct. do 2 eexists. split; [reflexivity|]. split; [exists ss, ([] ++ lk); auto|]. split; reflexivity. }
        apply (errs_ref id (TDStruct ident root nss fs) (VState (VkStruct fs ss0) []) name attrs ns p kids pe parents Hid)
          with (At := fun s => struct_at o env fs attrs [] s /\ state_ids s = map (field_ident env) fs /\ vs_leaked s = [])
               (At' := fun s => struct_at o env fs attrs kids s /\ state_ids s = map (field_ident env) fs).
        * unfold new_visitor. now rewrite Hid, Hss.
        * intros s' E. apply A1 in E as (G1 & ss' & -> & G2 & G3). split; [exact G1|].
          split; [exists ss', []; auto|]. cbn. split; [congruence|auto].
        * exact A2.
        * intros e s' E. destruct (A3 e s' E) as [G _]. exact G.
        * exact A4.
        * intros s (Hat & Hst & _). destruct (Hrun s Hat) as (K1 & K2 & K3 & K4 & _).
          split; [|split; [|split]]; auto.
          intros x s' pl E. apply K1 in E as (G1 & G2 & G3 & G4). split; auto. split; auto. split; [exact G2|congruence].
        * intros s [(ss & lk & -> & Hs) Hst]. cbn in Hst.
          destruct (lacks_run o env attrs kids _ fs ss Hs Hst) as (ss' & Ef & _). unfold finalize. cbn [vs_kind lacks]. rewrite Ef.
          destruct (fields_lack env attrs kids (unclaimed fs kids) fs) as [m|]; [eauto|].
          do 2 eexists. split; [reflexivity|]. intro e.
          assert (Ha : forall ss e, assume_init ss <> Err e).
          { clear. induction ss as [|s ss IH]; cbn; intros; [discriminate|]. destruct (slot_mem s); [|discriminate].
            destruct (assume_init ss) as [x|e'|x] eqn:E; cbn; try discriminate. exfalso. eapply IH; eauto. }
          specialize (Ha ss'). destruct (assume_init ss') as [x|e'|x]; cbn; try discriminate. now specialize (Ha e').
        * intros e s' E. destruct (A3 e s' E) as [_ (b & a & b' & m & ss' & -> & G1 & G2 & -> & G3)]. cbn [app] in *.
          unfold live. cbn [vs_kind vs_leaked]. rewrite app_nil_r. eapply leaks_attribute; eauto.
          -- now apply fine_from_all.
          -- cbn [so_far]. unfold unclaimed. cbn [filter]. now apply so_far_run.
        * intros s Hfine (Hat & Hst & Hlk) x s' pl E. destruct (Hrun s Hat) as (_ & _ & _ & _ & K5).
          specialize (K5 Hlk x s' pl E). destruct x as [x|e|x]; auto.
          destruct K5 as (k1 & c & k2 & s1 & Hkids & G1 & (ss1 & lk1 & -> & G2) & G3 & G4). cbn [app vs_kind] in *.
          unfold live. rewrite G3. apply fine_from_all in Hfine. apply met_from_all in G1. apply so_far_run in G2. unfold n. rewrite Hkids.
          destruct G4 as [[(m & G4) ->]|(t & G4 & G5)].
          -- rewrite app_nil_r. eapply leaks_rejected; eauto.
          -- eapply leaks_nested; eauto.
        * intros s Hfine Hmet [(ss & lk & -> & Hs) Hst] Hlk. cbn in Hst, Hlk. subst lk.
          destruct (lacks_run o env attrs kids _ fs ss Hs Hst) as (ss' & Ef & Hu). unfold finalize. cbn [vs_kind vs_leaked]. rewrite Ef.
          destruct (fields_lack env attrs kids (unclaimed fs kids) fs) as [m|] eqn:El.
          -- cbn [fst snd]. rewrite app_nil_r. apply fine_from_all in Hfine. apply met_from_all in Hmet.
             eapply leaks_incomplete; eauto. cbn [until_missing]. apply Hu. discriminate.
          -- cbn [fst snd]. destruct (assume_init ss') as [x|e'|x] eqn:Ea; cbn; auto. exfalso.
             revert e' Ea. clear. induction ss' as [|s ss IH]; cbn; intros; [discriminate|]. destruct (slot_mem s); [|discriminate].
             destruct (assume_init ss) as [x|e|x] eqn:E; cbn in *; try discriminate. eapply IH; eauto.
      + (* enum *)
        destruct Hn as [Hns Hnd]. unfold new_visitor in Hnew. rewrite Hid in Hnew. inversion Hnew; subst s0.
        set (s0 := VState (VkEnum (new_enum ident vs)) []).
        assert (A0 : forall attrs path q, sem_attrs V path q attrs s0 = (Ok tt, s0)).
        { intros attrs' path' q. induction attrs' as [|a attrs' IHa]; cbn; auto. }
        assert (C0 : forall a1 attrs, fine_from (fun _ _ => Ok tt) a1 attrs).
        { intros a1 attrs'. revert a1. induction attrs' as [|a attrs' IHa]; cbn; auto. }
        set (D := child_demand env (TDEnum ident root nss vs sk)).
        assert (Hrun : let r := sem_kids V (sem_read V) path (name, ns, pe) kids s0 in
          (forall x s' pl, r = ((Ok x, s'), pl) -> met_from o env D [] kids /\ enum_at o env vs kids s' /\
             state_ids s' = state_ids s0 /\ pl = (path, pe)) /\
          (met_from o env D [] kids -> exists x s' pl, r = ((Ok x, s'), pl)) /\
          (forall e s' pl, r = ((Err e, s'), pl) -> bad_from o env D path [] kids e) /\
          (forall e, bad_from o env D path [] kids e -> exists s' pl, r = ((Err e, s'), pl)) /\
          (vs_leaked s0 = [] -> forall x s' pl, r = ((x, s'), pl) ->
             match x with Ok _ => vs_leaked s' = [] | Err _ => leak_from o env (enum_at o env vs) D [] kids s' | Abort _ => True end)).
        { apply (kids_run o alg env Hok (enum_at o env vs) D) with
            (kids := kids) (ks := @nil node) (path := path) (fin := (name, ns, pe)) (s := s0); auto.
          - intros ks s1 cn ca cns cp ck cpe i' Hi' (e & lk1 & -> & He). unfold D. cbn [child_demand derived v_element vs_kind].
            assert (Hcn : forall m, has_name m (NElem cn ca cns cp ck cpe) = xn_eqb (from_xml_name (ei_name i')) m) by (intro m; now rewrite Hi').
            destruct (enum_element o alg env e i') as [act|] eqn:Ea.
            + eapply acts_amap; [|eapply (enum_acts o alg env R _ i' Hcn) with (e := e); eauto].
              * intros r l [[[[]|er|x] e'] l'] (<- & <- & H3); cbn in *; split; auto; split; auto; try discriminate.
                intros er' Her. now rewrite (H3 er' Her).
              * cbn. now rewrite Hi'.
            + destruct (enum_ignores o alg env R _ i' Hcn vs Hns Hnd ks e He Ea) as [-> _]. eexists. split; [reflexivity|]. split; auto.
          - intros. apply step_enum; auto.
          - intros. now apply child_demand_skip.
          - intros. now apply enum_at_skip.
          - intros ks s str q (e & lk & -> & Hs). cbn. do 2 eexists. split; [reflexivity|]. split; [exists e, lk; auto|]. split; reflexivity.
          - exists (new_enum ident vs), []. split; auto. split; auto. }
        assert (Hlive : forall k e, estate_after R vs k e -> choice_so_far o env vs k (opt_list (e_mem e))).
        { intros k e [_ [(Hf & _ & ->)|(_ & x & -> & Hch)]]; [now apply cs_none|now apply cs_some]. }
        apply (errs_ref id (TDEnum ident root nss vs sk) s0 name attrs ns p kids pe parents Hid)
          with (At := fun s => s = s0)
               (At' := fun s => enum_at o env vs kids s /\ state_ids s = [Some ident]).
        * unfold new_visitor. now rewrite Hid.
        * rewrite A0. intros s' [= <-]. split; [apply C0|auto].
        * rewrite A0. eauto.
        * rewrite A0. discriminate.
        * intros m B. exfalso. cbn in B. assert (N : forall a1, ~ abad_from (fun _ _ => Ok tt) a1 attrs m).
          { clear. induction attrs as [|a attrs IH]; cbn; [tauto|]. intros a1 [E|[_ E]]; [discriminate|]. eapply IH; eauto. }
          eapply N. exact B.
        * intros s ->. destruct Hrun as (K1 & K2 & K3 & K4 & _). split; [|split; [|split]]; auto.
          intros x s' pl E. apply K1 in E as (G1 & G2 & G3 & G4). split; auto.
        * intros s [(e & lk & -> & He) Hst]. cbn in Hst. injection Hst as Hst'.
          unfold finalize. cbn [vs_kind lacks]. rewrite (enum_lacks_run o env ident vs kids e He Hst').
          destruct (enum_lacks ident vs kids); [eauto|]. do 2 eexists. split; [reflexivity|].
          intro er. destruct (e_mem e); discriminate.
        * rewrite A0. discriminate.
        * intros s Hfine -> x s' pl E. destruct Hrun as (_ & _ & _ & _ & K5).
          specialize (K5 eq_refl x s' pl E). destruct x as [x|e|x]; auto.
          destruct K5 as (k1 & c & k2 & s1 & Hkids & G1 & (e1 & lk1 & -> & G2) & G3 & G4). cbn [app vs_kind] in *.
          unfold live. rewrite G3. apply fine_from_all in Hfine. apply met_from_all in G1. apply Hlive in G2. unfold n. rewrite Hkids.
          destruct G4 as [[(m & G4) ->]|(t & G4 & G5)].
          -- rewrite app_nil_r. eapply leaks_rejected; eauto.
          -- eapply leaks_nested; eauto.
        * intros s Hfine Hmet [(e & lk & -> & He) Hst] Hlk. cbn in Hst, Hlk. injection Hst as Hst'. subst lk.
          unfold finalize. cbn [vs_kind vs_leaked]. rewrite (enum_lacks_run o env ident vs kids e He Hst').
          destruct (enum_lacks ident vs kids) as [m|] eqn:El; cbn [fst snd].
          -- unfold live. cbn [vs_kind vs_leaked]. rewrite app_nil_r. apply fine_from_all in Hfine. apply met_from_all in Hmet.
             eapply leaks_incomplete; eauto. cbn [until_missing].
             destruct He as [_ [(Hf & _ & ->)|(_ & x & _ & Hch)]]; [reflexivity|]. exfalso. unfold enum_lacks in El.
             rewrite existsb_filter_cons in El; [discriminate|].
             inversion Hch as [j v Hj Hty Hne E|j v k t y Hj Hty E Ho]; subst; auto.
             rewrite E. intro K. rewrite K in Ho. inversion Ho. congruence.
          -- destruct (e_mem e); auto.
  Qed.

  Theorem read_as_error dbg t d pe e :
    read_as o alg env dbg t (doc_events d) (FEndDocument pe) = Err e <-> doc_error o env t d e.
  Proof.
    rewrite read_as_sem. unfold sem_doc, de_root, doc_error. rewrite sem_act_amap.
    destruct (errs_all (d_root d) [] (EInfo (d_name d) (d_ns d) 1) t eq_refl) as (E1 & E2 & _).
    cbn [app] in E1, E2. fold (d_root d) in E1, E2.
    destruct (sem_act _ _ _ _ _ (deserialize _ _ _ _)) as [[[r l]|x] pl]; cbn [fst snd inl_map].
    - split.
      + destruct r as [v|er|x]; try discriminate. intros [= <-].
        destruct (E1 er l pl eq_refl) as (f & -> & Hf & Hpl). exists f. split; auto.
        rewrite wrap_verr. destruct f; [now rewrite Hpl|reflexivity].
      + intros (f & Hf & ->). destruct (E2 f Hf) as (l' & pl' & [= -> _ _]).
        destruct (E1 (verr_of f) l pl eq_refl) as (g & Hg & _ & Hpl). apply verr_of_inj in Hg. subst g.
        rewrite wrap_verr. destruct f; [now rewrite Hpl|reflexivity].
    - split; [discriminate|]. intros (f & Hf & ->). destruct (E2 f Hf) as (l' & pl' & [=]).
  Qed.
End Main.

Theorem first_fault o alg env dbg t d pe e : names_ok env -> compiles env ->
  read_as o alg env dbg t (doc_events d) (FEndDocument pe) = Err e <-> doc_error o env t d e.
Proof. intros Hok Hc. now apply read_as_error. Qed.

Theorem fault_unique o env t d e1 e2 : names_ok env -> compiles env ->
  doc_error o env t d e1 -> doc_error o env t d e2 -> e1 = e2.
Proof.
  intros Hok Hc H1 H2. apply (first_fault o Bisect env false t d (0%N, 0%N)) in H1; auto.
  apply (first_fault o Bisect env false t d (0%N, 0%N)) in H2; auto. congruence.
Qed.

Theorem fault_or_value o env t d : names_ok env -> compiles env -> oracles_total o -> known_ty env t ->
  (exists e, doc_error o env t d e) <-> ~ exists v, reads o env t (d_root d) v.
Proof.
  intros Hok Hc Ho Hk. split.
  - intros (e & He) (v & Hv). apply (first_fault o Bisect env false t d (0%N, 0%N)) in He; auto.
    apply (read_as_iff o Bisect env false t d (0%N, 0%N)) in Hv; auto. congruence.
  - intro Hn. destruct (read_as_err o Bisect env false t d (0%N, 0%N)) as (e & He); auto.
    + intros v Hv. apply Hn. eauto.
    + exists e. eapply first_fault; eauto.
Qed.
