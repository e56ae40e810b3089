(** Derived deserializers are well-behaved user code in the sense of the reader's theorems: they
    hand on errors, do not look at positions, and never panic, use uninitialized memory or overwrite
    a live value. *)
From Verif Require Import Base Normalize Text TextProofs Find FindProofs Types Reader ReaderSpec ReaderProofs
  ReaderTotal DeriveDe DeSpec DeProofs DeMain.

(** ** Actions *)

Lemma transparent_amap {St A B C D} (get : A -> res verr C) (get' : B -> res verr D) (f : A -> B) (act : action St A) :
  transparent_act get act ->
  (forall a, new_error (get a) -> new_error (get' (f a))) ->
  (forall a e, get a = Err e -> get' (f a) = Err e) ->
  transparent_act get' (amap f act).
Proof. destruct act; cbn; intros H H1 H2; [auto|destruct H; split; auto|destruct H; split; auto]. Qed.

Lemma blind_amap {St A B} (R : A -> A -> Prop) (R' : B -> B -> Prop) (f : A -> B) (act : action St A) :
  blind_act R act -> (forall a b, R a b -> R' (f a) (f b)) -> blind_act R' (amap f act).
Proof. destruct act; cbn; intros H H1; [auto|auto|]. destruct H. split; auto. Qed.

Lemma total_amap {St A B} Inv (good : A -> Prop) (good' : B -> Prop) (f : A -> B) (act : action St A) :
  total_act Inv good act -> (forall a, good a -> good' (f a)) -> total_act Inv good' (amap f act).
Proof. destruct act; cbn; intros H H1; [auto|auto|]. destruct H. split; auto. Qed.

Lemma transparent_propagating_act {St A B} (get : A -> res verr B) (act : action St A) :
  transparent_act get act -> propagating_act (fun a => forall b, get a <> Ok b) act.
Proof. destruct act; cbn; auto; intros [_ H]; intros; rewrite H; discriminate. Qed.

Lemma new_error_ok {A} (a : A) : new_error (Ok a : res verr A).
Proof. intros e H. discriminate. Qed.
Lemma new_error_abort {A} x : new_error (Abort x : res verr A).
Proof. intros e H. discriminate. Qed.
Lemma new_error_wrap {A} m : new_error (Err (Wrap m) : res verr A).
Proof. intros e [= <-]. eauto. Qed.
#[export] Hint Resolve new_error_ok new_error_abort new_error_wrap : newerr.

Lemma new_error_map {A B} (f : A -> B) r : new_error r -> new_error (map_ok f r).
Proof. intros H e. destruct r; cbn; try discriminate. intros [= <-]. now apply H. Qed.

Section Derived.
  Context (o : oracles) (alg : bs_alg) (env : tenv).
  Notation V := (derived o alg env).

  (** ** Errors are handed on *)

  Lemma deserialize_transparent t i : transparent_act fst (deserialize o env t i).
  Proof.
    destruct t as [t|id]; cbn.
    - split; auto. intros s e. destruct (parse_text o t s); cbn; try discriminate. intros [= <-]. eauto.
    - destruct (new_visitor env id); cbn; [|auto with newerr].
      split; auto. intros _ s. unfold finalize. destruct (vs_kind s) as [fs ss|e].
      + assert (H : new_error (fst (finalize_slots fs ss))).
        { revert ss. induction fs as [|f fs IH]; intros [|s0 ss]; cbn; auto with newerr.
          destruct (finalize_slot f s0) eqn:E; cbn; auto with newerr.
          - specialize (IH ss). destruct (finalize_slots fs ss). exact IH.
          - intros e1 [= <-]. revert E. unfold finalize_slot, missing, write_mem, enum_finalize.
            destruct s0 as [[|] [|]|es]; cbn; try discriminate.
            + destruct (f_default f); cbn; [discriminate|]. destruct (f_mode f) as [[]| [] | |]; cbn; try discriminate; intros [= <-]; eexists; reflexivity.
            + destruct (f_default f); cbn; [discriminate|]. destruct (f_mode f) as [[]| [] | |]; cbn; try discriminate; intros [= <-]; eexists; reflexivity.
            + destruct (e_init es); cbn; [discriminate|]. intros [= <-]. eexists; reflexivity. }
        destruct (finalize_slots fs ss) as [[[]|e|x] ss']; cbn; auto with newerr.
        2:{ intros e1 [= <-]. now apply H. }
        apply new_error_map. clear H. induction ss' as [|s0 ss' IH]; cbn; auto with newerr.
        destruct (slot_mem s0); auto with newerr. now apply new_error_map.
      + unfold enum_finalize. destruct (e_init e); cbn; [|apply new_error_wrap].
        destruct (e_mem e); auto with newerr.
  Qed.

  Lemma field_init_transparent k t i : transparent_act fst (field_init o env k t i).
  Proof.
    eapply transparent_amap; [apply deserialize_transparent|..].
    - intros [r l] H. cbn in *. now apply new_error_map.
    - intros [r l] e. cbn. intros ->. reflexivity.
  Qed.

  Lemma field_update_transparent k t old i : transparent_act fst (field_update o env k t old i).
  Proof.
    destruct k; cbn [field_update]; try (cbn; apply new_error_wrap).
    eapply transparent_amap; [apply deserialize_transparent|..].
    - intros [[v|e|x] l] H; cbn in *; auto with newerr.
      unfold push_value. destruct old; auto with newerr.
    - intros [r l] e. cbn. intros ->. reflexivity.
  Qed.

  Lemma enum_element_transparent e i act : enum_element o alg env e i = Some act ->
    transparent_act (fun x => fst (fst x)) act.
  Proof.
    unfold enum_element. destruct (e_init e).
    - intros [= <-]. destruct (e_mem e) as [[| |j p| | | |]|]; cbn; auto with newerr.
      destruct (nth_error _ j) as [v|]; cbn; auto with newerr.
      destruct (find _ _ _) as [j'|]; cbn; auto with newerr.
      destruct (Nat.eqb j' j); cbn; auto with newerr; [|apply new_error_wrap].
      destruct (v_ty v) as [[k t]|]; cbn; auto with newerr. destruct p as [f|]; cbn; auto with newerr.
      eapply transparent_amap; [apply field_update_transparent|..].
      + intros [[r|r|r] l] H; cbn in *; auto with newerr.
        intros e1 [= <-]. now apply H.
      + intros [r l] e1. cbn. intros ->. reflexivity.
    - destruct (find _ _ _) as [j|]; [|discriminate]. intros [= <-].
      destruct (nth_error _ j) as [v|]; cbn; auto with newerr.
      destruct (v_ty v) as [[k t]|].
      + eapply transparent_amap; [apply field_init_transparent|..].
        * intros [[r|r|r] l] H; cbn in *; auto with newerr.
          -- destruct (e_mem e); cbn; auto with newerr.
          -- intros e1 [= <-]. now apply H.
        * intros [r l] e1. cbn. intros ->. reflexivity.
      + cbn. destruct (e_mem e); cbn; auto with newerr.
  Qed.

  Lemma delegate_transparent ss i act : delegate_element o alg env ss i = Some act ->
    transparent_act (fun x => fst (fst x)) act.
  Proof.
    revert act. induction ss as [|s ss IH]; cbn; intros act; [discriminate|].
    assert (Hrest : forall act, option_map (amap (fun '(r, ss'', l) => (r, s :: ss'', l))) (delegate_element o alg env ss i) = Some act ->
      transparent_act (fun x => fst (fst x)) act).
    { intros act0. destruct (delegate_element o alg env ss i) as [a|]; cbn; [|discriminate]. intros [= <-].
      eapply transparent_amap; [apply IH; reflexivity|..].
      - intros [[r ss'] l]. auto.
      - intros [[r ss'] l]. auto. }
    destruct s as [pr m|e]; auto.
    destruct (enum_element o alg env e i) eqn:E; auto. intros [= <-].
    apply enum_element_transparent in E. eapply transparent_amap; [exact E|..].
    - intros [[r e'] l]. auto.
    - intros [[r e'] l]. auto.
  Qed.

  Lemma element_field_transparent k t pr m i :
    transparent_act (fun x => fst (fst x)) (element_field o env k t pr m i).
  Proof.
    unfold element_field. destruct pr.
    - destruct m as [old|]; cbn; auto with newerr.
      eapply transparent_amap; [apply field_update_transparent|..].
      + intros [[r|r|r] l] H; cbn in *; auto with newerr. intros e1 [= <-]. now apply H.
      + intros [r l] e1. cbn. intros ->. reflexivity.
    - eapply transparent_amap; [apply field_init_transparent|..].
      + intros [[r|r|r] l] H; cbn in *; auto with newerr.
        * unfold write_mem. destruct m; cbn; auto with newerr.
        * intros e1 [= <-]. now apply H.
      + intros [r l] e1. cbn. intros ->. reflexivity.
  Qed.

  Lemma delegate_attr (fs : list field) ss n v : delegate (fun e v => enum_attribute e n v) ss v = (Ok (Some v), ss).
  Proof. now apply delegate_pass. Qed.

  Lemma derived_transparent : transparent V.
  Proof.
    split.
    - intros s n v. cbn. destruct (vs_kind s) as [fs ss|e]; cbn; auto with newerr.
      unfold struct_attribute. destruct (find_field alg is_attribute fs n) as [p|].
      + destruct (nth_error fs p) as [[nm [] d]|]; try (cbn; now auto with newerr).
        destruct (nth_error ss p) as [[pr m|]|]; try (cbn; now auto with newerr).
        unfold attribute_field. destruct pr; cbn; [apply new_error_wrap|].
        unfold attr_init. destruct (parse_text o t v); cbn; auto with newerr.
        unfold write_mem. destruct m; cbn; auto with newerr.
      + rewrite delegate_pass by reflexivity. cbn. auto with newerr.
    - intros s i. cbn. destruct (vs_kind s) as [fs ss|e].
      + unfold struct_element. destruct (find_field alg is_element fs _) as [p|].
        * destruct (nth_error fs p) as [[nm [] d]|]; try (cbn; now auto with newerr).
          destruct (nth_error ss p) as [[pr m|]|]; try (cbn; now auto with newerr).
          eapply transparent_amap; [apply element_field_transparent|..].
          -- intros [[r sl] l]. cbn. apply new_error_map.
          -- intros [[r sl] l] e. cbn. intros ->. reflexivity.
        * destruct (delegate_element o alg env ss i) as [act|] eqn:E; [|cbn; auto with newerr].
          apply delegate_transparent in E. eapply transparent_amap; [exact E|..].
          -- intros [[r sl] l]. cbn. apply new_error_map.
          -- intros [[r sl] l] e. cbn. intros ->. reflexivity.
      + destruct (enum_element o alg env e i) as [act|] eqn:E; [|cbn; auto with newerr].
        apply enum_element_transparent in E. eapply transparent_amap; [exact E|..].
        * intros [[r sl] l]. cbn. apply new_error_map.
        * intros [[r sl] l] e1. cbn. intros ->. reflexivity.
  Qed.

  Lemma de_root_transparent t : transparent_root (de_root o env t).
  Proof. intro i. eapply transparent_amap; [apply deserialize_transparent|..]; auto. Qed.

  Lemma derived_propagating : propagating V.
  Proof. intros s i. apply transparent_propagating_act. apply derived_transparent. Qed.

  Lemma de_root_propagating t : propagating_root (de_root o env t).
  Proof. intros i. apply (transparent_propagating_act (fun x => x)). apply de_root_transparent. Qed.

  (** ** Positions are not looked at *)

  Lemma res_sim_refl {A} (r : res verr A) : (forall e, r <> Err e) -> res_sim verr_sim r r.
  Proof. destruct r; cbn; auto. intro H. now destruct (H e). Qed.

  Lemma verr_sim_wrap m : verr_sim (Wrap m) (Wrap m).
  Proof. reflexivity. Qed.

  Definition sim2 (a b : res verr value * list value) : Prop :=
    res_sim verr_sim (fst a) (fst b) /\ snd a = snd b.

  Lemma error_sim_refl e : error_sim e e.
  Proof. now split. Qed.
  Lemma verr_sim_refl e : verr_sim e e.
  Proof. destruct e; cbn; auto using error_sim_refl. Qed.
  Lemma res_sim_refl' {A} (r : res verr A) : res_sim verr_sim r r.
  Proof. destruct r; cbn; auto using verr_sim_refl. Qed.

  Lemma deserialize_blind t i : blind_act sim2 (deserialize o env t i).
  Proof.
    destruct t as [t|id]; cbn.
    - intros e1 e2 H. split; auto.
    - destruct (new_visitor env id); cbn; auto. split.
      + intros e1 e2 s H. split; auto.
      + intros. split; auto. apply res_sim_refl'.
  Qed.

  Lemma res_sim_map {A B} (f : A -> B) r1 r2 : res_sim verr_sim r1 r2 -> res_sim verr_sim (map_ok f r1) (map_ok f r2).
  Proof. destruct r1, r2; cbn; auto. congruence. Qed.

  Lemma field_init_blind k t i : blind_act sim2 (field_init o env k t i).
  Proof.
    eapply blind_amap; [apply deserialize_blind|]. intros [r1 l1] [r2 l2] [H1 H2]. split; cbn in *; auto.
    now apply res_sim_map.
  Qed.

  Lemma field_update_blind k t old i : blind_act sim2 (field_update o env k t old i).
  Proof.
    destruct k; cbn [field_update]; try exact I.
    eapply blind_amap; [apply deserialize_blind|]. intros [r1 l1] [r2 l2] [H1 H2]. split; cbn in *; auto.
    destruct r1, r2; cbn in *; auto; try tauto. subst. apply res_sim_refl'.
  Qed.

  Definition sim3 {A} (a b : res verr unit * A * list value) : Prop :=
    res_sim verr_sim (fst (fst a)) (fst (fst b)) /\ snd (fst a) = snd (fst b) /\ snd a = snd b.

  Lemma sim3_refl {A} (a : res verr unit * A * list value) : sim3 a a.
  Proof. split; auto. apply res_sim_refl'. Qed.

  Lemma enum_element_blind e i act : enum_element o alg env e i = Some act -> blind_act sim3 act.
  Proof.
    unfold enum_element. destruct (e_init e).
    - intros [= <-]. destruct (e_mem e) as [[| |j p| | | |]|]; try exact I.
      destruct (nth_error _ j) as [v|]; try exact I.
      destruct (find _ _ _) as [j'|]; try exact I.
      destruct (Nat.eqb j' j); try exact I.
      destruct (v_ty v) as [[k t]|]; try exact I. destruct p as [f|]; try exact I.
      eapply blind_amap; [apply field_update_blind|].
      intros [[|e1|] l1] [[|e2|] l2] [H1 H2]; cbn in *; try tauto; subst; try apply sim3_refl; split; auto.
    - destruct (find _ _ _) as [j|]; [|discriminate]. intros [= <-].
      destruct (nth_error _ j) as [v|]; try exact I.
      destruct (v_ty v) as [[k t]|]; [|exact I].
      eapply blind_amap; [apply field_init_blind|].
      intros [[|e1|] l1] [[|e2|] l2] [H1 H2]; cbn in *; try tauto; subst; try apply sim3_refl; split; auto.
  Qed.

  Lemma delegate_blind ss i act : delegate_element o alg env ss i = Some act -> blind_act sim3 act.
  Proof.
    revert act. induction ss as [|s ss IH]; cbn; intros act; [discriminate|].
    assert (Hrest : forall act, option_map (amap (fun '(r, ss'', l) => (r, s :: ss'', l))) (delegate_element o alg env ss i) = Some act ->
      blind_act sim3 act).
    { intros act0. destruct (delegate_element o alg env ss i) as [a|]; cbn; [|discriminate]. intros [= <-].
      eapply blind_amap; [apply IH; reflexivity|]. intros [[r1 s1] l1] [[r2 s2] l2] (H1 & H2 & H3).
      cbn in *. subst. now split. }
    destruct s as [pr m|e]; auto.
    destruct (enum_element o alg env e i) eqn:E; auto. intros [= <-].
    apply enum_element_blind in E. eapply blind_amap; [exact E|]. intros [[r1 s1] l1] [[r2 s2] l2] (H1 & H2 & H3).
    cbn in *. subst. now split.
  Qed.

  Lemma element_field_blind k t pr m i : blind_act sim3 (element_field o env k t pr m i).
  Proof.
    unfold element_field. destruct pr.
    - destruct m as [old|]; try exact I. eapply blind_amap; [apply field_update_blind|].
      intros [[|e1|] l1] [[|e2|] l2] [H1 H2]; cbn in *; try tauto; subst; try apply sim3_refl; split; auto.
    - eapply blind_amap; [apply field_init_blind|].
      intros [[|e1|] l1] [[|e2|] l2] [H1 H2]; cbn in *; try tauto; subst; try apply sim3_refl; split; auto.
  Qed.

  Lemma derived_blind : blind V.
  Proof.
    split.
    - intros s str p1 p2. cbn. destruct (vs_kind s) as [fs ss|e]; auto.
    - intros s i. cbn. destruct (vs_kind s) as [fs ss|e].
      + unfold struct_element. destruct (find_field alg is_element fs _) as [p|].
        * destruct (nth_error fs p) as [[nm [] d]|]; try exact I.
          destruct (nth_error ss p) as [[pr m|]|]; try exact I.
          eapply blind_amap; [apply element_field_blind|]. intros [[r1 s1] l1] [[r2 s2] l2] (H1 & H2 & H3).
          cbn in *. subst. split; auto. now apply res_sim_map.
        * destruct (delegate_element o alg env ss i) as [act|] eqn:E; [|exact I].
          apply delegate_blind in E. eapply blind_amap; [exact E|]. intros [[r1 s1] l1] [[r2 s2] l2] (H1 & H2 & H3).
          cbn in *. subst. split; auto. now apply res_sim_map.
      + destruct (enum_element o alg env e i) as [act|] eqn:E; [|exact I].
        apply enum_element_blind in E. eapply blind_amap; [exact E|]. intros [[r1 s1] l1] [[r2 s2] l2] (H1 & H2 & H3).
        cbn in *. subst. split; auto. now apply res_sim_map.
  Qed.

  Lemma de_root_blind t : blind_root (de_root o env t).
  Proof. intro i. eapply blind_amap; [apply deserialize_blind|]. intros a b []. auto. Qed.

  (** ** Nothing aborts *)

  Hypothesis Hc : compiles env.
  Hypothesis Ho : oracles_total o.

  Definition shape (k : fkind) (v : value) : Prop :=
    match k with KVec => exists l, v = VVec l | _ => True end.

  (** The flag says whether the memory is initialized, and what is there has the right form. *)
  Definition enum_inv (e : estate) : Prop :=
    Forall (variant_compiles env) (e_variants e) /\
    ((e_init e = false /\ e_mem e = None) \/
     (e_init e = true /\ exists j v p, e_mem e = Some (VEnum j p) /\
        nth_error (sorted_variants (e_variants e)) j = Some v /\
        match v_ty v with
        | None => p = None
        | Some (k, _) => exists y, p = Some y /\ shape k y
        end)).

  Definition slot_inv (f : field) (s : slot) : Prop :=
    match f_mode f, s with
    | MElement k t, SField pr m => known_ty env t /\
        ((pr = false /\ m = None) \/ (pr = true /\ exists v, m = Some v /\ shape k v))
    | MAttribute _ _, SField pr m => (pr = false /\ m = None) \/ (pr = true /\ m <> None)
    | MFlatten _, SFlat e => enum_inv e
    | _, _ => False
    end.

  Definition inv (s : vstate) : Prop :=
    match vs_kind s with
    | VkStruct fs ss => Forall2 slot_inv fs ss
    | VkEnum e => enum_inv e
    end.

  Definition fine {A} (a : res verr A * list value) : Prop := no_abort (fst a).

  Lemma no_abort_map {E A B} (f : A -> B) (r : res E A) : no_abort r -> no_abort (map_ok f r).
  Proof. intros H x E1. destruct r; try discriminate. now apply (H x0). Qed.

  Lemma no_abort_ok {E A} (a : A) : no_abort (Ok a : res E A).
  Proof. intros x. discriminate. Qed.
  Lemma no_abort_err {E A} (e : E) : no_abort (Err e : res E A).
  Proof. intros x. discriminate. Qed.
  Hint Resolve no_abort_ok no_abort_err : core.

  Lemma new_enum_inv ident vs : Forall (variant_compiles env) vs -> enum_inv (new_enum ident vs).
  Proof. intro H. split; auto. Qed.

  Lemma new_slots_total fs : Forall (field_compiles env) fs ->
    exists ss, new_slots env fs = Some ss /\ Forall2 slot_inv fs ss.
  Proof.
    induction 1 as [|f fs Hf _ (ss & Ess & IH)]; cbn; [eauto|]. rewrite Ess.
    unfold field_compiles in Hf. destruct (f_mode f) as [k t|opt t|id|t] eqn:Em.
    - eexists; split; eauto. constructor; auto. unfold slot_inv. rewrite Em. auto.
    - eexists; split; eauto. constructor; auto. unfold slot_inv. rewrite Em. auto.
    - destruct Hf as (ident & root & nss & vs & sk & He). rewrite He. eexists; split; eauto.
      constructor; auto. unfold slot_inv. rewrite Em. apply new_enum_inv. apply (Hc id _ He).
    - tauto.
  Qed.

  Lemma new_visitor_total id : env id <> None -> exists s, new_visitor env id = Some s /\ inv s.
  Proof.
    unfold new_visitor. destruct (env id) as [[ident root nss fs|ident root nss vs sk]|] eqn:E; [..|congruence]; intros _.
    - destruct (new_slots_total fs (Hc id _ E)) as (ss & -> & H). cbn. eauto.
    - eexists; split; eauto. apply new_enum_inv. apply (Hc id _ E).
  Qed.

  Lemma finalize_total s : inv s -> no_abort (fst (finalize s)).
  Proof.
    unfold inv, finalize. destruct (vs_kind s) as [fs ss|e].
    - intro H.
      assert (G : forall r ss', finalize_slots fs ss = (r, ss') -> no_abort r /\
        (r = Ok tt -> Forall (fun s => slot_mem s <> None) ss')).
      { induction H as [|f s0 fs ss Hs H IH]; intros r ss'; cbn.
        - intros [= <- <-]. auto.
        - unfold slot_inv in Hs. unfold finalize_slot.
          destruct s0 as [[|] m|e].
          + destruct (finalize_slots fs ss) as [r1 ss1] eqn:E1. intros [= <- <-]. destruct (IH _ _ eq_refl) as [H1 H2].
            split; auto. intro Hr. constructor; auto. cbn.
            destruct (f_mode f); try tauto; [destruct Hs as [_ Hs]|]; destruct Hs as [[? _]|[_ Hs]]; try discriminate; auto.
            destruct Hs as (v & -> & _). discriminate.
          + assert (Hm : m = None).
            { destruct (f_mode f); try tauto; [destruct Hs as [_ Hs]|]; destruct Hs as [[_ ?]|[? _]]; auto; discriminate. }
            subst m. cbn.
            assert (G : forall v, (let (r0, ss'') := finalize_slots fs ss in (r0, SField false (Some v) :: ss'')) = (r, ss') ->
              no_abort r /\ (r = Ok tt -> Forall (fun s => slot_mem s <> None) ss')).
            { intro v. destruct (finalize_slots fs ss) as [r1 ss1] eqn:E1. intros [= <- <-]. destruct (IH _ _ eq_refl) as [H1 H2].
              split; auto. intro Hr. constructor; auto. discriminate. }
            destruct (f_default f); cbn; [apply G|]. unfold missing.
            destruct (f_mode f) as [[]|[]| |]; try tauto; cbn; try apply G; intros [= <- <-]; split; auto; discriminate.
          + destruct (f_mode f); try tauto. unfold enum_finalize. destruct (e_init e) eqn:Ei; cbn.
            * destruct (finalize_slots fs ss) as [r1 ss1] eqn:E1. intros [= <- <-]. destruct (IH _ _ eq_refl) as [H1 H2].
              split; auto. intro Hr. constructor; auto. cbn.
              destruct Hs as [_ [[? _]|(_ & j & v & p & -> & _)]]; congruence.
            * intros [= <- <-]. split; auto. discriminate. }
      destruct (finalize_slots fs ss) as [[[]|e|x] ss'].
      + destruct (G _ _ eq_refl) as [_ G2]. specialize (G2 eq_refl). cbn. apply no_abort_map.
        clear G. induction G2 as [|s0 ss' Hs _ IH]; cbn; auto. destruct (slot_mem s0); [|congruence]. now apply no_abort_map.
      + cbn. auto.
      + cbn. destruct (G _ _ eq_refl) as [G1 _]. exfalso. eapply G1; eauto.
    - intros [_ H]. unfold enum_finalize. destruct H as [[-> Hm]|(-> & j & v & p & -> & _)]; cbn; auto.
  Qed.

  Lemma deserialize_total t i : known_ty env t -> total_act inv fine (deserialize o env t i).
  Proof.
    destruct t as [t|id]; cbn; intro Hk.
    - intros [s|e]; cbn; unfold fine; cbn; auto. apply no_abort_map.
      intros x E. destruct (parse_text o t s) eqn:Ep; try discriminate. eapply parse_text_total; eauto.
    - destruct (new_visitor_total id Hk) as (s0 & -> & H0). split; auto.
      intros [x|e] s Hs; unfold fine; cbn; auto. now apply finalize_total.
  Qed.

  Definition good_value (k : fkind) (a : res verr value * list value) : Prop :=
    no_abort (fst a) /\ forall v, fst a = Ok v -> shape k v.

  Lemma field_init_total k t i : known_ty env t -> total_act inv (good_value k) (field_init o env k t i).
  Proof.
    intro Hk. eapply total_amap; [apply deserialize_total; exact Hk|]. intros [r l] H. split; cbn.
    - now apply no_abort_map.
    - destruct r; cbn; try discriminate. intros v [= <-]. destruct k; cbn; eauto.
  Qed.

  Lemma field_update_total k t old i : known_ty env t -> shape k old ->
    total_act inv (good_value k) (field_update o env k t old i).
  Proof.
    intros Hk Hs. destruct k; cbn [field_update]; try (cbn; split; cbn; auto; discriminate).
    destruct Hs as [vs ->].
    eapply total_amap; [apply deserialize_total; exact Hk|]. intros [r l] H. split; cbn.
    - destruct r; cbn; auto.
    - destruct r; cbn; try discriminate. intros v [= <-]. eauto.
  Qed.

  Lemma variant_ok vs j v k t : Forall (variant_compiles env) vs ->
    nth_error (sorted_variants vs) j = Some v -> v_ty v = Some (k, t) -> known_ty env t.
  Proof.
    intros H Hn Ht. assert (Hin : In v vs).
    { eapply Permutation.Permutation_in; [apply sort_perm|]. eapply nth_error_In; eauto. }
    rewrite Forall_forall in H. apply H in Hin. unfold variant_compiles in Hin. now rewrite Ht in Hin.
  Qed.

  Definition good_enum (a : res verr unit * estate * list value) : Prop :=
    no_abort (fst (fst a)) /\ enum_inv (snd (fst a)).

  Lemma find_variant vs n j : find alg n (variant_table vs) = Some j ->
    exists v, nth_error (sorted_variants vs) j = Some v.
  Proof.
    intro H. apply find_sound in H. unfold variant_table in H. rewrite nth_error_map in H.
    destruct (nth_error (sorted_variants vs) j); [eauto|discriminate].
  Qed.

  Lemma enum_element_total e i act : enum_inv e -> enum_element o alg env e i = Some act -> total_act inv good_enum act.
  Proof.
    intros He. pose proof He as [Hv Hs]. unfold enum_element.
    destruct Hs as [[-> Hm]|(-> & j & v & p & Hm & Hj & Hp)].
    - destruct (find _ _ _) as [j|] eqn:Ef; [|discriminate]. intros [= <-].
      destruct (find_variant _ _ _ Ef) as (v & Hj). rewrite Hj, Hm.
      destruct (v_ty v) as [[k t]|] eqn:Ht.
      + eapply total_amap; [apply field_init_total; eapply variant_ok; eauto|].
        intros [[x|e1|x] l] [G1 G2]; cbn in *; (split; cbn; auto).
        * split; auto. right. split; auto. exists j, v, (Some x). rewrite Ht. split; [reflexivity|]. split; [exact Hj|]. eauto.
        * exfalso. eapply G1; eauto.
      + cbn. split; cbn; auto. split; auto. right. split; auto. exists j, v, None. now rewrite Ht.
    - rewrite Hm, Hj. intros [= <-].
      destruct (find _ _ _) as [j'|]; [|split; cbn; auto].
      destruct (Nat.eqb j' j) eqn:Ej; [|split; cbn; auto].
      destruct (v_ty v) as [[k t]|] eqn:Ht; [|split; cbn; auto].
      destruct Hp as (y & -> & Hy).
      eapply total_amap; [apply field_update_total; eauto; eapply variant_ok; eauto|].
      intros [[x|e1|x] l] [G1 G2]; cbn in *; (split; cbn; auto).
      * split; auto. right. split; auto. exists j, v, (Some x). rewrite Ht. split; [reflexivity|]. split; [exact Hj|]. eauto.
      * exfalso. eapply G1; eauto.
  Qed.

  Lemma delegate_total fs ss i act : Forall2 slot_inv fs ss -> delegate_element o alg env ss i = Some act ->
    total_act inv (fun a => no_abort (fst (fst a)) /\ Forall2 slot_inv fs (snd (fst a))) act.
  Proof.
    intro H. revert act. induction H as [|f s fs ss Hs H IH]; intro act; cbn; [discriminate|].
    assert (Hrest : forall act, option_map (amap (fun '(r, ss'', l) => (r, s :: ss'', l))) (delegate_element o alg env ss i) = Some act ->
      total_act inv (fun a => no_abort (fst (fst a)) /\ Forall2 slot_inv (f :: fs) (snd (fst a))) act).
    { intros act0. destruct (delegate_element o alg env ss i) as [a|]; cbn; [|discriminate]. intros [= <-].
      eapply total_amap; [apply IH; reflexivity|]. intros [[r s'] l] [G1 G2]. split; cbn in *; auto. }
    destruct s as [pr m|e]; auto.
    destruct (enum_element o alg env e i) eqn:E; auto. intros [= <-].
    assert (Hf : exists id, f_mode f = MFlatten id).
    { unfold slot_inv in Hs. destruct (f_mode f); try tauto. eauto. }
    destruct Hf as (id & Hf). unfold slot_inv in Hs. rewrite Hf in Hs.
    apply enum_element_total in E; auto. eapply total_amap; [exact E|].
    intros [[r s'] l] [G1 G2]. split; cbn in *; auto. constructor; auto. unfold slot_inv. now rewrite Hf.
  Qed.

  Lemma find_field_nth sel fs n p : find_field alg sel fs n = Some p ->
    exists f, nth_error fs p = Some f /\ sel f = true.
  Proof.
    unfold find_field. destruct (find alg n _) as [j|]; [|discriminate].
    destruct (nth_error (sorted_fields sel fs) j) as [[q d]|] eqn:En; [|discriminate].
    cbn. intros [= <-]. apply nth_error_In in En.
    apply (Permutation.Permutation_in _ (sorted_fields_perm sel fs)) in En.
    apply selected_spec in En as (f & H1 & H2 & _). eauto.
  Qed.

  Lemma Forall2_nth {A B} (P : A -> B -> Prop) l1 l2 p a : Forall2 P l1 l2 -> nth_error l1 p = Some a ->
    exists b, nth_error l2 p = Some b /\ P a b.
  Proof.
    intro H. revert p. induction H as [|x y l1 l2 Hxy _ IH]; intros [|p]; cbn; try discriminate.
    - intros [= <-]. eauto.
    - apply IH.
  Qed.

  Lemma Forall2_set {A B} (P : A -> B -> Prop) l1 l2 p a b : Forall2 P l1 l2 -> nth_error l1 p = Some a -> P a b ->
    Forall2 P l1 (set_nth p b l2).
  Proof.
    intro H. revert p. induction H as [|x y l1 l2 Hxy Hl IH]; intros [|p]; cbn; try discriminate.
    - intros [= <-] Hb. constructor; auto.
    - intros. constructor; auto.
  Qed.

  Lemma element_field_total f k t pr m i : f_mode f = MElement k t -> slot_inv f (SField pr m) ->
    total_act inv (fun a => no_abort (fst (fst a)) /\ slot_inv f (snd (fst a))) (element_field o env k t pr m i).
  Proof.
    intros Hf Hs. pose proof Hs as Hs'. unfold slot_inv in Hs'. rewrite Hf in Hs'. destruct Hs' as [Hk Hs'].
    unfold element_field. destruct Hs' as [[-> ->]|(-> & v & -> & Hv)].
    - eapply total_amap; [apply field_init_total; auto|].
      intros [[x|e1|x] l] [G1 G2]; cbn in *; (split; cbn; auto).
      + unfold slot_inv. rewrite Hf. split; auto. right. split; auto. eauto.
      + exfalso. eapply G1; eauto.
    - eapply total_amap; [apply field_update_total; auto; exact Hv|].
      intros [[x|e1|x] l] [G1 G2]; cbn in *; (split; cbn; auto).
      + unfold slot_inv. rewrite Hf. split; auto. right. split; auto. eauto.
      + exfalso. eapply G1; eauto.
  Qed.

  Theorem derived_total : total inv V.
  Proof.
    constructor.
    - intros s n v Hs. unfold inv in Hs. cbn. destruct (vs_kind s) as [fs ss|e] eqn:Ek.
      + unfold struct_attribute, put. rewrite Ek. destruct (find_field alg is_attribute fs n) as [p|] eqn:Ef.
        * destruct (find_field_nth _ _ _ _ Ef) as (f & Hf & Hsel). rewrite Hf.
          destruct (Forall2_nth _ _ _ _ _ Hs Hf) as (s0 & Hs0 & Hi). rewrite Hs0.
          unfold is_attribute in Hsel. destruct f as [nm md d]; cbn in Hsel. destruct md as [|opt t| |]; try discriminate.
          pose proof Hi as Hi'. unfold slot_inv in Hi'. cbn in Hi'. destruct s0 as [pr m|]; [|tauto].
          unfold attribute_field. destruct Hi' as [[-> ->]|[-> Hm]].
          -- unfold attr_init. destruct (parse_text o t v) as [x|e|x] eqn:Ep; cbn.
             ++ split; auto. eapply Forall2_set; eauto. unfold slot_inv. cbn. right. split; auto. discriminate.
             ++ split; auto. eapply Forall2_set; eauto.
             ++ exfalso. eapply parse_text_total; eauto.
          -- cbn. split; auto. eapply Forall2_set; eauto.
        * rewrite delegate_pass by reflexivity. cbn. split; auto.
      + cbn. split; auto.
    - intros s str p Hs. unfold inv in Hs. cbn. destruct (vs_kind s) as [fs ss|e] eqn:Ek.
      + unfold struct_characters, put. rewrite Ek. rewrite delegate_pass by reflexivity. cbn. split; auto.
      + cbn. split; auto.
    - intros s i Hs. unfold inv in Hs. cbn. destruct (vs_kind s) as [fs ss|e] eqn:Ek.
      + unfold struct_element, put. rewrite Ek. destruct (find_field alg is_element fs _) as [p|] eqn:Ef.
        * destruct (find_field_nth _ _ _ _ Ef) as (f & Hf & Hsel). rewrite Hf.
          destruct (Forall2_nth _ _ _ _ _ Hs Hf) as (s0 & Hs0 & Hi). rewrite Hs0.
          unfold is_element in Hsel. destruct f as [nm md d]; cbn in Hsel. destruct md as [k t| | |]; try discriminate.
          pose proof Hi as Hi'. unfold slot_inv in Hi'. cbn in Hi'. destruct s0 as [pr m|]; [|tauto].
          eapply total_amap; [apply (element_field_total (Field nm (MElement k t) d)); [reflexivity|exact Hi]|].
          intros [[r sl] l] [G1 G2]. cbn in *. split; [now apply no_abort_map|]. unfold inv. cbn. exact (Forall2_set _ _ _ _ _ _ Hs Hf G2).
        * destruct (delegate_element o alg env ss i) as [act|] eqn:E.
          -- apply (delegate_total fs) in E; auto. eapply total_amap; [exact E|].
             intros [[r sl] l] [G1 G2]. cbn in *. split; [now apply no_abort_map|]. exact G2.
          -- cbn. split; auto. unfold inv. now rewrite Ek.
      + destruct (enum_element o alg env e i) as [act|] eqn:E.
        * apply enum_element_total in E; auto. eapply total_amap; [exact E|].
          intros [[r sl] l] [G1 G2]. cbn in *. split; [now apply no_abort_map|]. exact G2.
        * cbn. split; auto. unfold inv. now rewrite Ek.
  Qed.

  Lemma de_root_total t : known_ty env t -> total_root inv (de_root o env t).
  Proof. intros Hk i. eapply total_amap; [apply deserialize_total; exact Hk|]. auto. Qed.

  (** On every stream xml-rs can deliver. *)
  Theorem read_as_total dbg t src fin : known_ty env t -> deliverable src fin ->
    no_abort (read_as o alg env dbg t src fin).
  Proof.
    intros Hk Hd. unfold read_as. eapply read_total; eauto.
    - intros _. split; [apply derived_propagating|apply de_root_propagating].
    - apply derived_total.
    - now apply de_root_total.
  Qed.
End Derived.
