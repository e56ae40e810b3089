(** Proofs about the pointers of generated visitors. *)
From Verif Require Import Base Alias AliasSpec.
From Coq Require Import Lia.

(** ** Tags *)

Lemma step_eqb_eq x y : step_eqb x y = true <-> x = y.
Proof.
  destruct x as [a b], y as [c d]. unfold step_eqb. cbn. rewrite andb_true_iff, Nat.eqb_eq, Bool.eqb_true_iff. split; [intros [-> ->]; auto|].
  intros [= -> ->]. auto.
Qed.

Lemma ptag_eqb_eq s : forall t, ptag_eqb s t = true <-> s = t.
Proof.
  induction s as [|x s IH]; intros [|y t]; cbn; try (split; [discriminate|discriminate]); [tauto|].
  rewrite andb_true_iff, step_eqb_eq, IH. split; [intros [-> ->]; auto|]. intros [= -> ->]. auto.
Qed.

Lemma ptag_eqb_refl t : ptag_eqb t t = true.
Proof. now apply ptag_eqb_eq. Qed.

Lemma ptag_neq s t : s <> t -> ptag_eqb s t = false.
Proof. intros H. destruct (ptag_eqb s t) eqn:E; auto. apply ptag_eqb_eq in E. contradiction. Qed.

Lemma among_in ts t : among ts t = true <-> In t ts.
Proof.
  unfold among. rewrite existsb_exists. split.
  - intros (x & H & E). apply ptag_eqb_eq in E. now subst.
  - intros H. exists t. split; [exact H|apply ptag_eqb_refl].
Qed.

Lemma among_not ts t : ~ In t ts -> among ts t = false.
Proof. intros H. destruct (among ts t) eqn:E; auto. apply among_in in E. contradiction. Qed.

Lemma in_up u t : In u (up t) <-> exists s, t = s ++ u.
Proof.
  split.
  - induction t as [|x t IH]; cbn.
    + intros [<-|[]]. now exists [].
    + intros [<-|H]; [now exists []|]. destruct (IH H) as [s ->]. now exists (x :: s).
  - intros [s ->]. induction s as [|x s IH]; cbn; [destruct u; cbn; auto|auto].
Qed.

Lemma up_self t : In t (up t).
Proof. apply in_up. now exists []. Qed.

Lemma up_root t : In [] (up t).
Proof. apply in_up. exists t. now rewrite app_nil_r. Qed.

Lemma up_longer x t : ~ In (x :: t) (up t).
Proof. intros H. apply in_up in H as [s E]. apply (f_equal (@List.length _)) in E. rewrite app_length in E. cbn in E. lia. Qed.

Lemma from_in t u : from t u = true <-> In u (up t).
Proof. apply among_in. Qed.

Lemma run_app {S} (step : mop -> S -> option S) a : forall b s s', run_ops step a s = Some s' -> run_ops step (a ++ b) s = run_ops step b s'.
Proof.
  induction a as [|op a IH]; cbn; intros b s s' H; [now injection H as <-|]. destruct (step op s) as [s1|]; [|discriminate]. eauto.
Qed.

Lemma run_app_none {S} (step : mop -> S -> option S) a : forall b s, run_ops step a s = None -> run_ops step (a ++ b) s = None.
Proof.
  induction a as [|op a IH]; cbn; intros b s H; [discriminate|]. destruct (step op s) as [s1|]; [|reflexivity]. eauto.
Qed.

Lemma filter_out c prot : ~ In c prot -> filter (fun u => negb (ptag_eqb c u)) prot = prot.
Proof.
  induction prot as [|p prot IH]; cbn; intros H; [reflexivity|]. rewrite ptag_neq by (intros ->; tauto). cbn. f_equal. tauto.
Qed.

Lemma filter_own c prot : ~ In c prot -> filter (fun u => negb (ptag_eqb c u)) (c :: prot) = prot.
Proof. intros H. cbn. rewrite ptag_eqb_refl. cbn. now apply filter_out. Qed.

(** ** What does not touch a location *)

Definition off (l : place) (op : mop) : Prop :=
  match op with Retag _ _ _ a | Access _ _ a | Enter _ a | Exit _ a => touches a l = false end.

Lemma sb_off l ops : Forall (off l) ops -> forall s, run_ops (sb_step l) ops s = Some s.
Proof.
  induction 1 as [|op ops H _ IH]; intros [st prot]; [reflexivity|]. cbn [run_ops].
  destruct op; cbn in *; rewrite H; apply IH.
Qed.

Lemma tb_off l ops : Forall (off l) ops -> forall s, run_ops (tb_step l) ops s = Some s.
Proof.
  induction 1 as [|op ops H _ IH]; intros [pm prot]; [reflexivity|]. cbn [run_ops].
  destruct op; cbn in *; rewrite H; apply IH.
Qed.

Lemma usage_off l a u : touches a l = false -> forall t n, Forall (off l) (usage_ops a t n u).
Proof.
  intros H. induction u as [|w k IH|raw arg body IHb k IHk]; intros t n; cbn; [constructor|constructor; [exact H|apply IH]|].
  constructor; [exact H|]. apply Forall_app. split; [destruct (arg && negb raw); repeat constructor; exact H|].
  apply Forall_app. split; [apply IHb|]. apply Forall_app. split; [destruct (arg && negb raw); repeat constructor; exact H|apply IHk].
Qed.

Lemma touches_more l a : forall b, touches (a ++ b) l = true -> touches a l = true.
Proof.
  revert l. induction a as [|p a IH]; intros [|q l] b; cbn; auto. rewrite !andb_true_iff. intros [H1 H2]. split; [exact H1|eauto].
Qed.

Lemma touches_not l a b : touches a l = false -> touches (a ++ b) l = false.
Proof. intros H. destruct (touches (a ++ b) l) eqn:E; [|reflexivity]. apply touches_more in E. congruence. Qed.

Lemma touches_at a : forall l, touches a (a ++ l) = true.
Proof. induction a as [|p a IH]; intros l; cbn; [reflexivity|]. now rewrite Nat.eqb_refl, IH. Qed.

Lemma touches_other a k p l : k <> p -> touches (a ++ [k]) (a ++ p :: l) = false.
Proof. intros H. induction a as [|q a IH]; cbn; [|now rewrite Nat.eqb_refl]. apply Nat.eqb_neq in H. now rewrite H. Qed.

Lemma shape_ind' (P : shape -> Prop) : P Own -> (forall u m, P (Leaf u m)) -> (forall fs, Forall P fs -> P (Struct fs)) -> forall f, P f.
Proof.
  intros H1 H2 H3. fix IH 1. intros [|u m|fs]; [exact H1|apply H2|]. apply H3. induction fs as [|g fs IHf]; constructor; [apply IH|exact IHf].
Qed.

Definition flats (t : ptag) (a : place) : nat -> list shape -> list mop :=
  fix flats (p : nat) (fs : list shape) : list mop :=
    match fs with
    | [] => []
    | g :: fs' =>
        (if is_own g then []
         else as_mut_ptr t (S p) a ++ flat_new (ptr t (S p)) 0 (a ++ [p]) (visitor_new g (a ++ [p]))) ++ flats (S p) fs'
    end.
Definition once_flats (t : ptag) (a : place) : nat -> list shape -> list mop :=
  fix flats (p : nat) (fs : list shape) : list mop :=
    match fs with
    | [] => []
    | g :: fs' => (if is_own g then [] else flat_new (ptr t 0) p (a ++ [p]) (once_new g (a ++ [p]))) ++ flats (S p) fs'
    end.

Lemma ptr_off l a t i : touches a l = false -> Forall (off l) (as_mut_ptr t i a).
Proof. intros H. repeat constructor; exact H. Qed.

Lemma flat_off l t n a new : touches a l = false -> (forall g, Forall (off l) (new g)) -> Forall (off l) (flat_new t n a new).
Proof.
  intros H N. unfold flat_new. apply Forall_app. split; [repeat constructor; exact H|]. apply Forall_app. split; [apply N|].
  repeat constructor. exact H.
Qed.

Lemma moves_off l a n m : touches a l = false -> forall t, Forall (off l) (move_ops a t n m).
Proof. intros H. induction m as [|raw m IH]; intros t; constructor; [exact H|apply IH]. Qed.

Lemma moved_from n m : forall t, exists s, moved t n m = s ++ t.
Proof.
  induction m as [|raw m IH]; intros t; [now exists []|]. destruct (IH ((n, raw) :: t)) as [s E]. exists (s ++ [(n, raw)]).
  cbn [moved]. rewrite E. now rewrite <- app_assoc.
Qed.

Lemma moved_tree n m : forall t, exists s, tree_tag (moved t n m) = s ++ tree_tag t.
Proof.
  induction m as [|raw m IH]; intros t; [now exists []|]. destruct (IH ((n, raw) :: t)) as [s E].
  cbn [moved]. rewrite E. destruct raw; [now exists s|]. exists (s ++ [(n, false)]). now rewrite <- app_assoc.
Qed.

Lemma new_off l f : forall a t, touches a l = false -> Forall (off l) (visitor_new f a t).
Proof.
  induction f as [|u m|fs IH] using shape_ind'; intros a t H; [constructor|apply Forall_app; split; [now apply usage_off|now apply moves_off]|].
  change (Forall (off l) (as_mut_ptr t 0 a ++ flats t a 0 fs)). apply Forall_app. split; [now apply ptr_off|].
  generalize 0. induction IH as [|g fs Hg _ IHf]; intros p; cbn [flats]; [constructor|]. apply Forall_app. split; [|apply IHf].
  destruct (is_own g); [constructor|]. apply Forall_app. split; [now apply ptr_off|]. apply flat_off; [now apply touches_not|].
  intros g'. apply Hg. now apply touches_not.
Qed.

Lemma once_off l f : forall a t, touches a l = false -> Forall (off l) (once_new f a t).
Proof.
  induction f as [|u m|fs IH] using shape_ind'; intros a t H; [constructor|apply Forall_app; split; [now apply usage_off|now apply moves_off]|].
  change (Forall (off l) (as_mut_ptr t 0 a ++ once_flats t a 0 fs)). apply Forall_app. split; [now apply ptr_off|].
  generalize 0. induction IH as [|g fs Hg _ IHf]; intros p; cbn [once_flats]; [constructor|]. apply Forall_app. split; [|apply IHf].
  destruct (is_own g); [constructor|]. apply flat_off; [now apply touches_not|].
  intros g'. apply Hg. now apply touches_not.
Qed.

(** The flattened fields before and after a given one. *)
Lemma once_flats_off a p l t fs : forall k, p < k -> Forall (off (a ++ p :: l)) (once_flats t a k fs).
Proof.
  induction fs as [|g fs IH]; intros k H; cbn [once_flats]; [constructor|]. apply Forall_app. split; [|apply IH; lia].
  destruct (is_own g); [constructor|]. assert (O : touches (a ++ [k]) (a ++ p :: l) = false) by (apply touches_other; lia).
  apply flat_off; [exact O|]. intros g'. now apply once_off.
Qed.

Lemma leaf_touches l : forall f e, is_leaf f e -> is_leaf f l -> touches e l = true -> e = l.
Proof.
  induction l as [|q l IH]; intros f [|p e] He Hl Ht; cbn in *; try reflexivity; try discriminate.
  - destruct f; contradiction.
  - apply andb_true_iff in Ht as [Hp Ht]. apply Nat.eqb_eq in Hp as ->. f_equal. destruct f as [| |fs]; try contradiction.
    destruct (nth_error fs q) as [g|]; [|contradiction]. eauto.
Qed.

Lemma event_off own n evs l f : is_leaf f l -> Forall (event_of f) evs -> (forall u, ~ In (Event l u) evs) ->
  Forall (off l) (event_ops own n evs).
Proof.
  intros Hl He. revert n. induction He as [|[e u] evs [H1 H2] _ IH]; intros n H; cbn [event_ops]; [constructor|].
  apply Forall_app. split; [|apply IH; intros v Hv; apply (H v); now right].
  apply usage_off. destruct (touches e l) eqn:E; [|reflexivity]. apply (leaf_touches l f) in E; auto. subst. destruct (H u). now left.
Qed.

Lemma nth_own fs p g : nth_error fs p = Some g -> nth p fs Own = g.
Proof. intros H. now apply nth_error_nth. Qed.

(** ** Tree Borrows *)
Section Tree.
  Context (l : place).
  Notation run := (run_ops (tb_step l)).

  Definition usable (p : tperm) : Prop := p = Reserved false \/ p = TActive.
  Definition chain (pm : ptag -> tperm) (prot : list ptag) (t : ptag) : Prop :=
    incl prot (up t) /\ forall u, In u (up t) -> usable (pm u).
  (** What reads leave as it is. *)
  Definition kept_by (pm pm' : ptag -> tperm) : Prop :=
    (forall u, pm u = Reserved false -> pm' u = Reserved false) /\ (pm [] = TActive -> pm' [] = TActive).

  Lemma kept_refl pm : kept_by pm pm. Proof. split; auto. Qed.
  Lemma kept_trans a b c : kept_by a b -> kept_by b c -> kept_by a c.
  Proof. intros [A1 A2] [B1 B2]. split; auto. Qed.

  Lemma chain_up pm prot t u : chain pm prot t -> In u (up t) -> incl prot (up u) -> chain pm prot u.
  Proof.
    intros [H1 H2] Hu Hi. split; [exact Hi|]. intros x Hx. apply H2. apply in_up in Hu as [s ->]. apply in_up in Hx as [s' ->].
    apply in_up. exists (s ++ s'). now rewrite app_assoc.
  Qed.

  Lemma access_fine w inside t pm prot : chain pm prot t ->
    exists pm', tb_access w inside t (pm, prot) = Some (pm', prot) /\ chain pm' prot t /\ (w = false -> kept_by pm pm').
  Proof.
    intros [H1 H2].
    assert (E : forall u, In u (up t) -> exists p, tb_effect w inside t (pm, prot) u = Some p /\ usable p /\ (w = false -> p = pm u)).
    { intros u Hu. unfold tb_effect. rewrite (proj2 (from_in t u) Hu). destruct (H2 u Hu) as [-> | ->], w; cbn;
        eexists; (split; [reflexivity|]); (split; [unfold usable; auto|]); congruence. }
    unfold tb_access. replace (forallb _ _) with true; cbn [fst snd].
    - eexists. split; [reflexivity|]. split; [split; [exact H1|]|].
      + intros u Hu. destruct (E u Hu) as (p & -> & Hp & _). exact Hp.
      + intros ->. assert (K : forall u, In u (up t) -> match tb_effect false inside t (pm, prot) u with Some p => p | None => pm u end = pm u).
        { intros u Hu. destruct (E u Hu) as (p & -> & _ & Hp). now apply Hp. }
        split; [|intros X; rewrite K; auto using up_root].
        intros u Hu. destruct (from t u) eqn:F; [apply from_in in F; rewrite K; auto|].
        unfold tb_effect. rewrite F. destruct (negb inside && from u t); [exact Hu|]. rewrite Hu. cbn.
        rewrite among_not; [reflexivity|]. intros Hi. apply H1 in Hi. apply from_in in Hi. congruence.
    - symmetry. apply forallb_forall. intros u Hu. apply in_app_or in Hu. destruct (E u) as (p & -> & _); [|reflexivity].
      destruct Hu as [Hu|Hu]; [exact Hu|now apply H1].
  Qed.

  Lemma retag_fine a t n pm prot : touches a l = true -> chain pm prot (tree_tag t) ->
    exists pm', tb_step l (Retag t n false a) (pm, prot) = Some (pm', prot) /\ chain pm' prot ((n, false) :: tree_tag t) /\
      kept_by pm pm' /\ pm' ((n, false) :: tree_tag t) = Reserved false.
  Proof.
    intros Ha [H1 H2]. cbn [tb_step]. rewrite Ha. cbn [andb negb]. set (c := (n, false) :: tree_tag t).
    set (pm1 := fun u => if ptag_eqb c u then Reserved false else pm u).
    assert (C1 : pm1 c = Reserved false) by (unfold pm1; now rewrite ptag_eqb_refl).
    assert (K1 : kept_by pm pm1).
    { split.
      - intros u Hu. unfold pm1. destruct (ptag_eqb c u); auto.
      - intros X. unfold pm1. now rewrite ptag_neq by discriminate. }
    destruct (access_fine false true c pm1 prot) as (pm2 & -> & C2 & K2).
    - split; [intros x Hx; right; now apply H1|]. intros u [<-|Hu]; [left; exact C1|].
      unfold pm1. rewrite ptag_neq; [now apply H2|]. intros <-. now apply up_longer in Hu.
    - exists pm2. split; [reflexivity|]. split; [exact C2|]. specialize (K2 eq_refl). split; [eapply kept_trans; eauto|].
      now apply K2.
  Qed.

  Lemma exit_fine a t pm prot : touches a l = true -> ~ In (tree_tag t) prot -> chain pm prot (tree_tag t) ->
    exists pm', tb_step l (Exit t a) (pm, tree_tag t :: prot) = Some (pm', prot) /\ chain pm' prot (tree_tag t) /\
      (pm (tree_tag t) = Reserved false -> kept_by pm pm').
  Proof.
    intros Ha Hn C. cbn [tb_step]. rewrite Ha, (filter_own _ _ Hn).
    destruct (access_fine (match pm (tree_tag t) with TActive => true | _ => false end) false _ _ _ C) as (pm' & E & C' & K).
    exists pm'. split; [exact E|]. split; [exact C'|]. intros X. apply K. now rewrite X.
  Qed.

  Lemma usage_fine a u : touches a l = true -> forall t n pm prot, chain pm prot (tree_tag t) ->
    exists pm', run (usage_ops a t n u) (pm, prot) = Some (pm', prot) /\ chain pm' prot (tree_tag t) /\ (read_only u -> kept_by pm pm').
  Proof.
    intros Ha. induction u as [|w k IH|raw arg body IHb k IHk]; intros t n pm prot C; cbn [usage_ops].
    - exists pm. split; [reflexivity|]. split; [exact C|]. intros _. apply kept_refl.
    - cbn [run_ops tb_step]. rewrite Ha. destruct (access_fine w true _ _ _ C) as (pm1 & -> & C1 & K1).
      destruct (IH t n pm1 prot C1) as (pm2 & -> & C2 & K2). exists pm2. split; [reflexivity|]. split; [exact C2|].
      intros [-> R]. eapply kept_trans; eauto.
    - destruct raw.
      + rewrite andb_false_r. cbn [app run_ops]. cbn [tb_step]. rewrite Ha. cbn [andb negb].
        destruct (IHb ((n, true) :: t) 0 pm prot C) as (pm1 & E1 & C1 & K1). rewrite (run_app _ _ _ _ _ E1).
        destruct (IHk t (S n) pm1 prot C1) as (pm2 & -> & C2 & K2). exists pm2. split; [reflexivity|]. split; [exact C2|].
        intros [R1 R2]. eapply kept_trans; eauto.
      + rewrite andb_true_r. cbn [run_ops]. destruct (retag_fine a t n pm prot Ha C) as (pm1 & -> & C1 & K1 & N1).
        set (c := (n, false) :: t). assert (Ec : tree_tag c = (n, false) :: tree_tag t) by reflexivity. rewrite <- Ec in C1, N1.
        assert (Hc : ~ In (tree_tag c) prot) by (intros X; apply C in X; now apply up_longer in X).
        assert (T : exists pm4, run ((if arg then [Enter c a] else []) ++ usage_ops a c 0 body ++ (if arg then [Exit c a] else []) ++
                      usage_ops a t (S n) k) (pm1, prot) = run (usage_ops a t (S n) k) (pm4, prot) /\ chain pm4 prot (tree_tag c) /\
                      (read_only body -> kept_by pm1 pm4)).
        { destruct arg; cbn [app].
          - cbn [run_ops]. cbn [tb_step]. rewrite Ha.
            destruct (IHb c 0 pm1 (tree_tag c :: prot)) as (pm3 & E3 & C3 & K3).
            { destruct C1 as [X Y]. split; [|exact Y]. intros x [<-|Hx]; [apply up_self|now apply X]. }
            rewrite (run_app _ _ _ _ _ E3). cbn [run_ops].
            destruct (exit_fine a c pm3 prot Ha Hc) as (pm4 & -> & C4 & K4).
            { destruct C3 as [X Y]. split; [|exact Y]. intros x Hx. apply X. now right. }
            exists pm4. split; [reflexivity|]. split; [exact C4|]. intros R. specialize (K3 R). eapply kept_trans; [exact K3|].
            apply K4. now apply K3.
          - destruct (IHb c 0 pm1 prot C1) as (pm3 & E3 & C3 & K3). rewrite (run_app _ _ _ _ _ E3).
            exists pm3. auto. }
        destruct T as (pm4 & -> & C4 & K4).
        assert (C5 : chain pm4 prot (tree_tag t)).
        { eapply chain_up; [exact C4|rewrite Ec; right; apply up_self|apply C]. }
        destruct (IHk t (S n) pm4 prot C5) as (pm5 & -> & C6 & K5). exists pm5. split; [reflexivity|]. split; [exact C6|].
        intros [R1 R2]. eapply kept_trans; [exact K1|]. eapply kept_trans; eauto.
  Qed.

  (** In [new]: everything is still reserved. *)
  Definition resv (pm : ptag -> tperm) (t : ptag) : Prop := forall u, In u (up t) -> u = [] /\ pm u = TActive \/ pm u = Reserved false.

  Lemma resv_kept pm pm' t : kept_by pm pm' -> resv pm t -> resv pm' t.
  Proof. intros [K1 K2] R u Hu. destruct (R u Hu) as [[-> X]|X]; auto. Qed.

  Lemma resv_chain pm prot t : incl prot (up t) -> resv pm t -> chain pm prot t.
  Proof. intros H R. split; [exact H|]. intros u Hu. unfold usable. destruct (R u Hu) as [[_ X]|X]; auto. Qed.

  Lemma retag_resv a t n pm prot : touches a l = true -> incl prot (up (tree_tag t)) -> resv pm (tree_tag t) ->
    exists pm', tb_step l (Retag t n false a) (pm, prot) = Some (pm', prot) /\ resv pm' ((n, false) :: tree_tag t) /\ kept_by pm pm'.
  Proof.
    intros Ha Hi R. destruct (retag_fine a t n pm prot Ha (resv_chain _ _ _ Hi R)) as (pm' & E & C & K & N).
    exists pm'. split; [exact E|]. split; [|exact K]. intros u [<-|Hu]; [right; exact N|]. exact (resv_kept _ _ _ K R u Hu).
  Qed.

  Lemma exit_resv a t pm prot : touches a l = true -> ~ In (tree_tag t) prot -> incl prot (up (tree_tag t)) -> resv pm (tree_tag t) ->
    tree_tag t <> [] -> exists pm', tb_step l (Exit t a) (pm, tree_tag t :: prot) = Some (pm', prot) /\ kept_by pm pm'.
  Proof.
    intros Ha Hn Hi R Hr. destruct (exit_fine a t pm prot Ha Hn (resv_chain _ _ _ Hi R)) as (pm' & E & _ & K).
    exists pm'. split; [exact E|]. apply K. destruct (R _ (up_self _)) as [[X _]|X]; [contradiction|exact X].
  Qed.

  (** An access through [t] that what comes from [t] does not see. *)
  Lemma access_below w s t pm prot : chain pm prot (s ++ t) -> incl prot (up t) ->
    exists pm', tb_access w false t (pm, prot) = Some (pm', prot) /\ chain pm' prot (s ++ t).
  Proof.
    intros C Hi.
    assert (Ct : chain pm prot t) by (eapply chain_up; [exact C|apply in_up; now exists s|exact Hi]).
    destruct (access_fine w false t pm prot Ct) as (pm' & E & C' & _). exists pm'. split; [exact E|].
    split; [apply C|]. intros u Hu. destruct (from t u) eqn:F; [apply C'; now apply from_in|].
    unfold tb_access in E. destruct (forallb _ _); [|discriminate]. injection E as <-. cbn [fst]. unfold tb_effect. rewrite F.
    replace (from u t) with true; [apply C; exact Hu|]. symmetry. apply from_in.
    apply in_up in Hu as [s1 E1]. apply in_up.
    assert (G : forall s s1 : ptag, s ++ t = s1 ++ u -> ~ In u (up t) -> exists s2, u = s2 ++ t).
    { clear. induction s as [|x s IH]; intros s1 E N; cbn in E.
      - destruct N. apply in_up. now exists s1.
      - destruct s1 as [|y s1]; cbn in E; [exists (x :: s); now rewrite <- E|]. injection E as _ E. now apply (IH s1). }
    apply (G s s1 E1). intros X. apply from_in in X. congruence.
  Qed.

  Lemma recv_not prot t i : incl prot (up (tree_tag t)) -> ~ In (recv (tree_tag t) i) prot.
  Proof.
    intros H X. apply H in X. apply in_up in X as [s E]. apply (f_equal (@List.length _)) in E. rewrite app_length in E. cbn in E. lia.
  Qed.

  Lemma ptr_fine i a t prot pm : touches a l = true -> incl prot (up (tree_tag t)) -> resv pm (tree_tag t) ->
    exists pm', run (as_mut_ptr t i a) (pm, prot) = Some (pm', prot) /\ resv pm' (tree_tag (ptr t i)) /\ kept_by pm pm'.
  Proof.
    intros Ha Hi R. unfold as_mut_ptr. cbn [run_ops].
    destruct (retag_resv a t i pm prot) as (pm1 & -> & R1 & K1); auto.
    destruct (retag_resv a ((i, false) :: t) 0 pm1 prot) as (pm2 & -> & R2 & K2); auto; [intros x Hx; right; now apply Hi|].
    assert (E1 : tb_step l (Enter (recv t i) a) (pm2, prot) = Some (pm2, tree_tag (recv t i) :: prot)) by (cbn [tb_step]; now rewrite Ha).
    assert (E2 : tb_step l (Retag (recv t i) 0 true a) (pm2, tree_tag (recv t i) :: prot) = Some (pm2, tree_tag (recv t i) :: prot))
      by (cbn [tb_step]; now rewrite Ha).
    rewrite E1, E2. destruct (exit_resv a (recv t i) pm2 prot) as (pm3 & -> & K3); auto.
    - now apply recv_not.
    - intros x Hx. right. right. now apply Hi.
    - discriminate.
    - exists pm3. split; [reflexivity|]. split; [now apply (resv_kept pm2)|]. eapply kept_trans; [exact K1|]. eapply kept_trans; eauto.
  Qed.

  Lemma given_in a t n prot pm : touches a l = true -> incl prot (up (tree_tag t)) -> resv pm (tree_tag t) ->
    exists pm', (forall ops, run ([Retag t n false a; Retag ((n, false) :: t) 0 false a; Enter (given t n) a] ++ ops) (pm, prot) =
                   run ops (pm', tree_tag (given t n) :: prot)) /\ resv pm' (tree_tag (given t n)) /\ kept_by pm pm'.
  Proof.
    intros Ha Hi R. cbn [run_ops app].
    destruct (retag_resv a t n pm prot) as (pm1 & -> & R1 & K1); auto.
    destruct (retag_resv a ((n, false) :: t) 0 pm1 prot) as (pm2 & -> & R2 & K2); auto; [intros x Hx; right; now apply Hi|].
    exists pm2. split; [|split; [exact R2|eapply kept_trans; eauto]]. intros ops. cbn [tb_step]. now rewrite Ha.
  Qed.

  Lemma given_prot t n prot : incl prot (up (tree_tag t)) ->
    incl (tree_tag (given t n) :: prot) (up (tree_tag (given t n))) /\ ~ In (tree_tag (given t n)) prot /\ incl prot (up (tree_tag (given t n))).
  Proof.
    intros H. assert (I : incl prot (up (tree_tag (given t n)))) by (intros x Hx; right; right; now apply H).
    split; [intros x [<-|Hx]; [apply up_self|now apply I]|]. split; [now apply recv_not|exact I].
  Qed.

  Lemma moves_resv a n m prot : touches a l = true -> forall t pm, incl prot (up (tree_tag t)) -> resv pm (tree_tag t) ->
    exists pm', run (move_ops a t n m) (pm, prot) = Some (pm', prot) /\ resv pm' (tree_tag (moved t n m)) /\ kept_by pm pm'.
  Proof.
    intros Ha. induction m as [|[|] m IH]; intros t pm Hi R; cbn [move_ops moved run_ops].
    - exists pm. split; [reflexivity|]. split; [exact R|apply kept_refl].
    - cbn [tb_step]. rewrite Bool.andb_false_r. now apply (IH ((n, true) :: t)).
    - destruct (retag_resv a t n pm prot Ha Hi R) as (pm1 & -> & R1 & K1).
      destruct (IH ((n, false) :: t) pm1) as (pm2 & E2 & R2 & K2); [intros x Hx; right; now apply Hi|exact R1|].
      exists pm2. split; [exact E2|]. split; [exact R2|eapply kept_trans; eauto].
  Qed.

  Lemma moves_chain a n m prot : touches a l = true -> forall t pm, chain pm prot (tree_tag t) ->
    exists pm', run (move_ops a t n m) (pm, prot) = Some (pm', prot) /\ chain pm' prot (tree_tag (moved t n m)).
  Proof.
    intros Ha. induction m as [|[|] m IH]; intros t pm C; cbn [move_ops moved run_ops]; [now exists pm|..].
    { cbn [tb_step]. rewrite Bool.andb_false_r. now apply (IH ((n, true) :: t)). }
    destruct (retag_fine a t n pm prot Ha C) as (pm1 & -> & C1 & _). now apply IH.
  Qed.

  Lemma new_fine rest : forall f a t prot pm, quiet f -> is_leaf f rest -> l = a ++ rest -> incl prot (up (tree_tag t)) -> resv pm (tree_tag t) ->
    exists pm', run (visitor_new f a t) (pm, prot) = Some (pm', prot) /\ resv pm' (tree_tag (owner f t rest)) /\ kept_by pm pm'.
  Proof.
    induction rest as [|p rest IH]; intros f a t prot pm Q L El Hi R; destruct f as [|u m|fs]; try contradiction.
    - exists pm. split; [reflexivity|]. split; [exact R|apply kept_refl].
    - inversion Q as [|u' m' Hu|]; subst u' m'. cbn [visitor_new owner].
      assert (Ha : touches a l = true) by (rewrite El; apply touches_at).
      destruct (usage_fine a u Ha t 0 pm prot (resv_chain _ _ _ Hi R)) as (pm1 & E1 & _ & K). specialize (K Hu).
      rewrite (run_app _ _ _ _ _ E1). destruct (moves_resv a (width u) m prot Ha t pm1 Hi (resv_kept _ _ _ K R)) as (pm2 & -> & R2 & K2).
      exists pm2. split; [reflexivity|]. split; [exact R2|eapply kept_trans; eauto].
    - assert (Ha : touches a l = true) by (rewrite El; apply touches_at).
      assert (Ta : touches (a ++ [p]) l = true) by (rewrite El; change (p :: rest) with ([p] ++ rest); rewrite app_assoc; apply touches_at).
      inversion Q as [| |fs' Hq]; subst fs'. change (visitor_new (Struct fs) a t) with (as_mut_ptr t 0 a ++ flats t a 0 fs).
      destruct (ptr_fine 0 a t prot pm Ha Hi R) as (pm1 & E1 & R1 & K1). rewrite (run_app _ _ _ _ _ E1).
      assert (T : forall fs0 k pm, Forall quiet fs0 -> (k <= p -> forall g, nth_error fs0 (p - k) = Some g -> is_leaf g rest) -> resv pm (tree_tag t) ->
        exists pm', run (flats t a k fs0) (pm, prot) = Some (pm', prot) /\ kept_by pm pm' /\
          (k <= p -> forall g, nth_error fs0 (p - k) = Some g -> g <> Own -> resv pm' (tree_tag (owner g (given (ptr t (S p)) 0) rest)))).
      { clear fs L Q Hq pm R pm1 E1 R1 K1. intros fs0. induction fs0 as [|g fs0 IHf]; intros k pm Q L R; cbn [flats].
        - exists pm. split; [reflexivity|]. split; [apply kept_refl|]. intros _ g E. destruct (p - k); discriminate.
        - assert (Qg := Forall_inv Q). assert (Qf := Forall_inv_tail Q).
          assert (T : exists pm1, run (if is_own g then [] else as_mut_ptr t (S k) a ++ flat_new (ptr t (S k)) 0 (a ++ [k]) (visitor_new g (a ++ [k]))) (pm, prot) = Some (pm1, prot) /\
            kept_by pm pm1 /\ (k = p -> g <> Own -> resv pm1 (tree_tag (owner g (given (ptr t (S p)) 0) rest)))).
          { destruct (is_own g) eqn:G; [exists pm; split; [reflexivity|]; split; [apply kept_refl|]; intros _ X; destruct g; try discriminate G; congruence|].
            destruct (ptr_fine (S k) a t prot pm Ha Hi R) as (pm1 & E1 & R1 & K1). rewrite (run_app _ _ _ _ _ E1).
            destruct (Nat.eq_dec k p) as [->|Hk].
            - assert (Hi' : incl prot (up (tree_tag (ptr t (S p))))) by (intros x Hx; right; right; now apply Hi).
              destruct (given_in (a ++ [p]) (ptr t (S p)) 0 prot pm1 Ta Hi' R1) as (pm2 & E2 & R2 & K2).
              destruct (given_prot (ptr t (S p)) 0 prot Hi') as (P1 & P2 & P3).
              unfold flat_new. rewrite E2.
              destruct (IH g (a ++ [p]) (given (ptr t (S p)) 0) (tree_tag (given (ptr t (S p)) 0) :: prot) pm2) as (pm3 & E3 & R3 & K3); auto.
              { apply (L (le_n _)). now rewrite Nat.sub_diag. }
              { now rewrite <- app_assoc. }
              rewrite (run_app _ _ _ _ _ E3). cbn [run_ops].
              destruct (exit_resv (a ++ [p]) (given (ptr t (S p)) 0) pm3 prot) as (pm4 & -> & K4); auto; [now apply (resv_kept pm2)|discriminate|].
              exists pm4. split; [reflexivity|]. split.
              + eapply kept_trans; [exact K1|]. eapply kept_trans; [exact K2|]. eapply kept_trans; eauto.
              + intros _ _. now apply (resv_kept pm3).
            - assert (O : touches (a ++ [k]) l = false) by (rewrite El; now apply touches_other).
              rewrite tb_off by (apply flat_off; [exact O|intros g'; now apply new_off]).
              exists pm1. split; [reflexivity|]. split; [exact K1|]. intros X. contradiction. }
          destruct T as (pm1 & E1 & K1 & F1). rewrite (run_app _ _ _ _ _ E1).
          destruct (IHf (S k) pm1 Qf) as (pm2 & -> & K2 & F2); [|now apply (resv_kept pm)|].
          { intros Hk g' E. apply L; [lia|]. now replace (p - k) with (S (p - S k)) by lia. }
          exists pm2. split; [reflexivity|]. split; [eapply kept_trans; eauto|]. intros Hk g' E N.
          destruct (Nat.eq_dec k p) as [->|Hk'].
          + rewrite Nat.sub_diag in E. injection E as ->. apply (resv_kept pm1); auto.
          + apply F2; [lia| |exact N]. replace (p - k) with (S (p - S k)) in E by lia. exact E. }
      cbn [is_leaf] in L. destruct (nth_error fs p) as [g|] eqn:Ep; [|contradiction].
      destruct (T fs 0 pm1 Hq) as (pm2 & -> & K2 & F2).
      { intros _ g' E. rewrite Nat.sub_0_r in E. congruence. }
      { now apply (resv_kept pm). }
      exists pm2. split; [reflexivity|]. split; [|eapply kept_trans; eauto]. cbn [owner]. rewrite (nth_own _ _ _ Ep).
      rewrite Nat.sub_0_r in F2. destruct g; [|apply (F2 (Nat.le_0_l p) _ Ep); discriminate..].
      apply (resv_kept pm1); [exact K2|exact R1].
  Qed.

  Lemma once_owner_up rest : forall f t, exists s, tree_tag (once_owner f t rest) = s ++ tree_tag t.
  Proof.
    induction rest as [|p rest IH]; intros f t; [destruct f; cbn [once_owner]; try (now exists []); apply moved_tree|].
    destruct f as [|u m|fs]; cbn [once_owner]; [now exists []|apply moved_tree|]. destruct (nth p fs Own) as [|u m|gs]; [now exists [(0, false); (0, false)]|..];
      destruct (IH (match nth p fs Own with Own => Own | g => g end) (given (ptr t 0) p)) as [s E]; fold (given (ptr t 0) p).
    - destruct (IH (Leaf u m) (given (ptr t 0) p)) as [s' E']. rewrite E'. exists (s' ++ [(0, false); (p, false); (0, false); (0, false)]).
      rewrite <- app_assoc. reflexivity.
    - destruct (IH (Struct gs) (given (ptr t 0) p)) as [s' E']. rewrite E'. exists (s' ++ [(0, false); (p, false); (0, false); (0, false)]).
      rewrite <- app_assoc. reflexivity.
  Qed.

  Lemma owner_up rest : forall f t, exists s, tree_tag (owner f t rest) = s ++ tree_tag t.
  Proof.
    induction rest as [|p rest IH]; intros f t; [destruct f; cbn [owner]; try (now exists []); apply moved_tree|].
    destruct f as [|u m|fs]; cbn [owner]; [now exists []|apply moved_tree|]. destruct (nth p fs Own) as [|u m|gs]; [now exists [(0, false); (0, false)]|..].
    - destruct (IH (Leaf u m) (given (ptr t (S p)) 0)) as [s' E']. rewrite E'. exists (s' ++ [(0, false); (0, false); (0, false); (S p, false)]).
      rewrite <- app_assoc. reflexivity.
    - destruct (IH (Struct gs) (given (ptr t (S p)) 0)) as [s' E']. rewrite E'. exists (s' ++ [(0, false); (0, false); (0, false); (S p, false)]).
      rewrite <- app_assoc. reflexivity.
  Qed.

  Lemma exit_below a t s pm prot : touches a l = true -> ~ In (tree_tag t) prot -> incl prot (up (tree_tag t)) ->
    chain pm (tree_tag t :: prot) (s ++ tree_tag t) ->
    exists pm', tb_step l (Exit t a) (pm, tree_tag t :: prot) = Some (pm', prot) /\ chain pm' prot (s ++ tree_tag t).
  Proof.
    intros Ha Hn Hi C. cbn [tb_step]. rewrite Ha, (filter_own _ _ Hn). apply access_below; [|exact Hi].
    destruct C as [X Y]. split; [|exact Y]. intros x Hx. apply X. now right.
  Qed.

  Lemma once_fine rest : forall f a t prot pm, is_leaf f rest -> l = a ++ rest -> incl prot (up (tree_tag t)) -> resv pm (tree_tag t) ->
    exists pm', run (once_new f a t) (pm, prot) = Some (pm', prot) /\ chain pm' prot (tree_tag (once_owner f t rest)).
  Proof.
    induction rest as [|p rest IH]; intros f a t prot pm L El Hi R; destruct f as [|u m|fs]; try contradiction.
    - exists pm. split; [reflexivity|]. now apply resv_chain.
    - cbn [once_new once_owner]. assert (Ha : touches a l = true) by (rewrite El; apply touches_at).
      destruct (usage_fine a u Ha t 0 pm prot (resv_chain _ _ _ Hi R)) as (pm1 & E1 & C & _).
      rewrite (run_app _ _ _ _ _ E1). now apply moves_chain.
    - assert (Ha : touches a l = true) by (rewrite El; apply touches_at).
      assert (Ta : touches (a ++ [p]) l = true) by (rewrite El; change (p :: rest) with ([p] ++ rest); rewrite app_assoc; apply touches_at).
      change (once_new (Struct fs) a t) with (as_mut_ptr t 0 a ++ once_flats t a 0 fs).
      destruct (ptr_fine 0 a t prot pm Ha Hi R) as (pm1 & E1 & R1 & K1). rewrite (run_app _ _ _ _ _ E1). clear E1 K1 R pm.
      cbn [is_leaf] in L. destruct (nth_error fs p) as [g|] eqn:Ep; [|contradiction]. cbn [once_owner]. rewrite (nth_own _ _ _ Ep).
      assert (Hi' : incl prot (up (tree_tag (ptr t 0)))) by (intros x Hx; right; right; now apply Hi).
      assert (T : forall fs0 k, k <= p -> nth_error fs0 (p - k) = Some g ->
        exists pm', run (once_flats t a k fs0) (pm1, prot) = Some (pm', prot) /\
          chain pm' prot (tree_tag (match g with Own => ptr t 0 | _ => once_owner g (given (ptr t 0) p) rest end))).
      { clear fs Ep. intros fs0. induction fs0 as [|g' fs0 IHf]; intros k Hk E; [destruct (p - k); discriminate|]. cbn [once_flats].
        destruct (Nat.eq_dec k p) as [->|Hk'].
        - rewrite Nat.sub_diag in E. injection E as ->.
          assert (O : forall s, run (once_flats t a (S p) fs0) s = Some s) by (apply tb_off; rewrite El; apply once_flats_off; lia).
          destruct (is_own g) eqn:G.
          + destruct g; try discriminate. cbn [app]. rewrite O. exists pm1. split; [reflexivity|]. now apply resv_chain.
          + destruct (given_in (a ++ [p]) (ptr t 0) p prot pm1 Ta Hi' R1) as (pm2 & E2 & R2 & K2).
            destruct (given_prot (ptr t 0) p prot Hi') as (P1 & P2 & P3).
            destruct (IH g (a ++ [p]) (given (ptr t 0) p) (tree_tag (given (ptr t 0) p) :: prot) pm2) as (pm3 & E3 & C3); auto.
            { now rewrite <- app_assoc. }
            destruct (once_owner_up rest g (given (ptr t 0) p)) as [s Es]. rewrite Es in C3.
            destruct (exit_below (a ++ [p]) (given (ptr t 0) p) s pm3 prot Ta P2 P3 C3) as (pm4 & E4 & C4).
            assert (E : run (flat_new (ptr t 0) p (a ++ [p]) (once_new g (a ++ [p]))) (pm1, prot) = Some (pm4, prot)).
            { unfold flat_new. rewrite E2, (run_app _ _ _ _ _ E3). cbn [run_ops]. now rewrite E4. }
            rewrite (run_app _ _ _ _ _ E), O. exists pm4. split; [reflexivity|]. destruct g; [discriminate|rewrite Es; exact C4..].
        - assert (O : touches (a ++ [k]) l = false) by (rewrite El; now apply touches_other).
          assert (E1 : run (if is_own g' then [] else flat_new (ptr t 0) k (a ++ [k]) (once_new g' (a ++ [k]))) (pm1, prot) = Some (pm1, prot)).
          { apply tb_off. destruct (is_own g'); [constructor|]. apply flat_off; [exact O|]. intros x. now apply once_off. }
          rewrite (run_app _ _ _ _ _ E1). apply IHf; [lia|]. now replace (p - k) with (S (p - S k)) in E by lia. }
      destruct (T fs 0) as (pm2 & -> & C2); [lia|now rewrite Nat.sub_0_r|]. exists pm2. split; [reflexivity|]. destruct g; exact C2.
  Qed.

  Lemma events_fine f own evs : is_leaf f l -> Forall (event_of f) evs -> forall n pm, chain pm [] (tree_tag (own l)) ->
    exists pm', run (event_ops own n evs) (pm, []) = Some (pm', []) /\ chain pm' [] (tree_tag (own l)).
  Proof.
    intros Hl. induction 1 as [|[e u] evs [H1 H2] _ IH]; intros n pm C; cbn [event_ops]; [exists pm; auto|].
    destruct (touches e l) eqn:E.
    - assert (X := leaf_touches l f e H1 Hl E). subst e.
      destruct (usage_fine l u E (own l) n pm [] C) as (pm1 & E1 & C1 & _). rewrite (run_app _ _ _ _ _ E1). auto.
    - rewrite (run_app _ _ _ _ _ (tb_off l _ (usage_off l e u E _ _) _)). auto.
  Qed.

  Lemma whole_fine f new own n evs fin : is_leaf f l -> Forall (event_of f) evs ->
    (forall pm, resv pm out_arg -> exists pm' s, run (new [] out_arg) (pm, [out_arg]) = Some (pm', [out_arg]) /\
       tree_tag (own out_arg l) = s ++ out_arg /\ chain pm' [out_arg] (tree_tag (own out_arg l))) ->
    run (whole_ops new own n evs fin) tb_start <> None.
  Proof.
    intros Hl He H. unfold whole_ops. change tb_start with (fst tb_start, @nil ptag).
    destruct (retag_resv [] [] 0 (fst tb_start) []) as (pm1 & E1 & R1 & _); [reflexivity|intros x []| |].
    { intros u [<-|[]]. left. auto. }
    destruct (retag_resv [] out_ref 0 pm1 []) as (pm2 & E2 & R2 & _); [reflexivity|intros x []|exact R1|].
    assert (E3 : tb_step l (Enter out_arg []) (pm2, []) = Some (pm2, [out_arg])) by reflexivity.
    destruct (H pm2 R2) as (pm3 & s & E4 & Es & C3). rewrite Es in C3.
    destruct (exit_below [] out_arg s pm3 []) as (pm4 & E5 & C4); [reflexivity|intros []|intros x []|exact C3|].
    change (tree_tag out_arg) with out_arg in C4. rewrite <- Es in C4. destruct (events_fine f (own out_arg) evs Hl He n pm4 C4) as (pm5 & E6 & C5).
    cbn [app run_ops]. rewrite E1, E2, E3, (run_app _ _ _ _ _ E4). cbn [app run_ops]. change (tree_tag out_arg :: []) with [out_arg] in E5.
    rewrite E5, (run_app _ _ _ _ _ E6). destruct fin; [|discriminate]. cbn [run_ops tb_step touches].
    destruct (access_fine false true [] pm5 []) as (pm6 & E7 & _); [|cbn [tree_tag filter]; rewrite E7; discriminate].
    eapply chain_up; [exact C5|apply up_root|intros x []].
  Qed.
End Tree.

(** ** Stacked Borrows *)

Lemma app_cons_last {A} (x : A) l : exists l' y, x :: l = l' ++ [y].
Proof. destruct (exists_last (l := x :: l)) as (l' & y & E); [discriminate|]. now exists l', y. Qed.

Lemma suffix_step (s s' t : ptag) x y : s ++ x :: t = s' ++ y :: t -> x = y.
Proof.
  intros E. change (x :: t) with ([x] ++ t) in E. change (y :: t) with ([y] ++ t) in E. rewrite !app_assoc in E.
  apply app_inv_tail in E. now apply app_inj_tail in E.
Qed.

Lemma shared_end_incl x l : In x (shared_end l) -> In x l.
Proof.
  induction l as [|y l IH]; [intros []|]. cbn [shared_end]. destruct (forallb is_shared (y :: l)); [auto|]. intros H. right. auto.
Qed.

Lemma firstn_incl {A} n : forall (l : list A) x, In x (firstn n l) -> In x l.
Proof. induction n as [|n IH]; intros [|y l] x; cbn; try tauto. intros [H|H]; auto. Qed.

Lemma granting_at (t : ptag) (i : sitem) (below : list sitem) : fst i = t -> is_disabled i = false -> forall above : list sitem, (forall x, In x above -> fst x <> t) ->
  granting t (above ++ i :: below) = Some (above, i, below).
Proof.
  intros Hi Hd. induction above as [|x above IH]; intros H; cbn [app granting].
  - subst t. now rewrite ptag_eqb_refl, Hd.
  - rewrite ptag_neq by (intros E; apply (H x (or_introl eq_refl)); auto). cbn [andb]. rewrite IH; [reflexivity|].
    intros y Hy. apply H. now right.
Qed.

Lemma granting_none (t : ptag) (st : list sitem) : ~ In t (map fst st) -> granting t st = None.
Proof.
  induction st as [|x st IH]; cbn; intros H; [reflexivity|]. rewrite ptag_neq by (intros E; apply H; auto). cbn [andb]. rewrite IH; tauto.
Qed.

(** Nothing above comes before [t] or is protected. *)
Definition clear (A prot : list ptag) (t : ptag) : Prop := (forall u, In u A -> ~ In u (up t)) /\ incl prot (up t).
(** And later reborrows of [t] will be new. *)
Definition fresh_for (A : list ptag) (t : ptag) (n : nat) : Prop := forall u s m b, In u A -> u = s ++ (m, b) :: t -> m < n.

Lemma clear_incl A A' prot t : incl A' A -> clear A prot t -> clear A' prot t.
Proof. intros H [H1 H2]. split; [|exact H2]. intros u Hu. apply H1. now apply H. Qed.

Lemma clear_none (above : list sitem) prot t (f : sitem -> bool) (l : list sitem) : clear (map fst above) prot t -> (forall x, In x l -> In x above) ->
  existsb (fun j => f j && among prot (fst j)) l = false.
Proof.
  intros [H1 H2] Hl. apply not_true_is_false. intros E. apply existsb_exists in E as (x & Hx & E).
  apply andb_true_iff in E as [_ E]. apply among_in in E. apply H2 in E. destruct (H1 (fst x)); [|exact E].
  apply in_map. now apply Hl.
Qed.

Lemma write_fine (above : list sitem) (i : sitem) (below : list sitem) (prot : list ptag) (t : ptag) : clear (map fst above) prot t -> fst i = t -> is_disabled i = false ->
  exists kept : list sitem, sb_write prot t (above ++ i :: below) = Some (kept, i, below) /\ incl (map fst kept) (map fst above).
Proof.
  intros C Hi Hd. unfold sb_write. rewrite (granting_at t i below Hi Hd).
  - set (kept := if is_shared i then shared_end above else []).
    assert (E := clear_none above prot t (fun _ => true) (firstn (List.length above - List.length kept) above) C (fun x => firstn_incl _ _ x)).
    cbn [andb] in E. cbv zeta. match goal with |- context [existsb ?f ?g] => replace (existsb f g) with false by (symmetry; exact E) end.
    exists kept. split; [reflexivity|]. intros u Hu. apply in_map_iff in Hu as (x & <- & Hx). apply in_map.
    unfold kept in Hx. destruct (is_shared i); [now apply shared_end_incl|destruct Hx].
  - intros x Hx E. apply (proj1 C (fst x)); [now apply in_map|]. rewrite E. apply up_self.
Qed.

Lemma raw_fine (above : list sitem) (i : sitem) (below : list sitem) (prot : list ptag) (t c : ptag) :
  clear (map fst above) prot t -> fst i = t -> is_disabled i = false ->
  exists hi lo : list sitem, sb_raw t c (above ++ i :: below) = Some (hi ++ (c, SharedRW) :: lo ++ i :: below) /\
    incl (map fst hi) (map fst above) /\ incl (map fst lo) (map fst above).
Proof.
  intros C Hi Hd. unfold sb_raw. rewrite (granting_at t i below Hi Hd).
  - eexists _, _. split; [reflexivity|]. split; intros u Hu; apply in_map_iff in Hu as (x & <- & Hx); apply in_map.
    + now apply firstn_incl in Hx.
    + destruct (is_shared i); [now apply shared_end_incl|destruct Hx].
  - intros x Hx E. apply (proj1 C (fst x)); [now apply in_map|]. rewrite E. apply up_self.
Qed.

Lemma read_fine (above : list sitem) (i : sitem) (below : list sitem) (prot : list ptag) (t : ptag) : clear (map fst above) prot t -> fst i = t -> is_disabled i = false ->
  exists above' : list sitem, sb_read prot t (above ++ i :: below) = Some (above' ++ i :: below) /\ map fst above' = map fst above.
Proof.
  intros C Hi Hd. unfold sb_read. rewrite (granting_at t i below Hi Hd).
  - rewrite (clear_none above prot t is_unique above C (fun x H => H)). eexists. split; [reflexivity|].
    rewrite map_map. apply map_ext. intros [u []]; reflexivity.
  - intros x Hx E. apply (proj1 C (fst x)); [now apply in_map|]. rewrite E. apply up_self.
Qed.

Section Stacked.
  Context (l : place).
  Notation run := (run_ops (sb_step l)).

  Lemma exit_own a c st prot : touches a l = true -> ~ In c prot -> sb_step l (Exit c a) (st, c :: prot) = Some (st, prot).
  Proof. intros Ha Hc. cbn [sb_step]. rewrite Ha. do 2 f_equal. now apply filter_own. Qed.

  Lemma usage_stack a u : touches a l = true -> forall (t : ptag) n (above : list sitem) (i : sitem) (below : list sitem) (prot : list ptag),
    clear (map fst above) prot t -> fresh_for (map fst above) t n -> fst i = t -> is_disabled i = false ->
    exists above' : list sitem, run (usage_ops a t n u) (above ++ i :: below, prot) = Some (above' ++ i :: below, prot) /\
      clear (map fst above') prot t /\ fresh_for (map fst above') t (n + width u) /\
      forall x, In x (map fst above') -> In x (map fst above) \/ exists s y, x = s ++ y :: t.
  Proof.
    intros Ha. induction u as [|w k IH|raw arg body IHb k IHk]; intros t n above i below prot C F Hi Hd; cbn [usage_ops width].
    - exists above. rewrite Nat.add_0_r. cbn. auto.
    - cbn [run_ops].
      assert (T : exists above1 : list sitem, sb_step l (Access t w a) (above ++ i :: below, prot) = Some (above1 ++ i :: below, prot) /\
                   incl (map fst above1) (map fst above)).
      { cbn [sb_step]. rewrite Ha. destruct w.
        - destruct (write_fine above i below prot t C Hi Hd) as (kept & -> & Hk). exists kept. split; [reflexivity|exact Hk].
        - destruct (read_fine above i below prot t C Hi Hd) as (a' & -> & Hk). exists a'. split; [reflexivity|]. rewrite Hk. apply incl_refl. }
      destruct T as (above1 & -> & H1).
      destruct (IH t n above1 i below prot) as (above2 & -> & C2 & F2 & D2); auto.
      + now apply (clear_incl (map fst above)).
      + intros u s m b Hu. apply (F u s m b). now apply H1.
      + exists above2. split; [reflexivity|]. split; [exact C2|]. split; [exact F2|]. intros x Hx. destruct (D2 x Hx); auto.
    - set (c := (n, raw) :: t). cbn [run_ops].
      destruct (write_fine above i below prot t C Hi Hd) as (kept & Ew & Hk).
      destruct (raw_fine above i below prot t c C Hi Hd) as (hi & lo & Ew' & Hh & Hlo).
      assert (Er : sb_step l (Retag t n raw a) (above ++ i :: below, prot) =
                   Some (if raw then hi ++ (c, SharedRW) :: lo ++ i :: below else (c, Unique) :: kept ++ i :: below, prot)).
      { cbn [sb_step]. fold c. rewrite Ha, Ew, Ew'. destruct raw; reflexivity. }
      rewrite Er. clear Er Ew Ew'.
      assert (Hc : ~ In c prot) by (intros X; apply C in X; now apply up_longer in X).
      assert (Pc : incl prot (up c)) by (intros x Hx; right; now apply C).
      assert (Up : forall (s : ptag) y, ~ In (s ++ y :: t) (up t)).
      { intros s y X. apply in_up in X as [s' E]. apply (f_equal (@List.length _)) in E. rewrite !app_length in E. cbn in E. lia. }
      (* what the body leaves behind *)
      assert (T : exists above1 : list sitem, run ((if arg && negb raw then [Enter c a] else []) ++ usage_ops a c 0 body ++
                    (if arg && negb raw then [Exit c a] else []) ++ usage_ops a t (S n) k)
                    (if raw then hi ++ (c, SharedRW) :: lo ++ i :: below else (c, Unique) :: kept ++ i :: below, prot) =
                    run (usage_ops a t (S n) k) (above1 ++ i :: below, prot) /\
                  forall x, In x (map fst above1) -> In x (map fst above) \/ exists s, x = s ++ (n, raw) :: t).
      { destruct raw.
        - rewrite andb_false_r. cbn [app].
          destruct (IHb c 0 hi (c, SharedRW) (lo ++ i :: below) prot) as (a1 & E1 & _ & _ & D1); auto.
          + split; [|exact Pc]. intros u Hu [<-|X].
            * apply Hh in Hu. specialize (F _ [] n true Hu eq_refl). lia.
            * apply (proj1 C u); auto.
          + intros u s m b Hu ->. apply Hh in Hu. assert (X := F _ (s ++ [(m, b)]) n true Hu). rewrite <- app_assoc in X. specialize (X eq_refl). lia.
          + rewrite (run_app _ _ _ _ _ E1). exists (a1 ++ (c, SharedRW) :: lo). rewrite <- app_assoc. split; [reflexivity|].
            intros x Hx. rewrite map_app in Hx. apply in_app_or in Hx. destruct Hx as [Hx|[<-|Hx]]; [|right; now exists []|left; now apply Hlo].
            destruct (D1 x Hx) as [Y|(s & y & ->)]; [auto|]. right. exists (s ++ [y]). now rewrite <- app_assoc.
        - rewrite andb_true_r.
          assert (B : forall pr, incl pr (up c) -> exists a1 : list sitem, run (usage_ops a c 0 body) ((c, Unique) :: kept ++ i :: below, pr) =
                     Some (a1 ++ (c, Unique) :: kept ++ i :: below, pr) /\ forall x, In x (map fst a1) -> exists s y, x = s ++ y :: c).
          { intros pr Hpr. destruct (IHb c 0 [] (c, Unique) (kept ++ i :: below) pr) as (a1 & E1 & _ & _ & D1); auto.
            - split; [intros u []|exact Hpr].
            - intros u s m b [].
            - exists a1. split; [exact E1|]. intros x Hx. destruct (D1 x Hx) as [[]|X]; exact X. }
          assert (Fin : forall a1 : list sitem, (forall x, In x (map fst a1) -> exists s y, x = s ++ y :: c) ->
                    forall x, In x (map fst (a1 ++ (c, Unique) :: kept)) -> In x (map fst above) \/ exists s, x = s ++ (n, false) :: t).
          { intros a1 D1 x Hx. rewrite map_app in Hx. apply in_app_or in Hx. destruct Hx as [Hx|[<-|Hx]].
            - destruct (D1 x Hx) as (s & y & ->). right. exists (s ++ [y]). now rewrite <- app_assoc.
            - right. now exists [].
            - left. now apply Hk. }
          destruct arg; cbn [app run_ops].
          + cbn [sb_step]. rewrite Ha. destruct (B (c :: prot)) as (a1 & E1 & D1).
            { intros x [<-|Hx]; [apply up_self|now apply Pc]. }
            rewrite (run_app _ _ _ _ _ E1). cbn [run_ops]. rewrite (exit_own _ _ _ _ Ha Hc).
            exists (a1 ++ (c, Unique) :: kept). rewrite <- app_assoc. split; [reflexivity|]. now apply Fin.
          + destruct (B prot Pc) as (a1 & E1 & D1). rewrite (run_app _ _ _ _ _ E1).
            exists (a1 ++ (c, Unique) :: kept). rewrite <- app_assoc. split; [reflexivity|]. now apply Fin. }
      destruct T as (a1 & -> & D1).
      destruct (IHk t (S n) a1 i below prot) as (a2 & -> & C2 & F2 & D2); auto.
      + split; [|apply C]. intros u Hu. destruct (D1 u Hu) as [X|(s & ->)]; [now apply C|apply Up].
      + intros u s m b Hu E. destruct (D1 u Hu) as [X|(s' & ->)]; [specialize (F u s m b X E); lia|].
        apply suffix_step in E. injection E as -> _. lia.
      + exists a2. rewrite Nat.add_succ_r. split; [reflexivity|]. split; [exact C2|]. split; [exact F2|].
        intros x Hx. destruct (D2 x Hx) as [X|X]; [|auto]. destruct (D1 x X) as [Y|(s & ->)]; eauto.
  Qed.

  Lemma retag_top a t n raw p below prot : touches a l = true -> p <> SDisabled ->
    sb_step l (Retag t n raw a) ((t, p) :: below, prot) =
    Some (((n, raw) :: t, if raw then SharedRW else Unique) :: (t, p) :: below, prot).
  Proof.
    intros Ha Hp. cbn [sb_step]. rewrite Ha. unfold sb_write, sb_raw. cbn [granting fst]. rewrite ptag_eqb_refl.
    destruct p; [| |congruence]; destruct raw; reflexivity.
  Qed.

  Definition top_ptr (t : ptag) (i : nat) : list sitem := [(ptr t i, SharedRW); (recv t i, Unique); ((i, false) :: t, Unique)].
  (** Only what comes from [t]. *)
  Definition inner (t : ptag) (X : list sitem) : Prop := forall u, In u (map fst X) -> exists s y, u = s ++ y :: t.

  Lemma longer_up (s : ptag) y t : ~ In (s ++ y :: t) (up t).
  Proof. intros X. apply in_up in X as [s' E]. apply (f_equal (@List.length _)) in E. rewrite !app_length in E. cbn in E. lia. Qed.

  Lemma inner_clear t X prot : inner t X -> incl prot (up t) -> clear (map fst X) prot t.
  Proof. intros H Hp. split; [|exact Hp]. intros u Hu Hu'. destruct (H u Hu) as (s & y & ->). now apply longer_up in Hu'. Qed.

  Lemma ptr_inner t i : inner t (top_ptr t i).
  Proof.
    intros u [<-|[<-|[<-|[]]]].
    - now exists [(0, true); (0, false)], (i, false).
    - now exists [(0, false)], (i, false).
    - now exists [], (i, false).
  Qed.

  Lemma inner_more t s X : inner (s ++ t) X -> inner t X.
  Proof.
    intros H u Hu. destruct (H u Hu) as (s' & y & ->). destruct s as [|z s]; [now exists s', y|].
    destruct (exists_last (l := z :: s)) as (s1 & z1 & E); [discriminate|]. exists (s' ++ y :: s1), z1. rewrite E.
    rewrite <- !app_assoc. reflexivity.
  Qed.

  Lemma inner_app t X Y : inner t X -> inner t Y -> inner t (X ++ Y).
  Proof. intros H1 H2 u Hu. rewrite map_app in Hu. apply in_app_or in Hu. destruct Hu; auto. Qed.

  Lemma recv_free prot t i : incl prot (up t) -> ~ In (recv t i) prot.
  Proof. intros H X. apply H in X. apply (longer_up [(0, false)] (i, false) t X). Qed.

  Lemma ptr_stack a (t : ptag) i (X below : list sitem) (prot : list ptag) : touches a l = true -> inner t X -> incl prot (up t) ->
    run (as_mut_ptr t i a) (X ++ (t, Unique) :: below, prot) = Some (top_ptr t i ++ (t, Unique) :: below, prot).
  Proof.
    intros Ha H Hp. unfold as_mut_ptr. cbn [run_ops].
    assert (E : sb_step l (Retag t i false a) (X ++ (t, Unique) :: below, prot) = Some (((i, false) :: t, Unique) :: (t, Unique) :: below, prot)).
    { cbn [sb_step]. rewrite Ha. assert (C := inner_clear t X prot H Hp). unfold sb_write.
      rewrite (granting_at t (t, Unique) below eq_refl eq_refl).
      - cbn [is_shared snd List.length]. rewrite Nat.sub_0_r, firstn_all.
        assert (E := clear_none X prot t (fun _ => true) X C (fun x h => h)). cbn [andb] in E.
        match goal with |- context [existsb ?f ?g] => replace (existsb f g) with false by (symmetry; exact E) end. reflexivity.
      - intros x Hx E. apply (proj1 C (fst x)); [now apply in_map|]. rewrite E. apply up_self. }
    rewrite E, retag_top by (exact Ha || discriminate).
    assert (E2 : forall st, sb_step l (Enter (recv t i) a) (st, prot) = Some (st, recv t i :: prot)) by (intros st; cbn [sb_step]; now rewrite Ha).
    rewrite E2, (retag_top a (recv t i) 0 true Unique) by (exact Ha || discriminate).
    rewrite exit_own; [reflexivity|exact Ha|now apply recv_free].
  Qed.

  Lemma given_stack a (t : ptag) n p (below : list sitem) (prot : list ptag) : touches a l = true -> p <> SDisabled -> forall ops,
    run ([Retag t n false a; Retag ((n, false) :: t) 0 false a; Enter (given t n) a] ++ ops) ((t, p) :: below, prot) =
    run ops ((given t n, Unique) :: ((n, false) :: t, Unique) :: (t, p) :: below, given t n :: prot).
  Proof.
    intros Ha Hp ops. cbn [app run_ops]. rewrite retag_top by (exact Ha || exact Hp). rewrite retag_top by (exact Ha || discriminate).
    assert (E2 : forall st, sb_step l (Enter (given t n) a) (st, prot) = Some (st, given t n :: prot)) by (intros st; cbn [sb_step]; now rewrite Ha).
    now rewrite E2.
  Qed.

  (** Nothing that [o] comes from. *)
  Definition apart (o : ptag) (X : list sitem) : Prop := forall u, In u (map fst X) -> ~ In u (up o).

  (** The stack has an item for [o], and later reborrows of [o] are new. *)
  Definition has (o : ptag) (n : nat) (st : list sitem) : Prop :=
    exists (above : list sitem) p (below : list sitem), st = above ++ (o, p) :: below /\ p <> SDisabled /\ apart o above /\ fresh_for (map fst above) o n.

  Lemma has_more o n n' st : n <= n' -> has o n st -> has o n' st.
  Proof.
    intros H (a & p & b & E & Hp & I & F). exists a, p, b. split; [exact E|]. split; [exact Hp|]. split; [exact I|].
    intros u s m b' Hu Eu. specialize (F u s m b' Hu Eu). lia.
  Qed.

  Fixpoint last_flat (fs : list shape) : option nat :=
    match fs with
    | [] => None
    | f :: fs' => match last_flat fs' with Some k => Some (S k) | None => if is_own f then None else Some 0 end
    end.
  Fixpoint alive (f : shape) (rest : place) : bool :=
    match rest, f with
    | p :: rest', Struct fs => match last_flat fs with None => true | Some k => Nat.eqb k p && alive (nth p fs Own) rest' end
    | _, _ => true
    end.

  Lemma last_flat_is fs k : last_flat fs = Some k -> exists g, nth_error fs k = Some g /\ is_own g = false.
  Proof.
    revert k. induction fs as [|f fs IH]; intros k; cbn; [discriminate|]. destruct (last_flat fs) as [k'|].
    - intros [= <-]. now apply IH.
    - destruct (is_own f) eqn:E; [discriminate|]. intros [= <-]. now exists f.
  Qed.

  Lemma last_flat_none fs p g : last_flat fs = None -> nth_error fs p = Some g -> g = Own.
  Proof.
    revert p. induction fs as [|f fs IH]; intros p; [destruct p; discriminate|]. cbn. destruct (last_flat fs); [discriminate|].
    destruct (is_own f) eqn:E; [|discriminate]. intros _. destruct p; [|now apply IH]. intros [= <-]. destruct f; try discriminate E. reflexivity.
  Qed.

  Lemma unused_in fs p g : nth_error fs p = Some g -> unused g <= list_sum (map unused fs).
  Proof.
    revert p. induction fs as [|f fs IH]; intros p; [destruct p; discriminate|].
    change (list_sum (map unused (f :: fs))) with (unused f + list_sum (map unused fs)). destruct p; cbn [nth_error].
    - intros [= <-]. lia.
    - intros E. specialize (IH p E). lia.
  Qed.

  Lemma owner_from rest : forall f t, exists s, owner f t rest = s ++ t.
  Proof.
    induction rest as [|p rest IH]; intros f t; [destruct f; cbn [owner]; try (now exists []); apply moved_from|].
    destruct f as [|u m|fs]; cbn [owner]; [now exists []|apply moved_from|]. destruct (nth p fs Own) as [|u m|gs]; [now exists [(0, true); (0, false); (0, false)]|..].
    - destruct (IH (Leaf u m) (given (ptr t (S p)) 0)) as [s' E']. rewrite E'. exists (s' ++ [(0, false); (0, false); (0, true); (0, false); (S p, false)]).
      rewrite <- app_assoc. reflexivity.
    - destruct (IH (Struct gs) (given (ptr t (S p)) 0)) as [s' E']. rewrite E'. exists (s' ++ [(0, false); (0, false); (0, true); (0, false); (S p, false)]).
      rewrite <- app_assoc. reflexivity.
  Qed.

  Lemma moves_stack a n m (prot : list ptag) (t0 : ptag) : touches a l = true -> forall (t : ptag) p (above below : list sitem), p <> SDisabled ->
    clear (map fst above) prot t -> fresh_for (map fst above) t n -> inner t0 above -> (exists s, t = s ++ t0) ->
    exists X : list sitem, run (move_ops a t n m) (above ++ (t, p) :: below, prot) = Some (X ++ (t, p) :: below, prot) /\ inner t0 X /\
      has (moved t n m) n (X ++ (t, p) :: below).
  Proof.
    intros Ha. induction m as [|raw m IH]; intros t p above below Hp C F I [s Es]; cbn [move_ops moved run_ops].
    - exists above. split; [reflexivity|]. split; [exact I|]. exists above, p, below. split; [reflexivity|]. split; [exact Hp|]. split; [exact (proj1 C)|exact F].
    - set (c := (n, raw) :: t).
      assert (Hd : is_disabled (t, p) = false) by (destruct p; try congruence; reflexivity).
      assert (T : exists q (hi lo : list sitem), sb_step l (Retag t n raw a) (above ++ (t, p) :: below, prot) = Some (hi ++ (c, q) :: lo ++ (t, p) :: below, prot) /\
                    q <> SDisabled /\ incl (map fst hi) (map fst above) /\ incl (map fst lo) (map fst above)).
      { cbn [sb_step]. rewrite Ha. destruct raw.
        - destruct (raw_fine above (t, p) below prot t c C eq_refl Hd) as (hi & lo & E & H1 & H2). exists SharedRW, hi, lo.
          split; [unfold c, sitem in *; rewrite E; reflexivity|]. split; [discriminate|]. auto.
        - destruct (write_fine above (t, p) below prot t C eq_refl Hd) as (lo & E & H). exists Unique, [], lo.
          split; [unfold c, sitem in *; rewrite E; reflexivity|]. split; [discriminate|]. split; [intros x []|exact H]. }
      destruct T as (q & hi & lo & E & Hq & Hh & Hl). rewrite E.
      destruct (IH c q hi (lo ++ (t, p) :: below) Hq) as (X & E' & I' & H').
      + split; [|intros x Hx; right; now apply C]. intros u Hu [<-|Hu'].
        * specialize (F c [] n raw (Hh _ Hu) eq_refl). lia.
        * exact (proj1 C u (Hh _ Hu) Hu').
      + intros u s' k b Hu Eu. specialize (F u (s' ++ [(k, b)]) n raw (Hh _ Hu)). rewrite <- app_assoc in F. specialize (F Eu). lia.
      + intros u Hu. apply I. now apply Hh.
      + exists ((n, raw) :: s). unfold c. now rewrite Es.
      + assert (Ea : X ++ (c, q) :: lo ++ (t, p) :: below = (X ++ (c, q) :: lo) ++ (t, p) :: below) by now rewrite <- app_assoc.
        exists (X ++ (c, q) :: lo). rewrite <- Ea. split; [exact E'|]. split; [|exact H'].
        apply inner_app; [exact I'|]. intros u [<-|Hu]; [|apply I; now apply Hl].
        cbn [fst]. unfold c. rewrite Es. destruct (app_cons_last (n, raw) s) as (s' & y & Ey). exists s', y.
        change ((n, raw) :: s ++ t0) with (((n, raw) :: s) ++ t0). rewrite Ey. now rewrite <- app_assoc.
  Qed.

  Lemma leaf_stack a u (t : ptag) (below : list sitem) (prot : list ptag) : touches a l = true -> incl prot (up t) ->
    exists X : list sitem, run (usage_ops a t 0 u) ((t, Unique) :: below, prot) = Some (X ++ (t, Unique) :: below, prot) /\ inner t X /\
      fresh_for (map fst X) t (width u).
  Proof.
    intros Ha Hi. destruct (usage_stack a u Ha t 0 [] (t, Unique) below prot) as (X & E & _ & F & D); auto.
    - split; [intros x []|exact Hi].
    - intros x s m b [].
    - exists X. split; [exact E|]. split; [|exact F]. intros x Hx. destruct (D x Hx) as [[]|Y]; exact Y.
  Qed.

  Lemma kept_stack a u m (t : ptag) (below : list sitem) (prot : list ptag) : touches a l = true -> incl prot (up t) ->
    exists X : list sitem, run (usage_ops a t 0 u ++ move_ops a t (width u) m) ((t, Unique) :: below, prot) = Some (X ++ (t, Unique) :: below, prot) /\
      inner t X /\ has (moved t (width u) m) (width u) (X ++ (t, Unique) :: below).
  Proof.
    intros Ha Hi. destruct (leaf_stack a u t below prot Ha Hi) as (X & E & I & F). rewrite (run_app _ _ _ _ _ E).
    apply moves_stack; auto; [discriminate|now apply inner_clear|now exists []].
  Qed.

  (** What [new] leaves at a location: the pointer for it, if it is still valid. *)
  Definition left_by (ok : bool) (o : ptag) (n : nat) (st : list sitem) : Prop :=
    if ok then has o n st else ~ In o (map fst st).

  Lemma new_stack rest : forall f a (t : ptag) (below : list sitem) (prot : list ptag), is_leaf f rest -> l = a ++ rest -> incl (map fst below) (up t) -> incl prot (up t) ->
    exists X : list sitem, run (visitor_new f a t) ((t, Unique) :: below, prot) = Some (X ++ (t, Unique) :: below, prot) /\ inner t X /\
      left_by (alive f rest) (owner f t rest) (unused f) (X ++ (t, Unique) :: below).
  Proof.
    induction rest as [|p rest IH]; intros f a t below prot L El Hb Hi; destruct f as [|u m|fs]; try contradiction.
    - exists []. split; [reflexivity|]. split; [intros x []|]. exists [], Unique, below. split; [reflexivity|]. split; [discriminate|].
      split; [intros x []|intros x s m b []].
    - exact (kept_stack a u m t below prot (eq_ind_r (fun l => touches a l = true) (touches_at a _) El) Hi).
    - assert (Ha : touches a l = true) by (rewrite El; apply touches_at).
      assert (Ta : touches (a ++ [p]) l = true) by (rewrite El; change (p :: rest) with ([p] ++ rest); rewrite app_assoc; apply touches_at).
      change (visitor_new (Struct fs) a t) with (as_mut_ptr t 0 a ++ flats t a 0 fs).
      rewrite (run_app _ _ _ _ _ (ptr_stack a t 0 [] below prot Ha (fun u (h : In u []) => match h with end) Hi)).
      assert (T : forall fs0 k (X : list sitem), (k <= p -> forall g, nth_error fs0 (p - k) = Some g -> is_leaf g rest) -> inner t X ->
        exists X' : list sitem, run (flats t a k fs0) (X ++ (t, Unique) :: below, prot) = Some (X' ++ (t, Unique) :: below, prot) /\ inner t X' /\
          match last_flat fs0 with
          | None => X' = X
          | Some j => (p <> k + j -> X' = top_ptr t (S (k + j))) /\
                      (p = k + j -> forall g, nth_error fs0 j = Some g ->
                         left_by (alive g rest) (owner g (given (ptr t (S p)) 0) rest) (unused g) (X' ++ (t, Unique) :: below))
          end).
      { clear fs L. intros fs0. induction fs0 as [|g fs0 IHf]; intros k X L I; cbn [flats last_flat]; [exists X; auto|].
        assert (T : exists X1 : list sitem, run (if is_own g then [] else as_mut_ptr t (S k) a ++ flat_new (ptr t (S k)) 0 (a ++ [k]) (visitor_new g (a ++ [k])))
                        (X ++ (t, Unique) :: below, prot) = Some (X1 ++ (t, Unique) :: below, prot) /\ inner t X1 /\
                      if is_own g then X1 = X
                      else (p <> k -> X1 = top_ptr t (S k)) /\
                           (p = k -> left_by (alive g rest) (owner g (given (ptr t (S p)) 0) rest) (unused g) (X1 ++ (t, Unique) :: below))).
        { destruct (is_own g) eqn:G; [exists X; auto|].
          rewrite (run_app _ _ _ _ _ (ptr_stack a t (S k) X below prot Ha I Hi)).
          destruct (Nat.eq_dec k p) as [->|Hk].
          - set (t' := given (ptr t (S p)) 0).
            set (below' := ((0, false) :: ptr t (S p), Unique) :: (ptr t (S p), SharedRW) :: (recv t (S p), Unique) :: ((S p, false) :: t, Unique) :: (t, Unique) :: below).
            assert (U : forall x, In x (up t) -> In x (up t')) by (intros x Hx; do 5 right; exact Hx).
            destruct (IH g (a ++ [p]) t' below' (t' :: prot)) as (X2 & E2 & I2 & F2).
            { apply (L (le_n _)). now rewrite Nat.sub_diag. }
            { now rewrite <- app_assoc. }
            { intros x [<-|[<-|[<-|[<-|[<-|Hx]]]]]; [right; left; reflexivity|do 2 right; left; reflexivity|do 3 right; left; reflexivity|
                do 4 right; left; reflexivity|apply U, up_self|apply U, Hb, Hx]. }
            { intros x [<-|Hx]; [apply up_self|apply U, Hi, Hx]. }
            exists (X2 ++ (t', Unique) :: ((0, false) :: ptr t (S p), Unique) :: top_ptr t (S p)).
            assert (Es : (X2 ++ (t', Unique) :: ((0, false) :: ptr t (S p), Unique) :: top_ptr t (S p)) ++ (t, Unique) :: below = X2 ++ (t', Unique) :: below')
              by (rewrite <- app_assoc; reflexivity).
            rewrite Es. split; [|split; [|split; [congruence|intros _; exact F2]]].
            + unfold flat_new. etransitivity; [exact (given_stack (a ++ [p]) (ptr t (S p)) 0 SharedRW _ prot Ta ltac:(discriminate) _)|].
              etransitivity; [exact (run_app _ _ _ _ _ E2)|]. cbn [run_ops]. rewrite exit_own; [reflexivity|exact Ta|].
              intros Z. apply Hi in Z. apply (longer_up [(0, false); (0, false); (0, true); (0, false)] (S p, false) t Z).
            + apply inner_app; [apply (inner_more t [(0, false); (0, false); (0, true); (0, false); (S p, false)]); exact I2|].
              intros x [<-|[<-|Hx]]; [now exists [(0, false); (0, false); (0, true); (0, false)], (S p, false)|
                now exists [(0, false); (0, true); (0, false)], (S p, false)|now apply (ptr_inner t (S p))].
          - assert (O : touches (a ++ [k]) l = false) by (rewrite El; now apply touches_other).
            rewrite sb_off by (apply flat_off; [exact O|intros g'; now apply new_off]).
            exists (top_ptr t (S k)). split; [reflexivity|]. split; [apply ptr_inner|]. split; [auto|]. intros X0. congruence. }
        destruct T as (X1 & E1 & I1 & T1). rewrite (run_app _ _ _ _ _ E1).
        destruct (IHf (S k) X1) as (X2 & -> & I2 & T2); [|exact I1|].
        { intros Hk g' E. apply L; [lia|]. now replace (p - k) with (S (p - S k)) by lia. }
        exists X2. split; [reflexivity|]. split; [exact I2|].
        destruct (last_flat fs0) as [j|].
        - replace (k + S j) with (S k + j) by lia. exact T2.
        - subst X2. destruct (is_own g); [exact T1|]. rewrite Nat.add_0_r. destruct T1 as [T1 T3]. split; [exact T1|].
          intros E g' [= <-]. auto. }
      cbn [is_leaf] in L. destruct (nth_error fs p) as [g|] eqn:Ep; [|contradiction].
      destruct (T fs 0 (top_ptr t 0)) as (X & E & I & F).
      { intros _ g' E'. rewrite Nat.sub_0_r in E'. congruence. }
      { apply ptr_inner. }
      exists X. split; [exact E|]. split; [exact I|]. cbn [alive owner]. rewrite (nth_own _ _ _ Ep).
      destruct (last_flat fs) as [j|] eqn:J.
      + destruct F as [F1 F2]. cbn [Nat.add] in F1, F2. destruct (Nat.eqb_spec j p) as [->|N]; cbn [andb].
        * destruct (last_flat_is _ _ J) as (g' & Ep' & G). rewrite Ep in Ep'. injection Ep' as <-.
          specialize (F2 eq_refl g Ep). destruct g; [discriminate G|..]; unfold left_by in *; destruct (alive _ rest);
            try exact F2; (eapply has_more; [|exact F2]); assert (W := unused_in _ _ _ Ep); cbn [unused] in *; lia.
        * rewrite (F1 (not_eq_sym N)). cbn [left_by].
          assert (G : exists s i, match g with Own => ptr t 0 | _ => owner g (given (ptr t (S p)) 0) rest end = s ++ (i, false) :: t /\ i <> S j).
          { destruct g as [|u m|gs]; [exists [(0, true); (0, false)], 0; split; [reflexivity|lia]|..].
            - destruct (owner_from rest (Leaf u m) (given (ptr t (S p)) 0)) as [s ->]. exists (s ++ [(0, false); (0, false); (0, true); (0, false)]), (S p).
              split; [now rewrite <- app_assoc|congruence].
            - destruct (owner_from rest (Struct gs) (given (ptr t (S p)) 0)) as [s ->]. exists (s ++ [(0, false); (0, false); (0, true); (0, false)]), (S p).
              split; [now rewrite <- app_assoc|congruence]. }
          destruct G as (s & i & Eg & Ni).
          replace (match g with Own => ptr t 0 | Leaf u m => owner (Leaf u m) (given (ptr t (S p)) 0) rest | Struct gs => owner (Struct gs) (given (ptr t (S p)) 0) rest end)
            with (s ++ (i, false) :: t) by (rewrite <- Eg; destruct g; reflexivity).
          rewrite map_app. intros Z. apply in_app_or in Z. destruct Z as [[Z|[Z|[Z|[]]]]|[Z|Z]].
          -- apply (suffix_step [(0, true); (0, false)] s t (S j, false)) in Z. congruence.
          -- apply (suffix_step [(0, false)] s t (S j, false)) in Z. congruence.
          -- apply (suffix_step [] s t (S j, false)) in Z. congruence.
          -- apply (longer_up s (i, false) t). rewrite <- Z. apply up_self.
          -- apply Hb in Z. now apply longer_up in Z.
      + subst X. rewrite (last_flat_none _ _ _ J Ep). exists [], SharedRW, ((recv t 0, Unique) :: ((0, false) :: t, Unique) :: (t, Unique) :: below).
        split; [reflexivity|]. split; [discriminate|]. split; [intros x []|intros x s m b []].
  Qed.

  Lemma once_stack rest : forall f a (t : ptag) (below : list sitem) (prot : list ptag), is_leaf f rest -> l = a ++ rest -> incl prot (up t) ->
    exists X : list sitem, run (once_new f a t) ((t, Unique) :: below, prot) = Some (X ++ (t, Unique) :: below, prot) /\
      has (once_owner f t rest) (unused f) (X ++ (t, Unique) :: below).
  Proof.
    induction rest as [|p rest IH]; intros f a t below prot L El Hi; destruct f as [|u m|fs]; try contradiction.
    - exists []. split; [reflexivity|]. exists [], Unique, below. split; [reflexivity|]. split; [discriminate|].
      split; [intros x []|intros x s m b []].
    - destruct (kept_stack a u m t below prot (eq_ind_r (fun l => touches a l = true) (touches_at a _) El) Hi) as (X & E & _ & F).
      now exists X.
    - assert (Ha : touches a l = true) by (rewrite El; apply touches_at).
      assert (Ta : touches (a ++ [p]) l = true) by (rewrite El; change (p :: rest) with ([p] ++ rest); rewrite app_assoc; apply touches_at).
      change (once_new (Struct fs) a t) with (as_mut_ptr t 0 a ++ once_flats t a 0 fs).
      rewrite (run_app _ _ _ _ _ (ptr_stack a t 0 [] below prot Ha (fun u (h : In u []) => match h with end) Hi)).
      cbn [is_leaf] in L. destruct (nth_error fs p) as [g|] eqn:Ep; [|contradiction]. cbn [once_owner]. rewrite (nth_own _ _ _ Ep).
      assert (T : forall fs0 k, k <= p -> nth_error fs0 (p - k) = Some g ->
        exists X : list sitem, run (once_flats t a k fs0) (top_ptr t 0 ++ (t, Unique) :: below, prot) = Some (X ++ (t, Unique) :: below, prot) /\
          has (match g with Own => ptr t 0 | _ => once_owner g (given (ptr t 0) p) rest end) (unused g) (X ++ (t, Unique) :: below)).
      { clear fs Ep. intros fs0. induction fs0 as [|g' fs0 IHf]; intros k Hk E; [destruct (p - k); discriminate|]. cbn [once_flats].
        destruct (Nat.eq_dec k p) as [->|Hk'].
        - rewrite Nat.sub_diag in E. injection E as ->.
          assert (O : forall s, run (once_flats t a (S p) fs0) s = Some s) by (apply sb_off; rewrite El; apply once_flats_off; lia).
          destruct (is_own g) eqn:G.
          + destruct g; try discriminate. cbn [app]. rewrite O. exists (top_ptr t 0). split; [reflexivity|].
            exists [], SharedRW, ((recv t 0, Unique) :: ((0, false) :: t, Unique) :: (t, Unique) :: below).
            split; [reflexivity|]. split; [discriminate|]. split; [intros x []|intros x s m b []].
          + set (t' := given (ptr t 0) p).
            set (below' := ((p, false) :: ptr t 0, Unique) :: (ptr t 0, SharedRW) :: (recv t 0, Unique) :: ((0, false) :: t, Unique) :: (t, Unique) :: below).
            assert (U : forall x, In x (up t) -> In x (up t')) by (intros x Hx; do 5 right; exact Hx).
            destruct (IH g (a ++ [p]) t' below' (t' :: prot) L) as (X2 & E2 & F2).
            { now rewrite <- app_assoc. }
            { intros x [<-|Hx]; [apply up_self|apply U, Hi, Hx]. }
            exists (X2 ++ (t', Unique) :: ((p, false) :: ptr t 0, Unique) :: top_ptr t 0).
            assert (Es : (X2 ++ (t', Unique) :: ((p, false) :: ptr t 0, Unique) :: top_ptr t 0) ++ (t, Unique) :: below = X2 ++ (t', Unique) :: below')
              by (rewrite <- app_assoc; reflexivity).
            rewrite Es. split; [|destruct g; [discriminate|exact F2..]].
            assert (E : run (flat_new (ptr t 0) p (a ++ [p]) (once_new g (a ++ [p]))) (top_ptr t 0 ++ (t, Unique) :: below, prot) = Some (X2 ++ (t', Unique) :: below', prot)).
            { unfold flat_new. etransitivity; [exact (given_stack (a ++ [p]) (ptr t 0) p SharedRW _ prot Ta ltac:(discriminate) _)|].
              etransitivity; [exact (run_app _ _ _ _ _ E2)|]. cbn [run_ops]. rewrite exit_own; [reflexivity|exact Ta|].
              intros Z. apply Hi in Z. apply (longer_up [(0, false); (p, false); (0, true); (0, false)] (0, false) t Z). }
            rewrite (run_app _ _ _ _ _ E). apply O.
        - assert (O : touches (a ++ [k]) l = false) by (rewrite El; now apply touches_other).
          assert (E1 : run (if is_own g' then [] else flat_new (ptr t 0) k (a ++ [k]) (once_new g' (a ++ [k]))) (top_ptr t 0 ++ (t, Unique) :: below, prot) =
                       Some (top_ptr t 0 ++ (t, Unique) :: below, prot)).
          { apply sb_off. destruct (is_own g'); [constructor|]. apply flat_off; [exact O|]. intros x. now apply once_off. }
          rewrite (run_app _ _ _ _ _ E1). apply IHf; [lia|]. now replace (p - k) with (S (p - S k)) in E by lia. }
      destruct (T fs 0) as (X & E & F); [lia|now rewrite Nat.sub_0_r|]. exists X. split; [exact E|].
      assert (W := unused_in _ _ _ Ep). destruct g; (eapply has_more; [|exact F]); cbn [unused] in *; lia.
  Qed.

  Lemma events_stack f (own : place -> ptag) evs (i : sitem) (below : list sitem) : is_leaf f l -> Forall (event_of f) evs -> fst i = own l -> is_disabled i = false ->
    forall n (above : list sitem), apart (own l) above -> fresh_for (map fst above) (own l) n ->
    exists above' : list sitem, run (event_ops own n evs) (above ++ i :: below, []) = Some (above' ++ i :: below, []) /\ apart (own l) above'.
  Proof.
    intros Hl He Hi Hd. induction He as [|[e u] evs [H1 H2] _ IH]; intros n above D F; cbn [event_ops]; [exists above; auto|].
    destruct (touches e l) eqn:E.
    - assert (X := leaf_touches l f e H1 Hl E). subst e.
      destruct (usage_stack l u E (own l) n above i below []) as (a1 & E1 & _ & F1 & D1); auto.
      + split; [exact D|intros x []].
      + rewrite (run_app _ _ _ _ _ E1). apply IH; [|exact F1]. intros x Hx. destruct (D1 x Hx) as [Y|(s & y & ->)]; [auto|apply longer_up].
    - rewrite (run_app _ _ _ _ _ (sb_off l _ (usage_off l e u E _ _) _)).
      apply IH; [exact D|]. intros x s m b Hx Ex. specialize (F x s m b Hx Ex). lia.
  Qed.

  Lemma events_none f (own : place -> ptag) evs (st : list sitem) : is_leaf f l -> Forall (event_of f) evs -> ~ In (own l) (map fst st) -> (exists u, In (Event l u) evs) ->
    forall n, run (event_ops own n evs) (st, []) = None.
  Proof.
    intros Hl He Ho. induction He as [|[e u] evs [H1 H2] _ IH]; intros [v Hv] n; [destruct Hv|]. cbn [event_ops].
    destruct (touches e l) eqn:E.
    - assert (X := leaf_touches l f e H1 Hl E). subst e. apply run_app_none.
      destruct u as [|w k|raw arg body k]; [congruence| |]; cbn [usage_ops run_ops]; cbn [sb_step]; rewrite E;
        unfold sb_write, sb_read, sb_raw; rewrite (granting_none _ _ Ho); [destruct w; reflexivity|destruct raw; reflexivity].
    - rewrite (run_app _ _ _ _ _ (sb_off l _ (usage_off l e u E _ _) _)).
      apply IH. exists v. destruct Hv as [Ev|Hv]; [|exact Hv]. injection Ev as -> _. change (touches l l = false) in E.
      assert (T := touches_at l []). rewrite app_nil_r in T. congruence.
  Qed.

  Lemma granting_some (t : ptag) p (st : list sitem) : In (t, p) st -> p <> SDisabled -> granting t st <> None.
  Proof.
    intros H Hp. induction st as [|i st IH]; [destruct H|]. cbn [granting]. destruct H as [->|H].
    - cbn [fst]. rewrite ptag_eqb_refl. destruct p; try congruence; discriminate.
    - destruct (_ && _); [discriminate|]. specialize (IH H). destruct (granting t st); [discriminate|congruence].
  Qed.

  Lemma finish_stack (fin : bool) (st : list sitem) : In ([], Unique) st -> run (if fin then [Access [] false []] else []) (st, []) <> None.
  Proof.
    intros H. destruct fin; [|discriminate]. cbn [run_ops sb_step touches]. unfold sb_read.
    assert (G := granting_some [] Unique st H ltac:(discriminate)). destruct (granting [] st) as [[[above i] below]|]; [|congruence].
    assert (E : existsb (fun j => is_unique j && among [] (fst j)) above = false).
    { clear. induction above as [|x a IH]; [reflexivity|]. cbn. now rewrite andb_false_r. }
    cbn [option_map]. match goal with |- context [existsb ?f ?g] => replace (existsb f g) with false by (symmetry; exact E) end. discriminate.
  Qed.

  Definition base : list sitem := [(out_ref, Unique); ([], Unique)].

  Lemma whole_eq new own n evs fin X : run (new [] out_arg) ((out_arg, Unique) :: base, [out_arg]) = Some (X ++ (out_arg, Unique) :: base, [out_arg]) ->
    run (whole_ops new own n evs fin) sb_start =
    run (event_ops (own out_arg) n evs ++ (if fin then [Access [] false []] else [])) (X ++ (out_arg, Unique) :: base, []).
  Proof.
    intros E. unfold whole_ops.
    change (run (new [] out_arg ++ [Exit out_arg []] ++ event_ops (own out_arg) n evs ++ (if fin then [Access [] false []] else []))
              ((out_arg, Unique) :: base, [out_arg]) =
            run (event_ops (own out_arg) n evs ++ (if fin then [Access [] false []] else [])) (X ++ (out_arg, Unique) :: base, [])).
    rewrite (run_app _ _ _ _ _ E). reflexivity.
  Qed.

  Lemma rest_stack f (own : place -> ptag) n evs (fin : bool) (st : list sitem) : is_leaf f l -> Forall (event_of f) evs -> has (own l) n st -> In ([], Unique) st ->
    run (event_ops own n evs ++ (if fin then [Access [] false []] else [])) (st, []) <> None.
  Proof.
    intros Hl He (above & p & below & -> & Hp & I & F) Hr.
    destruct (events_stack f own evs (own l, p) below Hl He eq_refl) with (n := n) (above := above) as (a1 & E1 & I1); auto.
    { destruct p; try congruence; reflexivity. }
    rewrite (run_app _ _ _ _ _ E1). apply finish_stack. apply in_or_app. right. apply in_app_or in Hr. destruct Hr as [Hr|Hr]; [|exact Hr].
    apply (in_map fst) in Hr. destruct (I _ Hr (up_root _)).
  Qed.
End Stacked.

(** ** The specification *)

Lemma is_own_iff g : is_own g = false <-> g <> Own.
Proof. destruct g; split; intros; congruence || discriminate || reflexivity. Qed.

Lemma last_flat_max fs k p : last_flat fs = Some k -> flattened fs p -> p <= k.
Proof.
  revert k p. induction fs as [|f fs IH]; intros k p; cbn; [discriminate|]. destruct (last_flat fs) as [k'|] eqn:L.
  - intros [= <-] H. destruct p as [|p]; [lia|]. specialize (IH k' p eq_refl H). lia.
  - destruct (is_own f); [discriminate|]. intros [= <-] (g & E & N). destruct p as [|p]; [lia|]. destruct N. eapply last_flat_none; eauto.
Qed.

Lemma last_flat_flat fs k : last_flat fs = Some k -> last_flattened fs k.
Proof.
  intros L. split; [|intros q; now apply last_flat_max]. destruct (last_flat_is _ _ L) as (g & E & G). exists g. now rewrite <- is_own_iff.
Qed.

Lemma alive_iff rest : forall f, is_leaf f rest -> (alive f rest = true <-> reachable f rest).
Proof.
  induction rest as [|p rest IH]; intros f L; cbn [alive reachable]; [tauto|]. destruct f as [|u|fs]; [tauto|tauto|]. cbn [is_leaf] in L.
  destruct (nth_error fs p) as [g|] eqn:Ep; [|contradiction]. rewrite (nth_own _ _ _ Ep). specialize (IH g L).
  destruct (last_flat fs) as [k|] eqn:J.
  - rewrite andb_true_iff, Nat.eqb_eq, IH. assert (F := last_flat_flat _ _ J). split.
    + intros [-> R]. right. split; [exact F|]. intros g' [= <-]. exact R.
    + intros [N|[[F1 F2] R]]; [destruct (N k); apply F|]. split; [|now apply R]. apply Nat.le_antisymm.
      * apply F2. apply F.
      * eapply last_flat_max; eauto.
  - split; [|tauto]. intros _. left. intros q (g' & E & N). destruct N. eapply last_flat_none; eauto.
Qed.

Lemma visitor_tree_fine f evs fin : quiet f -> Forall (event_of f) evs -> tb_fine f (visitor_ops f evs fin).
Proof.
  intros Q He l L. apply (whole_fine l f); auto. intros pm R.
  destruct (new_fine l l f [] out_arg [out_arg] pm) as (pm' & E & R' & _); auto.
  { intros x [<-|[]]. apply up_self. }
  destruct (owner_up l f out_arg) as [s Es]. exists pm', s. split; [exact E|]. split; [exact Es|]. apply resv_chain; [|exact R'].
  rewrite Es. intros x [<-|[]]. apply in_up. now exists s.
Qed.

Lemma once_tree_fine f evs fin : Forall (event_of f) evs -> tb_fine f (once_ops f evs fin).
Proof.
  intros He l L. apply (whole_fine l f); auto. intros pm R.
  destruct (once_fine l l f [] out_arg [out_arg] pm) as (pm' & E & C); auto.
  { intros x [<-|[]]. apply up_self. }
  destruct (once_owner_up l f out_arg) as [s Es]. exists pm', s. auto.
Qed.

Lemma out_below : incl (map fst base) (up out_arg).
Proof. intros x [<-|[<-|[]]]; cbn; auto. Qed.
Lemma out_prot : incl [out_arg] (up out_arg).
Proof. intros x [<-|[]]. apply up_self. Qed.
Lemma root_in X : In ([], Unique) (X ++ (out_arg, Unique) :: base).
Proof. apply in_or_app. right. right. right. now left. Qed.

Lemma visitor_stack_iff f evs fin : Forall (event_of f) evs ->
  (sb_fine f (visitor_ops f evs fin) <-> Forall (fun '(Event l _) => reachable f l) evs).
Proof.
  intros He. split.
  - intros H. apply Forall_forall. intros [l u] Hl. assert (L : is_leaf f l) by (rewrite Forall_forall in He; apply (He _ Hl)).
    apply (alive_iff l f L). destruct (alive f l) eqn:A; [reflexivity|]. destruct (H l L).
    destruct (new_stack l l f [] out_arg base [out_arg] L eq_refl out_below out_prot) as (X & E & _ & F). rewrite A in F.
    unfold visitor_ops. rewrite (whole_eq l _ _ _ _ _ X E). apply run_app_none. apply (events_none l f); auto. now exists u.
  - intros H l L. destruct (new_stack l l f [] out_arg base [out_arg] L eq_refl out_below out_prot) as (X & E & _ & F).
    unfold visitor_ops. rewrite (whole_eq l _ _ _ _ _ X E). destruct (alive f l) eqn:A.
    + apply (rest_stack l f); auto. apply root_in.
    + assert (O : Forall (off l) (event_ops (owner f out_arg) (unused f) evs)).
      { apply (event_off _ _ _ _ f); auto. intros u Hu. rewrite Forall_forall in H. specialize (H _ Hu). apply (alive_iff l f L) in H. congruence. }
      rewrite (run_app _ _ _ _ _ (sb_off l _ O _)). apply finish_stack. apply root_in.
Qed.

Lemma once_stack_fine f evs fin : Forall (event_of f) evs -> sb_fine f (once_ops f evs fin).
Proof.
  intros He l L. destruct (once_stack l l f [] out_arg base [out_arg] L eq_refl out_prot) as (X & E & F).
  unfold once_ops. rewrite (whole_eq l _ _ _ _ _ X E). apply (rest_stack l f); auto. apply root_in.
Qed.

Lemma moved_stack fs p q g h lp lq evs fin : p <> q -> nth_error fs p = Some g -> nth_error fs q = Some h -> is_ref g lp -> is_ref h lq ->
  Forall (event_of (Struct fs)) evs -> all_used (Struct fs) evs -> ~ sb_fine (Struct fs) (visitor_ops (Struct fs) evs fin).
Proof.
  intros N Ep Eq Hp Hq He Hu Hf. apply visitor_stack_iff in Hf; [|exact He]. rewrite Forall_forall in Hf.
  assert (F : forall k x l, nth_error fs k = Some x -> is_ref x l -> flattened fs k).
  { intros k x l Ek Hx. exists x. split; [exact Ek|]. intros ->. destruct l; exact Hx. }
  assert (L : forall k x l, nth_error fs k = Some x -> is_ref x l -> last_flattened fs k).
  { intros k x l Ek Hx. destruct (Hu (k :: l)) as [u Hin]; [cbn [is_ref]; now rewrite Ek|].
    specialize (Hf _ Hin). cbn [reachable] in Hf. destruct Hf as [Z|[Z _]]; [|exact Z]. destruct (Z k). now apply (F k x l). }
  destruct (L p g lp Ep Hp) as [_ L1]. destruct (L q h lq Eq Hq) as [_ L2].
  specialize (L1 q (F q h lq Eq Hq)). specialize (L2 p (F p g lp Ep Hp)). lia.
Qed.
