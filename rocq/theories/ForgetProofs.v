(** Forgotten builders and writers, and caught panics. *)
From Verif Require Import Base Text Ser SerSpec SerProofs SerTree SerPoison Forget ForgetSpec.
From Coq Require Import Lia.

Scheme uprog_ind' := Induction for uprog Sort Prop
  with ubprog_ind' := Induction for ubprog Sort Prop.
Combined Scheme uprog_mutind from uprog_ind', ubprog_ind'.

(** ** What is open at the end *)

Definition balance (open f : nat) (k : sink) : Prop :=
  k_poison k = None -> count_starts (k_out k) = count_ends (k_out k) + open + f.

Lemma count_starts_app a b : count_starts (a ++ b) = count_starts a + count_starts b.
Proof. unfold count_starts. now rewrite filter_app, app_length. Qed.
Lemma count_ends_app a b : count_ends (a ++ b) = count_ends a + count_ends b.
Proof. unfold count_ends. now rewrite filter_app, app_length. Qed.

Lemma balance_poison a f e k : balance a f (poison e k).
Proof. unfold balance, poison. cbn. destruct (k_poison k); discriminate. Qed.

Lemma balance_chars o s a f k : balance a f k -> balance a f (snd (write o (WChars s) k)).
Proof.
  unfold balance, write. destruct (k_poison k) eqn:P; cbn [snd k_poison k_out]; [discriminate|].
  destruct (o (k_tries k)); cbn [snd k_poison k_out]; [discriminate|].
  intros H _. rewrite count_starts_app, count_ends_app. specialize (H eq_refl). unfold count_starts, count_ends in *. cbn. lia.
Qed.

Lemma balance_end o a f k : balance (S a) f k -> balance a f (snd (write o WEnd k)).
Proof.
  unfold balance, write. destruct (k_poison k) eqn:P; cbn [snd k_poison k_out]; [discriminate|].
  destruct (o (k_tries k)); cbn [snd k_poison k_out]; [discriminate|].
  intros H _. rewrite count_starts_app, count_ends_app. specialize (H eq_refl). unfold count_starts, count_ends in *. cbn. lia.
Qed.

Lemma balance_start o a f b k : balance a f k ->
  match builder_start o b k with
  | inl (inl _, k') => balance (S a) f k'
  | inl (inr _, k') => k_poison k' <> None
  | inr _ => True
  end.
Proof.
  unfold builder_start. destruct (finalize (b_ns b)); [|trivial]. destruct (resolve_element n (b_name b)); [|trivial].
  destruct (resolve_attributes n (b_attrs b)); [|trivial]. unfold balance, write.
  destruct (k_poison k) eqn:P; cbn [snd k_poison k_out]; [discriminate|].
  destruct (o (k_tries k)); cbn [snd k_poison k_out]; [discriminate|].
  intros H _. rewrite count_starts_app, count_ends_app. specialize (H eq_refl). unfold count_starts, count_ends in *. cbn. lia.
Qed.

Lemma run_balance dbg o :
  (forall d (p : uprog d), forall a nss f k, balance (d + a) f k ->
     match run_u dbg o p nss f k with inl (_, k', f') => balance a f' k' | inr _ => True end) /\
  (forall d (q : ubprog d), forall a b nss f k, balance (d + a) f k ->
     match run_ub dbg o q b nss f k with inl (_, k', f') => balance a f' k' | inr _ => True end).
Proof.
  apply uprog_mutind; cbn; intros.
  - assumption.
  - destruct (write o (WChars s) k0) as [r k'] eqn:E. apply H. change k' with (snd (r, k')). rewrite <- E. now apply balance_chars.
  - destruct nss; [exact I|]. now apply H.
  - destruct (write o WEnd k0) as [r k'] eqn:E. apply H. change k' with (snd (r, k')). rewrite <- E. now apply balance_end.
  - apply H. apply balance_poison.
  - apply H. unfold balance in *. intro P. rewrite H0; auto. lia.
  - exact I.
  - destruct (builder_namespace dbg p u b0); [now apply H|now apply H0].
  - destruct (builder_attribute n v b) as [[r b']|]; [now apply H|exact I].
  - apply H. apply balance_poison.
  - now apply H.
  - assert (S := balance_start o _ _ b k0 H2). destruct (builder_start o b k0) as [[[m|e] k']|x].
    + now apply H.
    + apply H0. intro P. now destruct S.
    + destruct x; try exact I; now apply H1.
  - exact I.
Qed.

Theorem open_at_end dbg o n v k f : to_u dbg o n v = inl (None, k, f) ->
  count_starts (k_out k) = count_ends (k_out k) + f.
Proof.
  unfold to_u. destruct (run_ua dbg (u_attrs v) _) as [[[e|] b]|x]; try discriminate.
  assert (S := balance_start o 0 0 b sink0). destruct (builder_start o b sink0) as [[[m|e] k0]|x]; try discriminate.
  assert (S0 : balance 1 0 k0) by (apply S; intro; reflexivity). clear S.
  assert (R := proj1 (run_balance dbg o) 0 (u_kids v) 1 [m] 0 k0 S0).
  destruct (run_u dbg o (u_kids v) [m] 0 k0) as [[[[e|] k1] f1]|x]; try discriminate.
  assert (W := balance_end o 0 f1 k1 R). destruct (write o WEnd k1) as [r k2] eqn:E. intros [= -> <- <-]. cbn in W.
  unfold balance in W. rewrite Nat.add_0_r in W. apply W. unfold write in E. destruct (k_poison k1); [discriminate|].
  destruct (o (k_tries k1)); [discriminate|]. now injection E as <-.
Qed.

(** The events of a tree are balanced. *)
Definition sev_starts (l : list sev) : nat := List.length (filter (fun e => match e with SStart _ _ => true | _ => false end) l).
Definition sev_ends (l : list sev) : nat := List.length (filter (fun e => match e with SEnd => true | _ => false end) l).

Lemma sev_counts l : sev_starts (map ev_sev l) = count_starts l /\ sev_ends (map ev_sev l) = count_ends l.
Proof.
  unfold sev_starts, sev_ends, count_starts, count_ends. induction l as [|[]]; cbn; intuition auto.
Qed.

Fixpoint tree_balanced (t : wtree) : sev_starts (tree_sevs t) = sev_ends (tree_sevs t).
Proof.
  destruct t as [n attrs kids|s]; [|reflexivity]. cbn.
  assert (A : sev_starts (flat_map tree_sevs kids) = sev_ends (flat_map tree_sevs kids)).
  { induction kids as [|t kids IH]; [reflexivity|]. cbn. unfold sev_starts, sev_ends in *.
    rewrite !filter_app, !app_length, IH. f_equal. apply tree_balanced. }
  unfold sev_starts, sev_ends in *. cbn. rewrite !filter_app, !app_length, A. cbn. lia.
Qed.

Theorem forgotten_not_a_tree dbg o n v k f t : to_u dbg o n v = inl (None, k, S f) -> map ev_sev (k_out k) <> tree_sevs t.
Proof.
  intros H E. apply open_at_end in H. destruct (sev_counts (k_out k)) as [A B]. rewrite E, tree_balanced in A. rewrite E in B. lia.
Qed.

(** ** Programs that forget no writer *)

Lemma start_starts o b k : match builder_start o b k with
  | inl (inl m, _) => starts b = inl m
  | inl (inr _, _) => exists m, starts b = inl m
  | inr x => starts b = inr x
  end.
Proof.
  unfold builder_start, starts. destruct (finalize (b_ns b)); [|reflexivity]. destruct (resolve_element n (b_name b)); [|reflexivity].
  destruct (resolve_attributes n (b_attrs b)); [|reflexivity]. destruct (write o _ k) as [[|] ?]; eauto.
Qed.

Definition leads (dbg : bool) (o : io) (l : list call) (b0 b : bstate) : Prop :=
  forall d (q : bprog d) nss k, run_b dbg o (calls l q) b0 nss k = run_b dbg o q b nss k.

Lemma calls_app {d} l c (q : bprog d) : calls (l ++ [c]) q = calls l (calls [c] q).
Proof. induction l as [|[] l IH]; cbn; [reflexivity|now rewrite IH|]. cbn in IH. now rewrite IH. Qed.

Lemma leads_ns dbg o l b0 b b' p u : leads dbg o l b0 b -> builder_namespace dbg p u b = inl b' ->
  leads dbg o (l ++ [CNs p u]) b0 b'.
Proof. intros L E d q nss k. rewrite calls_app, L. cbn. now rewrite E. Qed.

Lemma leads_attr dbg o l b0 b b' a v r : leads dbg o l b0 b -> builder_attribute a v b = inl (r, b') ->
  leads dbg o (l ++ [CAttr a v]) b0 b'.
Proof. intros L E d q nss k. rewrite calls_app, L. cbn. now rewrite E. Qed.

Definition with_count (f : nat) (x : (option serr * sink) + abort) : (option serr * sink * nat) + abort :=
  match x with inl (r, k) => inl (r, k, f) | inr x => inr x end.

Lemma run_plain dbg o :
  (forall d (p : uprog d), keeps_writers p -> forall nss f k,
     run_u dbg o p nss f k = with_count f (run_w dbg o (plain dbg p nss) nss k)) /\
  (forall d (q : ubprog d), keeps_writers_b q -> forall n l m nss b f k,
     leads dbg o l (writer_element m n) b ->
     run_ub dbg o q b (m :: nss) f k = with_count f (run_w dbg o (plain_b dbg q n l b (m :: nss)) (m :: nss) k)).
Proof.
  apply uprog_mutind; cbn; intros.
  - reflexivity.
  - destruct (write o (WChars s) k0) as [r k']. auto.
  - destruct nss as [|m nss]; [reflexivity|]. apply H; auto. intros d' q nss' k'. reflexivity.
  - destruct (write o WEnd k0) as [r k']. auto.
  - auto.
  - contradiction.
  - reflexivity.
  - destruct H1 as [K1 K2]. destruct (builder_namespace dbg p u b0) as [b'|] eqn:E; [|auto]. apply H; auto. eapply leads_ns; eauto.
  - destruct (builder_attribute n v b) as [[r b']|x] eqn:E.
    + apply H; auto. eapply leads_attr; eauto.
    + unfold builder_attribute in E. destruct (existsb _ _); [|discriminate]. destruct (List.find _ _) as [[]|] in E; [discriminate|].
      injection E as <-. reflexivity.
  - rewrite H1. cbn. apply H; auto.
  - apply H; auto.
  - destruct H2 as (K1 & K2 & K3). assert (S := start_starts o b k0). destruct (builder_start o b k0) as [[[m'|e] k']|x] eqn:E.
    + rewrite S. cbn [run_w]. rewrite H3. cbn [run_b]. rewrite E. apply H; auto.
    + destruct S as [m' S]. rewrite S. cbn [run_w]. rewrite H3. cbn [run_b]. rewrite E. apply H0; auto.
    + rewrite S. destruct x; [apply H1; auto|apply H1; auto|]. cbn [run_w]. rewrite H3. cbn [run_b]. now rewrite E.
  - reflexivity.
Qed.

Lemma run_plain_a dbg a : forall b, run_ua dbg a b = run_a dbg (plain_a dbg a) b.
Proof.
  induction a; intro b; cbn [run_ua plain_a run_a]; [reflexivity| | |reflexivity].
  - destruct (dbg && starts_with "xml" p) eqn:E; cbn [run_a].
    + assert (EB : builder_namespace dbg p u b = inr (Panic "prefix must not start with xml")).
      { unfold builder_namespace, nb_insert. now rewrite E. }
      rewrite EB. apply IHa2.
    + destruct (builder_namespace dbg p u b) eqn:EB; [apply IHa1|].
      unfold builder_namespace, nb_insert in EB. rewrite E in EB. discriminate.
  - destruct (builder_attribute n v b) as [[r b']|]; auto.
Qed.

Theorem to_plain dbg o n v : keeps_writers (u_kids v) -> to_u dbg o n v = with_count 0 (to dbg o n (plain_ser dbg n v)).
Proof.
  intro K. unfold to_u, to. cbn [s_attrs plain_ser]. rewrite <- run_plain_a.
  destruct (run_ua dbg (u_attrs v) _) as [[[e|] b]|x] eqn:EA; try reflexivity.
  assert (S := start_starts o b sink0). destruct (builder_start o b sink0) as [[[m|e] k]|x]; try reflexivity.
  cbn [s_kids plain_ser]. rewrite EA, S. rewrite (proj1 (run_plain dbg o) 0 _ K [m] 0 k).
  destruct (run_w dbg o _ [m] k) as [[[e|] k']|x]; cbn; reflexivity || now destruct (write o WEnd k').
Qed.

Corollary kept_writes dbg o n v k f : keeps_writers (u_kids v) -> to_u dbg o n v = inl (None, k, f) ->
  f = 0 /\ exists t, asked n (plain_ser dbg n v) = Some t /\ map ev_sev (k_out k) = tree_sevs (tree_of t).
Proof.
  intros K H. rewrite (to_plain dbg o n v K) in H. destruct (to dbg o n _) as [[r k']|x] eqn:E; [|discriminate].
  cbn in H. injection H as -> -> <-. split; auto. apply to_writes in E as (t & H1 & H2 & _). eauto.
Qed.
