From Verif Require Import Base Find Types.
From Coq Require Import Lia Arith Sorted Permutation.

(** Closes [NoDup] of a literal list. *)
Ltac nodup := repeat (apply NoDup_cons; [vm_compute; intuition congruence|]); apply NoDup_nil.

(** ** The order on strings and expanded names *)

Lemma ascii_compare_N a b : Ascii.compare a b = N.compare (N_of_ascii a) (N_of_ascii b).
Proof. reflexivity. Qed.

Lemma str_compare_refl s : String.compare s s = Eq.
Proof. induction s; cbn; auto. rewrite ascii_compare_N, N.compare_refl. exact IHs. Qed.

Lemma str_compare_eq a b : String.compare a b = Eq <-> a = b.
Proof. split; [apply String.compare_eq_iff|intros ->; apply str_compare_refl]. Qed.

Lemma str_compare_gt a b : String.compare a b = Gt <-> String.compare b a = Lt.
Proof. rewrite String.compare_antisym. destruct (String.compare b a); cbn; split; congruence. Qed.

Lemma ascii_compare_trans a b c : Ascii.compare a b = Lt -> Ascii.compare b c = Lt -> Ascii.compare a c = Lt.
Proof. rewrite !ascii_compare_N, !N.compare_lt_iff. lia. Qed.

Lemma ascii_compare_eq a b : Ascii.compare a b = Eq -> a = b.
Proof.
  rewrite ascii_compare_N, N.compare_eq_iff. intro H.
  rewrite <- (ascii_N_embedding a), <- (ascii_N_embedding b). now f_equal.
Qed.

Lemma str_compare_trans a : forall b c,
  String.compare a b = Lt -> String.compare b c = Lt -> String.compare a c = Lt.
Proof.
  induction a as [|x a IH]; intros [|y b] [|z c]; cbn; try congruence.
  destruct (Ascii.compare x y) eqn:E1; [|intros _|congruence].
  - apply ascii_compare_eq in E1. subst y.
    destruct (Ascii.compare x z) eqn:E2; try congruence. apply IH.
  - destruct (Ascii.compare y z) eqn:E2; try congruence; intros _.
    + apply ascii_compare_eq in E2. subst z. now rewrite E1.
    + now rewrite (ascii_compare_trans _ _ _ E1 E2).
Qed.

Lemma xn_compare_eq a b : xn_compare a b = Eq <-> a = b.
Proof.
  unfold xn_compare. destruct a as [a1 a2], b as [b1 b2]; cbn.
  destruct (String.compare a1 b1) eqn:E; rewrite ?str_compare_eq.
  - apply str_compare_eq in E. subst. split; congruence.
  - split; [discriminate|]. intro H; inversion H; subst. rewrite str_compare_refl in E. discriminate.
  - split; [discriminate|]. intro H; inversion H; subst. rewrite str_compare_refl in E. discriminate.
Qed.

Lemma xn_compare_antisym a b : xn_compare a b = CompOpp (xn_compare b a).
Proof.
  unfold xn_compare. rewrite (String.compare_antisym (xn_ns a)).
  destruct (String.compare (xn_ns b) (xn_ns a)); cbn; auto. apply String.compare_antisym.
Qed.

Lemma xn_compare_gt a b : xn_compare a b = Gt <-> xn_compare b a = Lt.
Proof. rewrite xn_compare_antisym. destruct (xn_compare b a); cbn; split; congruence. Qed.

Lemma xn_compare_trans a b c : xn_compare a b = Lt -> xn_compare b c = Lt -> xn_compare a c = Lt.
Proof.
  unfold xn_compare. destruct (String.compare (xn_ns a) (xn_ns b)) eqn:E1; try congruence.
  - apply str_compare_eq in E1. rewrite E1. intro H1.
    destruct (String.compare (xn_ns b) (xn_ns c)) eqn:E2; try congruence.
    intro H2. eapply str_compare_trans; eauto.
  - intros _. destruct (String.compare (xn_ns b) (xn_ns c)) eqn:E2; try congruence.
    + apply str_compare_eq in E2. rewrite <- E2, E1. auto.
    + intros _. now rewrite (str_compare_trans _ _ _ E1 E2).
Qed.

Lemma xn_eqb_eq a b : xn_eqb a b = true <-> a = b.
Proof.
  unfold xn_eqb. rewrite andb_true_iff, !String.eqb_eq. destruct a, b; cbn. split.
  - intros [-> ->]. reflexivity.
  - intro H; inversion H; auto.
Qed.

Lemma xname_eq_dec (a b : xname) : {a = b} + {a <> b}.
Proof. repeat decide equality. Qed.

(** ** Binary search *)

Definition xn_lt (a b : xname) : Prop := xn_compare a b = Lt.

(** Strictly increasing, in terms of positions. *)
Definition increasing (l : list xname) : Prop :=
  forall i j a b, i < j -> nth_error l i = Some a -> nth_error l j = Some b -> xn_lt a b.

Lemma sorted_increasing l : StronglySorted xn_lt l -> increasing l.
Proof.
  intro H. induction H as [|x l Hs IH Hf]; intros i j a b Hij Ha Hb.
  - destruct i; discriminate.
  - destruct j as [|j]; [lia|]. cbn in Hb. destruct i as [|i]; cbn in Ha.
    + inversion Ha; subst. rewrite Forall_forall in Hf. apply Hf. eapply nth_error_In; eauto.
    + eapply (IH i j); eauto. lia.
Qed.

Section Search.
  Context (l : list xname) (name : xname) (Hinc : increasing l).
  Let cmp x := xn_compare x name.

  Lemma cmp_lt_before i j a b : i <= j -> nth_error l i = Some a -> nth_error l j = Some b ->
    cmp b = Lt -> cmp a = Lt.
  Proof.
    intros Hij Ha Hb Hc. destruct (Nat.eq_dec i j) as [->|].
    - congruence.
    - unfold cmp in *. eapply xn_compare_trans; [|exact Hc]. apply (Hinc i j a b); auto; lia.
  Qed.

  Lemma cmp_gt_after i j a b : i <= j -> nth_error l i = Some a -> nth_error l j = Some b ->
    cmp a = Gt -> cmp b = Gt.
  Proof.
    intros Hij Ha Hb Hc. destruct (Nat.eq_dec i j) as [->|].
    - congruence.
    - unfold cmp in *. apply xn_compare_gt. apply xn_compare_gt in Hc.
      eapply xn_compare_trans; [exact Hc|]. apply (Hinc i j a b); auto; lia.
  Qed.

  Lemma div2_bounds n : 0 < n -> Nat.div2 n < n.
  Proof. intro H. apply Nat.lt_div2. exact H. Qed.

  (** If the name is at position [p] within the window, the search finds [p]. *)
  Lemma bisect_complete p : nth_error l p = Some name -> forall fuel left right,
    left <= p < right -> right <= length l -> right - left < fuel ->
    bisect cmp l fuel left right = Some p.
  Proof.
    intros Hp. assert (Hcp : cmp name = Eq) by (apply xn_compare_eq; reflexivity).
    induction fuel; intros left right Hw Hr Hf; [lia|]. cbn [bisect].
    destruct (Nat.ltb_spec left right); [|lia].
    set (mid := left + Nat.div2 (right - left)).
    assert (left <= mid < right).
    { unfold mid. pose proof (div2_bounds (right - left)). lia. }
    destruct (nth_error l mid) eqn:Em.
    2:{ apply nth_error_None in Em. lia. }
    destruct (cmp x) eqn:Ec.
    - apply xn_compare_eq in Ec. subst x. f_equal.
      destruct (Nat.lt_trichotomy mid p) as [L|[L|L]]; auto; exfalso.
      + pose proof (Hinc _ _ _ _ L Em Hp) as K. unfold xn_lt in K.
        assert (xn_compare name name = Eq) by (now apply xn_compare_eq). congruence.
      + pose proof (Hinc _ _ _ _ L Hp Em) as K. unfold xn_lt in K.
        assert (xn_compare name name = Eq) by (now apply xn_compare_eq). congruence.
    - apply IHfuel; try lia. split; [|lia].
      destruct (le_lt_dec p mid); [|lia].
      rewrite (cmp_lt_before p mid name x) in Hcp; auto; congruence.
    - apply IHfuel; try lia. split; [lia|].
      destruct (le_lt_dec mid p); [|lia].
      rewrite (cmp_gt_after mid p x name) in Hcp; auto; congruence.
  Qed.

  Lemma bisect_sound fuel : forall left right p,
    bisect cmp l fuel left right = Some p -> nth_error l p = Some name.
  Proof.
    induction fuel; intros left right p; cbn [bisect]; [discriminate|].
    destruct (Nat.ltb left right); [|discriminate].
    destruct (nth_error l _) eqn:Em; [|discriminate].
    destruct (cmp x) eqn:Ec; eauto.
    intro H; inversion H; subst. apply xn_compare_eq in Ec. subst. exact Em.
  Qed.

  Lemma branchless_complete p : nth_error l p = Some name -> forall fuel base size,
    base <= p < base + size -> base + size <= length l -> size <= fuel ->
    branchless cmp l fuel base size = Some p.
  Proof.
    intros Hp. assert (Hcp : cmp name = Eq) by (apply xn_compare_eq; reflexivity).
    induction fuel; intros base size Hw Hr Hf; [lia|]. cbn [branchless].
    destruct (Nat.ltb_spec 1 size).
    - set (half := Nat.div2 size).
      assert (half + half <= size).
      { unfold half. pose proof (Nat.div2_odd size). lia. }
      assert (0 < half < size).
      { unfold half. pose proof (div2_bounds size). destruct size as [|[|size]]; cbn in *; lia. }
      destruct (nth_error l (base + half)) eqn:Em.
      2:{ apply nth_error_None in Em. lia. }
      destruct (cmp x) eqn:Ec; apply IHfuel; try lia.
      + apply xn_compare_eq in Ec. subst x. split; [|lia].
        destruct (le_lt_dec (base + half) p); [lia|].
        pose proof (Hinc _ _ _ _ l0 Hp Em) as K. unfold xn_lt in K.
        assert (xn_compare name name = Eq) by (now apply xn_compare_eq). congruence.
      + split; [|lia]. destruct (le_lt_dec (base + half) p); [lia|].
        rewrite (cmp_lt_before p (base + half) name x) in Hcp; auto; try congruence. lia.
      + split; [lia|]. destruct (le_lt_dec (base + half) p); [|lia].
        rewrite (cmp_gt_after (base + half) p x name) in Hcp; auto; congruence.
    - replace base with p by lia. rewrite Hp, Hcp. reflexivity.
  Qed.

  Lemma branchless_sound fuel : forall base size p,
    branchless cmp l fuel base size = Some p -> nth_error l p = Some name.
  Proof.
    induction fuel; intros base size p; cbn [branchless]; [discriminate|].
    destruct (Nat.ltb 1 size).
    - destruct (nth_error l _) eqn:Em; [|discriminate]. apply IHfuel.
    - destruct (nth_error l base) eqn:Em; [|discriminate].
      destruct (cmp x) eqn:Ec; try discriminate.
      intro H; inversion H; subst. apply xn_compare_eq in Ec. subst. exact Em.
  Qed.

  Lemma find_complete alg p : nth_error l p = Some name -> find alg name l = Some p.
  Proof.
    intro Hp. assert (p < length l) by (apply nth_error_Some; congruence).
    unfold find, binary_search. destruct alg.
    - apply bisect_complete; auto; lia.
    - destruct (Nat.eqb_spec (length l) 0); [lia|]. apply branchless_complete; auto; lia.
  Qed.
End Search.

(** Soundness does not need sortedness. *)
Lemma find_sound alg name l p : find alg name l = Some p -> nth_error l p = Some name.
Proof.
  unfold find, binary_search. destruct alg.
  - apply bisect_sound.
  - destruct (Nat.eqb (length l) 0); [discriminate|]. apply branchless_sound.
Qed.

Lemma find_spec alg name l p : StronglySorted xn_lt l ->
  find alg name l = Some p <-> nth_error l p = Some name.
Proof.
  intro H. split; [apply find_sound|]. apply find_complete. now apply sorted_increasing.
Qed.

Lemma find_none alg name l : StronglySorted xn_lt l ->
  find alg name l = None <-> ~ In name l.
Proof.
  intro H. split.
  - intros Hf Hin. apply In_nth_error in Hin as [p Hp].
    rewrite (proj2 (find_spec alg name l p H) Hp) in Hf. discriminate.
  - intro Hn. destruct (find alg name l) eqn:E; auto.
    exfalso. apply Hn. apply find_sound in E. eapply nth_error_In; eauto.
Qed.

(** ** Sorting *)

Section Sort.
  Context {A : Type} (le : A -> A -> bool).
  Context (total : forall a b, le a b = true \/ le b a = true).
  Context (trans : forall a b c, le a b = true -> le b c = true -> le a c = true).

  Lemma insert_perm x l : Permutation (insert_sorted le x l) (x :: l).
  Proof.
    induction l; cbn; auto. destruct (le x a); auto.
    transitivity (a :: x :: l); [constructor; auto|constructor].
  Qed.

  Lemma sort_perm l : Permutation (sort_by le l) l.
  Proof. induction l; cbn; auto. rewrite insert_perm. now constructor. Qed.

  Definition leP a b := le a b = true.

  Lemma insert_sorted_sorted x l : StronglySorted leP l -> StronglySorted leP (insert_sorted le x l).
  Proof.
    intro H. induction H as [|y l Hs IH Hf]; cbn; [repeat constructor|].
    destruct (le x y) eqn:E.
    - constructor; [constructor; auto|]. constructor; auto.
      eapply Forall_impl; [|exact Hf]. intros z Hz. eapply trans; eauto.
    - constructor; auto. apply Forall_forall. intros z Hz.
      apply (Permutation_in _ (insert_perm x l)) in Hz. destruct Hz as [<-|Hz].
      + destruct (total x y); auto. unfold leP. congruence.
      + rewrite Forall_forall in Hf. auto.
  Qed.

  Lemma sort_sorted l : StronglySorted leP (sort_by le l).
  Proof. induction l; cbn; [constructor|]. now apply insert_sorted_sorted. Qed.
End Sort.

(** A sorted list whose keys are pairwise distinct is strictly sorted. *)
Lemma strict_sorted {A} (le : A -> A -> bool) (key : A -> xname) l :
  (forall a b, le a b = true -> xn_compare (key a) (key b) <> Gt) ->
  StronglySorted (leP le) l -> NoDup (map key l) ->
  StronglySorted xn_lt (map key l).
Proof.
  intros Hk H N. induction H as [|x l Hs IH Hf]; cbn in *; [constructor|].
  inversion N; subst. constructor; auto.
  apply Forall_forall. intros y Hy. apply in_map_iff in Hy as (z & <- & Hz).
  rewrite Forall_forall in Hf. specialize (Hf z Hz). apply Hk in Hf. unfold xn_lt.
  destruct (xn_compare (key x) (key z)) eqn:E; try congruence.
  apply xn_compare_eq in E. exfalso. apply H1. rewrite E. now apply in_map.
Qed.

(** ** Generated tables *)

Lemma xn_le_total a b : (match xn_compare a b with Gt => false | _ => true end) = true \/
                        (match xn_compare b a with Gt => false | _ => true end) = true.
Proof. rewrite (xn_compare_antisym a b). destruct (xn_compare b a); cbn; auto. Qed.

Lemma xn_le_trans a b c :
  (match xn_compare a b with Gt => false | _ => true end) = true ->
  (match xn_compare b c with Gt => false | _ => true end) = true ->
  (match xn_compare a c with Gt => false | _ => true end) = true.
Proof.
  destruct (xn_compare a b) eqn:E1; try discriminate; intros _.
  - apply xn_compare_eq in E1. now subst.
  - destruct (xn_compare b c) eqn:E2; try discriminate; intros _.
    + apply xn_compare_eq in E2. subst. now rewrite E1.
    + now rewrite (xn_compare_trans _ _ _ E1 E2).
Qed.

(** Pairs (declaration position, name) of the fields selected by [sel]. *)
Definition selected (sel : field -> bool) (fields : list field) : list (nat * dname) :=
  map (fun '(i, f) => (i, f_name f)) (filter (fun '(_, f) => sel f) (indexed_from 0 fields)).

Lemma indexed_from_spec {A} (l : list A) : forall n i x,
  In (i, x) (indexed_from n l) <-> n <= i /\ nth_error l (i - n) = Some x.
Proof.
  induction l as [|y l IH]; intros n i x; cbn.
  - split; [tauto|]. intros [_ H]. destruct (i - n); discriminate.
  - rewrite IH. split.
    + intros [H|[H1 H2]].
      * inversion H; subst. rewrite Nat.sub_diag. auto.
      * split; [lia|]. replace (i - n) with (S (i - S n)) by lia. exact H2.
    + intros [H1 H2]. destruct (i - n) eqn:E.
      * left. cbn in H2. inversion H2; subst. f_equal. lia.
      * right. split; [lia|]. replace (i - S n) with n0 by lia. exact H2.
Qed.

Lemma selected_spec sel fields i n :
  In (i, n) (selected sel fields) <->
  exists f, nth_error fields i = Some f /\ sel f = true /\ f_name f = n.
Proof.
  unfold selected. rewrite in_map_iff. split.
  - intros ((j & f) & H1 & H2). inversion H1; subst. apply filter_In in H2 as [H2 H3].
    apply indexed_from_spec in H2 as [_ H2]. rewrite Nat.sub_0_r in H2. eauto.
  - intros (f & H1 & H2 & <-). exists (i, f). split; auto. apply filter_In. split; auto.
    apply indexed_from_spec. rewrite Nat.sub_0_r. split; [lia|auto].
Qed.

Lemma selected_names sel fields :
  map snd (selected sel fields) = map f_name (filter sel fields).
Proof.
  unfold selected. generalize 0. induction fields as [|f fields IH]; intro n; cbn; auto.
  destruct (sel f); cbn; now rewrite IH.
Qed.

Lemma sorted_fields_perm sel fields : Permutation (sorted_fields sel fields) (selected sel fields).
Proof. apply sort_perm. Qed.

Lemma sorted_fields_sorted sel fields : StronglySorted (leP field_le) (sorted_fields sel fields).
Proof.
  apply sort_sorted; unfold field_le.
  - intros a b. apply xn_le_total.
  - intros a b c. apply xn_le_trans.
Qed.

Definition field_names (sel : field -> bool) (fields : list field) : list xname :=
  map (fun f => expanded (f_name f)) (filter sel fields).

Lemma table_perm sel fields : Permutation (table (sorted_fields sel fields)) (field_names sel fields).
Proof.
  unfold table, field_names. rewrite sorted_fields_perm.
  rewrite <- (map_map f_name expanded), <- selected_names, map_map. reflexivity.
Qed.

Lemma struct_table_sorted sel fields : NoDup (field_names sel fields) ->
  StronglySorted xn_lt (table (sorted_fields sel fields)).
Proof.
  intro N. unfold table. apply (strict_sorted field_le (fun p => expanded (snd p))).
  - intros a b. unfold field_le. destruct (xn_compare _ _); congruence.
  - apply sorted_fields_sorted.
  - apply (Permutation_NoDup (Permutation_sym (table_perm sel fields)) N).
Qed.

(** Looking a name up in the generated table and going back to the field. *)
Definition lookup (alg : bs_alg) (sel : field -> bool) (fields : list field) (n : xname) : option nat :=
  match find alg n (table (sorted_fields sel fields)) with
  | Some i => option_map fst (nth_error (sorted_fields sel fields) i)
  | None => None
  end.

Lemma lookup_spec alg sel fields n p : NoDup (field_names sel fields) ->
  lookup alg sel fields n = Some p <->
  exists f, nth_error fields p = Some f /\ sel f = true /\ expanded (f_name f) = n.
Proof.
  intro N. unfold lookup. pose proof (struct_table_sorted sel fields N) as Hs.
  assert (In2 : forall q d, In (q, d) (sorted_fields sel fields) <-> In (q, d) (selected sel fields)).
  { intros q d. split; apply Permutation_in; [|symmetry]; apply sorted_fields_perm. }
  split.
  - destruct (find alg n (table _)) as [i|] eqn:E; [|discriminate].
    apply find_sound in E. unfold table in E. rewrite nth_error_map in E.
    destruct (nth_error (sorted_fields sel fields) i) as [[q d]|] eqn:En; [|discriminate].
    cbn in *. intro H; inversion H; subst. inversion E; subst.
    apply nth_error_In in En. apply In2, selected_spec in En as (f & H1 & H2 & <-). eauto.
  - intros (f & H1 & H2 & H3).
    assert (I : In (p, f_name f) (sorted_fields sel fields)) by (apply In2, selected_spec; eauto).
    apply In_nth_error in I as [i Hi].
    assert (E : nth_error (table (sorted_fields sel fields)) i = Some n).
    { unfold table. rewrite nth_error_map, Hi. cbn. now f_equal. }
    rewrite (proj2 (find_spec alg n _ i Hs) E), Hi. reflexivity.
Qed.

Lemma lookup_none alg sel fields n : NoDup (field_names sel fields) ->
  lookup alg sel fields n = None <-> ~ In n (field_names sel fields).
Proof.
  intro N. split.
  - intros H Hin. unfold field_names in Hin. apply in_map_iff in Hin as (f & Hf & Hin).
    apply filter_In in Hin as [Hin Hs]. apply In_nth_error in Hin as [p Hp].
    assert (lookup alg sel fields n = Some p) by (apply lookup_spec; eauto). congruence.
  - intro Hn. destruct (lookup alg sel fields n) eqn:E; auto.
    apply lookup_spec in E as (f & H1 & H2 & H3); auto. exfalso. apply Hn.
    unfold field_names. apply in_map_iff. exists f. split; auto. apply filter_In. split; auto.
    eapply nth_error_In; eauto.
Qed.

(** Enums: sorted by [Option<String>] namespace, searched by string namespace; the orders agree
    unless some variant has an explicitly empty namespace. *)
Definition no_empty_ns (vs : list variant) : Prop :=
  forall v, In v vs -> n_ns (v_name v) <> Some "".

Definition variant_names (vs : list variant) : list xname := map (fun v => expanded (v_name v)) vs.

Lemma variant_le_total a b : variant_le a b = true \/ variant_le b a = true.
Proof.
  unfold variant_le. destruct (n_ns (v_name a)) as [x|], (n_ns (v_name b)) as [y|]; cbn; auto.
  - rewrite (String.compare_antisym x y).
    destruct (String.compare y x); cbn; auto.
    rewrite (String.compare_antisym (n_local (v_name a))).
    destruct (String.compare (n_local (v_name b)) _); cbn; auto.
  - rewrite (String.compare_antisym (n_local (v_name a))).
    destruct (String.compare (n_local (v_name b)) _); cbn; auto.
Qed.

Lemma str_le_trans a b c : String.compare a b <> Gt -> String.compare b c <> Gt -> String.compare a c <> Gt.
Proof.
  destruct (String.compare a b) eqn:E1; try congruence; intros _.
  - apply str_compare_eq in E1. now subst.
  - destruct (String.compare b c) eqn:E2; try congruence; intros _.
    + apply str_compare_eq in E2. subst. congruence.
    + rewrite (str_compare_trans _ _ _ E1 E2). discriminate.
Qed.

Lemma variant_le_trans a b c : variant_le a b = true -> variant_le b c = true -> variant_le a c = true.
Proof.
  unfold variant_le.
  set (la := n_local (v_name a)); set (lb := n_local (v_name b)); set (lc := n_local (v_name c)).
  assert (L : forall x y, (match String.compare x y with Gt => false | _ => true end) = true <-> String.compare x y <> Gt).
  { intros x y. destruct (String.compare x y); split; congruence. }
  destruct (n_ns (v_name a)) as [x|], (n_ns (v_name b)) as [y|], (n_ns (v_name c)) as [z|];
    cbn [opt_compare]; try congruence; rewrite ?L.
  - destruct (String.compare x y) eqn:E1; try congruence.
    + apply str_compare_eq in E1. subst y.
      destruct (String.compare x z); auto. rewrite !L. apply str_le_trans.
    + intros _. destruct (String.compare y z) eqn:E2; try congruence.
      * apply str_compare_eq in E2. subst z. now rewrite E1.
      * intros _. now rewrite (str_compare_trans _ _ _ E1 E2).
  - apply str_le_trans.
Qed.

Lemma variant_le_key vs a b : no_empty_ns vs -> In a vs -> In b vs ->
  variant_le a b = true -> xn_compare (expanded (v_name a)) (expanded (v_name b)) <> Gt.
Proof.
  intros H Ha Hb. specialize (H a Ha) as Na. specialize (H b Hb) as Nb.
  unfold variant_le, xn_compare, expanded; cbn.
  destruct (n_ns (v_name a)) as [x|], (n_ns (v_name b)) as [y|]; cbn.
  - destruct (String.compare x y); try congruence.
    destruct (String.compare (n_local _) _); congruence.
  - discriminate.
  - destruct y; [congruence|]. discriminate.
  - destruct (String.compare (n_local _) _); congruence.
Qed.

Lemma variant_table_perm vs : Permutation (variant_table vs) (variant_names vs).
Proof. unfold variant_table, variant_names, sorted_variants. now rewrite (sort_perm variant_le vs). Qed.

Lemma strict_sorted_in {A} (le : A -> A -> bool) (key : A -> xname) l :
  (forall a b, In a l -> In b l -> le a b = true -> xn_compare (key a) (key b) <> Gt) ->
  StronglySorted (leP le) l -> NoDup (map key l) ->
  StronglySorted xn_lt (map key l).
Proof.
  intros Hk H N. induction H as [|x l Hs IH Hf]; cbn in *; [constructor|].
  inversion N; subst. constructor; auto.
  apply Forall_forall. intros y Hy. apply in_map_iff in Hy as (z & <- & Hz).
  rewrite Forall_forall in Hf. specialize (Hf z Hz). apply Hk in Hf; auto. unfold xn_lt.
  destruct (xn_compare (key x) (key z)) eqn:E; try congruence.
  apply xn_compare_eq in E. exfalso. apply H1. rewrite E. now apply in_map.
Qed.

Lemma enum_table_sorted vs : no_empty_ns vs -> NoDup (variant_names vs) ->
  StronglySorted xn_lt (variant_table vs).
Proof.
  intros H N. unfold variant_table. apply (strict_sorted_in variant_le (fun v => expanded (v_name v))).
  - intros a b Ha Hb. apply (variant_le_key vs); auto;
      eapply Permutation_in; try apply (sort_perm variant_le vs); auto.
  - apply sort_sorted; [apply variant_le_total|apply variant_le_trans].
  - apply (Permutation_NoDup (Permutation_sym (variant_table_perm vs)) N).
Qed.

(** Names declared by variants are found, and what is found is the variant with that name. *)
Definition vlookup (alg : bs_alg) (vs : list variant) (n : xname) : option nat :=
  find alg n (variant_table vs).

Lemma vlookup_spec alg vs n i : no_empty_ns vs -> NoDup (variant_names vs) ->
  vlookup alg vs n = Some i <->
  exists v, nth_error (sorted_variants vs) i = Some v /\ expanded (v_name v) = n.
Proof.
  intros H N. unfold vlookup. rewrite find_spec by (now apply enum_table_sorted).
  unfold variant_table. rewrite nth_error_map.
  destruct (nth_error (sorted_variants vs) i); cbn; split.
  - intro E; inversion E; subst. eauto.
  - intros (v' & E & <-). now inversion E.
  - discriminate.
  - intros (v' & E & _). discriminate.
Qed.

Lemma vlookup_none alg vs n : no_empty_ns vs -> NoDup (variant_names vs) ->
  vlookup alg vs n = None <-> ~ In n (variant_names vs).
Proof.
  intros H N. unfold vlookup. rewrite find_none by (now apply enum_table_sorted).
  split; intros Hn Hin; apply Hn; eapply Permutation_in; try exact Hin;
    [symmetry|]; apply variant_table_perm.
Qed.

Lemma enum_table_refuted : exists vs, NoDup (variant_names vs) /\
  ~ StronglySorted xn_lt (variant_table vs) /\
  exists n, In n (variant_names vs) /\ forall alg, vlookup alg vs n = None.
Proof.
  exists [Variant (DName (Some "") "A") None; Variant (DName None "B") None]. split; [|split].
  - cbn. nodup.
  - vm_compute. intro H. inversion H; subst. inversion H3; subst. discriminate.
  - exists (XName "" "B"). split; [cbn; auto|]. intros []; vm_compute; reflexivity.
Qed.
