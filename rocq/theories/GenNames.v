(** Generated names do not collide, and positions in the sorted tables are right. *)
From Verif Require Import Base Normalize Text Find FindProofs Types DeriveAttr GenCode GenRun.
From Coq Require Import Lia Permutation Sorted.

(** ** Strings *)

Lemma str_len_app a b : String.length (a ++ b)%string = String.length a + String.length b.
Proof. induction a; cbn; auto. Qed.

Lemma str_app_inv_tail a b s : (a ++ s)%string = (b ++ s)%string -> a = b.
Proof.
  revert b. induction a as [|c a IH]; intros [|d b] H; cbn in H; auto.
  - exfalso. apply (f_equal String.length) in H. cbn in H. rewrite str_len_app in H. lia.
  - exfalso. apply (f_equal String.length) in H. cbn in H. rewrite str_len_app in H. lia.
  - injection H as -> H. f_equal. now apply IH.
Qed.

Fixpoint last_char (s : string) : option ascii :=
  match s with
  | "" => None
  | String c s' => match last_char s' with Some d => Some d | None => Some c end
  end%string.

Lemma last_char_app a b c : last_char b = Some c -> last_char (a ++ b)%string = Some c.
Proof. intro H. induction a as [|d a IH]; cbn; auto. now rewrite IH. Qed.

(** ** Identifiers *)

(** An identifier has ["#"] only after the [r] of a raw identifier. *)
Fixpoint no_hash (x : string) : bool :=
  match x with
  | "" => true
  | String c x' => negb (Ascii.eqb c "#") && no_hash x'
  end%string.
Definition rust_ident (x : string) : Prop := no_hash (unraw x) = true.

Lemma no_hash_unraw x : no_hash x = true -> unraw x = x.
Proof.
  destruct x as [|c [|d x]]; auto. cbn. destruct (Ascii.eqb c "r") eqn:E; cbn; auto.
  destruct (Ascii.eqb d "#") eqn:E2; cbn; auto. now rewrite andb_false_r.
Qed.

Lemma unraw_suffix x s : no_hash x = true -> no_hash s = true -> unraw (x ++ s)%string = (x ++ s)%string.
Proof.
  intros H1 H2. apply no_hash_unraw. induction x as [|c x IH]; cbn in *; auto.
  apply andb_true_iff in H1 as [-> H1]. cbn. auto.
Qed.

Lemma unraw_present x : rust_ident x -> unraw (present_of x) = present_of x.
Proof. intro H. now apply unraw_suffix. Qed.
Lemma unraw_visitor x : rust_ident x -> unraw (visitor_of x) = visitor_of x.
Proof. intro H. now apply unraw_suffix. Qed.

Lemma present_inj x y : present_of x = present_of y -> unraw x = unraw y.
Proof. apply str_app_inv_tail. Qed.
Lemma visitor_inj x y : visitor_of x = visitor_of y -> unraw x = unraw y.
Proof. apply str_app_inv_tail. Qed.

Lemma present_visitor x y : present_of x <> visitor_of y.
Proof.
  intro H. apply (f_equal last_char) in H. unfold present_of, visitor_of in H.
  rewrite (last_char_app _ "_present" "t"%char eq_refl), (last_char_app _ "_visitor" "r"%char eq_refl) in H. discriminate.
Qed.

Lemma short_suffix x s y : String.length y < String.length s -> (x ++ s)%string <> y.
Proof. intros H E. apply (f_equal String.length) in E. rewrite str_len_app in E. lia. Qed.

Lemma same_len_suffix x s y : String.length y = String.length s -> s <> y -> (x ++ s)%string <> y.
Proof.
  intros H N E. assert (String.length x = 0). { apply (f_equal String.length) in E. rewrite str_len_app in E. lia. }
  destruct x; [|discriminate]. now apply N.
Qed.

Lemma present_out x : present_of x <> "out"%string.
Proof. apply short_suffix. cbn. lia. Qed.
Lemma visitor_out x : visitor_of x <> "out"%string.
Proof. apply short_suffix. cbn. lia. Qed.
Lemma present_phantom x : present_of x <> "_phantom"%string.
Proof. apply same_len_suffix; [reflexivity|discriminate]. Qed.
Lemma visitor_phantom x : visitor_of x <> "_phantom"%string.
Proof. apply same_len_suffix; [reflexivity|discriminate]. Qed.

Lemma same_refl x : same_ident x x = true.
Proof. unfold same_ident. apply String.eqb_refl. Qed.

Lemma same_iff x y : same_ident x y = true <-> unraw x = unraw y.
Proof. unfold same_ident. apply String.eqb_eq. Qed.

(** ** Fields by name *)

Definition keys {A} (l : list (string * A)) : list string := map (fun x => unraw (fst x)) l.

Lemma get_nth {A} (l : list (string * A)) p x a y : NoDup (keys l) -> nth_error l p = Some (x, a) ->
  unraw x = unraw y -> get y l = Some a.
Proof.
  intros N H E. revert p N H. induction l as [|[z b] l IH]; intros [|p] N H; cbn in *; try discriminate.
  - injection H as -> ->. apply same_iff in E. now rewrite E.
  - inversion N as [|? ? N1 N2]; subst. destruct (same_ident z y) eqn:Ez; [|eauto].
    apply same_iff in Ez. exfalso. apply N1. rewrite Ez, <- E. change (unraw x) with (unraw (fst (x, a))).
    apply (in_map (fun x => unraw (fst x))). eapply nth_error_In; eauto.
Qed.

Lemma set_nth_name {A} (l : list (string * A)) p x a y b : NoDup (keys l) -> nth_error l p = Some (x, a) ->
  unraw x = unraw y -> set y b l = set_nth p (x, b) l.
Proof.
  intros N H E. revert p N H. induction l as [|[z c] l IH]; intros [|p] N H; cbn in *; try discriminate.
  - injection H as -> ->. apply same_iff in E. now rewrite E.
  - inversion N as [|? ? N1 N2]; subst. destruct (same_ident z y) eqn:Ez; [|f_equal; eauto].
    apply same_iff in Ez. exfalso. apply N1. rewrite Ez, <- E. change (unraw x) with (unraw (fst (x, a))).
    apply (in_map (fun x => unraw (fst x))). eapply nth_error_In; eauto.
Qed.

Lemma get_none {A} (l : list (string * A)) y : ~ In (unraw y) (keys l) -> get y l = None.
Proof.
  induction l as [|[z b] l IH]; cbn; auto. intro H. destruct (same_ident z y) eqn:E.
  - apply same_iff in E. exfalso. apply H. now left.
  - apply IH. tauto.
Qed.

Lemma named_iff x l : named x l = true <-> In (unraw x) (map unraw l).
Proof.
  unfold named. rewrite existsb_exists, in_map_iff. split.
  - intros (y & H & E). apply same_iff in E. eauto.
  - intros (y & E & H). exists y. split; auto. now apply same_iff.
Qed.

Lemma distinct_iff l : distinct l = true <-> NoDup (map unraw l).
Proof.
  induction l as [|x l IH]; cbn; [split; auto using NoDup_nil|].
  rewrite andb_true_iff, negb_true_iff, IH. split.
  - intros [H1 H2]. constructor; auto. intro H. apply named_iff in H. congruence.
  - intro H. inversion H as [|? ? H1 H2]; subst. split; auto.
    destruct (named x l) eqn:E; auto. apply named_iff in E. contradiction.
Qed.

(** ** Sorting *)

Lemma insert_map {A B} (g : A -> B) le le' (Hle : forall a b, le' (g a) (g b) = le a b) x l :
  insert_sorted le' (g x) (map g l) = map g (insert_sorted le x l).
Proof. induction l as [|y l IH]; cbn; auto. rewrite Hle. destruct (le x y); cbn; auto. now rewrite IH. Qed.

Lemma sort_map {A B} (g : A -> B) le le' (Hle : forall a b, le' (g a) (g b) = le a b) l :
  sort_by le' (map g l) = map g (sort_by le l).
Proof.
  unfold sort_by. induction l as [|x l IH]; cbn; auto. rewrite IH. now apply insert_map.
Qed.

(** ** Positions *)

Definition sel_of (m : emode) (f : field) : bool :=
  match m with EElement => is_element f | EAttribute => is_attribute f | EFlatten => is_flatten f | EText_ => false end.

Definition dname_at (fs : list efield) (p : nat) : dname :=
  match nth_error fs p with Some f => dname_of (ef_name f) | None => DName (Some "") "" end.

Lemma name_at_dname fs p : name_at fs p = expanded (dname_at fs p).
Proof. unfold name_at, dname_at, ename. now destruct (nth_error fs p). Qed.

Definition fields_of (fs : list efield) (fs' : list field) : Prop := Forall2 (fun f f' => field_of f = Some f') fs fs'.

Lemma fields_of_iff fs fs' : all_somes (map field_of fs) = Some fs' <-> fields_of fs fs'.
Proof.
  split.
  - revert fs'. induction fs as [|f fs IH]; cbn; intros fs' H; [injection H as <-; constructor|].
    destruct (field_of f) as [f'|] eqn:E; [|discriminate]. destruct (all_somes _) as [l|] eqn:E2; [|discriminate].
    injection H as <-. constructor; auto. now apply IH.
  - induction 1 as [|f f' fs fs' H _ IH]; cbn; auto. now rewrite H, IH.
Qed.

Lemma field_of_sel f f' m : field_of f = Some f' -> m <> EText_ -> sel_of m f' = same_mode (ef_mode f) m.
Proof.
  unfold field_of. destruct (ef_mode f); destruct (sf_ty (ef_field f)) as [[] []];
    try discriminate; destruct (ef_default f); try destruct (sf_dflt (ef_field f)); try discriminate;
    intros [= <-]; destruct m; cbn; intro H; try reflexivity; now destruct H.
Qed.

Lemma field_of_fname f f' : field_of f = Some f' -> f_name f' = dname_of (ef_name f).
Proof.
  unfold field_of. destruct (match ef_mode f with EElement => _ | _ => _ end); [|discriminate].
  destruct (if ef_default f then _ else _); [|discriminate]. now intros [= <-].
Qed.

Lemma filter_positions m (Hm : m <> EText_) dn : forall fs fs' k, fields_of fs fs' ->
  (forall j f, nth_error fs j = Some f -> dn (k + j) = dname_of (ef_name f)) ->
  map (fun '(i, f) => (i, f_name f)) (filter (fun '(_, f) => sel_of m f) (indexed_from k fs')) =
  map (fun p => (p, dn p)) (map fst (filter (fun '(_, f) => same_mode (ef_mode f) m) (indexed_from k fs))).
Proof.
  intros fs fs' k H. revert k. induction H as [|f f' fs fs' H _ IH]; intros k Hd; cbn; auto.
  rewrite (field_of_sel _ _ _ H Hm).
  assert (IH' := IH (S k) (fun j g Hj => eq_trans (f_equal dn (Nat.add_succ_comm k j)) (Hd (S j) g Hj))).
  assert (D := Hd 0 f eq_refl). rewrite Nat.add_0_r in D.
  destruct (same_mode (ef_mode f) m); cbn; rewrite IH'; auto.
  rewrite D, (field_of_fname _ _ H). reflexivity.
Qed.

Lemma sorted_fields_of m (Hm : m <> EText_) fs fs' : fields_of fs fs' ->
  sorted_fields (sel_of m) fs' = map (fun p => (p, dname_at fs p)) (sorted_of m fs).
Proof.
  intro H. unfold sorted_fields, sorted_of, sort_positions.
  rewrite (filter_positions m Hm (dname_at fs) fs fs' 0 H).
  - unfold mode_positions. apply (sort_map (fun p => (p, dname_at fs p))). intros a b. unfold field_le. cbn.
    now rewrite !name_at_dname.
  - intros j f Hj. cbn. unfold dname_at. now rewrite Hj.
Qed.

Lemma table_of m (Hm : m <> EText_) fs fs' : fields_of fs fs' ->
  table (sorted_fields (sel_of m) fs') = names_of fs (sorted_of m fs).
Proof.
  intro H. rewrite (sorted_fields_of m Hm fs fs' H). unfold table, names_of. rewrite map_map. apply map_ext.
  intro p. cbn. now rewrite name_at_dname.
Qed.

Lemma mode_positions_iff m fs p : In p (mode_positions m fs) <-> exists f, nth_error fs p = Some f /\ same_mode (ef_mode f) m = true.
Proof.
  unfold mode_positions. rewrite in_map_iff. split.
  - intros ((i & f) & <- & H). apply filter_In in H as [H1 H2]. apply indexed_from_spec in H1 as [_ H1].
    rewrite Nat.sub_0_r in H1. eauto.
  - intros (f & H1 & H2). exists (p, f). split; auto. apply filter_In. split; auto. apply indexed_from_spec.
    rewrite Nat.sub_0_r. split; auto. lia.
Qed.

Lemma indexed_fst_nodup {A} (P : nat * A -> bool) (l : list A) k : NoDup (map fst (filter P (indexed_from k l))).
Proof.
  revert k. induction l as [|x l IH]; intro k; cbn; [constructor|]. destruct (P (k, x)); cbn; auto.
  constructor; auto. rewrite in_map_iff. intros ((i & y) & E & H). cbn in E. subst i. apply filter_In in H as [H _].
  apply indexed_from_spec in H as [H _]. lia.
Qed.

Lemma sorted_nodup m fs : NoDup (sorted_of m fs).
Proof.
  unfold sorted_of, sort_positions. eapply Permutation_NoDup; [apply Permutation_sym, sort_perm|]. apply indexed_fst_nodup.
Qed.

Lemma sorted_iff m fs p : In p (sorted_of m fs) <-> exists f, nth_error fs p = Some f /\ same_mode (ef_mode f) m = true.
Proof.
  rewrite <- mode_positions_iff. unfold sorted_of, sort_positions. split; apply Permutation_in; [|apply Permutation_sym]; apply sort_perm.
Qed.

Lemma nth_set_other {A} (l : list A) p q x : p <> q -> nth_error (set_nth p x l) q = nth_error l q.
Proof. revert p q. induction l as [|y l IH]; intros [|p] [|q] H; cbn; auto; try lia. Qed.

Lemma set_nth_len {A} (l : list A) p x : List.length (set_nth p x l) = List.length l.
Proof. revert p. induction l as [|y l IH]; intros [|p]; cbn; auto. Qed.

Lemma nth_set_same {A} (l : list A) p x : p < List.length l -> nth_error (set_nth p x l) p = Some x.
Proof. revert p. induction l as [|y l IH]; intros [|p] H; cbn in *; auto; try lia. apply IH. lia. Qed.

Lemma assign_other l : forall k ps p, ~ In p l ->
  nth_error (fold_left (fun ps '(i, p) => set_nth p (Some i) ps) (indexed_from k l) ps) p = nth_error ps p.
Proof.
  induction l as [|q l IH]; intros k ps p H; cbn; auto. rewrite IH; [|cbn in H; tauto].
  apply nth_set_other. cbn in H. intro. subst. tauto.
Qed.

Lemma assign_spec l : forall k ps p i, NoDup l -> (forall q, In q l -> q < List.length ps) -> nth_error l i = Some p ->
  nth_error (fold_left (fun ps '(i, p) => set_nth p (Some i) ps) (indexed_from k l) ps) p = Some (Some (k + i)).
Proof.
  induction l as [|q l IH]; intros k ps p [|i] N HB H; cbn in *; try discriminate; inversion N; subst.
  - injection H as ->. rewrite assign_other; auto. rewrite Nat.add_0_r. apply nth_set_same. auto.
  - rewrite Nat.add_succ_r. apply (IH (S k)); auto. intros r Hr. rewrite set_nth_len. auto.
Qed.

Lemma position_spec m fs p i : nth_error (sorted_of m fs) i = Some p -> position_of m fs p = Some i.
Proof.
  intro H. unfold position_of, assign_positions. rewrite (assign_spec _ 0 _ p i); auto using sorted_nodup.
  intros q Hq. rewrite repeat_length. apply sorted_iff in Hq as (f & Hq & _). apply nth_error_Some. congruence.
Qed.

Lemma position_known m fs p f : nth_error fs p = Some f -> same_mode (ef_mode f) m = true ->
  exists i, position_of m fs p = Some i /\ nth_error (sorted_of m fs) i = Some p.
Proof.
  intros H1 H2. assert (In p (sorted_of m fs)) as H by (apply sorted_iff; eauto).
  apply In_nth_error in H as [i H]. exists i. split; auto. now apply position_spec.
Qed.

Lemma set_nth_id {A} (l : list A) p x : nth_error l p = Some x -> set_nth p x l = l.
Proof. revert p. induction l as [|y l IH]; intros [|p] H; cbn in *; try discriminate; [congruence|]. now rewrite IH. Qed.
