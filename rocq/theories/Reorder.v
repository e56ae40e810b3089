(** Declaring fields in another order does not matter. *)
From Verif Require Import Base Normalize Text Find FindProofs Types Ser SerSpec Reader ReaderSpec ReaderProofs DeSpec DeDet DeriveDe DeProps
  DeriveSer DSerSpec DSerProofs DSerProps RTSpec RTProofs RTProps ReorderSpec.
From Coq Require Import Lia Permutation.

(** ** Shuffling *)

Lemma shuffle_refl {A} (g : A -> bool) l : shuffle g l l.
Proof. induction l; now constructor. Qed.

Lemma shuffle_sym {A} (g : A -> bool) l l' : shuffle g l l' -> shuffle g l' l.
Proof.
  induction 1 as [|x l l' _ IH|x y l H|a b c _ IH1 _ IH2]; [constructor|now constructor| |eauto using @sh_trans].
  constructor. now rewrite andb_comm.
Qed.

Lemma shuffle_perm {A} (g : A -> bool) l l' : shuffle g l l' -> Permutation l l'.
Proof. induction 1; [constructor|now constructor|constructor|eauto using Permutation_trans]. Qed.

Lemma shuffle_fixed {A} (g : A -> bool) l l' : shuffle g l l' -> filter g l = filter g l'.
Proof.
  induction 1 as [|x l l' _ IH|x y l H|a b c _ IH1 _ IH2]; cbn; [reflexivity|now rewrite IH| |congruence].
  destruct (g x), (g y); try reflexivity. discriminate.
Qed.

(** Take the elements out one by one. *)
Fixpoint take {A} (fixed : A -> bool) (i : nat) (l : list A) : option (A * list A) :=
  match l, i with
  | [], _ => None
  | x :: l, 0 => Some (x, l)
  | x :: l, S i => match take fixed i l with
      | Some (y, l') => if fixed x && fixed y then None else Some (y, x :: l')
      | None => None
      end
  end.
Fixpoint take_all {A} (fixed : A -> bool) (is : list nat) (l : list A) : option (list A) :=
  match is with
  | [] => match l with [] => Some [] | _ => None end
  | i :: is => match take fixed i l with
      | Some (x, l') => option_map (cons x) (take_all fixed is l')
      | None => None
      end
  end.

Lemma take_shuffle {A} (g : A -> bool) l : forall i x l', take g i l = Some (x, l') -> shuffle g l (x :: l').
Proof.
  induction l as [|y l IH]; intros [|i] x l' H; cbn in H; try discriminate.
  - injection H as <- <-. apply shuffle_refl.
  - destruct (take g i l) as [[z m]|] eqn:E; [|discriminate]. destruct (g y && g z) eqn:G; [discriminate|]. injection H as <- <-.
    eapply sh_trans; [apply sh_cons, (IH _ _ _ E)|now apply sh_swap].
Qed.

Lemma take_all_shuffle {A} (g : A -> bool) is : forall l m, take_all g is l = Some m -> shuffle g l m.
Proof.
  induction is as [|i is IH]; intros l m H; cbn in H.
  - destruct l; [|discriminate]. injection H as <-. constructor.
  - destruct (take g i l) as [[x l']|] eqn:E; [|discriminate]. destruct (take_all g is l') as [m'|] eqn:E'; [|discriminate].
    injection H as <-. eapply sh_trans; [eapply take_shuffle; eauto|]. constructor. now apply IH.
Qed.

(** Values go with their fields. *)
Lemma shuffle_combine {B} (g : field -> bool) fs m : shuffle g fs m -> forall vs : list B, length fs = length vs ->
  exists us, length m = length us /\ shuffle (fun p => g (fst p)) (combine fs vs) (combine m us).
Proof.
  induction 1 as [|x l l' _ IH|x y l H|a b c _ IH1 _ IH2]; intros vs L.
  - exists []. split; [reflexivity|]. cbn. constructor.
  - destruct vs as [|v vs]; [discriminate|]. injection L as L. destruct (IH vs L) as (us & L' & S1).
    exists (v :: us). split; [cbn; congruence|]. cbn. now constructor.
  - destruct vs as [|v [|w vs]]; try discriminate. exists (w :: v :: vs). split; [cbn in *; congruence|].
    cbn. constructor. exact H.
  - destruct (IH1 vs L) as (us & L1 & S1). destruct (IH2 us L1) as (ws & L2 & S2). exists ws. split; [exact L2|].
    eapply sh_trans; eauto.
Qed.

Section Reads.
  Context (o : oracles) (env env' : tenv).
  Notation re := (re env env').
  Notation R := (reads o env).
  Notation R' := (reads o env').
  Hypothesis RE : rearranged env env'.

  (** [fields_hold] on pairs. *)
  Definition hold (attrs : list attr) (kids l : list node) (ps : list (field * value)) : Prop :=
    fields_hold o env R attrs kids l (map fst ps) (map snd ps).

  Lemma hold_shuffle attrs kids ps ps' : shuffle (fun p => is_flatten (fst p)) ps ps' -> forall l,
    hold attrs kids l ps -> hold attrs kids l ps'.
  Proof.
    unfold hold. induction 1 as [|[f v] ps ps' _ IH|[f v] [g u] ps H|a b c _ IH1 _ IH2]; intros l HH; cbn [map fst snd] in *.
    - exact HH.
    - inversion HH; subst; [apply fhs_own; auto|eapply fhs_flatten; eauto].
    - cbn [fst] in H. inversion HH as [|? ? ? ? ? NF HF HT|? ? ? id i r n ws sk ? ? M E HC HT]; subst.
      + inversion HT as [|? ? ? ? ? NG HG HT'|? ? ? id i r n ws sk ? ? M E HC HT']; subst.
        * apply fhs_own; auto. apply fhs_own; auto.
        * eapply fhs_flatten; eauto. apply fhs_own; auto.
      + inversion HT as [|? ? ? ? ? NG HG HT'|? ? ? id' i' r' n' ws' sk' ? ? M' E' HC' HT']; subst.
        * apply fhs_own; auto. eapply fhs_flatten; eauto.
        * exfalso. unfold is_flatten in H. rewrite M, M' in H. discriminate.
    - eauto.
  Qed.

  Definition good (c : node) : Prop := forall t v, R t c v -> exists v', R' t c v' /\ re t v v'.

  Lemma good_each t cs vs : Forall good cs -> Forall2 (R t) cs vs -> exists vs', Forall2 (R' t) cs vs' /\ Forall2 (re t) vs vs'.
  Proof.
    intros G H. induction H as [|c v cs vs Hc _ IH]; [exists []; auto|]. inversion G as [|? ? Gc Gs]; subst.
    destruct (IH Gs) as (vs' & H1 & H2). destruct (Gc t v Hc) as (v' & H3 & H4). exists (v' :: vs'). auto.
  Qed.

  Lemma good_occurs t k cs v : Forall good cs -> occurs (R t) k cs v ->
    exists v' l l', occurs (R' t) k cs v' /\ items k v l /\ items k v' l' /\ Forall2 (re t) l l'.
  Proof.
    intros G H. inversion H as [c u HR|c u HR|cs' us Hne HR]; subst.
    - destruct (Forall_inv G t v HR) as (u' & H1 & H2). exists u', [v], [u'].
      split; [now constructor|]. split; [constructor|]. split; [constructor|auto].
    - destruct (Forall_inv G t u HR) as (u' & H1 & H2). exists (VSome u'), [u], [u'].
      split; [now constructor|]. split; [constructor|]. split; [constructor|auto].
    - destruct (good_each t cs us G HR) as (us' & H1 & H2). exists (VVec us'), us, us'.
      split; [now constructor|]. split; [constructor|]. split; [constructor|assumption].
  Qed.

  Lemma absent_re f f' v : same_field f f' -> same_default env env' f f' -> absent f v ->
    exists v', absent f' v' /\ field_re re (f_mode f) v v'.
  Proof.
    intros [M _] D A. unfold same_default in D.
    inversion A as [? E|t E Mf|t E Mf|t E Mf]; subst; rewrite E in D; destruct (f_default f') as [d'|] eqn:E'; try contradiction.
    - exists d'. split; [now constructor|exact D].
    - exists VNone. split; [eapply abs_opt; [exact E'|rewrite <- M; exact Mf]|]. rewrite Mf. econstructor; constructor.
    - exists (VVec []). split; [eapply abs_vec; [exact E'|rewrite <- M; exact Mf]|]. rewrite Mf. econstructor; constructor.
    - exists VNone. split; [eapply abs_attr; [exact E'|rewrite <- M; exact Mf]|]. rewrite Mf. constructor.
  Qed.

  Lemma field_good attrs kids f f' v : Forall good kids -> is_flatten f = false -> same_field f f' ->
    same_default env env' f f' -> field_holds o R attrs kids f v ->
    exists v', field_holds o R' attrs kids f' v' /\ field_re re (f_mode f) v v'.
  Proof.
    intros G NF SF D H. pose proof SF as [M N]. specialize (N NF).
    inversion H as [k t u Mf HO|k t u Mf HN HB|opt t s x Mf HV HP|opt t u Mf HN HB]; subst; rewrite Mf in M.
    - destruct (good_occurs t k _ v (Forall_filter _ (has_name (expanded (f_name f))) _ G) HO) as (v' & l & l' & H1 & H2 & H3 & H4).
      exists v'. split; [eapply fh_element; [eauto|]; now rewrite <- N|]. rewrite Mf. econstructor; eauto.
    - destruct (absent_re f f' v SF D HB) as (v' & A' & U). exists v'. split; [|assumption].
      eapply fh_no_element; eauto. now rewrite <- N.
    - eexists. split; [eapply fh_attribute; eauto; rewrite <- N; exact HV|]. rewrite Mf. constructor.
    - destruct (absent_re f f' v SF D HB) as (v' & A' & U). exists v'. split; [|assumption].
      eapply fh_no_attribute; eauto. now rewrite <- N.
  Qed.

  (** ** Variants *)

  Lemma variant_here ws ws' m w : Permutation ws m -> Forall2 same_variant m ws' -> In w ws ->
    exists w', In w' ws' /\ same_variant w w'.
  Proof.
    intros P F H. apply (Permutation_in _ P) in H. clear P. induction F as [|a b la lb Hab _ IH]; [contradiction|].
    destruct H as [->|H]; [exists b; split; [now left|exact Hab]|]. destruct (IH H) as (w' & H1 & H2). exists w'. split; [now right|exact H2].
  Qed.

  Lemma variant_names_perm ws ws' m : Permutation ws m -> Forall2 same_variant m ws' ->
    Permutation (variant_names ws) (variant_names ws').
  Proof.
    intros P F. unfold variant_names. eapply Permutation_trans; [apply Permutation_map, P|]. clear P.
    induction F as [|a b la lb [H _] _ IH]; cbn; [constructor|]. rewrite H. now constructor.
  Qed.

  Lemma name_in_perm ns ns' c : Permutation ns ns' -> name_in ns c = name_in ns' c.
  Proof.
    unfold name_in. induction 1 as [|x l l' _ IH|x y l|a b d _ IH1 _ IH2]; cbn; [reflexivity|now rewrite IH| |congruence].
    destruct (has_name x c), (has_name y c); reflexivity.
  Qed.

  Lemma before_perm ns ns' l : Permutation ns ns' -> before_first ns l = before_first ns' l.
  Proof.
    intros P. induction l as [|c l IH]; cbn; [reflexivity|]. rewrite (name_in_perm ns ns' c P), IH. reflexivity.
  Qed.

  Lemma filter_perm ns ns' (l : list node) : Permutation ns ns' -> filter (name_in ns) l = filter (name_in ns') l.
  Proof. intros P. apply filter_ext. intros c. now apply name_in_perm. Qed.

  Lemma sorted_has ws w : In w ws -> exists i, nth_error (sorted_variants ws) i = Some w.
  Proof.
    intros H. apply In_nth_error. eapply Permutation_in; [apply Permutation_sym, sort_perm|exact H].
  Qed.

  Lemma sorted_from ws i w : nth_error (sorted_variants ws) i = Some w -> In w ws.
  Proof. intros H. apply nth_error_In in H. eapply Permutation_in; [apply sort_perm|exact H]. Qed.

  Lemma enum_re id i r n ws sk : env id = Some (TDEnum i r n ws sk) ->
    exists i' r' n' ws' sk' m, env' id = Some (TDEnum i' r' n' ws' sk') /\ Permutation ws m /\ Forall2 same_variant m ws'.
  Proof.
    intros E. pose proof (RE id) as D. rewrite E in D. destruct (env' id) as [[|i' r' n' ws' sk']|]; try contradiction.
    destruct D as (m & P & F). exists i', r', n', ws', sk', m. auto.
  Qed.

  Lemma choice_good id i r n ws sk i' r' n' ws' sk' m l v : env id = Some (TDEnum i r n ws sk) ->
    env' id = Some (TDEnum i' r' n' ws' sk') -> Permutation ws m -> Forall2 same_variant m ws' -> Forall good l ->
    choice R ws l v -> exists v', choice R' ws' l v' /\ re (ERef id) v v'.
  Proof.
    intros E E' P F G H. pose proof (variant_names_perm _ _ _ P F) as PN.
    inversion H as [j w Hj HT HF HN|j w k t x Hj HT HN HO]; subst.
    - destruct (variant_here _ _ _ w P F (sorted_from _ _ _ Hj)) as (w' & Hw' & SV). destruct (sorted_has _ _ Hw') as (j' & Hj').
      exists (VEnum j' None). pose proof SV as [SN ST]. split.
      + apply (choice_unit _ _ _ j' w' Hj'); [congruence| |]; rewrite <- (filter_perm _ _ l PN); [exact HF|]. now rewrite <- SN.
      + eapply re_unit; eauto.
    - destruct (variant_here _ _ _ w P F (sorted_from _ _ _ Hj)) as (w' & Hw' & SV). destruct (sorted_has _ _ Hw') as (j' & Hj').
      pose proof SV as [SN ST].
      destruct (good_occurs t k _ x (Forall_filter _ (has_name (expanded (v_name w))) _ G) HO) as (x' & lx & lx' & H1 & H2 & H3 & H4).
      exists (VEnum j' (Some x')). split.
      + apply (choice_field _ _ _ j' w' k t x' Hj'); [congruence| |]; [rewrite <- (filter_perm _ _ l PN)|]; now rewrite <- SN.
      + eapply re_payload; eauto.
  Qed.

  (** ** Structs *)

  Lemma fields_good attrs kids : Forall good kids -> forall m fs',
    Forall2 (fun f f' => same_field f f' /\ same_default env env' f f') m fs' -> forall l us, incl l kids ->
    fields_hold o env R attrs kids l m us ->
    exists us', fields_hold o env' R' attrs kids l fs' us' /\ fields_re re (combine m us) (combine fs' us') /\
      length fs' = length us'.
  Proof.
    intros G m fs' F. induction F as [|f f' m fs' [SF SD] _ IH]; intros l us L HH.
    - inversion HH; subst. exists []. repeat split; constructor.
    - inversion HH as [|? ? ? v ? NF HV HT|? ? ? id i r n ws sk v ? M E HC HT]; subst.
      + destruct (IH l _ L HT) as (us' & H1 & H2 & H3).
        destruct (field_good attrs kids f f' v G NF SF SD HV) as (v' & H4 & H5).
        exists (v' :: us'). split; [|split; [cbn; now constructor|cbn; congruence]].
        apply fhs_own; auto. pose proof SF as [M _]. unfold is_flatten in *. now rewrite <- M.
      + destruct (enum_re _ _ _ _ _ _ E) as (i' & r' & n' & ws' & sk' & mv & E' & P & FV).
        destruct (IH _ _ (incl_tran (before_first_incl _ _) L) HT) as (us' & H1 & H2 & H3).
        destruct (choice_good _ _ _ _ _ _ _ _ _ _ _ _ l v E E' P FV (Forall_incl' _ _ _ L G) HC) as (v' & H4 & H5).
        exists (v' :: us'). pose proof SF as [MM _]. split; [|split; [cbn; constructor; auto; rewrite M; now constructor|cbn; congruence]].
        eapply fhs_flatten; eauto; [congruence|]. now rewrite <- (before_perm _ _ l (variant_names_perm _ _ _ P FV)).
  Qed.

  Lemma element_names_perm fs m fs' : shuffle is_flatten fs m ->
    Forall2 (fun f f' => same_field f f' /\ same_default env env' f f') m fs' ->
    Permutation (field_names is_element fs) (field_names is_element fs').
  Proof.
    intros S0 F. apply shuffle_perm in S0. unfold field_names.
    assert (P : Permutation (filter is_element fs) (filter is_element m)).
    { clear F. induction S0 as [|x l l' _ IH|x y l|a b c _ IH1 _ IH2]; cbn; [constructor| | |eauto using Permutation_trans].
      - destruct (is_element x); [now constructor|assumption].
      - destruct (is_element x), (is_element y); try reflexivity. constructor. }
    eapply Permutation_trans; [apply Permutation_map, P|]. clear P S0.
    induction F as [|f f' m fs' [[M N] _] _ IH]; cbn [filter map]; [constructor|].
    assert (X : is_element f = is_element f') by (unfold is_element; now rewrite M). rewrite <- X.
    destruct (is_element f) eqn:Y; [|exact IH]. cbn [map].
    rewrite (N ltac:(unfold is_element, is_flatten in *; destruct (f_mode f); congruence)). now constructor.
  Qed.

  Lemma hold_lengths attrs kids l fs vs : fields_hold o env R attrs kids l fs vs -> length fs = length vs.
  Proof. induction 1; cbn; congruence. Qed.

  Lemma combine_fst {A B} (l : list A) : forall l' : list B, length l = length l' -> map fst (combine l l') = l.
  Proof. induction l as [|a l IH]; intros [|b l'] H; cbn in *; try discriminate; [reflexivity|]. f_equal. apply IH. congruence. Qed.

  Lemma combine_snd {A B} (l : list A) : forall l' : list B, length l = length l' -> map snd (combine l l') = l'.
  Proof. induction l as [|a l IH]; intros [|b l'] H; cbn in *; try discriminate; [reflexivity|]. f_equal. apply IH. congruence. Qed.

  Theorem rearranged_reads n : good n.
  Proof.
    induction n as [name attrs ns p kids pe G| | |] using node_ind'; intros t v H; try now inversion H.
    inversion H as [? ? ? ? ? ? ? x HE HP|id i r m fs ? ? ? ? ? ? vs E HH|id i r m ws sk ? ? ? ? ? ? ? E HC]; subst.
    - exists (VText x). split; [now constructor|constructor].
    - pose proof (RE id) as D. rewrite E in D. destruct (env' id) as [[i' r' m' fs'|]|] eqn:E'; try contradiction.
      destruct D as (ms & S0 & F). pose proof (hold_lengths _ _ _ _ _ HH) as L.
      destruct (shuffle_combine _ _ _ S0 vs L) as (us & L2 & S2).
      assert (HM : fields_hold o env R attrs kids (unclaimed fs kids) ms us).
      { pose proof (hold_shuffle attrs kids _ _ S2 (unclaimed fs kids)) as X. unfold hold in X.
        rewrite !combine_fst, !combine_snd in X by assumption. auto. }
      destruct (fields_good attrs kids G ms fs' F _ us (fun c Hc => proj1 (proj1 (filter_In _ _ _) Hc)) HM) as (us' & H1 & H2 & H3).
      exists (VStruct us'). split; [|eapply re_struct; eauto].
      eapply reads_struct; [exact E'|]. replace (unclaimed fs' kids) with (unclaimed fs kids); [exact H1|].
      unfold unclaimed. apply filter_ext. intros c. now rewrite (name_in_perm _ _ c (element_names_perm _ _ _ S0 F)).
    - destruct (enum_re _ _ _ _ _ _ E) as (i' & r' & m' & ws' & sk' & mv & E' & P & FV).
      destruct (choice_good _ _ _ _ _ _ _ _ _ _ _ _ kids v E E' P FV G HC) as (v' & H3 & H4).
      exists v'. split; [|assumption]. eapply reads_enum; eauto.
  Qed.
End Reads.

(** ** The other way round *)

Lemma shuffle_back {A B} (g : A -> bool) (h : B -> bool) (Q : A -> B -> Prop) : (forall x y, Q x y -> g x = h y) ->
  forall a m, shuffle g a m -> forall b, Forall2 Q m b -> exists b', shuffle h b b' /\ Forall2 Q a b'.
Proof.
  intros HQ a m S0. induction S0 as [|x l l' _ IH|x y l H|a b c _ IH1 _ IH2]; intros bs F.
  - inversion F; subst. exists []. split; constructor.
  - inversion F as [|? y ? bs' Hxy F']; subst. destruct (IH _ F') as (b' & S1 & F1). exists (y :: b'). split; now constructor.
  - inversion F as [|? y' ? bs1 Hy F1]; subst. inversion F1 as [|? x' ? bs2 Hx F2]; subst.
    exists (x' :: y' :: bs2). split; [|auto]. constructor. rewrite <- (HQ _ _ Hx), <- (HQ _ _ Hy). now rewrite andb_comm.
  - destruct (IH2 _ F) as (b1 & S1 & F1). destruct (IH1 _ F1) as (b2 & S2 & F2). exists b2. split; [|exact F2]. eapply sh_trans; eauto.
Qed.

Definition pair_re (R : ety -> value -> value -> Prop) (p p' : field * value) : Prop :=
  same_field (fst p) (fst p') /\ field_re R (f_mode (fst p)) (snd p) (snd p').

Lemma fields_re_iff R l l' : fields_re R l l' <-> Forall2 (pair_re R) l l'.
Proof.
  split; intros H.
  - induction H; constructor; auto. now split.
  - induction H as [|[f v] [f' v'] l l' [H1 H2]]; constructor; auto.
Qed.

Lemma same_field_flat f f' : same_field f f' -> is_flatten f = is_flatten f'.
Proof. intros [M _]. unfold is_flatten. now rewrite M. Qed.

Lemma same_field_sym f f' : same_field f f' -> same_field f' f.
Proof.
  intros H. pose proof (same_field_flat _ _ H) as E. destruct H as [M N]. split; [auto|]. intros F. symmetry. apply N. congruence.
Qed.

Section Sym.
  Context (env env' : tenv).
  Definition flips (v : value) : Prop := forall t v', re env env' t v v' -> re env' env t v' v.

  Lemma flip_each t l l' : Forall flips l -> Forall2 (re env env' t) l l' -> Forall2 (re env' env t) l' l.
  Proof. intros G H. induction H as [|v v' l l' H _ IH]; [constructor|]. inversion G; subst. constructor; auto. Qed.

  Lemma flip_field m v v' : below flips v -> field_re (re env env') m v v' -> field_re (re env' env) m v' v.
  Proof.
    intros B H. inversion H as [k t ? ? l l' I I' F|? ? ?|id ? ? F]; subst; [|constructor|constructor; apply B; exact F].
    econstructor; eauto. apply flip_each; [|exact F]. eapply below_items; eauto.
  Qed.

  Lemma flip_fields l l' : Forall (fun p => below flips (snd p)) l -> Forall2 (pair_re (re env env')) l l' ->
    Forall2 (pair_re (re env' env)) l' l.
  Proof.
    intros G H. induction H as [|p p' l l' [H1 H2] _ IH]; [constructor|]. inversion G; subst. constructor; [|auto].
    split; [now apply same_field_sym|]. rewrite <- (proj1 H1). now apply flip_field.
  Qed.

  Lemma in_combine_all {A B} (P : B -> Prop) (l : list A) : forall l', Forall P l' -> Forall (fun p => P (snd p)) (combine l l').
  Proof. induction l as [|a l IH]; intros l' H; cbn; [constructor|]. destruct H; constructor; auto. Qed.

  Lemma re_sym v : flips v.
  Proof.
    induction v using value_ind''; intros t v' C; inversion C; subst.
    - constructor.
    - match goal with X : shuffle _ _ _, Y : fields_re _ _ _ |- _ => apply fields_re_iff in Y;
        destruct (shuffle_back _ (fun p => is_flatten (fst p)) _ (fun x y Q => same_field_flat _ _ (proj1 Q)) _ _ X _ Y) as (b & S1 & F1) end.
      eapply re_struct; eauto. apply fields_re_iff, flip_fields; [|exact F1]. now apply in_combine_all.
    - match goal with X : same_variant _ _ |- _ => destruct X as [X1 X2] end.
      eapply re_unit; eauto; [now split|congruence].
    - match goal with X : same_variant _ _ |- _ => destruct X as [X1 X2] end.
      eapply re_payload; eauto; [now split|rewrite <- X2; eassumption|]. apply flip_each; [|assumption].
      eapply below_items; [apply H; reflexivity|eassumption].
    - eapply re_skipped; eauto.
  Qed.
End Sym.

Lemma re_flip env env' t v v' : re env env' t v v' -> re env' env t v' v.
Proof. apply re_sym. Qed.

Lemma all_flip env env' t l l' : Forall2 (re env env' t) l l' -> Forall2 (re env' env t) l' l.
Proof. induction 1; constructor; auto using re_flip. Qed.

Lemma field_re_flip env env' m v v' : field_re (re env env') m v v' -> field_re (re env' env) m v' v.
Proof.
  intros H. inversion H as [k t ? ? l l' I I' F|? ? ?|id ? ? F]; subst; [|constructor|constructor; now apply re_flip].
  econstructor; eauto using all_flip.
Qed.

Lemma Forall2_flip' {A B} (P : A -> B -> Prop) l l' : Forall2 P l l' -> Forall2 (fun y x => P x y) l' l.
Proof. induction 1; constructor; auto. Qed.

Lemma rearranged_sym env env' : rearranged env env' -> rearranged env' env.
Proof.
  intros H id. specialize (H id). destruct (env id) as [[i r n fs|i r n ws sk]|], (env' id) as [[i' r' n' fs'|i' r' n' ws' sk']|]; auto.
  - destruct H as (m & S0 & F).
    destruct (shuffle_back _ is_flatten _ (fun x y Q => same_field_flat _ _ (proj1 Q)) _ _ S0 _ F) as (b & S1 & F1).
    exists b. split; [exact S1|]. clear - F1. induction F1 as [|f f' l l' [H1 H2] _ IH]; constructor; auto.
    split; [now apply same_field_sym|]. unfold same_default in *. rewrite <- (proj1 H1).
    destruct (f_default f), (f_default f'); auto using field_re_flip.
  - destruct H as (m & P & F).
    assert (X : exists b, Permutation ws' b /\ Forall2 same_variant ws b).
    { revert ws' F. induction P as [|x l l' _ IH|x y l|a b c _ IH1 _ IH2]; intros ws' F.
      - inversion F; subst. exists []. auto.
      - inversion F as [|? y ? bs' Hxy F']; subst. destruct (IH _ F') as (b' & S1 & F1). exists (y :: b'). auto.
      - inversion F as [|? y' ? bs1 Hy F1]; subst. inversion F1 as [|? x' ? bs2 Hx F2]; subst.
        exists (x' :: y' :: bs2). split; [apply perm_swap|auto].
      - destruct (IH2 _ F) as (b1 & S1 & F1). destruct (IH1 _ F1) as (b2 & S2 & F2). exists b2. eauto using Permutation_trans. }
    destruct X as (b & P' & F'). exists b. split; [exact P'|]. clear - F'. induction F' as [|w w' l l' [H1 H2] _ IH]; constructor; auto.
    split; congruence.
Qed.

(** ** There is only one such value *)

Lemma list_split_key {A B} (g : A -> bool) (key : A -> B) : forall a b, Permutation a b -> filter g a = filter g b ->
  map g a = map g b -> map key a = map key b ->
  (forall x y, In x a -> In y a -> g x = false -> g y = false -> key x = key y -> x = y) -> a = b.
Proof.
  induction a as [|x a IH]; intros b P Fi G K U.
  - apply Permutation_nil in P. now subst.
  - destruct b as [|y b]; [discriminate|]. cbn in G, K. injection G as G1 G2. injection K as K1 K2.
    assert (x = y) as <-.
    { cbn in Fi. rewrite <- G1 in Fi. destruct (g x) eqn:E; [congruence|].
      apply U; auto; [now left|]. eapply Permutation_in; [apply Permutation_sym, P|]. now left. }
    f_equal. apply IH; auto.
    + now apply Permutation_cons_inv in P.
    + cbn in Fi. destruct (g x); congruence.
    + intros u v Hu Hv. apply U; now right.
Qed.

Lemma combine_inj {A B} (l : list A) : forall u v : list B, length l = length u -> length l = length v ->
  combine l u = combine l v -> u = v.
Proof.
  induction l as [|a l IH]; intros [|x u] [|y v] H1 H2 E; cbn in *; try discriminate; [reflexivity|].
  injection E as -> E. f_equal. apply IH; congruence.
Qed.

Section Unique.
  Context (env env' : tenv).
  Hypothesis Hok : names_ok env.
  Hypothesis Hok' : names_ok env'.
  Definition one_re (v : value) : Prop := forall t v1 v2, re env env' t v v1 -> re env env' t v v2 -> v1 = v2.

  Lemma each_unique t l : Forall one_re l -> forall l1 l2, Forall2 (re env env' t) l l1 -> Forall2 (re env env' t) l l2 -> l1 = l2.
  Proof.
    induction 1 as [|v l H _ IH]; intros l1 l2 F1 F2; inversion F1; inversion F2; subst; [reflexivity|]. f_equal; [eapply H|]; eauto.
  Qed.

  Lemma items_inj k v v' l : items k v l -> items k v' l -> v = v'.
  Proof. intros H; inversion H; subst; intros H'; inversion H'; now subst. Qed.

  Lemma field_unique m v v1 v2 : below one_re v -> field_re (re env env') m v v1 -> field_re (re env env') m v v2 -> v1 = v2.
  Proof.
    intros B H1 H2. inversion H1 as [k t ? ? l l1 I1 I1' F1|? ? ?|id ? ? F1]; subst;
      inversion H2 as [k2 t2 ? ? l2 l2' I2 I2' F2|? ? ?|id2 ? ? F2]; subst; [|reflexivity|].
    - rewrite (items_det _ _ _ _ I2 I1) in *. rewrite (each_unique t l (below_items _ _ _ _ B I1) _ _ F1 F2) in *.
      eapply items_inj; eauto.
    - eapply B; eauto.
  Qed.

  Lemma fields_unique m : Forall (fun p => below one_re (snd p)) m -> forall fs' v1 v2, length fs' = length v1 ->
    length fs' = length v2 -> Forall2 (pair_re (re env env')) m (combine fs' v1) ->
    Forall2 (pair_re (re env env')) m (combine fs' v2) -> v1 = v2.
  Proof.
    induction 1 as [|[f v] m B _ IH]; intros [|f' fs'] [|u1 v1] [|u2 v2] L1 L2 F1 F2; cbn in *; try discriminate;
      try reflexivity; inversion F1 as [|? ? ? ? [? X1] Y1]; inversion F2 as [|? ? ? ? [? X2] Y2]; subst.
    f_equal; [eapply field_unique; eauto|]. eapply IH; eauto; congruence.
  Qed.

  (** What a field is found by. *)
  Definition key (p : field * value) : bool * xname :=
    (is_element (fst p), if is_flatten (fst p) then XName "" "" else expanded (f_name (fst p))).

  Lemma keys_re R m l : Forall2 (pair_re R) m l -> map key m = map key l /\
    map (fun p => is_flatten (fst p)) m = map (fun p => is_flatten (fst p)) l.
  Proof.
    induction 1 as [|[f v] [f' v'] m l [H _] _ [IH1 IH2]]; [auto|]. cbn in *. rewrite IH1, IH2.
    pose proof (same_field_flat _ _ H) as E. unfold key. cbn. rewrite <- E. destruct H as [M N].
    assert (is_element f = is_element f') as -> by (unfold is_element; now rewrite M).
    destruct (is_flatten f); [auto|]. now rewrite (N eq_refl).
  Qed.

  Lemma keys_fields fs : forall u v : list value, length fs = length u -> length fs = length v ->
    map key (combine fs u) = map key (combine fs v) /\
    map (fun p => is_flatten (fst p)) (combine fs u) = map (fun p => is_flatten (fst p)) (combine fs v).
  Proof.
    induction fs as [|f fs IH]; intros [|x u] [|y v] H1 H2; cbn in *; try discriminate; [auto|].
    destruct (IH u v) as [E1 E2]; try congruence. rewrite E1, E2. auto.
  Qed.

  Lemma NoDup_pick {A B} (f : A -> B) (l : list A) x y : NoDup (map f l) -> In x l -> In y l -> f x = f y -> x = y.
  Proof.
    induction l as [|a l IH]; intros N Hx Hy E; [contradiction|]. inversion N as [|? ? N1 N2]; subst.
    destruct Hx as [->|Hx], Hy as [->|Hy]; auto; exfalso; apply N1; [rewrite E|rewrite <- E]; now apply in_map.
  Qed.

  Lemma combine_names (sel : field -> bool) fs : forall vs : list value, length fs = length vs ->
    map (fun p => expanded (f_name (fst p))) (filter (fun p => sel (fst p)) (combine fs vs)) = field_names sel fs.
  Proof.
    unfold field_names. induction fs as [|f fs IH]; intros [|v vs] L; cbn in *; try discriminate; [reflexivity|].
    destruct (sel f); cbn; rewrite IH; congruence.
  Qed.

  Lemma own_unique id i r n fs vs R l m : env id = Some (TDStruct i r n fs) -> length fs = length vs ->
    shuffle (fun p => is_flatten (fst p)) (combine fs vs) m -> Forall2 (pair_re R) m l ->
    forall x y, In x m -> In y m -> is_flatten (fst x) = false -> is_flatten (fst y) = false -> key x = key y -> x = y.
  Proof.
    intros E L S0 F x y Hx Hy Fx Fy K. destruct (Hok _ _ E) as [N1 N2].
    unfold key in K. rewrite Fx, Fy in K. apply pair_equal_spec in K as [K1 K2].
    assert (M : forall p, In p m -> is_flatten (fst p) = false -> is_element (fst p) = negb (is_attribute (fst p))).
    { clear - F. intros p Hp Fp. induction F as [|q q' m l [_ H] _ IH]; [contradiction|]. destruct Hp as [->|Hp]; [|auto].
      unfold is_flatten, is_element, is_attribute in *. destruct (f_mode (fst p)); try reflexivity; try discriminate; inversion H. }
    apply (Permutation_in _ (Permutation_sym (shuffle_perm _ _ _ S0))) in Hx as Cx.
    apply (Permutation_in _ (Permutation_sym (shuffle_perm _ _ _ S0))) in Hy as Cy.
    destruct (is_element (fst x)) eqn:Ex.
    - rewrite <- (combine_names is_element fs vs L) in N1.
      apply (NoDup_pick _ _ x y N1); [apply filter_In; auto|apply filter_In; auto|exact K2].
    - rewrite <- (combine_names is_attribute fs vs L) in N2. pose proof (M x Hx Fx) as Ax. pose proof (M y Hy Fy) as Ay.
      rewrite Ex in Ax. rewrite <- K1 in Ay. 
      apply (NoDup_pick _ _ x y N2); [apply filter_In; split; [auto|]|apply filter_In; split; [auto|]|exact K2].
      + destruct (is_attribute (fst x)); [reflexivity|discriminate].
      + destruct (is_attribute (fst y)); [reflexivity|discriminate].
  Qed.

  Lemma variant_unique ws' j j' w w' : NoDup (variant_names ws') -> nth_error (sorted_variants ws') j = Some w ->
    nth_error (sorted_variants ws') j' = Some w' -> expanded (v_name w) = expanded (v_name w') -> j = j'.
  Proof.
    intros N Hj Hj' E.
    assert (N' : NoDup (map (fun w => expanded (v_name w)) (sorted_variants ws'))).
    { eapply Permutation_NoDup; [|exact N]. apply Permutation_map, Permutation_sym, sort_perm. }
    eapply (proj1 (NoDup_nth_error _) N').
    - apply nth_error_Some. erewrite map_nth_error by exact Hj. discriminate.
    - erewrite !map_nth_error by eassumption. now rewrite E.
  Qed.

  Lemma shuffle_all {A} (g : A -> bool) (P : A -> Prop) l l' : shuffle g l l' -> Forall P l -> Forall P l'.
  Proof.
    intros S0. apply shuffle_perm in S0. rewrite !Forall_forall. intros H x Hx. apply H.
    eapply Permutation_in; [apply Permutation_sym, S0|exact Hx].
  Qed.

  Lemma re_unique v : one_re v.
  Proof.
    induction v using value_ind''; intros t v1 v2 C1 C2.
    - inversion C1; subst. inversion C2; subst. reflexivity.
    - inversion C1 as [|id i r n fs i' r' n' fs' ? us1 m1 E E' L L1 S1 F1| | |]; subst.
      inversion C2 as [|id2 i2 r2 n2 fs2 i2' r2' n2' fs2' ? us2 m2 E2 E2' L' L2 S2 F2| | |]; subst.
      rewrite E in E2. injection E2 as <- <- <- <-. rewrite E' in E2'. injection E2' as <- <- <- <-.
      apply fields_re_iff in F1. apply fields_re_iff in F2.
      assert (m1 = m2) as <-.
      { destruct (keys_re _ _ _ F1) as [K1 G1]. destruct (keys_re _ _ _ F2) as [K2 G2].
        destruct (keys_fields fs' us1 us2 L1 L2) as [K3 G3].
        apply (list_split_key (fun p => is_flatten (fst p)) key).
        - eapply Permutation_trans; [apply Permutation_sym, (shuffle_perm _ _ _ S1)|exact (shuffle_perm _ _ _ S2)].
        - rewrite <- (shuffle_fixed _ _ _ S1). exact (shuffle_fixed _ _ _ S2).
        - congruence.
        - congruence.
        - eapply own_unique; eauto. }
      f_equal. eapply fields_unique; [|exact L1|exact L2|exact F1|exact F2].
      eapply shuffle_all; [exact S1|]. now apply in_combine_all.
    - inversion C1 as [| |id a r n ws sk a' r' n' ws' sk' j j1 w w1 E E' J J1 [SN ST] W
                        |id a r n ws sk a' r' n' ws' sk' j j1 w w1 k t0 q q1 l l1 E E' J J1 [SN ST] W I I1 F|]; subst;
      inversion C2 as [| |id2 a2 r2 n2 ws2 sk2 a2' r2' n2' ws2' sk2' j2 j3 w2 w3 E2 E2' J2 J3 [SN2 ST2] W2
                        |id2 a2 r2 n2 ws2 sk2 a2' r2' n2' ws2' sk2' j2 j3 w2 w3 k2 t2 q2 q3 l2 l3 E2 E2' J2 J3 [SN2 ST2] W2 I2 I3 F2|]; subst;
      rewrite E in E2; injection E2 as <- <- <- <- <-; rewrite E' in E2'; injection E2' as <- <- <- <- <-;
      rewrite J in J2; injection J2 as <-; destruct (Hok' _ _ E') as [_ N];
      rewrite (variant_unique ws' j1 j3 w1 w3 N J1 J3) by congruence; [reflexivity|].
      rewrite W in W2. injection W2 as <- <-. rewrite (items_det _ _ _ _ I2 I) in *.
      rewrite (each_unique t0 l (below_items _ _ _ _ (H _ eq_refl) I) _ _ F F2) in *.
      now rewrite (items_inj _ _ _ _ I1 I3).
    - inversion C1; inversion C2; now subst.
    - inversion C1.
    - inversion C1.
    - inversion C1.
  Qed.
End Unique.

(** ** Documents *)

Section Doc.
  Context (o : oracles) (alg : bs_alg) (env env' : tenv).
  Hypothesis RE : rearranged env env'.
  Hypothesis Hok : names_ok env.
  Hypothesis Hok' : names_ok env'.

  Theorem rearranged_document dbg dbg' t d pe pe' v :
    read_as o alg env dbg t (doc_events d) (FEndDocument pe) = Ok v ->
    exists v', read_as o alg env' dbg' t (doc_events d) (FEndDocument pe') = Ok v' /\ re env env' t v v'.
  Proof.
    intros H. apply read_as_iff in H; [|exact Hok]. destruct (rearranged_reads o env env' RE (d_root d) t v H) as (v' & R & U).
    exists v'. split; [|exact U]. now apply read_as_iff.
  Qed.

  Theorem rearranged_iff dbg dbg' t d pe pe' v v' : re env env' t v v' ->
    read_as o alg env dbg t (doc_events d) (FEndDocument pe) = Ok v <->
    read_as o alg env' dbg' t (doc_events d) (FEndDocument pe') = Ok v'.
  Proof.
    intros U. rewrite !read_as_iff by assumption. split; intros H.
    - destruct (rearranged_reads o env env' RE (d_root d) t v H) as (v2 & R & U2).
      now rewrite (re_unique env env' Hok Hok' v t v' v2 U U2).
    - destruct (rearranged_reads o env' env (rearranged_sym _ _ RE) (d_root d) t v' H) as (v2 & R & U2).
      now rewrite (re_unique env' env Hok' Hok v' t v v2 (re_flip _ _ _ _ _ U) U2).
  Qed.

  Theorem rearranged_writer dbg w id v k pol :
    compiles env -> legal_env env -> no_default env -> (pol = NsSpec.SkipIfAnywhere -> coherent_env env) ->
    serialize_root o env dbg w id v = inl (None, k) -> survives o env (ERef id) v ->
    exists t, NsSpec.meaning [] (NsSpec.emit pol [] (k_out k)) = Some (NsSpec.tree_events t) /\ is_telem t = true /\
      forall t' d, indented t t' -> shows t' (d_root d) -> exists v', re env env' (ERef id) v v' /\
        forall dbg' pe, read_as o alg env' dbg' (ERef id) (doc_events d) (FEndDocument pe) = Ok v'.
  Proof.
    intros Hc HL Hd Hpol S0 Sv. destruct (round_trip o env alg dbg w id v k pol Hc Hok HL Hd Hpol S0) as (t & M & Ht & R).
    exists t. split; [exact M|]. split; [exact Ht|]. intros t' d HI HS.
    destruct (rearranged_document dbg dbg _ _ (0, 0)%N (0, 0)%N _ (proj2 (R t' d HI HS dbg (0, 0)%N) Sv)) as (v' & H & U).
    exists v'. split; [exact U|]. intros dbg' pe. apply read_as_iff; [exact Hok'|]. now apply read_as_iff in H.
  Qed.
End Doc.
