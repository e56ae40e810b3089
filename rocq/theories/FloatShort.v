(** Floats are written with the fewest digits. *)
From Coq Require Import Lia QArith Qabs Qpower.
From Verif Require Import Base Normalize Text TextSpec TextProofs TextCanon Float FloatSpec FloatProofs FloatText.
Local Open Scope Z_scope.

Lemma exact_le a e b f : (exact a e <= exact b f)%Q <-> fst (over a e) * snd (over b f) <= fst (over b f) * snd (over a e).
Proof.
  destruct (over_exact a e) as [A1 A2]. destruct (over_exact b f) as [B1 B2].
  set (x := exact a e) in *. set (y := exact b f) in *. destruct (over a e) as [n d]. destruct (over b f) as [n' d']. cbn [fst snd] in *.
  assert (Hs : (0 < inject_Z (d * d'))%Q) by (change 0%Q with (inject_Z 0); rewrite <- Zlt_Qlt; nia).
  rewrite <- (Qmult_le_r _ _ _ Hs). rewrite Zle_Qle, !inject_Z_mult, <- A2, <- B2.
  assert (E1 : (x * (inject_Z d * inject_Z d') == x * inject_Z d * inject_Z d')%Q) by ring.
  assert (E2 : (y * (inject_Z d * inject_Z d') == y * inject_Z d' * inject_Z d)%Q) by ring.
  rewrite E1, E2. tauto.
Qed.

Lemma close_between w den b x1 x2 x3 : close w x1 den b -> close w x3 den b -> x1 <= x2 <= x3 -> close w x2 den b.
Proof.
  intros [Hb A] [_ B] H. split; auto. intros c Hc. destruct (A c Hc) as [A1 A2]. destruct (B c Hc) as [B1 B2].
  set (u := units w b * den) in *. set (v := units w c * den) in *. split; [lia|]. intros E Hn.
  destruct (Z.eq_dec u v) as [Euv|Nuv]; [apply A2; auto; lia|].
  assert (Z.abs (x1 - u) = Z.abs (x1 - v) \/ Z.abs (x3 - u) = Z.abs (x3 - v)) as [G|G] by lia; auto.
Qed.

Lemma rounded_between w neg n x1 x2 x3 : rounded w neg x1 n -> rounded w neg x3 n -> (x1 <= x2)%Q -> (x2 <= x3)%Q -> rounded w neg x2 n.
Proof.
  intros R1 R3 L1 L3. set (D := Zpos (Qden x1) * Zpos (Qden x2) * Zpos (Qden x3)).
  assert (HD : 0 < D) by (subst D; lia).
  assert (E : forall x k, Zpos (Qden x) * k = D -> (x * inject_Z D == inject_Z (Qnum x * k))%Q).
  { intros [a p] k Hk. unfold Qeq. cbn [Qnum Qden Qmult inject_Z]. cbn [Qden] in Hk. rewrite <- Hk. rewrite Pos.mul_1_r. ring. }
  pose proof (E x1 (Zpos (Qden x2) * Zpos (Qden x3)) ltac:(subst D; ring)) as E1.
  pose proof (E x2 (Zpos (Qden x1) * Zpos (Qden x3)) ltac:(subst D; ring)) as E2.
  pose proof (E x3 (Zpos (Qden x1) * Zpos (Qden x2)) ltac:(subst D; ring)) as E3.
  assert (Hs : (0 < inject_Z D)%Q) by (change 0%Q with (inject_Z 0); rewrite <- Zlt_Qlt; lia).
  apply (Qmult_le_r _ _ _ Hs) in L1, L3. rewrite E1, E2, <- Zle_Qle in L1. rewrite E2, E3, <- Zle_Qle in L3.
  apply (rounded_iff w neg _ _ _ n HD E1) in R1 as (b & -> & C1). apply (rounded_iff w neg _ _ _ _ HD E3) in R3 as (b' & S & C3).
  assert (b' = b) as ->.
  { apply (f_equal Z.of_N) in S. destruct C1 as [C1 _], C3 as [C3 _]. rewrite !of_signed in S by lia. lia. }
  apply (rounded_iff w neg _ _ _ _ HD E2). exists b. split; auto.
  assert (0 < 2 ^ unit_bits w) by (destruct w; vm_compute; reflexivity).
  eapply close_between; [exact C1|exact C3|]. split; apply Z.mul_le_mono_nonneg_r; lia.
Qed.

Lemma nearest_iff w neg d q b : 0 <= d -> 0 <= b -> nearest w d q = b <-> rounded w neg (exact d q) (signed w neg b).
Proof.
  intros Hd Hb. split.
  - intros <-. now apply nearest_rounded.
  - intro R. pose proof (rounded_unique w neg d q _ _ R (nearest_rounded w neg d q Hd)) as E.
    apply (f_equal Z.of_N) in E. pose proof (nearest_close w d q Hd) as [N _]. rewrite !of_signed in E by lia. lia.
Qed.

Lemma units_double w b : 1 <= b -> units w (b + 1) <= 2 * units w b.
Proof.
  intro H. destruct (split_bits w b ltac:(lia)) as (e & f & -> & He & Hf). rewrite units_eq by lia. pose proof (P_pos w).
  destruct (Z.eq_dec (f + 1) (P w)) as [E|E].
  - replace (e * P w + f + 1) with ((e + 1) * P w + 0) by lia. rewrite units_eq by lia.
    destruct (Z.eqb_spec (e + 1) 0); [lia|]. destruct (Z.eqb_spec e 0) as [->|].
    + change (2 ^ (0 + 1 - 1)) with 1. lia.
    + replace (e + 1 - 1) with (Z.succ (e - 1)) by lia. rewrite Z.pow_succ_r by lia.
      assert (0 < 2 ^ (e - 1)) by (apply Z.pow_pos_nonneg; lia). nia.
  - rewrite <- Z.add_assoc. rewrite units_eq by lia. destruct (Z.eqb_spec e 0) as [->|]; [lia|].
    assert (0 < 2 ^ (e - 1)) by (apply Z.pow_pos_nonneg; lia). nia.
Qed.

(** All digits of a float. *)
Definition full (w : bool) (b : Z) : Q := exact (units w b * 5 ^ unit_bits w) (- unit_bits w).

Lemma full_rounded w neg b : 0 <= b <= infinity w -> rounded w neg (full w b) (signed w neg b).
Proof.
  intro H. unfold full. apply nearest_iff; [|lia|now apply nearest_all]. pose proof (units_lt w b ltac:(lia)).
  assert (0 <= 5 ^ unit_bits w) by (apply Z.pow_nonneg; lia). nia.
Qed.

Lemma full_over w b : over (units w b * 5 ^ unit_bits w) (- unit_bits w) = (units w b * 5 ^ unit_bits w, 2 ^ unit_bits w * 5 ^ unit_bits w).
Proof.
  unfold over. assert (0 <= unit_bits w) by (destruct w; vm_compute; discriminate).
  replace (Z.max (- unit_bits w) 0) with 0 by lia. replace (Z.max (- - unit_bits w) 0) with (unit_bits w) by lia.
  rewrite Z.pow_0_r, Z.mul_1_r, <- Z.pow_mul_l. reflexivity.
Qed.

Definition scaled (w : bool) (b q : Z) : Z := units w b * 10 ^ Z.max (- q) 0.
Definition unit10 (w : bool) (q : Z) : Z := 2 ^ unit_bits w * 10 ^ Z.max q 0.

Lemma unit10_pos w q : 0 < unit10 w q.
Proof. unfold unit10. assert (0 < 2 ^ unit_bits w) by (destruct w; vm_compute; reflexivity). assert (0 < 10 ^ Z.max q 0) by (apply Z.pow_pos_nonneg; lia). nia. Qed.

Lemma five_pos w : 0 < 5 ^ unit_bits w.
Proof. apply Z.pow_pos_nonneg; [lia|destruct w; vm_compute; discriminate]. Qed.

Lemma exact_full w a c q : ((exact a q <= full w c)%Q <-> a * unit10 w q <= scaled w c q) /\ ((full w c <= exact a q)%Q <-> scaled w c q <= a * unit10 w q).
Proof.
  unfold full. rewrite !exact_le, full_over. unfold over. cbn [fst snd]. pose proof (five_pos w) as K5. unfold unit10, scaled.
  replace (units w c * 5 ^ unit_bits w * 10 ^ Z.max (- q) 0) with (units w c * 10 ^ Z.max (- q) 0 * 5 ^ unit_bits w) by ring.
  replace (a * 10 ^ Z.max q 0 * (2 ^ unit_bits w * 5 ^ unit_bits w)) with (a * (2 ^ unit_bits w * 10 ^ Z.max q 0) * 5 ^ unit_bits w) by ring.
  split; symmetry; apply Z.mul_le_mono_pos_r; exact K5.
Qed.

Lemma exact_mono a c q : a <= c -> (exact a q <= exact c q)%Q.
Proof.
  intro H. rewrite exact_le. unfold over. cbn [fst snd].
  assert (0 < 10 ^ Z.max q 0) by (apply Z.pow_pos_nonneg; lia). assert (0 < 10 ^ Z.max (- q) 0) by (apply Z.pow_pos_nonneg; lia).
  apply Z.mul_le_mono_nonneg_r; [lia|]. apply Z.mul_le_mono_nonneg_r; lia.
Qed.

(** If a multiple of 10 ^ q is read as the float, so is the one next to the float on the same side. *)
Lemma neighbours w b q d : 1 <= b < infinity w -> 0 < d -> nearest w d q = b ->
  (d <= scaled w b q / unit10 w q -> nearest w (scaled w b q / unit10 w q) q = b) /\
  (scaled w b q / unit10 w q < d -> nearest w (scaled w b q / unit10 w q + 1) q = b).
Proof.
  intros Hb Hd N. apply (nearest_iff w false) in N; [|lia|lia]. pose proof (unit10_pos w q) as Hden.
  assert (Hnum : 0 <= scaled w b q).
  { unfold scaled. pose proof (units_lt w b ltac:(lia)). assert (0 < 10 ^ Z.max (- q) 0) by (apply Z.pow_pos_nonneg; lia). nia. }
  pose proof (Z.div_mod (scaled w b q) (unit10 w q) ltac:(lia)) as DM. pose proof (Z.mod_pos_bound (scaled w b q) (unit10 w q) Hden) as MB.
  assert (L0 : 0 <= scaled w b q / unit10 w q) by (apply Z.div_pos; lia). set (lo := scaled w b q / unit10 w q) in *.
  split; intro H; apply (nearest_iff w false); try lia.
  - apply (rounded_between w false _ (exact d q) _ (full w b)); [exact N|apply full_rounded; lia|now apply exact_mono|]. apply exact_full. lia.
  - apply (rounded_between w false _ (full w b) _ (exact d q)); [apply full_rounded; lia|exact N| |apply exact_mono; lia]. apply exact_full. lia.
Qed.

Lemma candidate_eq w b q : candidate w b q =
  (if Z.ltb (2 * scaled w b q) (unit10 w q) then None else
   let lo := scaled w b q / unit10 w q in
   let ok d := (Z.ltb 0 d && Z.eqb (nearest w d q) b)%bool in
   if ok lo then if (Z.leb (unit10 w q) (2 * (scaled w b q mod unit10 w q)) && ok (lo + 1))%bool then Some (lo + 1) else Some lo
   else if ok (lo + 1) then Some (lo + 1) else None).
Proof. reflexivity. Qed.

Lemma candidate_none w b q d : 1 <= b < infinity w -> candidate w b q = None -> 0 < d -> nearest w d q <> b.
Proof.
  intros Hb C Hd N. rewrite candidate_eq in C. cbv zeta in C. pose proof (unit10_pos w q) as Hden.
  destruct (Z.ltb_spec (2 * scaled w b q) (unit10 w q)) as [L|L].
  - (* twice as large *)
    pose proof (units_double w b ltac:(lia)) as U2. assert (T1 : 0 < 10 ^ Z.max (- q) 0) by (apply Z.pow_pos_nonneg; lia).
    apply (nearest_iff w false) in N; [|lia|lia].
    assert (R : rounded w false (full w (b + 1)) (signed w false b)).
    { apply (rounded_between w false _ (full w b) _ (exact d q)); [apply full_rounded; lia|exact N| |].
      - unfold full. rewrite exact_le, !full_over. cbn [fst snd]. pose proof (five_pos w).
        assert (0 < 2 ^ unit_bits w) by (destruct w; vm_compute; reflexivity). pose proof (units_lt w b ltac:(lia)).
        apply Z.mul_le_mono_nonneg_r; [nia|]. apply Z.mul_le_mono_nonneg_r; lia.
      - apply exact_full. apply Z.le_trans with (2 * scaled w b q); [unfold scaled; nia|nia]. }
    pose proof (full_rounded w false (b + 1) ltac:(lia)) as R'. unfold full in R, R'.
    pose proof (rounded_unique w false _ _ _ _ R R') as E. apply (f_equal Z.of_N) in E. rewrite !of_signed in E by lia. lia.
  - destruct (neighbours w b q d Hb Hd N) as [N1 N2]. set (lo := scaled w b q / unit10 w q) in *.
    destruct (Z.le_gt_cases d lo) as [Hlo|Hlo].
    + rewrite (N1 Hlo), Z.eqb_refl in C. destruct (Z.ltb_spec 0 lo); [|lia]. cbn [andb] in C.
      destruct (_ && _)%bool in C; discriminate C.
    + assert (0 <= lo).
      { apply Z.div_pos; [|lia]. lia. }
      rewrite (N2 Hlo), Z.eqb_refl in C. destruct (Z.ltb_spec 0 (lo + 1)); [|lia]. cbn [andb] in C.
      destruct (Z.ltb 0 lo && _)%bool in C; [destruct (_ && _)%bool in C|]; discriminate C.
Qed.

(** No other multiple of 10 ^ q that is read as the float is nearer to it. *)
Lemma candidate_best w b q d d' : 1 <= b < infinity w -> candidate w b q = Some d -> 0 < d' -> nearest w d' q = b ->
  Z.abs (d * unit10 w q - scaled w b q) <= Z.abs (d' * unit10 w q - scaled w b q).
Proof.
  intros Hb C Hd N. rewrite candidate_eq in C. cbv zeta in C. pose proof (unit10_pos w q) as Hden.
  destruct (Z.ltb_spec (2 * scaled w b q) (unit10 w q)) as [L|L]; [discriminate|].
  destruct (neighbours w b q d' Hb Hd N) as [N1 N2].
  pose proof (Z.div_mod (scaled w b q) (unit10 w q) ltac:(lia)) as DM. pose proof (Z.mod_pos_bound (scaled w b q) (unit10 w q) Hden) as MB.
  assert (L0 : 0 <= scaled w b q / unit10 w q) by (apply Z.div_pos; lia).
  set (num := scaled w b q) in *. set (den := unit10 w q) in *. set (lo := num / den) in *. set (r := num mod den) in *. clearbody num den lo r.
  assert (LO : d' <= lo -> r <= Z.abs (d' * den - num)) by (intro; nia).
  assert (HI : lo < d' -> den - r <= Z.abs (d' * den - num)) by (intro; nia).
  assert (E1 : Z.abs (lo * den - num) = r) by nia. assert (E2 : Z.abs ((lo + 1) * den - num) = den - r) by nia.
  destruct (Z.ltb_spec 0 lo) as [P1|P1]; destruct (Z.eqb_spec (nearest w lo q) b) as [Q1|Q1]; cbn [andb] in C;
    destruct (Z.ltb_spec 0 (lo + 1)) as [P2|P2]; try lia; destruct (Z.eqb_spec (nearest w (lo + 1) q) b) as [Q2|Q2]; cbn [andb] in C;
    rewrite ?andb_true_r, ?andb_false_r in C; try (destruct (Z.leb_spec den (2 * r)) as [G|G]);
    try discriminate C; try injection C as <-; rewrite ?E1, ?E2;
    destruct (Z.le_gt_cases d' lo) as [K|K]; try (specialize (N1 K); specialize (LO K)); try (specialize (N2 K); specialize (HI K)); try lia; try congruence.
Qed.

Lemma too_large (w : bool) q d : (if w then 310 else 40) < q -> 0 < d -> nearest w d q = infinity w.
Proof.
  intros Hq Hd. set (s := if w then 310 else 40) in *. assert (Hs : 0 <= s) by (subst s; destruct w; lia).
  unfold nearest, over. replace (Z.max (- q) 0) with 0 by lia. rewrite Z.pow_0_r, Z.div_1_r. replace (Z.max q 0) with q by lia.
  assert (units w (infinity w) <= 10 ^ s * 2 ^ unit_bits w) by (subst s; destruct w; vm_compute; discriminate).
  assert (10 ^ s <= 10 ^ q) by (apply Z.pow_le_mono_r; lia). assert (0 < 10 ^ s) by (apply Z.pow_pos_nonneg; lia).
  assert (0 < 2 ^ unit_bits w) by (destruct w; vm_compute; reflexivity).
  destruct (Z.leb_spec (units w (infinity w)) (d * 10 ^ q * 2 ^ unit_bits w)) as [L|L]; [reflexivity|]. exfalso.
  assert (10 ^ s * 2 ^ unit_bits w <= d * 10 ^ q * 2 ^ unit_bits w) by (apply Z.mul_le_mono_nonneg_r; nia). lia.
Qed.

Lemma shortest_largest w b : 1 <= b < infinity w -> forall fuel q0, q0 - Z.of_nat fuel <= - unit_bits w -> 
  let (d, q) := shortest_from w b fuel q0 in forall d' q', q < q' <= q0 -> 0 < d' -> nearest w d' q' <> b.
Proof.
  intro Hb. induction fuel as [|fuel IH]; intros q0 Hf; cbn [shortest_from]; [intros; lia|].
  destruct (candidate w b q0) as [d|] eqn:C; [intros; lia|]. specialize (IH (q0 - 1) ltac:(lia)).
  destruct (shortest_from w b fuel (q0 - 1)) as [d q]. intros d' q' Hq Hd. destruct (Z.eq_dec q' q0) as [->|].
  - eapply candidate_none; eauto.
  - apply IH; auto. lia.
Qed.

Lemma exact_shift d q k : 0 <= k -> (exact (d * 10 ^ k) q == exact d (q + k))%Q.
Proof.
  intro H. unfold exact. rewrite inject_Z_mult, inject_pow by exact H. rewrite Qpower_plus by (intro T; discriminate T). change (inject_Z 10) with 10%Q. ring.
Qed.

(** No number with fewer digits is read as the float. *)
Lemma shortest_fewest w b d q : 1 <= b < infinity w -> shortest_from w b 2000 (if w then 310 else 40) = (d, q) ->
  forall neg d' q', 0 < d' -> rounded w neg (exact d' q') (signed w neg b) -> forall k, 0 <= k -> d' < 10 ^ k -> d < 10 ^ k.
Proof.
  intros Hb S neg d' q' Hd' R k Hk L. pose proof (shortest_from_ok w b ltac:(lia) 2000 (if w then 310 else 40)) as OK.
  assert (BIG : forall d q', q < q' -> 0 < d -> nearest w d q' <> b).
  { intros d0 q0 H0 H1. destruct (Z.le_gt_cases q0 (if w then 310 else 40)) as [G|G].
    - pose proof (shortest_largest w b Hb 2000 (if w then 310 else 40) ltac:(destruct w; vm_compute; discriminate)) as SL.
      rewrite S in SL. apply SL; auto.
    - rewrite too_large by auto. lia. }
  rewrite S in OK. destruct OK as [OK1 OK2]. apply (nearest_iff w neg) in OK2; [|lia|lia].
  assert (Hq : q' <= q).
  { apply Z.le_ngt. intro G. apply (BIG d' q' G Hd'). apply (nearest_iff w neg); auto; lia. }
  apply Z.lt_nge. intro G.
  assert (Hk1 : 1 <= k) by (destruct (Z.eq_dec k 0) as [->|]; [cbn in L; lia|lia]).
  apply (BIG (10 ^ (k - 1)) (q + 1)); [lia|apply Z.pow_pos_nonneg; lia|]. apply (nearest_iff w neg); [apply Z.pow_nonneg; lia|lia|].
  assert (E : (exact (10 ^ (k - 1)) (q + 1) == exact (10 ^ k) q)%Q).
  { rewrite <- exact_ten. replace k with (Z.succ (k - 1)) at 2 by lia. rewrite Z.pow_succ_r by lia. reflexivity. }
  apply (rounded_ext w neg (exact (10 ^ k) q)); [now symmetry|].
  apply (rounded_between w neg _ (exact d' q') _ (exact d q)); auto.
  - replace q with (q' + (q - q')) at 1 by lia. rewrite <- exact_shift by lia. rewrite exact_le. unfold over. cbn [fst snd].
    assert (0 < 10 ^ Z.max q' 0) by (apply Z.pow_pos_nonneg; lia). assert (0 < 10 ^ Z.max (- q') 0) by (apply Z.pow_pos_nonneg; lia).
    assert (0 < 10 ^ (q - q')) by (apply Z.pow_pos_nonneg; lia). 
    apply Z.mul_le_mono_nonneg_r; [lia|]. apply Z.mul_le_mono_nonneg_r; [lia|]. nia.
  - rewrite exact_le. unfold over. cbn [fst snd].
    assert (0 < 10 ^ Z.max q 0) by (apply Z.pow_pos_nonneg; lia). assert (0 < 10 ^ Z.max (- q) 0) by (apply Z.pow_pos_nonneg; lia).
    apply Z.mul_le_mono_nonneg_r; [lia|]. apply Z.mul_le_mono_nonneg_r; lia.
Qed.

Lemma shortest_best w b : 1 <= b < infinity w -> forall fuel q0, let (d, q) := shortest_from w b fuel q0 in
  forall d', 0 < d' -> nearest w d' q = b -> Z.abs (d * unit10 w q - scaled w b q) <= Z.abs (d' * unit10 w q - scaled w b q).
Proof.
  intro Hb. induction fuel as [|fuel IH]; intro q0; cbn [shortest_from].
  - intros d' _ _. replace (_ - _) with 0 at 1; [lia|]. unfold unit10, scaled.
    assert (0 <= unit_bits w) by (destruct w; vm_compute; discriminate).
    replace (Z.max (- unit_bits w) 0) with 0 by lia. replace (Z.max (- - unit_bits w) 0) with (unit_bits w) by lia.
    rewrite Z.pow_0_r. change 10 with (2 * 5). rewrite Z.pow_mul_l. ring.
  - destruct (candidate w b q0) as [d|] eqn:C; [|apply IH]. intros d' H N. eapply candidate_best; eauto.
Qed.

Lemma near_Q w neg b d d' q : 0 <= b < sign_bit w -> Z.abs (d * unit10 w q - scaled w b q) <= Z.abs (d' * unit10 w q - scaled w b q) ->
  (Qabs (exact d q - magnitude w (signed w neg b)) <= Qabs (exact d' q - magnitude w (signed w neg b)))%Q.
Proof.
  intros Hb H. destruct (over_exact d q) as [D1 D2]. destruct (over_exact d' q) as [E1 E2]. unfold over in *. cbn [fst snd] in *.
  pose proof (distance w neg _ _ _ b Hb D1 D2) as A. pose proof (distance w neg _ _ _ b Hb E1 E2) as B.
  assert (K : 0 < 2 ^ unit_bits w) by (destruct w; vm_compute; reflexivity).
  assert (Hs : (0 < inject_Z (10 ^ Z.max (- q) 0 * 2 ^ unit_bits w))%Q) by (change 0%Q with (inject_Z 0); rewrite <- Zlt_Qlt; nia).
  apply (Qmult_le_r _ _ _ Hs). rewrite A, B, <- Zle_Qle. unfold unit10, scaled in H.
  replace (d * 10 ^ Z.max q 0 * 2 ^ unit_bits w) with (d * (2 ^ unit_bits w * 10 ^ Z.max q 0)) by ring.
  replace (d' * 10 ^ Z.max q 0 * 2 ^ unit_bits w) with (d' * (2 ^ unit_bits w * 10 ^ Z.max q 0)) by ring. exact H.
Qed.

(** ** The text *)

Lemma strip_done fuel : forall d q, 0 < d < 10 ^ Z.of_nat fuel -> let (d', q') := strip_zeros fuel d q in 0 < d' /\ (q' < 0 -> d' mod 10 <> 0).
Proof.
  induction fuel as [|fuel IH]; intros d q H; [cbn in H; lia|]. cbn [strip_zeros].
  destruct (Z.eqb_spec (d mod 10) 0) as [E|E]; [|cbn [andb]; split; [lia|auto]]. destruct (Z.ltb_spec q 0) as [L|L]; cbn [andb]; [|split; lia].
  apply IH. pose proof (Z.div_mod d 10 ltac:(lia)). rewrite Nat2Z.inj_succ, Z.pow_succ_r in H by lia. lia.
Qed.

Lemma show_plain d q : 0 < d -> (q < 0 -> d mod 10 <> 0) -> plain (show_decimal d q).
Proof.
  intros Hd Hm. unfold show_decimal. destruct (Z.leb_spec 0 q) as [Hq|Hq].
  - apply plain_whole; [apply show_N_spec|apply show_N_lead].
  - specialize (Hm Hq). destruct (show_N_spec (Z.to_N d)) as [V D]. pose proof (show_N_lead (Z.to_N d)) as L. rewrite Z2N.id in V by lia.
    set (ds := show_N (Z.to_N d)) in *. set (n := Z.to_nat (- q)). assert (Hn : (1 <= n)%nat) by lia. clearbody ds n.
    assert (NE : exists r c, ds = r ++ [c] /\ c <> "0"%char).
    { destruct D as [D _]. destruct (exists_last D) as (r & c & ->). exists r, c. split; auto. intros ->. apply Hm.
      rewrite <- V, value_app. cbn [value]. change (Z.of_N (N_of_ascii "0") - 48) with 0. rewrite Z.add_0_r, Z.mul_comm. apply Z.mod_mul. lia. }
    destruct NE as (r & c & -> & Hc). apply digits_all in D. rewrite forallb_app in D. apply andb_true_iff in D as [D1 D2].
    set (z := repeat "0"%char (S n - List.length (r ++ [c])) ++ r).
    replace (repeat "0"%char (S n - List.length (r ++ [c])) ++ r ++ [c]) with (z ++ [c]) by (unfold z; now rewrite <- app_assoc).
    assert (Dz : forallb is_digit z = true).
    { unfold z. rewrite forallb_app, D1, andb_true_r. apply forallb_forall. intros x Hx. apply repeat_spec in Hx. now subst x. }
    assert (Lz : (n <= List.length z)%nat) by (unfold z; rewrite app_length, repeat_length, app_length; cbn [List.length]; lia).
    rewrite app_length. cbn [List.length].
    rewrite firstn_app, skipn_app. replace (List.length z + 1 - n - List.length z)%nat with O by lia. cbn [firstn skipn]. rewrite app_nil_r.
    set (k := (List.length z + 1 - n)%nat). assert (Hk : (1 <= k <= List.length z)%nat) by (unfold k; lia).
    assert (Dk : forallb is_digit (firstn k z) = true /\ forallb is_digit (skipn k z) = true).
    { rewrite <- (firstn_skipn k z), forallb_app in Dz. now apply andb_true_iff in Dz. }
    destruct Dk as [Dk1 Dk2]. apply plain_point; auto.
    + split; auto. intro E. apply (f_equal (@List.length _)) in E. rewrite firstn_length in E. cbn [List.length] in E. lia.
    + intro H. unfold k, z in *. rewrite !app_length, repeat_length in *. cbn [List.length] in *.
      destruct (Nat.le_gt_cases (List.length r + 1) n) as [G|G].
      * destruct (S n - (List.length r + 1))%nat as [|j] eqn:E; [lia|].
        replace (S j + List.length r + 1 - n)%nat with 1%nat by lia. reflexivity.
      * replace (S n - (List.length r + 1))%nat with O in * by lia. cbn [repeat app] in *. exfalso.
        destruct r as [|x r]; [cbn in *; lia|]. destruct (0 + List.length (x :: r) + 1 - n)%nat eqn:E; [lia|]. cbn [firstn hd_error] in H.
        injection H as ->. specialize (L eq_refl). apply (f_equal (@List.length _)) in L. rewrite app_length in L. cbn [List.length] in L. lia.
    + split; [destruct (skipn k z); discriminate|]. now rewrite forallb_app, Dk2, D2.
Qed.

Lemma shortest_bound w b d q : 1 <= b < infinity w -> shortest_from w b 2000 (if w then 310 else 40) = (d, q) -> d < 10 ^ 2000.
Proof.
  intros Hb S. apply (shortest_fewest w b d q Hb S false (units w b * 5 ^ unit_bits w) (- unit_bits w)).
  - pose proof (units_lt w (b - 1) ltac:(lia)) as U. replace (b - 1 + 1) with b in U by lia. pose proof (five_pos w). nia.
  - apply (full_rounded w false b). lia.
  - lia.
  - assert (units w b < units w (infinity w)).
    { apply units_mono; lia. }
    apply Z.lt_le_trans with (units w (infinity w) * 5 ^ unit_bits w).
    + apply Z.mul_lt_mono_pos_r; [apply five_pos|auto].
    + destruct w; vm_compute; discriminate.
Qed.

(** What is written for a number. *)
Lemma float_written w n : is_float w n -> ~ is_nan w n -> ~ is_infinite w n ->
  exists l m e d q, bytes_of (float_show w n) = (if is_negative w n then ["-"%char] else []) ++ l /\ decimal l m e /\ plain l /\
    rounded w (is_negative w n) (exact m e) n /\ (exact m e == exact d q)%Q /\
    (forall d' q' k, 0 < d' -> rounded w (is_negative w n) (exact d' q') n -> 0 <= k -> d' < 10 ^ k -> d < 10 ^ k) /\
    (forall d', 0 < d' -> rounded w (is_negative w n) (exact d' q) n ->
       (Qabs (exact d q - magnitude w n) <= Qabs (exact d' q - magnitude w n))%Q).
Proof.
  intros F A1 A2. destruct (all_signed w n F) as [E R]. destruct (sign_bit_eq w) as (_ & _ & S3 & _). pose proof (infinity_pos w) as HI.
  unfold float_show. set (b := Z.of_N n mod sign_bit w) in *.
  assert (NEG : Z.leb (sign_bit w) (Z.of_N n) = is_negative w n).
  { rewrite E at 1. rewrite of_signed by lia. destruct (is_negative w n); [apply Z.leb_le|apply Z.leb_gt]; lia. }
  rewrite NEG. clear NEG. destruct (nan_iff w (is_negative w n) b R) as [N1 N2]. rewrite <- E in N1, N2. rewrite N1 in A1. rewrite N2 in A2.
  set (neg := is_negative w n) in *. clearbody neg b. clear N1 N2 F. subst n.
  destruct (Z.ltb_spec (infinity w) b); [lia|]. destruct (Z.eqb_spec b (infinity w)); [lia|].
  set (l := if Z.eqb b 0 then _ else _). rewrite list_ascii_of_string_of_list_ascii. exists l.
  assert (X : (if neg then "-"%char :: l else l) = (if neg then ["-"%char] else []) ++ l) by (destruct neg; reflexivity).
  rewrite X. clear X. subst l. destruct (Z.eqb_spec b 0) as [->|Hb].
  - exists 0, 0, 0, 0. split; auto. split; [apply (dec_whole ["0"%char]); split; [discriminate|reflexivity]|].
    split; [apply plain_whole; [split; [discriminate|reflexivity]|auto]|].
    split; [apply nearest_iff; [lia|lia|destruct w; reflexivity]|]. split; [reflexivity|]. split; [intros; lia|]. intros d' Hd _.
    assert (M : (magnitude w (signed w neg 0) == 0)%Q).
    { pose proof (magnitude_units w neg 0 ltac:(lia)) as M. replace (units w 0) with 0 in M by (destruct w; reflexivity).
      assert (K : 0 < 2 ^ unit_bits w) by (destruct w; vm_compute; reflexivity).
      destruct (Qmult_integral _ _ M) as [G|G]; auto. exfalso. change 0%Q with (inject_Z 0) in G. apply (proj1 (inject_Z_injective _ _)) in G. lia. }
    rewrite M. unfold exact at 1. rewrite Qmult_0_l. change (Qabs (0 - 0)) with 0%Q. apply Qabs_nonneg.
  - unfold shortest. destruct (shortest_from w b 2000 (if w then 310 else 40)) as [d q] eqn:S.
    pose proof (shortest_from_ok w b ltac:(lia) 2000 (if w then 310 else 40)) as OK. rewrite S in OK. destruct OK as [O1 O2].
    assert (Hd : 0 < d).
    { destruct (Z.eq_dec d 0) as [->|]; [|lia]. exfalso. apply Hb. rewrite <- O2.
      apply (nearest_iff w false); [lia|lia|]. apply (rounded_ext w false (exact 0 0)); [unfold exact; now rewrite !Qmult_0_l|].
      apply nearest_iff; [lia|lia|destruct w; reflexivity]. }
    pose proof (shortest_bound w b d q ltac:(lia) S) as SB. 
    pose proof (strip_exact 2000 d q O1) as ST. pose proof (strip_done 2000 d q ltac:(split; [lia|exact SB])) as SD.
    destruct (strip_zeros 2000 d q) as [d' q']. destruct ST as [T1 T2]. destruct SD as [D1 D2]. clear SB.
    destruct (show_decimal_spec d' q' T1) as (m & e & G1 & G2). exists m, e, d, q. split; auto. split; auto. split; [now apply show_plain|].
    split; [apply (rounded_ext w neg (exact d q)); [now rewrite G2, T2|]; apply nearest_iff; lia|]. split; [now rewrite G2|]. split.
    + intros d0 q0 k H1 H2 H3 H4. apply (shortest_fewest w b d q ltac:(lia) S neg d0 q0 H1 H2 k H3 H4).
    + intros d0 H1 H2. apply near_Q; [lia|]. pose proof (shortest_best w b ltac:(lia) 2000 (if w then 310 else 40)) as BE. rewrite S in BE.
      apply BE; [exact H1|]. apply (nearest_iff w neg); [lia|lia|exact H2].
Qed.
