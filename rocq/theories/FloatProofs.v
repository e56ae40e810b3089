(** Floating-point numbers as text. *)
From Coq Require Import Lia Psatz QArith Qabs Qpower.
From Verif Require Import Base Normalize Text TextSpec TextProofs Float FloatSpec.
Local Open Scope Z_scope.

(** ** Floats in order *)

Definition P (w : bool) : Z := 2 ^ fraction_bits w.

Lemma P_pos w : 0 < P w.
Proof. destruct w; vm_compute; reflexivity. Qed.

Lemma units_eq w e f : 0 <= e -> 0 <= f < P w -> units w (e * P w + f) = if Z.eqb e 0 then f else (P w + f) * 2 ^ (e - 1).
Proof.
  intros He Hf. unfold units. fold (P w). pose proof (P_pos w).
  rewrite Z.add_comm, Z.div_add, Z.mod_add by lia. rewrite (Z.div_small f), (Z.mod_small f) by lia. reflexivity.
Qed.

Lemma split_bits w b : 0 <= b -> exists e f, b = e * P w + f /\ 0 <= e /\ 0 <= f < P w.
Proof.
  intro H. pose proof (P_pos w). exists (b / P w), (b mod P w).
  rewrite Z.mul_comm, <- Z.div_mod by lia. repeat split; try (apply Z.mod_pos_bound; lia). apply Z.div_pos; lia.
Qed.

Lemma units_lt w b : 0 <= b -> 0 <= units w b < units w (b + 1).
Proof.
  intro H. destruct (split_bits w b H) as (e & f & -> & He & Hf). rewrite units_eq by lia.
  destruct (Z.eq_dec (f + 1) (P w)) as [E|E].
  - replace (e * P w + f + 1) with ((e + 1) * P w + 0) by lia. rewrite units_eq by lia.
    destruct (Z.eqb_spec (e + 1) 0); [lia|]. destruct (Z.eqb_spec e 0) as [->|].
    + change (2 ^ (0 + 1 - 1)) with 1. lia.
    + replace (e + 1 - 1) with (Z.succ (e - 1)) by lia. rewrite Z.pow_succ_r by lia.
      assert (0 < 2 ^ (e - 1)) by (apply Z.pow_pos_nonneg; lia). nia.
  - rewrite <- Z.add_assoc. rewrite units_eq by lia. destruct (Z.eqb e 0) eqn:E0; [lia|].
    apply Z.eqb_neq in E0. assert (0 < 2 ^ (e - 1)) by (apply Z.pow_pos_nonneg; lia). nia.
Qed.

Lemma units_mono w a b : 0 <= a -> a < b -> units w a < units w b.
Proof.
  intros Ha. assert (G : forall n, units w a < units w (a + 1 + Z.of_nat n)).
  { induction n as [|n IH]; [rewrite Z.add_0_r; apply units_lt; auto|].
    eapply Z.lt_trans; [exact IH|]. rewrite Nat2Z.inj_succ. replace (a + 1 + Z.succ (Z.of_nat n)) with ((a + 1 + Z.of_nat n) + 1) by lia.
    apply units_lt. lia. }
  intro H. specialize (G (Z.to_nat (b - a - 1))). rewrite Z2Nat.id in G by lia. replace (a + 1 + (b - a - 1)) with b in G by lia. exact G.
Qed.

Lemma last_float_spec w u : forall fuel lo hi, 0 <= lo -> lo < hi -> hi - lo <= 2 ^ Z.of_nat fuel -> units w lo <= u < units w hi ->
  let b := last_float w fuel u lo hi in lo <= b < hi /\ units w b <= u < units w (b + 1).
Proof.
  induction fuel as [|fuel IH]; intros lo hi H0 H1 H2 H3; cbn [last_float].
  - cbn in H2. assert (hi = lo + 1) by lia. subst hi. split; [lia|exact H3].
  - destruct (Z.leb_spec (hi - lo) 1) as [L|L].
    + assert (hi = lo + 1) by lia. subst hi. split; [lia|exact H3].
    + rewrite Nat2Z.inj_succ, Z.pow_succ_r in H2 by lia.
      pose proof (Z.div_mod (lo + hi) 2 ltac:(lia)). pose proof (Z.mod_pos_bound (lo + hi) 2 ltac:(lia)).
      set (m := (lo + hi) / 2) in *. destruct (Z.leb_spec (units w m) u) as [M|M].
      * destruct (IH m hi) as [I1 I2]; lia.
      * destruct (IH lo m) as [I1 I2]; lia.
Qed.

Lemma infinity_pos w : 0 < infinity w /\ infinity w <= 2 ^ 64 /\ Z.even (infinity w) = true.
Proof. destruct w; vm_compute; auto; repeat split; discriminate. Qed.

(** A fraction of units. *)
Definition close (w : bool) (x den b : Z) : Prop := 0 <= b <= infinity w /\
  forall c, 0 <= c <= infinity w ->
    Z.abs (x - units w b * den) <= Z.abs (x - units w c * den) /\
    (Z.abs (x - units w b * den) = Z.abs (x - units w c * den) -> c <> b -> Z.even b = true).

Lemma units_le w a b : 0 <= a -> a <= b -> units w a <= units w b.
Proof. intros H0 H. destruct (Z.eq_dec a b) as [->|]; [lia|]. pose proof (units_mono w a b). lia. Qed.

Lemma close_below w x den b : 0 < den -> 0 <= b -> b + 1 <= infinity w ->
  units w b * den <= x -> x < units w (b + 1) * den ->
  close w x den (match Z.compare (2 * x) ((units w b + units w (b + 1)) * den) with
                 | Lt => b | Gt => b + 1 | Eq => if Z.even b then b else b + 1 end).
Proof.
  intros Hd Hb Hi L U. pose proof (units_lt w b Hb) as LT.
  set (u := units w b) in *. set (v := units w (b + 1)) in *.
  assert (OUT : forall c, 0 <= c <= infinity w -> c <= b /\ units w c <= u /\ (c < b -> units w c < u) \/ b + 1 <= c /\ v <= units w c /\ (b + 1 < c -> v < units w c)).
  { intros c Hc. destruct (Z.le_gt_cases c b) as [G|G].
    - left. split; auto. split; [apply units_le; lia|]. intro. apply units_mono; lia.
    - right. split; [lia|]. split; [apply units_le; lia|]. intro. apply units_mono; lia. }
  assert (EV : Z.even (b + 1) = negb (Z.even b)) by (rewrite Z.add_1_r, Z.even_succ, <- Z.negb_even; reflexivity).
  assert (M : forall c, units w c <= u -> units w c * den <= u * den) by (intros; apply Z.mul_le_mono_nonneg_r; lia).
  assert (M' : forall c, units w c < u -> units w c * den < u * den) by (intros; apply Z.mul_lt_mono_pos_r; lia).
  assert (N : forall c, v <= units w c -> v * den <= units w c * den) by (intros; apply Z.mul_le_mono_nonneg_r; lia).
  assert (N' : forall c, v < units w c -> v * den < units w c * den) by (intros; apply Z.mul_lt_mono_pos_r; lia).
  assert (E : (u + v) * den = u * den + v * den) by lia. rewrite E.
  set (ud := u * den) in *. set (vd := v * den) in *.
  assert (Hbb : units w b * den = ud) by reflexivity. assert (Hb1 : units w (b + 1) * den = vd) by reflexivity.
  destruct (Z.compare_spec (2 * x) (ud + vd)) as [C|C|C].
  - destruct (Z.even b) eqn:EB; split; try lia; intros c Hc; rewrite ?Hbb, ?Hb1.
    + destruct (OUT c Hc) as [(G1 & G2 & G3)|(G1 & G2 & G3)]; [specialize (M c G2)|specialize (N c G2)]; split; auto; lia.
    + rewrite EV. destruct (OUT c Hc) as [(G1 & G2 & G3)|(G1 & G2 & G3)]; [specialize (M c G2)|specialize (N c G2)]; split; auto; lia.
  - split; [lia|]. intros c Hc. rewrite Hbb.
    destruct (OUT c Hc) as [(G1 & G2 & G3)|(G1 & G2 & G3)]; [specialize (M c G2)|specialize (N c G2)]; split; try lia.
    intros A1 A2. assert (c < b) as A3 by lia. specialize (M' c (G3 A3)). lia.
  - split; [lia|]. intros c Hc. rewrite Hb1.
    destruct (OUT c Hc) as [(G1 & G2 & G3)|(G1 & G2 & G3)]; [specialize (M c G2)|specialize (N c G2)]; split; try lia.
    intros A1 A2. assert (b + 1 < c) as A3 by lia. specialize (N' c (G3 A3)). lia.
Qed.

Lemma nearest_close w m e : 0 <= m -> close w (fst (over m e) * 2 ^ unit_bits w) (snd (over m e)) (nearest w m e).
Proof.
  intro Hm. unfold nearest. destruct (over m e) as [num den] eqn:O. cbn [fst snd].
  assert (Hd : 0 < den) by (injection O as <- <-; apply Z.pow_pos_nonneg; lia).
  assert (Hn : 0 <= num) by (injection O as <- <-; apply Z.mul_nonneg_nonneg; [lia|apply Z.pow_nonneg; lia]).
  assert (HK : 0 < 2 ^ unit_bits w) by (destruct w; vm_compute; reflexivity).
  set (x := num * 2 ^ unit_bits w) in *. assert (Hx : 0 <= x) by (apply Z.mul_nonneg_nonneg; lia). clearbody x. clear O num Hn HK.
  destruct (infinity_pos w) as (I1 & I2 & I3).
  pose proof (Z.div_mod x den ltac:(lia)) as DM. pose proof (Z.mod_pos_bound x den Hd) as MB.
  destruct (Z.leb_spec (units w (infinity w)) (x / den)) as [L|L].
  - split; [lia|]. intros c Hc.
    assert (units w c * den <= units w (infinity w) * den) by (apply Z.mul_le_mono_nonneg_r; [lia|apply units_le; lia]).
    assert (units w (infinity w) * den <= x) by nia.
    split; auto. lia.
  - assert (U0 : units w 0 = 0) by (destruct w; reflexivity).
    destruct (last_float_spec w (x / den) 64 0 (infinity w)) as [B1 B2]; try lia.
    { split; [|exact L]. rewrite U0. apply Z.div_pos; lia. }
    set (b := last_float w 64 (x / den) 0 (infinity w)) in *. apply close_below; try lia; nia.
Qed.

Lemma close_unique w x den a b : 0 < den -> close w x den a -> close w x den b -> a = b.
Proof.
  intros Hd [Ha A] [Hb B]. destruct (Z.eq_dec a b) as [E|E]; auto. exfalso.
  destruct (A b Hb) as [A1 A2]. destruct (B a Ha) as [B1 B2].
  assert (EQ : Z.abs (x - units w a * den) = Z.abs (x - units w b * den)) by lia.
  assert (Ea : Z.even a = true) by (apply A2; auto). assert (Eb : Z.even b = true) by (apply B2; auto; lia).
  assert (W : forall p q, 0 <= p -> p < q -> q <= infinity w -> close w x den p -> Z.even p = true -> Z.even q = true ->
    Z.abs (x - units w p * den) = Z.abs (x - units w q * den) -> False).
  { clear - Hd. intros p q Hp Hpq Hq [_ C] Ep Eq EQ.
    assert (p + 1 < q).
    { destruct (Z.eq_dec (p + 1) q) as [<-|]; [|lia]. rewrite Z.add_1_r, Z.even_succ, <- Z.negb_even, Ep in Eq. discriminate. }
    pose proof (units_lt w p Hp). pose proof (units_mono w (p + 1) q ltac:(lia) H).
    destruct (C (p + 1)) as [C1 _]; [lia|].
    assert (units w p * den < units w (p + 1) * den) by (apply Z.mul_lt_mono_pos_r; lia).
    assert (units w (p + 1) * den < units w q * den) by (apply Z.mul_lt_mono_pos_r; lia). lia. }
  destruct (Z.lt_total a b) as [L|[L|L]]; [|congruence|].
  - apply (W a b); auto; try lia. split; auto.
  - apply (W b a); auto; try lia. split; auto.
Qed.

Lemma close_scale w x den k b : 0 < k -> close w x den b <-> close w (x * k) (den * k) b.
Proof.
  intro Hk. assert (E : forall c, Z.abs (x * k - units w c * (den * k)) = Z.abs (x - units w c * den) * k).
  { intro c. replace (x * k - units w c * (den * k)) with ((x - units w c * den) * k) by lia. rewrite Z.abs_mul, (Z.abs_eq k); lia. }
  unfold close. split; intros [H1 H2]; split; auto; intros c Hc; destruct (H2 c Hc) as [A B]; rewrite ?E in *; split.
  - apply Z.mul_le_mono_nonneg_r; lia.
  - intros E1 E2. apply B; auto. apply Z.mul_reg_r in E1; auto. lia.
  - apply Z.mul_le_mono_pos_r in A; auto.
  - intros E1 E2. apply B; auto. now rewrite E1.
Qed.

(** ** Bits *)

Lemma sign_bit_eq w : sign_bit w = 2 ^ exponent_bits w * P w /\ 0 < 2 ^ exponent_bits w /\ infinity w < sign_bit w /\
  sign_bit w = 2 ^ (fbits w + ebits w) /\ 2 ^ (1 + ebits w + fbits w) = 2 * sign_bit w.
Proof. destruct w; vm_compute; auto. Qed.

Lemma of_signed w neg b : 0 <= b -> Z.of_N (signed w neg b) = (if neg then 1 else 0) * sign_bit w + b.
Proof.
  intro H. destruct (sign_bit_eq w) as (S1 & S2 & S3 & _). pose proof (infinity_pos w). unfold signed. rewrite Z2N.id; destruct neg; lia.
Qed.

Lemma signed_fields w neg b : 0 <= b < sign_bit w ->
  is_float w (signed w neg b) /\ is_negative w (signed w neg b) = neg /\
  exponent_field w (signed w neg b) = b / P w /\ fraction_field w (signed w neg b) = b mod P w.
Proof.
  intro H. destruct (sign_bit_eq w) as (S1 & S2 & S3 & S4 & S5). pose proof (P_pos w) as HP. pose proof (infinity_pos w) as HI.
  unfold is_float, is_negative, exponent_field, fraction_field. rewrite of_signed by lia. rewrite S5.
  change (2 ^ fbits w) with (P w). change (ebits w) with (exponent_bits w). repeat split.
  - destruct neg; lia.
  - change (exponent_bits w) with (ebits w). rewrite Z.testbit_odd, Z.shiftr_div_pow2 by (destruct w; vm_compute; discriminate). rewrite <- S4.
    rewrite Z.add_comm, Z.div_add, Z.div_small by lia. destruct neg; reflexivity.
  - rewrite S1 at 1. rewrite Z.mul_assoc, Z.add_comm, Z.div_add by lia. rewrite Z.mod_add by lia. apply Z.mod_small.
    split; [apply Z.div_pos; lia|]. apply Z.div_lt_upper_bound; lia.
  - rewrite S1 at 1. rewrite Z.mul_assoc, Z.add_comm, Z.mod_add by lia. reflexivity.
Qed.

Lemma all_signed w n : is_float w n -> n = signed w (is_negative w n) (Z.of_N n mod sign_bit w) /\ 0 <= Z.of_N n mod sign_bit w < sign_bit w.
Proof.
  intro H. destruct (sign_bit_eq w) as (S1 & S2 & S3 & S4 & S5). pose proof (infinity_pos w) as HI.
  pose proof (Z.mod_pos_bound (Z.of_N n) (sign_bit w) ltac:(lia)) as MB. split; [|exact MB].
  apply N2Z.inj. rewrite of_signed by lia. pose proof (Z.div_mod (Z.of_N n) (sign_bit w) ltac:(lia)) as DM.
  unfold is_float in H. rewrite S5 in H. unfold is_negative. rewrite Z.testbit_odd, Z.shiftr_div_pow2 by (destruct w; vm_compute; discriminate).
  rewrite <- S4. set (q := Z.of_N n / sign_bit w) in *. assert (0 <= q) by (apply Z.div_pos; lia).
  assert (q < 2) by (apply Z.div_lt_upper_bound; lia). assert (q = 0 \/ q = 1) as [-> | ->] by lia; cbn [Z.odd]; lia.
Qed.

Lemma nan_iff w neg b : 0 <= b < sign_bit w ->
  (is_nan w (signed w neg b) <-> infinity w < b) /\ (is_infinite w (signed w neg b) <-> b = infinity w).
Proof.
  intro H. destruct (signed_fields w neg b H) as (_ & _ & F1 & F2). unfold is_nan, is_infinite. rewrite F1, F2.
  destruct (sign_bit_eq w) as (S1 & S2 & _). unfold all_ones, infinity. change (2 ^ fraction_bits w) with (P w). change (ebits w) with (exponent_bits w).
  pose proof (P_pos w) as HP. pose proof (Z.div_mod b (P w) ltac:(lia)) as DM. pose proof (Z.mod_pos_bound b (P w) HP) as MB.
  set (e := b / P w) in *. set (f := b mod P w) in *. set (E := 2 ^ exponent_bits w) in *.
  assert (e < E) by nia. assert (0 <= e) by nia. split; split.
  - intros [A B]. rewrite DM, A. nia.
  - intro A. assert (e = E - 1) as HE by nia. split; auto. nia.
  - intros [A B]. rewrite DM, A, B. lia.
  - intro A. assert (e = E - 1) as HE by nia. split; auto. nia.
Qed.

Lemma inject_pow a n : 0 <= n -> (inject_Z (a ^ n) == inject_Z a ^ n)%Q.
Proof. apply Zpower_Qpower. Qed.

Lemma magnitude_units w neg b : 0 <= b < sign_bit w ->
  (magnitude w (signed w neg b) * inject_Z (2 ^ unit_bits w) == inject_Z (units w b))%Q.
Proof.
  intro H. destruct (signed_fields w neg b H) as (_ & _ & F1 & F2). unfold magnitude. rewrite F1, F2.
  unfold units. fold (P w). change (2 ^ fbits w) with (P w).
  assert (K : 0 <= unit_bits w) by (destruct w; vm_compute; discriminate).
  assert (E1 : 1 - bias w - fbits w = - unit_bits w) by (destruct w; reflexivity).
  assert (T : ~ (2 == 0)%Q) by (intro T; discriminate T).
  assert (PK : (2 ^ (- unit_bits w) * inject_Z (2 ^ unit_bits w) == 1)%Q).
  { rewrite inject_pow by exact K. change (inject_Z 2) with 2%Q. rewrite <- Qpower_plus by exact T. rewrite Z.add_opp_diag_l. reflexivity. }
  destruct (Z.eqb_spec (b / P w) 0) as [E|E].
  - rewrite E1. rewrite <- Qmult_assoc, PK. apply Qmult_1_r.
  - assert (0 <= b / P w) by (apply Z.div_pos; [lia|apply P_pos]).
    replace (b / P w - bias w - fbits w) with ((b / P w - 1) + - unit_bits w) by lia.
    rewrite Qpower_plus by exact T. rewrite inject_Z_mult. rewrite (inject_pow 2 (b / P w - 1)) by lia.
    rewrite <- !Qmult_assoc, PK, Qmult_1_r. reflexivity.
Qed.

Lemma distance w neg x num den b : 0 <= b < sign_bit w -> 0 < den -> (x * inject_Z den == inject_Z num)%Q ->
  (Qabs (x - magnitude w (signed w neg b)) * inject_Z (den * 2 ^ unit_bits w) == inject_Z (Z.abs (num * 2 ^ unit_bits w - units w b * den)))%Q.
Proof.
  intros Hb Hd Hx. pose proof (magnitude_units w neg b Hb) as MU.
  assert (K : 0 < 2 ^ unit_bits w) by (destruct w; vm_compute; reflexivity).
  set (K2 := 2 ^ unit_bits w) in *. clearbody K2.
  assert (Hp : (0 <= inject_Z (den * K2))%Q) by (change 0%Q with (inject_Z 0); rewrite <- Zle_Qle; nia).
  rewrite <- (Qabs_pos (inject_Z (den * K2))) at 1 by exact Hp. rewrite <- Qabs_Qmult.
  assert (E : ((x - magnitude w (signed w neg b)) * inject_Z (den * K2) == inject_Z (num * K2 - units w b * den))%Q).
  { unfold Qminus, Z.sub. rewrite inject_Z_plus, inject_Z_opp, !inject_Z_mult. rewrite <- Hx, <- MU. ring. }
  rewrite E. reflexivity.
Qed.

Lemma rounded_iff w neg x num den n : 0 < den -> (x * inject_Z den == inject_Z num)%Q ->
  rounded w neg x n <-> exists b, n = signed w neg b /\ close w (num * 2 ^ unit_bits w) den b.
Proof.
  intros Hd Hx. destruct (sign_bit_eq w) as (_ & _ & S3 & _). pose proof (infinity_pos w) as HI.
  assert (K : 0 < 2 ^ unit_bits w) by (destruct w; vm_compute; reflexivity).
  assert (Hs : (0 < inject_Z (den * 2 ^ unit_bits w))%Q) by (change 0%Q with (inject_Z 0); rewrite <- Zlt_Qlt; nia).
  assert (LE : forall b c, 0 <= b < sign_bit w -> 0 <= c < sign_bit w ->
    ((Qabs (x - magnitude w (signed w neg b)) <= Qabs (x - magnitude w (signed w neg c)))%Q <->
     Z.abs (num * 2 ^ unit_bits w - units w b * den) <= Z.abs (num * 2 ^ unit_bits w - units w c * den))).
  { intros b c Hb Hc. rewrite <- (Qmult_le_r _ _ _ Hs). rewrite !distance with (num := num) by auto. rewrite <- Zle_Qle. tauto. }
  assert (EQ : forall b c, 0 <= b < sign_bit w -> 0 <= c < sign_bit w ->
    ((Qabs (x - magnitude w (signed w neg b)) == Qabs (x - magnitude w (signed w neg c)))%Q <->
     Z.abs (num * 2 ^ unit_bits w - units w b * den) = Z.abs (num * 2 ^ unit_bits w - units w c * den))).
  { intros b c Hb Hc. split; intro E.
    - apply Z.le_antisymm; apply LE; auto; rewrite E; apply Qle_refl.
    - apply Qle_antisym; apply LE; auto; lia. }
  assert (EV : forall b, 0 <= b -> N.even (signed w neg b) = Z.even b).
  { intros b Hb.
    assert (A : Z.even (Z.of_N (signed w neg b)) = Z.even b).
    { rewrite of_signed by lia. rewrite Z.even_add, Z.even_mul. assert (Z.even (sign_bit w) = true) as -> by (destruct w; reflexivity).
      rewrite orb_true_r. destruct (Z.even b); reflexivity. }
    rewrite <- A. destruct (signed w neg b) as [|p]; reflexivity. }
  split.
  - intros (F & N & NN & C). destruct (all_signed w n F) as [E B]. rewrite N in E.
    set (b := Z.of_N n mod sign_bit w) in *. clearbody b. subst n. exists b. split; auto.
    assert (Hb : b <= infinity w) by (apply Z.le_ngt; intro G; apply NN; apply nan_iff; auto).
    split; [lia|]. intros c Hc. assert (Hc' : 0 <= c < sign_bit w) by lia.
    destruct (signed_fields w neg c Hc') as (G1 & G2 & _).
    destruct (C (signed w neg c) G1 G2) as [C1 C2]. { intro G. apply nan_iff in G; auto. lia. }
    split; [apply LE; auto|]. intros A1 A2. rewrite <- EV by lia. apply C2; [apply EQ; auto|].
    intro A3. apply A2. apply (f_equal Z.of_N) in A3. rewrite !of_signed in A3 by lia. lia.
  - intros (b & -> & Hb & C). assert (Hb' : 0 <= b < sign_bit w) by lia. destruct (signed_fields w neg b Hb') as (G1 & G2 & _).
    split; auto. split; auto. split. { intro G. apply nan_iff in G; auto. lia. }
    intros n Fn Nn NN. destruct (all_signed w n Fn) as [E B]. rewrite Nn in E.
    set (c := Z.of_N n mod sign_bit w) in *. clearbody c. subst n.
    assert (Hc : c <= infinity w) by (apply Z.le_ngt; intro G; apply NN; apply nan_iff; auto).
    destruct (C c) as [C1 C2]; [lia|]. split; [apply LE; auto|]. intros A1 A2. rewrite EV by lia. apply C2; [apply EQ; auto|]. congruence.
Qed.

Lemma over_exact m e : 0 < snd (over m e) /\ (exact m e * inject_Z (snd (over m e)) == inject_Z (fst (over m e)))%Q.
Proof.
  unfold over, exact. cbn [fst snd]. split; [apply Z.pow_pos_nonneg; lia|].
  assert (T : ~ (10 == 0)%Q) by (intro T; discriminate T).
  rewrite inject_Z_mult, !inject_pow by lia. change (inject_Z 10) with 10%Q. rewrite <- Qmult_assoc, <- Qpower_plus by exact T.
  replace (e + Z.max (- e) 0) with (Z.max e 0) by lia. reflexivity.
Qed.

Lemma nearest_rounded w neg m e : 0 <= m -> rounded w neg (exact m e) (signed w neg (nearest w m e)).
Proof.
  intro H. destruct (over_exact m e) as [O1 O2]. apply (rounded_iff w neg (exact m e) (fst (over m e)) (snd (over m e))); auto.
  eexists. split; [reflexivity|]. apply nearest_close; auto.
Qed.

Lemma rounded_ext w neg x y n : (x == y)%Q -> rounded w neg x n -> rounded w neg y n.
Proof.
  intros E (A & B & C & D). split; auto. split; auto. split; auto. intros c C1 C2 C3. destruct (D c C1 C2 C3) as [D1 D2].
  split; [now rewrite <- E|]. intros E1. apply D2. now rewrite E.
Qed.

Lemma rounded_unique w neg m e n n' : rounded w neg (exact m e) n -> rounded w neg (exact m e) n' -> n = n'.
Proof.
  intros A B. destruct (over_exact m e) as [O1 O2].
  apply (rounded_iff w neg _ _ _ n O1 O2) in A as (a & -> & A). apply (rounded_iff w neg _ _ _ n' O1 O2) in B as (b & -> & B).
  f_equal. eapply close_unique; eauto.
Qed.
