(** Floats as parts of documents. *)
From Coq Require Import Lia QArith Qabs.
From Verif Require Import Base Text TextSpec Types RTSpec RTProps NamesSpec NamesSource Float FloatSpec FloatProofs FloatText FloatShort FloatLaws.

Local Open Scope Z_scope.

Lemma float_survives o env w n : is_float w n -> ~ is_nan w n -> survives (std_floats o) env (EText (TFloat w)) (VText (TVFloat n)).
Proof.
  intros F N. apply su_text with (s := float_show w n); [reflexivity|]. apply seen_irrelevant; [reflexivity|]. now apply float_back with (n := n).
Qed.

Lemma float_survives_attribute o env R claimed f w n (opt : bool) : is_float w n -> ~ is_nan w n -> f_mode f = MAttribute opt (TFloat w) ->
  survives_field (std_floats o) env R claimed f (if opt then VSome (VText (TVFloat n)) else VText (TVFloat n)).
Proof.
  intros F N M. apply sf_attribute with (t := TFloat w) (s := float_show w n); auto. now apply float_back with (n := n).
Qed.

Definition visible (c : ascii) : Prop := (32 <= N_of_ascii c < 127)%N.

Lemma show_visible n : Forall visible (show_N n).
Proof. eapply numeral_ascii; [apply DisplayProofs.show_N_numeral|lia]. Qed.

Lemma decimal_visible d q : Forall visible (show_decimal d q).
Proof.
  unfold show_decimal. destruct (Z.leb 0 q); [apply show_visible|].
  assert (P : forall c, N_of_ascii c = 46%N \/ N_of_ascii c = 48%N -> visible c) by (intros c [H|H]; unfold visible; lia).
  set (z := repeat _ _ ++ _). assert (Z : Forall visible z).
  { unfold z. apply Forall_app. split; [|apply show_visible]. apply Forall_forall. intros c H. apply repeat_spec in H. subst c. apply P. now right. }
  rewrite <- (firstn_skipn (List.length z - Z.to_nat (- q)) z) in Z. apply Forall_app in Z as [Z1 Z2].
  apply Forall_app. split; [exact Z1|]. constructor; [apply P; now left|exact Z2].
Qed.

Lemma float_prints o w : prints_xml (std_floats o) (TFloat w).
Proof.
  intros x s H. destruct x; try discriminate H. injection H as <-. unfold float_show.
  assert (V : forall t, forallb (fun c => N.leb 32 (N_of_ascii c) && N.ltb (N_of_ascii c) 127)%bool (bytes_of t) = true -> Forall visible (bytes_of t)).
  { intros t G. apply Forall_forall. intros c Hc. rewrite forallb_forall in G. apply G, andb_true_iff in Hc as [A B].
    apply N.leb_le in A. apply N.ltb_lt in B. split; assumption. }
  destruct (Z.ltb _ _); [apply (ascii_text (bytes_of "NaN")); now apply V|].
  apply ascii_text. set (l := if Z.eqb _ (infinity w) then _ else _).
  assert (G : Forall visible l).
  { unfold l. destruct (Z.eqb _ (infinity w)); [now apply V|]. destruct (Z.eqb _ 0); [now apply (V "0"%string)|].
    destruct (shortest w _) as [d q]. apply decimal_visible. }
  destruct (Z.leb _ _); [|exact G]. constructor; [|exact G]. split; [discriminate|reflexivity].
Qed.

(** ** Order *)

Lemma close_mono w den x1 x2 b1 b2 : 0 < den -> close w x1 den b1 -> close w x2 den b2 -> x1 <= x2 -> b1 <= b2.
Proof.
  intros Hd C1 C2 H. destruct (Z.le_gt_cases b1 b2) as [L|L]; auto. exfalso. pose proof C1 as [B1 A1]. pose proof C2 as [B2 A2].
  pose proof (units_mono w b2 b1 ltac:(lia) L) as U. destruct (A1 b2 B2) as [P1 _]. destruct (A2 b1 B1) as [P2 _].
  assert (units w b2 * den < units w b1 * den) by nia. assert (x1 = x2) by lia. subst x2.
  pose proof (close_unique w x1 den b1 b2 Hd C1 C2). lia.
Qed.

Lemma rounded_mono w neg x y n n' : rounded w neg x n -> rounded w neg y n' -> (x <= y)%Q -> (n <= n')%N.
Proof.
  intros R1 R2 L. set (D := Zpos (Qden x) * Zpos (Qden y)). assert (HD : 0 < D) by (subst D; lia).
  assert (E : forall x k, Zpos (Qden x) * k = D -> (x * inject_Z D == inject_Z (Qnum x * k))%Q).
  { intros [a p] k Hk. unfold Qeq. cbn [Qnum Qden Qmult inject_Z]. cbn [Qden] in Hk. rewrite <- Hk. rewrite Pos.mul_1_r. ring. }
  pose proof (E x (Zpos (Qden y)) eq_refl) as E1. pose proof (E y (Zpos (Qden x)) ltac:(subst D; ring)) as E2.
  assert (Hs : (0 < inject_Z D)%Q) by (change 0%Q with (inject_Z 0); rewrite <- Zlt_Qlt; lia).
  apply (Qmult_le_r _ _ _ Hs) in L. rewrite E1, E2, <- Zle_Qle in L.
  apply (rounded_iff w neg _ _ _ n HD E1) in R1 as (b & -> & C1). apply (rounded_iff w neg _ _ _ n' HD E2) in R2 as (b' & -> & C2).
  assert (0 < 2 ^ unit_bits w) by (destruct w; vm_compute; reflexivity).
  assert (b <= b') by (eapply close_mono; [exact HD|exact C1|exact C2|apply Z.mul_le_mono_nonneg_r; lia]).
  apply N2Z.inj_le. destruct C1 as [B1 _], C2 as [B2 _]. rewrite !of_signed by lia. lia.
Qed.

Lemma float_monotone o w text text' neg s s' l l' m m' e e' x x' n n' :
  padded (s ++ l) (bytes_of text) -> sign neg s -> numeric l m e x -> x < 655360 ->
  padded (s' ++ l') (bytes_of text') -> sign neg s' -> numeric l' m' e' x' -> x' < 655360 ->
  (exact m e <= exact m' e')%Q -> parse_text (std_floats o) (TFloat w) text = Ok (TVFloat n) ->
  parse_text (std_floats o) (TFloat w) text' = Ok (TVFloat n') -> (n <= n')%N.
Proof.
  intros P1 S1 N1 X1 P2 S2 N2 X2 E A B. destruct (float_number o w text neg s l m e x P1 S1 N1 X1) as (k & K & R1).
  destruct (float_number o w text' neg s' l' m' e' x' P2 S2 N2 X2) as (k' & K' & R2). rewrite K in A. rewrite K' in B.
  injection A as <-. injection B as <-. eapply rounded_mono; eauto.
Qed.

(** ** Exact numbers *)

Lemma rounded_self w n x : is_float w n -> ~ is_nan w n -> (x == magnitude w n)%Q -> rounded w (is_negative w n) x n.
Proof.
  intros F N E. split; [exact F|]. split; [reflexivity|]. split; [exact N|]. intros c Fc Nc NNc.
  assert (Z0 : (Qabs (x - magnitude w n) == 0)%Q).
  { rewrite E. setoid_replace (magnitude w n - magnitude w n)%Q with 0%Q by ring. reflexivity. }
  rewrite Z0. split; [apply Qabs_nonneg|]. intros Eq Hc. exfalso. apply Hc.
  destruct (all_signed w n F) as [E1 R1]. destruct (all_signed w c Fc) as [E2 R2].
  set (b := Z.of_N n mod sign_bit w) in *. set (b' := Z.of_N c mod sign_bit w) in *.
  rewrite Nc in E2. set (neg := is_negative w n) in *.
  assert (M : (magnitude w c == magnitude w n)%Q).
  { assert (G : (x - magnitude w c == 0)%Q).
    { symmetry in Eq. revert Eq. apply Qabs_case; intros _ H; [exact H|]. rewrite <- (Qopp_involutive (x - magnitude w c)), H. reflexivity. }
    rewrite <- E. setoid_replace (magnitude w c) with (x - (x - magnitude w c))%Q by ring. rewrite G. ring. }
  pose proof (magnitude_units w neg b R1) as U1. pose proof (magnitude_units w neg b' R2) as U2. rewrite <- E1 in U1. rewrite <- E2 in U2.
  rewrite M, U1 in U2. apply (proj1 (inject_Z_injective _ _)) in U2.
  assert (b = b') as EB.
  { destruct (Z.lt_trichotomy b b') as [L|[L|L]]; auto; exfalso;
      [pose proof (units_mono w b b' ltac:(lia) L)|pose proof (units_mono w b' b ltac:(lia) L)]; lia. }
  now rewrite E1, E2, EB.
Qed.

(** A number that is a float is read as this float. *)
Lemma float_exact o w text n s l m e x : padded (s ++ l) (bytes_of text) -> sign (is_negative w n) s -> numeric l m e x -> x < 655360 ->
  is_float w n -> ~ is_nan w n -> (exact m e == magnitude w n)%Q -> parse_text (std_floats o) (TFloat w) text = Ok (TVFloat n).
Proof.
  intros P1 S1 N1 X1 F N E. destruct (float_number o w text _ s l m e x P1 S1 N1 X1) as (k & -> & R). do 2 f_equal.
  eapply rounded_unique; [exact R|]. now apply rounded_self.
Qed.
