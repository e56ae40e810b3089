(** What follows for reading and writing floats. *)
From Coq Require Import Lia QArith Qabs Qpower.
From Verif Require Import Base Normalize Text TextSpec TextProofs Float FloatSpec FloatProofs FloatText FloatShort.
Local Open Scope Z_scope.

(** ** Equal numbers *)

Lemma float_same o w text text' neg s s' l l' m m' e e' x x' :
  padded (s ++ l) (bytes_of text) -> sign neg s -> numeric l m e x -> x < 655360 ->
  padded (s' ++ l') (bytes_of text') -> sign neg s' -> numeric l' m' e' x' -> x' < 655360 ->
  (exact m e == exact m' e')%Q -> parse_text (std_floats o) (TFloat w) text = parse_text (std_floats o) (TFloat w) text'.
Proof.
  intros P1 S1 N1 X1 P2 S2 N2 X2 E. destruct (float_number o w text neg s l m e x P1 S1 N1 X1) as (n & -> & R1).
  destruct (float_number o w text' neg s' l' m' e' x' P2 S2 N2 X2) as (n' & -> & R2). do 2 f_equal.
  apply (rounded_unique w neg m' e'); auto. now apply (rounded_ext w neg (exact m e)).
Qed.

(** ** Writing and reading *)

Lemma shown_text o w n : to_text (std_floats o) (TFloat w) (TVFloat n) = Some (float_show w n).
Proof. reflexivity. Qed.

Lemma padded_self l : padded l l.
Proof. exists [], []. cbn. now rewrite app_nil_r. Qed.

Lemma sign_of neg : sign neg (if neg then ["-"%char] else []).
Proof. destruct neg; cbn; auto. Qed.

Lemma float_text o w n : is_float w n -> exists text, to_text (std_floats o) (TFloat w) (TVFloat n) = Some text /\
  (is_nan w n -> text = "NaN"%string) /\
  (is_infinite w n -> text = if is_negative w n then "-inf"%string else "inf"%string) /\
  (~ is_nan w n -> ~ is_infinite w n -> exists l m e d q,
     bytes_of text = (if is_negative w n then ["-"%char] else []) ++ l /\ decimal l m e /\ plain l /\
     rounded w (is_negative w n) (exact m e) n /\ (exact m e == exact d q)%Q /\
     (forall d' q' k, 0 < d' -> rounded w (is_negative w n) (exact d' q') n -> 0 <= k -> d' < 10 ^ k -> d < 10 ^ k) /\
     (forall d', 0 < d' -> rounded w (is_negative w n) (exact d' q) n ->
        (Qabs (exact d q - magnitude w n) <= Qabs (exact d' q - magnitude w n))%Q)).
Proof.
  intro F. exists (float_show w n). split; [apply shown_text|]. destruct (float_shown w n F) as (A & B & _).
  assert (INJ : forall s t, bytes_of s = bytes_of t -> s = t).
  { intros s t H. rewrite <- (string_of_list_ascii_of_string s), <- (string_of_list_ascii_of_string t). now rewrite H. }
  split; [intro H; apply INJ; now apply A|]. split; [|now apply float_written].
  intro H. apply INJ. rewrite (B H). destruct (is_negative w n); reflexivity.
Qed.

(** Everything written for numbers is a literal of XML Schema. *)
Lemma float_xsd o w n text : is_float w n -> ~ is_infinite w n -> to_text (std_floats o) (TFloat w) (TVFloat n) = Some text ->
  xsd_literal (bytes_of text).
Proof.
  intros F I [= <-]. destruct (float_shown w n F) as (A & _ & C).
  assert (D : is_nan w n \/ ~ is_nan w n).
  { unfold is_nan. destruct (Z.eq_dec (exponent_field w n) (all_ones w)); destruct (Z.eq_dec (fraction_field w n) 0); tauto. }
  destruct D as [D|D]; [rewrite (A D); apply xsd_nan|]. destruct (C D I) as (l & m & e & -> & G & _).
  exact (xsd_number _ _ _ _ _ _ (sign_of _) (num_decimal _ _ _ G)).
Qed.

Lemma float_back o w n text : is_float w n -> ~ is_nan w n -> to_text (std_floats o) (TFloat w) (TVFloat n) = Some text ->
  parse_text (std_floats o) (TFloat w) text = Ok (TVFloat n).
Proof.
  intros F NN [= <-]. destruct (float_shown w n F) as (_ & B & C).
  assert (D : is_infinite w n \/ ~ is_infinite w n).
  { unfold is_infinite. destruct (Z.eq_dec (exponent_field w n) (all_ones w)); destruct (Z.eq_dec (fraction_field w n) 0); tauto. }
  destruct D as [D|D].
  - rewrite (parse_padded o w _ ((if is_negative w n then ["-"%char] else []) ++ bytes_of "inf")).
    + assert (SL : Forall2 same_letter (bytes_of "inf") (bytes_of "inf")) by (cbn; repeat constructor; left; reflexivity).
      rewrite (from_word w (is_negative w n) _ (bytes_of "inf") "inf" (sign_of _)); [|cbn; auto|exact SL].
      destruct (all_signed w n F) as [E R].
      assert (X : Z.of_N n mod sign_bit w = infinity w) by (apply (nan_iff w (is_negative w n) _ R); now rewrite <- E).
      rewrite X in E. transitivity (Ok (A := tval) (E := string) (TVFloat (signed w (is_negative w n) (infinity w)))); [reflexivity|now rewrite <- E].
    + rewrite (B D). apply padded_self.
    + apply literal_trimmed. right. eapply ol_word; [apply sign_of|left; reflexivity|]. cbn; repeat constructor; left; reflexivity.
  - destruct (C NN D) as (l & m & e & E & G & H).
    rewrite (parse_padded o w _ (bytes_of (float_show w n)) (padded_self _)).
    + now rewrite H.
    + apply literal_trimmed. left. rewrite E. exact (xsd_number _ _ _ _ _ _ (sign_of _) (num_decimal _ _ _ G)).
Qed.

Lemma float_nan_back o w n text : is_float w n -> is_nan w n -> to_text (std_floats o) (TFloat w) (TVFloat n) = Some text ->
  exists n', parse_text (std_floats o) (TFloat w) text = Ok (TVFloat n') /\ is_nan w n' /\ is_negative w n' = false.
Proof.
  intros F NN [= <-]. destruct (float_shown w n F) as (A & _ & _).
  destruct (float_word o w (float_show w n) false [] (bytes_of "NaN") "nan") as (n' & P & _ & Q1 & Q2).
  - rewrite (A NN). apply padded_self.
  - cbn. auto.
  - cbn. auto.
  - apply Forall2_cons; [right; exists 110%N; repeat split; discriminate|]. apply Forall2_cons; [left; reflexivity|].
    apply Forall2_cons; [right; exists 110%N; repeat split; discriminate|apply Forall2_nil].
  - exists n'. auto.
Qed.

(** ** Where it fails *)

Lemma numeric_inf l m e x : numeric l m e x -> forall r, l <> "i"%char :: r.
Proof.
  intros H r ->. destruct (parse_number_some _ _ _ _ H) as (e' & P & _). discriminate P.
Qed.

Lemma inf_refuted o w : exists n text, is_float w n /\ to_text (std_floats o) (TFloat w) (TVFloat n) = Some text /\ ~ xsd_literal (bytes_of text).
Proof.
  exists (Z.to_N (infinity w)), "inf"%string. split; [destruct w; reflexivity|]. split; [destruct w; reflexivity|].
  intro H. change (bytes_of "inf") with ["i"; "n"; "f"]%char in H. inversion H as [neg s l m e x Hs Hn E|neg s Hs E|E].
  - destruct neg; [rewrite Hs in E; discriminate E|]. destruct Hs as [-> | ->]; [|discriminate E]. exact (numeric_inf _ _ _ _ Hn _ E).
  - destruct neg; [rewrite Hs in E; discriminate E|]. destruct Hs as [-> | ->]; discriminate E.
Qed.

Lemma nan_refuted o w : exists text n text' n', parse_text (std_floats o) (TFloat w) text = Ok (TVFloat n) /\
  to_text (std_floats o) (TFloat w) (TVFloat n) = Some text' /\ parse_text (std_floats o) (TFloat w) text' = Ok (TVFloat n') /\ n <> n'.
Proof.
  exists "-nan"%string, (signed w true (quiet_nan w)), "NaN"%string, (signed w false (quiet_nan w)). destruct w; repeat split; discriminate.
Qed.

Lemma parse_exponent l m e d : decimal l m e -> digits d -> parse_number (l ++ "e"%char :: d) = Some (m, e + exponent d).
Proof.
  intros D Hd. rewrite parse_number_eq. assert (M : mantissa (l ++ "e"%char :: d) [] = mantissa l ("e"%char :: d)) by (unfold mantissa; now rewrite app_nil_r).
  rewrite M. destruct (mantissa_spec l m e ("e"%char :: d) D) as (i & f & -> & Dg & -> & ->); [reflexivity|discriminate|].
  assert (N : number (i ++ f) = value 0 (i ++ f)) by (apply number_value; now apply digits_all).
  destruct Dg as [Dg _]. destruct (i ++ f) eqn:E; [congruence|]. rewrite N.
  change (Ascii.eqb "e" "e" || Ascii.eqb "e" "E")%bool with true.
  pose proof (take_sign_app false [] d (or_introl eq_refl) (digits_no_sign d Hd)) as TS. cbn [app] in TS. rewrite TS.
  assert (T : take_digits d = (d, [])).
  { rewrite <- (app_nil_r d) at 1. apply take_digits_app; cbn; auto using digits_all. }
  rewrite T. destruct Hd as [Hd _]. destruct d as [|c' d]; [congruence|]. reflexivity.
Qed.

Lemma tiny w e : e <= -400 -> nearest w 1 e = 0.
Proof.
  intro He. pose proof (nearest_close w 1 e ltac:(lia)) as C. unfold over in C. cbn [fst snd] in C.
  assert (H : 10 ^ 400 <= 10 ^ (- e)) by (apply Z.pow_le_mono_r; lia).
  replace (Z.max e 0) with 0 in C by lia. replace (Z.max (- e) 0) with (- e) in C by lia. rewrite Z.pow_0_r in C.
  assert (B : 2 * 2 ^ unit_bits w <= 10 ^ 400) by (destruct w; vm_compute; discriminate).
  set (T := 10 ^ (- e)) in *. clearbody T. pose proof (infinity_pos w) as HI.
  assert (K : 0 < 2 ^ unit_bits w) by (destruct w; vm_compute; reflexivity).
  set (U := 2 ^ unit_bits w) in *. clearbody U. set (S400 := 10 ^ 400) in *. clearbody S400.
  apply (close_unique w (1 * 1 * U) T); [lia|exact C|]. split; [lia|]. intros c Hc.
  replace (units w 0) with 0 by (destruct w; reflexivity). destruct (Z.eq_dec c 0) as [->|Nc].
  - replace (units w 0) with 0 by (destruct w; reflexivity). split; [lia|]. intros _ G. congruence.
  - pose proof (units_lt w 0 ltac:(lia)) as U1. pose proof (units_le w (0 + 1) c ltac:(lia) ltac:(lia)) as U2. split; [nia|reflexivity].
Qed.

(** 0.000...1 with many zeros *)
Definition small (z : nat) : list ascii := ["0"%char] ++ "."%char :: (repeat "0"%char z ++ ["1"%char]).

Lemma small_decimal z : decimal (small z) 1 (- Z.of_nat (S z)).
Proof.
  assert (V : value 0 (["0"%char] ++ repeat "0"%char z ++ ["1"%char]) = 1).
  { rewrite app_assoc. change (["0"%char] ++ repeat "0"%char z) with (repeat "0"%char (S z)). now rewrite value_app, value_zeros. }
  assert (L : List.length (repeat "0"%char z ++ ["1"%char]) = S z) by (rewrite app_length, repeat_length; cbn; lia).
  rewrite <- V, <- L. apply dec_point. split; [discriminate|]. cbn. rewrite forallb_app. apply andb_true_iff. split; [|reflexivity].
  apply forallb_forall. intros c Hc. apply repeat_spec in Hc. now subst c.
Qed.

Lemma number_refuted o w : exists text neg s l m e x n, padded (s ++ l) (bytes_of text) /\ sign neg s /\ numeric l m e x /\
  parse_text (std_floats o) (TFloat w) text = Ok (TVFloat n) /\ ~ rounded w neg (exact m e) n.
Proof.
  set (d := bytes_of "700001"). assert (Dd : digits d) by (split; [discriminate|reflexivity]).
  assert (V : value 0 d = 700001) by reflexivity. assert (EX : exponent d = 70000) by reflexivity. clearbody d.
  assert (Z7 : exists z : nat, Z.of_nat (S z) = 700001) by (exists (Z.to_nat 700000); rewrite Nat2Z.inj_succ, Z2Nat.id; lia).
  destruct Z7 as [z Hz]. pose proof (small_decimal z) as SD. rewrite Hz in SD. set (l0 := small z) in *. clearbody l0.
  set (l := l0 ++ "e"%char :: d).
  assert (NU : numeric l 1 (-700001 + value 0 d) (value 0 d)).
  { exact (num_exponent l0 1 (-700001) "e" false [] d SD (or_introl eq_refl) (or_introl eq_refl) Dd). }
  rewrite V in NU. change (-700001 + 700001) with 0 in NU.
  exists (str_of l), false, [], l, 1, 0, 700001, (signed w false 0).
  assert (PA : padded ([] ++ l) (bytes_of (str_of l))) by (rewrite list_ascii_of_string_of_list_ascii; apply padded_self).
  split; [exact PA|]. split; [left; reflexivity|]. split; [exact NU|]. split.
  - rewrite (parse_padded o w _ ([] ++ l) PA) by (apply literal_trimmed; left; exact (xsd_number false [] l 1 0 700001 (or_introl eq_refl) NU)).
    rewrite from_bytes_eq by (unfold l; destruct l0; discriminate).
    rewrite (take_sign_app false [] l (or_introl eq_refl) (numeric_no_sign _ _ _ _ NU)). unfold l. rewrite (parse_exponent l0 1 _ d SD Dd), EX.
    cbv beta iota delta [map_ok]. change (- (700001) + 70000) with (-630001). rewrite (tiny w (-630001)) by lia. reflexivity.
  - intro R. apply (nearest_iff w false) in R; [|lia|lia]. destruct w; vm_compute in R; discriminate R.
Qed.
