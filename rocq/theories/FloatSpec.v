(** Floating-point numbers: what bits mean (IEEE 754), decimal numbers, and the literals of XML Schema. *)
From Coq Require Import QArith Qabs.
From Verif Require Import Base Normalize TextSpec.

(** ** Bits: the sign, the exponent and the fraction; [true] is [f64] *)

Definition fbits (w : bool) : Z := if w then 52 else 23.
Definition ebits (w : bool) : Z := if w then 11 else 8.
Definition bias (w : bool) : Z := if w then 1023 else 127.

Definition is_negative (w : bool) (n : N) : bool := Z.testbit (Z.of_N n) (fbits w + ebits w).
Definition exponent_field (w : bool) (n : N) : Z := (Z.of_N n / 2 ^ fbits w mod 2 ^ ebits w)%Z.
Definition fraction_field (w : bool) (n : N) : Z := (Z.of_N n mod 2 ^ fbits w)%Z.
Definition all_ones (w : bool) : Z := (2 ^ ebits w - 1)%Z.

Definition is_float (w : bool) (n : N) : Prop := (Z.of_N n < 2 ^ (1 + ebits w + fbits w))%Z.
Definition is_nan (w : bool) (n : N) : Prop := exponent_field w n = all_ones w /\ fraction_field w n <> 0%Z.
Definition is_infinite (w : bool) (n : N) : Prop := exponent_field w n = all_ones w /\ fraction_field w n = 0%Z.

(** The number without its sign; infinity is taken for the power of two that would come next. *)
Definition magnitude (w : bool) (n : N) : Q :=
  if Z.eqb (exponent_field w n) 0
  then (inject_Z (fraction_field w n) * 2 ^ (1 - bias w - fbits w))%Q
  else (inject_Z (2 ^ fbits w + fraction_field w n) * 2 ^ (exponent_field w n - bias w - fbits w))%Q.

(** [n] is the float, of this sign, nearest to [x], and the even one of two. *)
Definition rounded (w neg : bool) (x : Q) (n : N) : Prop :=
  is_float w n /\ is_negative w n = neg /\ ~ is_nan w n /\
  forall c, is_float w c -> is_negative w c = neg -> ~ is_nan w c ->
    (Qabs (x - magnitude w n) <= Qabs (x - magnitude w c))%Q /\
    ((Qabs (x - magnitude w n) == Qabs (x - magnitude w c))%Q -> c <> n -> N.even n = true).

(** ** Literals *)

Definition sign (neg : bool) (l : list ascii) : Prop := if neg then l = ["-"%char] else l = [] \/ l = ["+"%char].

(** Digits with a point somewhere or not at all: [m] * 10 ^ [e] *)
Inductive decimal : list ascii -> Z -> Z -> Prop :=
| dec_whole : forall i, digits i -> decimal i (value 0 i) 0
| dec_point : forall i f, digits (i ++ f) -> decimal (i ++ "."%char :: f) (value 0 (i ++ f)) (- Z.of_nat (List.length f)).

(** No zeros before the first digit, except one before the point, and none behind the point at the end. *)
Inductive plain : list ascii -> Prop :=
| plain_whole : forall i, digits i -> (hd_error i = Some "0"%char -> i = ["0"%char]) -> plain i
| plain_point : forall i f c, digits i -> (hd_error i = Some "0"%char -> i = ["0"%char]) -> digits (f ++ [c]) -> c <> "0"%char ->
    plain (i ++ "."%char :: f ++ [c]).

(** ... and maybe an exponent, a number of any size; the last argument is the value of its digits *)
Inductive numeric : list ascii -> Z -> Z -> Z -> Prop :=
| num_decimal : forall l m e, decimal l m e -> numeric l m e 0
| num_exponent : forall l m e c neg s d, decimal l m e -> c = "e"%char \/ c = "E"%char -> sign neg s -> digits d ->
    numeric (l ++ c :: s ++ d) m (e + (if neg then - value 0 d else value 0 d)) (value 0 d).

Definition exact (m e : Z) : Q := (inject_Z m * 10 ^ e)%Q.

(** XML Schema 1.1, xs:double and xs:float. *)
Inductive xsd_literal : list ascii -> Prop :=
| xsd_number : forall neg s l m e x, sign neg s -> numeric l m e x -> xsd_literal (s ++ l)
| xsd_inf : forall neg s, sign neg s -> xsd_literal (s ++ bytes_of "INF")
| xsd_nan : xsd_literal (bytes_of "NaN").

(** The same letters, in upper or lower case. *)
Definition same_letter (a b : ascii) : Prop :=
  a = b \/ exists n, (97 <= n <= 122)%N /\ b = ascii_of_N n /\ a = ascii_of_N (n - 32).

(** What else is accepted. *)
Inductive other_literal : list ascii -> Prop :=
| ol_word : forall neg s l t, sign neg s -> In t ["inf"; "infinity"; "nan"]%string -> Forall2 same_letter l (bytes_of t) ->
    other_literal (s ++ l).
