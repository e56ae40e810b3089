(** Independent specifications for text types. *)
From Coq Require Import List ZArith Ascii Bool String.
From Verif Require Import Normalize NormalizeSpec Text.
Import ListNotations.

(** [l] is [core] surrounded by (possibly no) XML white space. *)
Definition ws_byte (b : ascii) : bool := ws_char (N_of_ascii b).

(** What white space normalization should give, for each mode. *)
Definition spec_norm (w : whitespace) (s : string) : string :=
  match w with
  | Preserve => s
  | Replace =>
      string_of_list_ascii (spec_replace ws_byte " "%char (list_ascii_of_string s))
  | Collapse =>
      string_of_list_ascii (spec_collapse ws_byte " "%char (list_ascii_of_string s))
  end.

Definition padded (core l : list ascii) : Prop :=
  exists a b, l = a ++ core ++ b /\ forallb ws_byte a = true /\ forallb ws_byte b = true.

(** Decimal numerals, of any length. *)
Definition is_digit (b : ascii) : bool := (N.leb 48 (N_of_ascii b) && N.leb (N_of_ascii b) 57)%bool.

Fixpoint value (acc : Z) (ds : list ascii) : Z :=
  match ds with
  | [] => acc
  | d :: ds' => value (10 * acc + (Z.of_N (N_of_ascii d) - 48)) ds'
  end.

Definition digits (ds : list ascii) : Prop := ds <> [] /\ forallb is_digit ds = true.

(** The usual numeral of [z]: no leading zeros, no '+', and '-' only if [z] is negative. *)
Definition canonical (s : string) (z : Z) : Prop :=
  exists ds, digits ds /\ (hd_error ds = Some "0"%char -> ds = ["0"%char]) /\ value 0 ds = Z.abs z /\
    list_ascii_of_string s = if Z.ltb z 0 then "-"%char :: ds else ds.

(** Rust's integer types: whether negative numbers exist, the smallest and the largest number. *)
Definition int_range (k : itype) : bool * Z * Z :=
  match k with
  | I8 => (true, -128, 127)
  | U8 => (false, 0, 255)
  | I16 => (true, -32768, 32767)
  | U16 => (false, 0, 65535)
  | I32 => (true, -2147483648, 2147483647)
  | U32 => (false, 0, 4294967295)
  | I64 => (true, -9223372036854775808, 9223372036854775807)
  | U64 => (false, 0, 18446744073709551615)
  | I128 => (true, -170141183460469231731687303715884105728, 170141183460469231731687303715884105727)
  | U128 => (false, 0, 340282366920938463463374607431768211455)
  end%Z.

(** [core] is an optionally signed decimal numeral denoting [z]; '-' only if [neg_ok]. *)
Inductive numeral (neg_ok : bool) : list ascii -> Z -> Prop :=
| num_plain ds : digits ds -> numeral neg_ok ds (value 0 ds)
| num_plus ds : digits ds -> numeral neg_ok ("+"%char :: ds) (value 0 ds)
| num_minus ds : neg_ok = true -> digits ds -> numeral neg_ok ("-"%char :: ds) (- value 0 ds).

(** What std says about text that is not a number of the type: the digits are read from the left until
    something is wrong. *)
Definition split_sign (neg_ok : bool) (core : list ascii) : bool * list ascii :=
  match core with
  | [] => (false, [])
  | b :: rest =>
      if Ascii.eqb b "+" then (false, rest)
      else if Ascii.eqb b "-" && neg_ok then (true, rest)
      else (false, core)
  end.

Inductive int_error (signed : bool) (lo hi : Z) (core : list ascii) : string -> Prop :=
| ie_empty : core = [] -> int_error signed lo hi core "cannot parse integer from empty string"
| ie_sign : core = ["+"%char] \/ core = ["-"%char] ->
    int_error signed lo hi core "invalid digit found in string"
| ie_digit : forall neg ds b rest, split_sign signed core = (neg, ds ++ b :: rest) ->
    forallb is_digit ds = true -> is_digit b = false ->
    (lo <= (if neg then - value 0 ds else value 0 ds) <= hi)%Z ->
    int_error signed lo hi core "invalid digit found in string"
| ie_large : forall ds rest, split_sign signed core = (false, ds ++ rest) ->
    forallb is_digit ds = true -> (hi < value 0 ds)%Z ->
    int_error signed lo hi core "number too large to fit in target type"
| ie_small : forall ds rest, split_sign signed core = (true, ds ++ rest) ->
    forallb is_digit ds = true -> (- value 0 ds < lo)%Z ->
    int_error signed lo hi core "number too small to fit in target type".

(** No white space at either end. *)
Definition trimmed (core : list ascii) : Prop :=
  (forall b l, core = b :: l -> ws_byte b = false) /\ (forall b l, core = l ++ [b] -> ws_byte b = false).
