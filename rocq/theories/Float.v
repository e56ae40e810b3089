(** [f32] and [f64] as text: de/mod.rs 1037-1046, 1058-1059 and ser/mod.rs 586-594, 607-608.

    Both go through std, [FromStr] when reading and [Display] when writing, which are given here as of Rust 1.58, the oldest
    version the crates are for (core::num::dec2flt, core::fmt::float).  [std_floats] puts them in place of the
    oracles for floats in [oracles] (Text.v).  Simplifications: how std gets at the nearest float and at the shortest digits
    (several algorithms, with tables) is not modelled, only what they are documented to find; [f64::NAN] is the
    positive quiet NaN. *)
From Verif Require Import Base Normalize Text.

(** ** What bits mean: IEEE 754, binary32 and binary64 *)

(* from_str, de/mod.rs 1042; to_string, ser/mod.rs 590 *)
Definition fraction_bits (w : bool) : Z := if w then 52 else 23.
(* from_str, de/mod.rs 1042; to_string, ser/mod.rs 590 *)
Definition exponent_bits (w : bool) : Z := if w then 11 else 8.

(** The sign, infinity and NaN. *)
(* from_str, de/mod.rs 1042; to_string, ser/mod.rs 590 *)
Definition sign_bit (w : bool) : Z := 2 ^ (fraction_bits w + exponent_bits w).
(* from_str, de/mod.rs 1042; to_string, ser/mod.rs 590 *)
Definition infinity (w : bool) : Z := (2 ^ exponent_bits w - 1) * 2 ^ fraction_bits w.
(* from_str, de/mod.rs 1042; to_string, ser/mod.rs 590 *)
Definition quiet_nan (w : bool) : Z := infinity w + 2 ^ (fraction_bits w - 1).

(** Finite numbers without sign, as multiples of the smallest one, which is 2 ^ - [unit_bits]. *)
(* from_str, de/mod.rs 1042; to_string, ser/mod.rs 590 *)
Definition unit_bits (w : bool) : Z := if w then 1074 else 149.
(* from_str, de/mod.rs 1042; to_string, ser/mod.rs 590 *)
Definition units (w : bool) (b : Z) : Z :=
  let e := (b / 2 ^ fraction_bits w)%Z in
  let f := (b mod 2 ^ fraction_bits w)%Z in
  if Z.eqb e 0 then f else ((2 ^ fraction_bits w + f) * 2 ^ (e - 1))%Z.

(** ** [FromStr] *)

(** The last of the floats from [lo] to before [hi] that is no more than [u]. *)
(* from_str, de/mod.rs 1042 *)
Fixpoint last_float (w : bool) (fuel : nat) (u lo hi : Z) : Z :=
  match fuel with
  | O => lo
  | S fuel' =>
      if Z.leb (hi - lo) 1 then lo
      else let m := ((lo + hi) / 2)%Z in
           if Z.leb (units w m) u then last_float w fuel' u m hi else last_float w fuel' u lo m
  end.

(** m * 10 ^ e as a fraction. *)
(* from_str, de/mod.rs 1042; to_string, ser/mod.rs 590 *)
Definition over (m e : Z) : Z * Z := (m * 10 ^ Z.max e 0, 10 ^ Z.max (- e) 0)%Z.

(** The float nearest to m * 10 ^ e, the even one of two.  (Dec2flt: [dec2flt], line "let mut float = biased_fp_to_float".) *)
(* from_str, de/mod.rs 1042 *)
Definition nearest (w : bool) (m e : Z) : Z :=
  let '(num, den) := over m e in
  let x := (num * 2 ^ unit_bits w)%Z in
  if Z.leb (units w (infinity w)) (x / den) then infinity w
  else let b := last_float w 64 (x / den) 0 (infinity w) in
       match Z.compare (2 * x) ((units w b + units w (b + 1)) * den) with
       | Lt => b
       | Gt => b + 1
       | Eq => if Z.even b then b else b + 1
       end%Z.

(** Digits at the start of a text. *)
(* from_str, de/mod.rs 1042 *)
Fixpoint take_digits (l : list ascii) : list ascii * list ascii :=
  match l with
  | c :: l' =>
      match to_digit c with
      | Some _ => let (ds, r) := take_digits l' in (c :: ds, r)
      | None => ([], l)
      end
  | [] => ([], [])
  end.

(* from_str, de/mod.rs 1042 *)
Definition digit_of (c : ascii) : Z := match to_digit c with Some d => d | None => 0 end.

(* from_str, de/mod.rs 1042 *)
Definition number (ds : list ascii) : Z := fold_left (fun a c => 10 * a + digit_of c)%Z ds 0%Z.

(** Dec2flt, [parse_scientific]: large exponents stop growing. *)
(* from_str, de/mod.rs 1042 *)
Definition exponent (ds : list ascii) : Z :=
  fold_left (fun a c => if Z.ltb a 65536 then 10 * a + digit_of c else a)%Z ds 0%Z.

(* from_str, de/mod.rs 1042 *)
Definition take_sign (l : list ascii) : bool * list ascii :=
  match l with
  | c :: l' => if Ascii.eqb c "-" then (true, l') else if Ascii.eqb c "+" then (false, l') else (false, l)
  | [] => (false, [])
  end.

(** Dec2flt, [parse_number]. *)
(* from_str, de/mod.rs 1042 *)
Definition parse_number (l : list ascii) : option (Z * Z) :=
  let (i, r) := take_digits l in
  let (f, r) := match r with
                | c :: r' => if Ascii.eqb c "." then take_digits r' else ([], r)
                | [] => ([], [])
                end in
  match i ++ f with
  | [] => None
  | _ =>
      let shift := (- Z.of_nat (List.length f))%Z in
      match r with
      | [] => Some (number (i ++ f), shift)
      | c :: r' =>
          if (Ascii.eqb c "e" || Ascii.eqb c "E")%bool then
            let (neg, r') := take_sign r' in
            match take_digits r' with
            | ((_ :: _) as d, []) => Some (number (i ++ f), shift + (if neg then - exponent d else exponent d))%Z
            | _ => None
            end
          else None
      end
  end.

(** [u8::to_ascii_lowercase] *)
(* from_str, de/mod.rs 1042 *)
Definition lower (c : ascii) : ascii :=
  let n := N_of_ascii c in if (N.leb 65 n && N.leb n 90)%bool then ascii_of_N (n + 32) else c.

(** Dec2flt, [parse_inf_nan]. *)
(* from_str, de/mod.rs 1042 *)
Definition parse_word (w : bool) (l : list ascii) : option Z :=
  let t := str_of (map lower l) in
  if (String.eqb t "inf" || String.eqb t "infinity")%bool then Some (infinity w)
  else if String.eqb t "nan" then Some (quiet_nan w) else None.

(* from_str, de/mod.rs 1042 *)
Definition signed (w neg : bool) (b : Z) : N := Z.to_N (if neg then sign_bit w + b else b)%Z.

(* from_str, de/mod.rs 1042 *)
Definition msg_float_empty : string := "cannot parse float from empty string".
(* from_str, de/mod.rs 1042 *)
Definition msg_float_invalid : string := "invalid float literal".

(* from_str, de/mod.rs 1042 *)
Definition float_from_str (w : bool) (s : string) : res string N :=
  match bytes_of s with
  | [] => Err msg_float_empty
  | l =>
      let (neg, l) := take_sign l in
      match parse_number l with
      | Some (m, e) => Ok (signed w neg (nearest w m e))
      | None =>
          match parse_word w l with
          | Some b => Ok (signed w neg b)
          | None => Err msg_float_invalid
          end
      end
  end.

(** ** [Display] *)

(** Without zeros at the end. *)
(* to_string, ser/mod.rs 590 *)
Fixpoint strip_zeros (fuel : nat) (d q : Z) : Z * Z :=
  match fuel with
  | O => (d, q)
  | S fuel' => if (Z.eqb (d mod 10) 0 && Z.ltb q 0)%bool then strip_zeros fuel' (d / 10) (q + 1) else (d, q)
  end%Z.

(** The multiples of 10 ^ q next to a float, if they are read as the float; the nearer one if both are.  (Numbers more than twice
    as large are not.) *)
(* to_string, ser/mod.rs 590 *)
Definition candidate (w : bool) (b q : Z) : option Z :=
  let x := units w b in
  let '(num, den) := (x * 10 ^ Z.max (- q) 0, 2 ^ unit_bits w * 10 ^ Z.max q 0)%Z in
  if Z.ltb (2 * num) den then None else
  let lo := (num / den)%Z in
  let ok d := (Z.ltb 0 d && Z.eqb (nearest w d q) b)%bool in
  if ok lo then if (Z.leb den (2 * (num mod den)) && ok (lo + 1)%Z)%bool then Some (lo + 1)%Z else Some lo
  else if ok (lo + 1)%Z then Some (lo + 1)%Z else None.

(* to_string, ser/mod.rs 590 *)
Fixpoint shortest_from (w : bool) (b : Z) (fuel : nat) (q : Z) : Z * Z :=
  match fuel with
  | O => (units w b * 5 ^ unit_bits w, - unit_bits w)%Z
  | S fuel' => match candidate w b q with Some d => (d, q) | None => shortest_from w b fuel' (q - 1) end
  end.

(** The fewest digits that are read as the float. *)
(* to_string, ser/mod.rs 590 *)
Definition shortest (w : bool) (b : Z) : Z * Z :=
  let (d, q) := shortest_from w b 2000 (if w then 310 else 40) in strip_zeros 2000 d q.

(** d * 10 ^ q without an exponent. *)
(* to_string, ser/mod.rs 590 *)
Definition show_decimal (d q : Z) : list ascii :=
  if Z.leb 0 q then show_N (Z.to_N (d * 10 ^ q))
  else
    let n := Z.to_nat (- q) in
    let ds := show_N (Z.to_N d) in
    let ds := repeat "0"%char (S n - List.length ds) ++ ds in
    firstn (List.length ds - n) ds ++ "."%char :: skipn (List.length ds - n) ds.

(* to_string, ser/mod.rs 590 *)
Definition float_show (w : bool) (n : N) : string :=
  let b := (Z.of_N n mod sign_bit w)%Z in
  if Z.ltb (infinity w) b then "NaN"
  else
    let text := if Z.eqb b (infinity w) then bytes_of "inf"
                else if Z.eqb b 0 then ["0"%char]
                else let (d, q) := shortest w b in show_decimal d q in
    str_of (if Z.leb (sign_bit w) (Z.of_N n) then "-"%char :: text else text).

Definition std_floats (o : oracles) : oracles := {|
  o_debug := o_debug o; o_std_parse := o_std_parse o; o_std_show := o_std_show o;
  o_float_parse := float_from_str; o_float_show := float_show;
  o_hand_parse := o_hand_parse o; o_hand_show := o_hand_show o |}.
