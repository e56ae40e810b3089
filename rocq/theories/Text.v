(** Text (simple) types: [ParseText] and [ToText], both the built-in implementations
    (static-xml/src/de/mod.rs 1022-1065, ser/mod.rs 586-626) and the derived ones
    (static-xml-derive/src/parse.rs, to_text.rs).

    A boxed error is modelled by the text it displays.  Everything that depends on code outside the
    crate and is not modelled itself is collected in the record [oracles]; theorems quantify over
    all of them. *)
From Verif Require Import Base Normalize.

Record oracles := {
  (** [format!("{:?}", s)] for a string (only used inside error messages). *)
  o_debug : string -> string;
  (** [FromStr]/[ToString] of the user's [mode = "std"] types, identified by a number.  A value of
      such a type is represented by a number. *)
  o_std_parse : nat -> string -> res string N;
  o_std_show : nat -> N -> string;
  (** std's [f32]/[f64] parsing and printing; [true] is [f64].  A value is its bit pattern. *)
  o_float_parse : bool -> string -> res string N;
  o_float_show : bool -> N -> string;
  (** [ParseText]/[ToText] implementations written by hand, identified by a number; a value is a number.
      [to_text] returns the text, or ([inr]) an error with this message. *)
  o_hand_parse : nat -> string -> res string N;
  o_hand_show : nat -> N -> string + string;
}.

(** [str::trim_matches(&['\x09', '\x0A', '\x0D', '\x20'][..])], de/mod.rs 1029, 1041.  All four
    characters are one byte long, so trimming bytes is trimming characters. *)
Fixpoint trim_start (l : list ascii) : list ascii :=
  match l with
  | b :: l' => if is_ws b then trim_start l' else l
  | [] => []
  end.

Definition trim_bytes (l : list ascii) : list ascii := rev (trim_start (rev (trim_start l))).

Definition trim (s : string) : string := str_of (trim_bytes (bytes_of s)).

(** ** bool: de/mod.rs 1022-1035 *)
Definition parse_bool (o : oracles) (text : string) : res string bool :=
  let t := trim text in
  if String.eqb t "true" || String.eqb t "1" then Ok true
  else if String.eqb t "false" || String.eqb t "0" then Ok false
  else Err ("invalid bool " ++ o_debug o text)%string.

Definition show_bool (b : bool) : string := if b then "true" else "false".

(** ** Integers: de/mod.rs 1037-1057, with [<$t as FromStr>::from_str] of std
    (library/core/src/num/mod.rs, [from_str_radix] with radix 10). *)
Inductive itype := I8 | U8 | I16 | U16 | I32 | U32 | I64 | U64 | I128 | U128.

Definition ibits (k : itype) : Z :=
  match k with
  | I8 | U8 => 8 | I16 | U16 => 16 | I32 | U32 => 32 | I64 | U64 => 64 | I128 | U128 => 128
  end%Z.

Definition isigned (k : itype) : bool :=
  match k with I8 | I16 | I32 | I64 | I128 => true | _ => false end.

Definition imin (k : itype) : Z := if isigned k then (- 2 ^ (ibits k - 1))%Z else 0%Z.
Definition imax (k : itype) : Z :=
  if isigned k then (2 ^ (ibits k - 1) - 1)%Z else (2 ^ ibits k - 1)%Z.

Definition in_range (k : itype) (z : Z) : bool := (Z.leb (imin k) z && Z.leb z (imax k))%bool.

(** [char::to_digit(10)] on a byte. *)
Definition to_digit (b : ascii) : option Z :=
  let n := Z.of_N (N_of_ascii b) in
  if (Z.leb 48 n && Z.leb n 57)%bool then Some (n - 48)%Z else None.

(** Messages of [std::num::ParseIntError]. *)
Definition msg_empty : string := "cannot parse integer from empty string".
Definition msg_invalid : string := "invalid digit found in string".
Definition msg_pos : string := "number too large to fit in target type".
Definition msg_neg : string := "number too small to fit in target type".

(** The digit loop: [checked_mul] and then [checked_add] or [checked_sub]. *)
Fixpoint digit_loop (k : itype) (positive : bool) (acc : Z) (l : list ascii) : res string Z :=
  match l with
  | [] => Ok acc
  | b :: l' =>
      match to_digit b with
      | None => Err msg_invalid
      | Some d =>
          let overflow := if positive then msg_pos else msg_neg in
          let m := (acc * 10)%Z in
          if in_range k m then
            let a := if positive then (m + d)%Z else (m - d)%Z in
            if in_range k a then digit_loop k positive a l' else Err overflow
          else Err overflow
      end
  end.

Definition int_from_str (k : itype) (src : list ascii) : res string Z :=
  match src with
  | [] => Err msg_empty
  | b :: rest =>
      if (Ascii.eqb b "+" || Ascii.eqb b "-") && match rest with [] => true | _ => false end
      then Err msg_invalid
      else if Ascii.eqb b "+" then digit_loop k true 0 rest
      else if Ascii.eqb b "-" && isigned k then digit_loop k false 0 rest
      else digit_loop k true 0 src
  end.

Definition parse_int (k : itype) (text : string) : res string Z :=
  int_from_str k (trim_bytes (bytes_of text)).

(** [Display] of an integer: '-' if negative, then the decimal digits of the magnitude. *)
Definition digit (n : N) : ascii := ascii_of_N (48 + n).

Fixpoint show_loop (fuel : nat) (n : N) (acc : list ascii) : list ascii :=
  match fuel with
  | O => acc
  | S fuel' =>
      let acc := digit (n mod 10) :: acc in
      if N.eqb (n / 10) 0 then acc else show_loop fuel' (n / 10) acc
  end.

Definition show_N (n : N) : list ascii := show_loop (S (N.size_nat n)) n [].

Definition show_int (z : Z) : string :=
  match z with
  | Zneg p => str_of ("-"%char :: show_N (Npos p))
  | _ => str_of (show_N (Z.to_N z))
  end.

(** ** Text types

    A variant of a [mode = "restriction"] enum: common.rs 128-208. *)
Inductive rvariant := RKnown (text : string) | RUnknown.

Inductive tty :=
| TString
| TBool
| TInt (k : itype)
| TFloat (is64 : bool)
| TRestr (name : string) (ws : whitespace) (vs : list rvariant)
| TUnion (name : string) (ws : whitespace) (vs : list tty)
| TStd (id : nat) (ws : whitespace)
| THand (id : nat).

(** Values. [TVKnown i]: the [i]th variant of a restriction enum; [TVUnknown s]: its unknown variant
    holding [s]; [TVUnion i v]: the [i]th variant of a union enum. *)
Inductive tval :=
| TVStr (s : string)
| TVBool (b : bool)
| TVInt (z : Z)
| TVFloat (n : N)
| TVKnown (i : nat)
| TVUnknown (s : string)
| TVUnion (i : nat) (v : tval)
| TVStd (n : N)
| TVHand (n : N).

(** parse.rs 111-121: the generated [let text = normalize(text, ...)]. *)
Definition gen_normalize (w : whitespace) (s : string) : res string string :=
  match normalize s w with
  | Ok s => Ok s
  | Err e => match e with end
  | Abort x => Abort x
  end.

Definition newline : string := String (ascii_of_N 10) "".

(** de/mod.rs 114-120. *)
Definition union_error (name : string) (errs : list string) : string :=
  fold_left (fun msg e => msg ++ newline ++ "* " ++ e)%string errs
    ("all " ++ name ++ " union variants failed to parse:")%string.

(** de/mod.rs 124-126. *)
Definition no_such_variant (o : oracles) (name t : string) : string :=
  ("no such " ++ name ++ " variant " ++ o_debug o t)%string.

(** parse.rs 60-96: the match arms test the known texts in declaration order. *)
Definition known_is (text : string) (v : rvariant) : bool :=
  match v with RKnown t => String.eqb t text | RUnknown => false end.

Definition is_unknown (v : rvariant) : bool := match v with RUnknown => true | _ => false end.

Definition parse_restr (o : oracles) (name : string) (vs : list rvariant) (text : string)
  : res string tval :=
  match find_index (known_is text) vs with
  | Some i => Ok (TVKnown i)
  | None =>
      if existsb is_unknown vs then Ok (TVUnknown text) else Err (no_such_variant o name text)
  end.

(** [ParseText::parse]. *)
Fixpoint parse_text (o : oracles) (t : tty) (text : string) : res string tval :=
  match t with
  | TString => Ok (TVStr text)                                       (* de/mod.rs 1061-1065 *)
  | TBool => map_ok TVBool (parse_bool o text)
  | TInt k => map_ok TVInt (parse_int k text)
  | TFloat w => map_ok TVFloat (o_float_parse o w (trim text))       (* de/mod.rs 1058-1059 *)
  | TRestr name ws vs => bind (gen_normalize ws text) (parse_restr o name vs)
  | TUnion name ws vs =>                                             (* parse.rs 26-58 *)
      bind (gen_normalize ws text) (fun text =>
        (fix attempts (i : nat) (errs : list string) (vs : list tty) : res string tval :=
           match vs with
           | [] => Err (union_error name errs)
           | t :: vs' =>
               match parse_text o t text with
               | Ok r => Ok (TVUnion i r)
               | Err e => attempts (S i) (errs ++ [e]) vs'
               | Abort x => Abort x
               end
           end) 0 [] vs)
  | TStd id ws => bind (gen_normalize ws text) (fun text =>          (* parse.rs 98-109 *)
      map_ok TVStd (o_std_parse o id text))
  | THand id => map_ok TVHand (o_hand_parse o id text)
  end.

(** [ToText::to_text], if it returns [Ok].  [None] for a value that is not of the type, and where
    [text_error] below says so: the Rust functions return [Result<String, _>], but of these
    implementations only those written by hand return errors (and union enums that hold one). *)
Fixpoint to_text (o : oracles) (t : tty) (v : tval) : option string :=
  match t, v with
  | TString, TVStr s => Some s                                       (* ser/mod.rs 616-620 *)
  | TBool, TVBool b => Some (show_bool b)                            (* ser/mod.rs 586-596 *)
  | TInt k, TVInt z => if in_range k z then Some (show_int z) else None
  | TFloat w, TVFloat n => Some (o_float_show o w n)
  | TRestr _ _ vs, TVKnown i =>                                      (* to_text.rs 41-67 *)
      match nth_error vs i with Some (RKnown t) => Some t | _ => None end
  | TRestr _ _ vs, TVUnknown s => if existsb is_unknown vs then Some s else None
  | TUnion _ _ vs, TVUnion i v =>                                    (* to_text.rs 20-39 *)
      (fix nth (i : nat) (vs : list tty) : option string :=
         match i, vs with
         | O, t :: _ => to_text o t v
         | S i', _ :: vs' => nth i' vs'
         | _, [] => None
         end) i vs
  | TStd id _, TVStd n => Some (o_std_show o id n)                   (* to_text.rs 69-77 *)
  | THand id, TVHand n => match o_hand_show o id n with inl s => Some s | inr _ => None end
  | _, _ => None
  end.

(** The error [ToText::to_text] returns, if it does. *)
Fixpoint text_error (o : oracles) (t : tty) (v : tval) : option string :=
  match t, v with
  | TUnion _ _ vs, TVUnion i v =>                                    (* to_text.rs 20-39 *)
      (fix nth (i : nat) (vs : list tty) : option string :=
         match i, vs with
         | O, t :: _ => text_error o t v
         | S i', _ :: vs' => nth i' vs'
         | _, [] => None
         end) i vs
  | THand id, TVHand n => match o_hand_show o id n with inl _ => None | inr m => Some m end
  | _, _ => None
  end.
