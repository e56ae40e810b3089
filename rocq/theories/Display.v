(** What errors and names print as. *)
From Verif Require Import Base Text Types Reader.

(** [format!("{:x}", n)] of an unsigned integer. *)
Definition hex_digit (n : N) : ascii := ascii_of_N (if N.ltb n 10 then 48 + n else 87 + n).

Fixpoint hex_loop (fuel : nat) (n : N) (acc : list ascii) : list ascii :=
  match fuel with
  | O => acc
  | S fuel' =>
      let acc' := hex_digit (N.modulo n 16) :: acc in
      if N.ltb n 16 then acc' else hex_loop fuel' (N.div n 16) acc'
  end.

Definition show_hex (n : N) : list ascii := hex_loop (S (N.size_nat n)) n [].

(** [{:4x}]: at least four characters, numbers are aligned to the right. *)
Definition show_hex4 (n : N) : string :=
  str_of (repeat " "%char (4 - List.length (show_hex n)) ++ show_hex n).

(** xml-rs, src/common.rs: [impl Display for TextPosition].  Rows and columns are counted from 0 and
    printed from 1. *)
Definition show_pos (p : position) : string :=
  (str_of (show_N (fst p + 1)) ++ ":" ++ str_of (show_N (snd p + 1)))%string.

(** xml-rs, src/name.rs: [Name::repr_display]. *)
Definition repr_display (n : oname) : string :=
  match on_prefix n with
  | Some p => (p ++ ":" ++ on_local n)%string
  | None => on_local n
  end.

(** xml-rs, src/name.rs: [impl Display for Name]. *)
Definition name_display (n : oname) : string :=
  (match on_ns n with Some ns => "{" ++ ns ++ "}" | None => "" end ++ repr_display n)%string.

Section Show.
  (** The [{:#?}] rendering of an event ([None]: [EndDocument]) is not modelled. *)
  Context (show_event : option xevent -> string).

  (** The messages: de/mod.rs 314, 337, 357, 624. *)
  Definition show_msg (m : msg) : string :=
    match m with
    | MExpectedStartDocument e => "expected StartDocument, got " ++ show_event e
    | MExpectedStartElement e => "expected StartElement, got " ++ show_event (Some e)
    | MExpectedEndDocument e => "expected EndDocument, got " ++ show_event (Some e)
    | MUnexpectedElement n => "Unexpected element " ++ name_display n ++ " in string"
    end.

  (** de/mod.rs 233-241: [impl Display for ErrorKind]. *)
  Definition kind_display (k : ekind) : string :=
    match k with
    | EXml e => xe_msg e
    | EDeserializer m => m
    | EMsg m => show_msg m
    end.

  (** de/mod.rs 195-201. *)
  Definition stack_line (i : nat) (el : selem) : string :=
    (show_hex4 (N.of_nat i) ++ ": <" ++ repr_display (se_name el) ++ "> @ " ++
     show_pos (se_pos el) ++ newline)%string.

  (** de/mod.rs 194-203: the loop over [stack.iter().enumerate().rev()]. *)
  Fixpoint stack_loop (l : list (nat * selem)) : string :=
    match l with
    | [] => ""
    | (i, el) :: l' => (stack_line i el ++ stack_loop l')%string
    end.

  (** de/mod.rs 188-206: [impl Display for Error]. *)
  Definition error_display (e : error) : string :=
    (kind_display (er_kind e) ++ " @ " ++ show_pos (er_pos e) ++
     match er_stack e with
     | [] => ""
     | st => newline ++ newline ++ "XML element stack:" ++ newline ++
             stack_loop (rev (indexed_from 0 st))
     end)%string.
End Show.
