(** Independent specification of XML Schema white space normalization
    (https://www.w3.org/TR/xmlschema11-1/#sec-wsnormalization), over any alphabet [A] with a
    white space test and a space.  It is used both for bytes and for Unicode scalar values. *)
From Coq Require Import List NArith Bool Ascii.
Import ListNotations.

Section Spec.
  Context {A : Type} (ws : A -> bool) (sp : A).

  (** "replace": every white space character becomes a space; nothing else changes. *)
  Definition spec_replace (s : list A) : list A := map (fun c => if ws c then sp else c) s.

  (** The pieces of [s] between white space characters (some may be empty). *)
  Fixpoint pieces (s : list A) : list (list A) :=
    match s with
    | [] => [[]]
    | c :: s' =>
        if ws c then [] :: pieces s'
        else match pieces s' with
             | w :: r => (c :: w) :: r
             | [] => [[c]]
             end
    end.

  Definition nonempty (w : list A) : bool := match w with [] => false | _ => true end.

  (** The maximal white-space-free words, in order. *)
  Definition words (s : list A) : list (list A) := filter nonempty (pieces s).

  Fixpoint join (l : list (list A)) : list A :=
    match l with
    | [] => []
    | [w] => w
    | w :: r => w ++ sp :: join r
    end.

  (** "collapse": the words joined by single spaces. *)
  Definition spec_collapse (s : list A) : list A := join (words s).
End Spec.

(** UTF-8 (RFC 3629): the encoding of one Unicode scalar value. *)
Definition is_scalar (c : N) : bool :=
  ((c <? 0xD800) || ((0xE000 <=? c) && (c <=? 0x10FFFF)))%N.

Definition byte (n : N) : ascii := ascii_of_N n.

Definition utf8_char (c : N) : list ascii :=
  (if c <? 0x80 then [byte c]
   else if c <? 0x800 then [byte (0xC0 + c / 64); byte (0x80 + c mod 64)]
   else if c <? 0x10000 then
     [byte (0xE0 + c / 4096); byte (0x80 + (c / 64) mod 64); byte (0x80 + c mod 64)]
   else
     [byte (0xF0 + c / 262144); byte (0x80 + (c / 4096) mod 64);
      byte (0x80 + (c / 64) mod 64); byte (0x80 + c mod 64)])%N.

Definition utf8 (cs : list N) : list ascii := flat_map utf8_char cs.

(** White space characters, as Unicode scalar values: tab, line feed, carriage return, space. *)
Definition ws_char (c : N) : bool := ((c =? 9) || (c =? 10) || (c =? 13) || (c =? 32))%N.
