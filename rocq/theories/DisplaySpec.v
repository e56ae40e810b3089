(** What printed errors should look like. *)
From Verif Require Import Base Reader.

(** Positional notation.  [base] is at most 16; digits are [0]-[9] and [a]-[f]. *)
Definition dvalue (b : ascii) : option N :=
  let n := N_of_ascii b in
  if (N.leb 48 n && N.leb n 57)%bool then Some (n - 48)%N
  else if (N.leb 97 n && N.leb n 102)%bool then Some (n - 87)%N
  else None.

Inductive numeral_of (base : N) : list ascii -> N -> Prop :=
| nu_digit : forall b d, dvalue b = Some d -> (d < base)%N -> numeral_of base [b] d
| nu_more : forall l n b d, numeral_of base l n -> (0 < n)%N -> dvalue b = Some d -> (d < base)%N ->
    numeral_of base (l ++ [b]) (n * base + d).

(** A position as people count: from 1. *)
Definition pos_text (p : position) (s : string) : Prop :=
  exists r c, numeral_of 10 (bytes_of r) (fst p + 1) /\ numeral_of 10 (bytes_of c) (snd p + 1) /\
  s = (r ++ ":" ++ c)%string.

(** The name as written in the document. *)
Definition qname_text (n : oname) (s : string) : Prop :=
  (exists p, on_prefix n = Some p /\ s = (p ++ ":" ++ on_local n)%string) \/
  (on_prefix n = None /\ s = on_local n).

(** One line for the element at index [i]: the index in hexadecimal, padded to four characters. *)
Definition line_text (i : nat) (el : selem) (s : string) : Prop :=
  exists pad idx q p, (forall b, In b pad -> b = " "%char) /\
  numeral_of 16 (bytes_of idx) (N.of_nat i) /\
  List.length pad + String.length idx = Nat.max 4 (String.length idx) /\
  qname_text (se_name el) q /\ pos_text (se_pos el) p /\
  s = (str_of pad ++ idx ++ ": <" ++ q ++ "> @ " ++ p)%string.

(** Text made of lines, each ended by a newline. *)
Definition newline_char : ascii := ascii_of_N 10.
Definition lines_text (ls : list string) : string :=
  String.concat "" (map (fun l => l ++ String newline_char "")%string ls).

(** Names have no line breaks and no angle brackets (an XML name cannot have any). *)
Definition free_of (b : ascii) (s : string) : Prop := ~ In b (bytes_of s).
Definition plain_name (n : oname) : Prop :=
  (forall p, on_prefix n = Some p -> free_of newline_char p /\ free_of ">" p) /\
  free_of newline_char (on_local n) /\ free_of ">" (on_local n).

(** The same up to the namespace, which is not printed. *)
Definition same_print (a b : selem) : Prop :=
  (forall s, qname_text (se_name a) s <-> qname_text (se_name b) s) /\ se_pos a = se_pos b.

(** A name in a message: with its namespace in braces, if it has one. *)
Definition full_name_text (n : oname) (s : string) : Prop := exists q, qname_text n q /\
  ((exists ns, on_ns n = Some ns /\ s = ("{" ++ ns ++ "}" ++ q)%string) \/ on_ns n = None /\ s = q).

(** The message of an error: that of the XML parser or of the code that reported it, or one of the
    reader's own. [show]: how an event is printed ([None]: the end of the document). *)
Inductive message (show : option xevent -> string) : ekind -> string -> Prop :=
| ms_xml : forall e, message show (EXml e) (xe_msg e)
| ms_reported : forall m, message show (EDeserializer m) m
| ms_start_document : forall e, message show (EMsg (MExpectedStartDocument e)) ("expected StartDocument, got " ++ show e)
| ms_start_element : forall e, message show (EMsg (MExpectedStartElement e)) ("expected StartElement, got " ++ show (Some e))
| ms_end_document : forall e, message show (EMsg (MExpectedEndDocument e)) ("expected EndDocument, got " ++ show (Some e))
| ms_element : forall n s, full_name_text n s ->
    message show (EMsg (MUnexpectedElement n)) ("Unexpected element " ++ s ++ " in string").
