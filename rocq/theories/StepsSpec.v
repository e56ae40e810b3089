(** How much work may be done. *)
From Verif Require Import Base Types Reader Steps.
From Verif Require Normalize Ser.

(** Comparisons for one name among [n] names. *)
Definition lookups (n : nat) : nat := match n with O => 0 | _ => S (Nat.log2_up n) end.

(** ** Documents *)

Fixpoint start_tags (src : list (xevent * position)) : nat :=
  match src with
  | [] => 0
  | (XStartElement _ _ _, _) :: src' => S (start_tags src')
  | _ :: src' => start_tags src'
  end.

Fixpoint attributes (src : list (xevent * position)) : nat :=
  match src with
  | [] => 0
  | (XStartElement _ attrs _, _) :: src' => List.length attrs + attributes src'
  | _ :: src' => attributes src'
  end.

Fixpoint texts (src : list (xevent * position)) : nat :=
  match src with
  | [] => 0
  | (XCharacters _, _) :: src' | (XCData _, _) :: src' => S (texts src')
  | _ :: src' => texts src'
  end.

(** ** Types *)

Definition count {A} (p : A -> bool) (l : list A) : nat := List.length (filter p l).

(** Names in flattened fields. *)
Definition flat_work (env : tenv) (f : field) : nat :=
  match f_mode f with
  | MFlatten id => match env id with Some (TDEnum _ _ _ vs _) => lookups (List.length vs) | _ => 0 end
  | _ => 0
  end.

(** Comparisons of the name of a child with those of a type's elements, own and flattened. *)
Definition element_work (env : tenv) (d : tdesc) : nat :=
  match d with
  | TDStruct _ _ _ fs => lookups (count is_element fs) + list_sum (map (flat_work env) fs)
  | TDEnum _ _ _ vs _ => lookups (List.length vs)
  end.

(** Comparisons of the name of an attribute. *)
Definition attribute_work (d : tdesc) : nat :=
  match d with
  | TDStruct _ _ _ fs => lookups (count is_attribute fs)
  | TDEnum _ _ _ _ _ => 0
  end.

(** ** Calls *)

Definition is_element_call {St} (c : call St) : bool := match c with CElement _ _ => true | _ => false end.
Definition is_attribute_call {St} (c : call St) : bool := match c with CAttribute _ _ _ => true | _ => false end.
Definition is_text_call {St} (c : call St) : bool := match c with CCharacters _ _ _ => true | _ => false end.

(** Two families of visitors do the same in a call. *)
Definition agree {St} (V V' : visitors St) (c : call St) : Prop :=
  match c with
  | CAttribute s n v => v_attribute V' s n v = v_attribute V s n v
  | CElement s i => v_element V' s i = v_element V s i
  | CCharacters s str p => v_characters V' s str p = v_characters V s str p
  end.

(** ** Namespaces: the same prefix requested for all of some URLs *)

Definition requests (p : string) (urls : list string) : Ser.nsbuilder :=
  fold_right (fun u b => match Ser.nb_insert false p u b with inl b' => b' | inr _ => b end) [] urls.

(** ** White space *)

(** Tabs, line feeds, carriage returns and spaces. *)
Definition white (b : ascii) : bool :=
  let n := N_of_ascii b in (N.eqb n 9 || N.eqb n 10 || N.eqb n 13 || N.eqb n 32)%bool.

(** The number of words; [b] says whether the last byte was white space. *)
Fixpoint word_count_ (b : bool) (l : list ascii) : nat :=
  match l with
  | [] => 0
  | c :: l' => (if b && negb (white c) then 1 else 0) + word_count_ (white c) l'
  end.
Definition word_count (l : list ascii) : nat := word_count_ true l.

(** The length without white space at the end. *)
Fixpoint trimmed (l : list ascii) : nat :=
  match l with
  | [] => 0
  | c :: l' => match trimmed l' with O => if white c then 0 else 1 | n => S n end
  end.

(** Bytes read, written and moved, given the result. Where white space collapses, the first byte of each word is
    read twice, as is the last byte of the last; a space is written before each word but the first; and all of the
    result is moved if any of it has to be. *)
Definition normalize_work (v : list ascii) (w : Normalize.whitespace) (out : list ascii) : nat :=
  match w with
  | Normalize.Preserve => 0
  | Normalize.Replace => List.length v + count white v
  | Normalize.Collapse =>
      List.length v + 2 * word_count v + (if Nat.eqb (List.length out) (trimmed v) then 0 else List.length out)
  end.
