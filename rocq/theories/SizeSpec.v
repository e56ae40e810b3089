(** How large values, documents and types are. *)
From Verif Require Import Base Text Types Reader Ser.

(** Every string counts with its length, everything else (numbers, fields, variants, list headers) as one. *)
Fixpoint text_size (v : tval) : nat :=
  match v with
  | TVStr s | TVUnknown s => S (String.length s)
  | TVUnion _ v => S (text_size v)
  | _ => 1
  end.

Fixpoint value_size (v : value) : nat :=
  match v with
  | VText x => text_size x
  | VStruct fs => S (list_sum (map value_size fs))
  | VEnum _ None => 1
  | VEnum _ (Some v) => S (value_size v)
  | VSkipped | VNone => 1
  | VSome v => S (value_size v)
  | VVec l => S (list_sum (map value_size l))
  end.

(** The elements of a stream of events. *)
Fixpoint tags (src : list (xevent * position)) : nat :=
  match src with
  | [] => 0
  | (XStartElement _ _ _, _) :: src' => S (tags src')
  | _ :: src' => tags src'
  end.

(** The bytes of its text and attribute values. *)
Fixpoint bytes (src : list (xevent * position)) : nat :=
  match src with
  | [] => 0
  | (XStartElement _ attrs _, _) :: src' => list_sum (map (fun a => String.length (a_value a)) attrs) + bytes src'
  | (XCharacters s, _) :: src' | (XCData s, _) :: src' => String.length s + bytes src'
  | _ :: src' => bytes src'
  end.

(** What a type costs per element: its fields, with their defaults. *)

(** Unions within unions. *)
Fixpoint text_cost (t : tty) : nat :=
  match t with
  | TUnion _ _ vs => S (list_max (map text_cost vs))
  | _ => 1
  end.

Definition ety_cost (t : ety) : nat := match t with EText t => text_cost t | ERef _ => 0 end.

Definition field_cost (f : field) : nat :=
  match f_mode f with
  | MElement _ _ => 1
  | MAttribute _ t => S (text_cost t)
  | MFlatten _ => 2
  | MText _ => 0
  end + match f_default f with Some v => value_size v | None => 0 end.

(** The texts among the types of the fields. *)
Definition field_text (f : field) : nat := match f_mode f with MElement _ t => ety_cost t | _ => 0 end.
Definition variant_text (v : variant) : nat := match v_ty v with Some (_, t) => ety_cost t | None => 0 end.

Definition type_cost (d : tdesc) : nat :=
  match d with
  | TDStruct _ _ _ fs => Nat.max (S (list_sum (map field_cost fs))) (list_max (map field_text fs))
  | TDEnum _ _ _ vs _ => Nat.max 2 (list_max (map variant_text vs))
  end.

(** The elements, attributes and texts in what was written. *)
Fixpoint marks (out : list wevent) : nat :=
  match out with
  | [] => 0
  | WStart _ attrs _ :: out' => S (List.length attrs) + marks out'
  | WChars _ :: out' => S (marks out')
  | WEnd :: out' => marks out'
  end.
