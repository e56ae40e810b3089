(** Reading as input comes in. *)
From Verif Require Import Base Types Reader Steps.

(** [l] is how [l'] starts. *)
Definition starts {A} (l l' : list A) : Prop := exists rest, l' = l ++ rest.

(** Visitors that read every element they are given and refuse nothing. *)
Definition eager_act {St A} (P : A -> Prop) (act : action St A) : Prop :=
  exists s0 k, act = AReadTo s0 k /\ forall i s, P (k (inl i) s).

Definition eager {St} (V : visitors St) : Prop :=
  (forall s n v, exists b s', v_attribute V s n v = (Ok b, s')) /\
  (forall s str p, exists b s', v_characters V s str p = (Ok b, s')) /\
  (forall s i, eager_act (fun a => exists b, fst a = Ok b) (v_element V s i)).

(** What visitors are told, and what a stream has for them. *)
Inductive item :=
| IElement (n : oname) (ns : nsmap) (depth : nat)
| IAttribute (n : xname) (v : string)
| IText (s : string) (p : position).

Definition what {St} (c : call St) : item :=
  match c with
  | CElement _ i => IElement (ei_name i) (ei_ns i) (ei_depth i)
  | CAttribute _ n v => IAttribute n v
  | CCharacters _ s p => IText s p
  end.

(** [d]: the number of elements that are open. *)
Fixpoint items_at (d : nat) (src : list (xevent * position)) : list item :=
  match src with
  | [] => []
  | (XStartElement n attrs ns, _) :: src' =>
      IElement n ns (S d) :: map (fun a => IAttribute (from_xml_name (a_name a)) (a_value a)) attrs ++ items_at (S d) src'
  | (XEndElement _, _) :: src' => items_at (pred d) src'
  | (XCharacters s, p) :: src' | (XCData s, p) :: src' => IText s p :: items_at d src'
  | _ :: src' => items_at d src'
  end.

Definition items := items_at 0.
