(** The parts of a document's root element that no field is for. *)
From Verif Require Import Base Types Reader ReaderSpec Ser SerSpec RTSpec FlatSpec DomSpec.

(** The attributes and the children, as in [dom_of], where the children that fields are for are left out. *)
Definition unknown_attrs (fs : list field) (d : doc) : list (xname * string) :=
  map (fun a => (from_xml_name (a_name a), a_value a)) (spare_attrs fs (d_attrs d)).
Definition unknown_kids (fs : list field) (d : doc) : list wtree :=
  weave (node_texts (spare_kids fs (d_kids d)))
        (map dom_of (filter is_elem (spare_kids fs (d_kids d)))).

(** An element with further attributes and children. *)
Definition with_parts (t : wtree) (attrs : list (xname * string)) (kids : list wtree) : wtree :=
  match t with
  | TElem n a k => TElem n (a ++ attrs) (k ++ kids)
  | TText s => TText s
  end.
