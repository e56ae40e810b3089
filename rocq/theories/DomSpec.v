(** What a whole document says, as a tree. *)
From Verif Require Import Base NsSpec Reader ReaderSpec Ser SerSpec RTSpec.

(** The children of an element from the text before, between and after its child elements. *)
Definition text_part (s : string) : list wtree := if String.eqb s "" then [] else [TText s].
Fixpoint weave (ts : list string) (es : list wtree) : list wtree :=
  match ts with
  | [] => es
  | s :: ts' => text_part s ++ match es with [] => [] | e :: es' => e :: weave ts' es' end
  end.

(** The tree of a document that the parser delivers: all elements and all attributes with their
    expanded names, and all text, in document order. *)
Fixpoint dom_of (n : node) : wtree :=
  match n with
  | NElem name attrs _ _ kids _ =>
      TElem (from_xml_name name) (map (fun a => (from_xml_name (a_name a), a_value a)) attrs)
        (weave (node_texts kids) (flat_map (fun c => if is_elem c then [dom_of c] else []) kids))
  | _ => TText ""
  end.

(** The tree without text that is blank, and with adjacent text merged. *)
Fixpoint clean (t : wtree) : wtree :=
  match t with
  | TElem n attrs kids =>
      TElem n attrs (weave (map seen (texts kids))
                           (flat_map (fun c => if is_telem c then [clean c] else []) kids))
  | TText s => TText s
  end.

(** Nothing to clean: no text is blank or next to other text. *)
Fixpoint apart (l : list wtree) : Prop :=
  match l with
  | TText _ :: (TText _ :: _) => False
  | _ :: l' => apart l'
  | [] => True
  end.
Inductive tidy : wtree -> Prop :=
| tidy_elem : forall n attrs kids,
    apart kids -> (forall s, In (TText s) kids -> blank s = false) ->
    (forall c, In c kids -> is_telem c = true -> tidy c) -> tidy (TElem n attrs kids).

(** Trees that XML can express: no two attributes of an element have the same name, and no name is in
    the namespace of [xmlns:]. *)
Inductive expressible : wtree -> Prop :=
| ex_text : forall s, expressible (TText s)
| ex_elem : forall n attrs kids,
    NoDup (map fst attrs) -> xn_ns n <> XMLNS_NS ->
    (forall a, In a attrs -> xn_ns (fst a) <> XMLNS_NS) ->
    (forall c, In c kids -> expressible c) -> expressible (TElem n attrs kids).

(** Prefixes: different ones for different namespaces, none empty or reserved. *)
Definition good_prefixes (px : string -> string) : Prop :=
  (forall u v, px u = px v -> u = v) /\
  forall u, px u <> ""%string /\ starts_with "xml" (px u) = false.
