(** What is lost when the XML parser fails within a document: the values already read for the fields of the
    elements open at that time. *)
From Verif Require Import Base Normalize Text Find Types Reader ReaderSpec DeSpec ErrSpec LeakSpec.

(** An element that was not closed: its start tag, what follows it, and possibly a child that was not closed. *)
Inductive partial :=
| Open (name : oname) (attrs : list attr) (ns : nsmap) (p : position) (kids : list node)
| OpenIn (name : oname) (attrs : list attr) (ns : nsmap) (p : position) (kids : list node) (child : partial).

Fixpoint partial_events (c : partial) : list (xevent * position) :=
  match c with
  | Open name attrs ns p kids => (XStartElement name attrs ns, p) :: flat_map events kids
  | OpenIn name attrs ns p kids child =>
      (XStartElement name attrs ns, p) :: flat_map events kids ++ partial_events child
  end.

(** The start tag alone, as an element. *)
Definition tag_of (c : partial) : node :=
  match c with Open name attrs ns p _ | OpenIn name attrs ns p _ _ => NElem name attrs ns p [] p end.

(** The events of a document that ends within its root element. *)
Definition cut_events (start : position) (prolog : list (misc * position)) (c : partial) : list (xevent * position) :=
  (XStartDocument, start) :: misc_events prolog ++ partial_events c.

Section Spec.
  Context (o : oracles) (env : tenv).

  (** [cut_leaks t c vs]: [c] is read as [t] and nothing was wrong before its end. *)
  Inductive cut_leaks : ety -> partial -> list value -> Prop :=
  | cl_text : forall t c, cut_leaks (EText t) c []
  | cl_open : forall id d name attrs ns p kids vs, env id = Some d ->
      so_far o env d attrs kids vs -> cut_leaks (ERef id) (Open name attrs ns p kids) vs
  (** A child that is skipped counts from its start tag (it may name a variant that has no content). *)
  | cl_skipped : forall id d name attrs ns p kids c vs, env id = Some d ->
      child_demand env d kids (tag_of c) = Ignore -> so_far o env d attrs (kids ++ [tag_of c]) vs ->
      cut_leaks (ERef id) (OpenIn name attrs ns p kids c) vs
  | cl_read : forall id d name attrs ns p kids c t vs inner, env id = Some d ->
      child_demand env d kids (tag_of c) = ReadAs t -> so_far o env d attrs kids vs -> cut_leaks t c inner ->
      cut_leaks (ERef id) (OpenIn name attrs ns p kids c) (vs ++ inner).
End Spec.
