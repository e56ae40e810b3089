(** Namespaces in XML: what the names in a document mean; and the tags the event writer produces. *)
From Verif Require Import Base Ser SerSpec.

(** ** Documents as a namespace-unaware reader sees them *)

(** Tags with their namespace declarations ([xmlns:p="u"] is [(p, u)], [xmlns="u"] is [("", u)]). *)
Inductive xevent :=
| XStart (name : pname) (decls : list (string * string)) (attrs : list (pname * string))
| XChars (s : string)
| XEnd.

(** ... and with expanded names. *)
Inductive eevent :=
| EvStart (name : xname) (attrs : list (xname * string))
| EvChars (s : string)
| EvEnd.

Fixpoint tree_events (t : wtree) : list eevent :=
  match t with
  | TElem n attrs kids => EvStart n attrs :: flat_map tree_events kids ++ [EvEnd]
  | TText s => [EvChars s]
  end.

(** ** Namespaces in XML 1.0 *)

Definition XML_URL : string := "http://www.w3.org/XML/1998/namespace".
Definition XMLNS_NS : string := "http://www.w3.org/2000/xmlns/".

(** Section 3: the declarations that are allowed. An empty URL is allowed for the default namespace
    only. *)
Definition legal_decl (d : string * string) : bool :=
  negb (String.eqb (fst d) "xml" || String.eqb (fst d) "xmlns" || String.eqb (snd d) XML_URL ||
        String.eqb (snd d) XMLNS_NS || (String.eqb (snd d) "" && negb (String.eqb (fst d) ""))).

Fixpoint distinct {A} (eqb : A -> A -> bool) (l : list A) : bool :=
  match l with [] => true | x :: l' => negb (existsb (eqb x) l') && distinct eqb l' end.

(** Section 6: the innermost declaration counts. *)
Fixpoint in_scope (st : list (list (string * string))) (p : string) : option string :=
  match st with
  | [] => None
  | ds :: st' => match find (fun d => String.eqb p (fst d)) ds with
                 | Some d => Some (snd d)
                 | None => in_scope st' p
                 end
  end.

Definition prefix_url (st : list (list (string * string))) (p : string) : option string :=
  if String.eqb p "xml" then Some XML_URL else if String.eqb p "" then None else in_scope st p.

(** Section 6.2: the default namespace applies to elements, not to attributes. *)
Definition element_name (st : list (list (string * string))) (n : pname) : option xname :=
  match pn_prefix n with
  | None => Some (XName (match in_scope st "" with Some u => u | None => "" end) (pn_local n))
  | Some p => match prefix_url st p with Some u => Some (XName u (pn_local n)) | None => None end
  end.
Definition attribute_name (st : list (list (string * string))) (n : pname) : option xname :=
  match pn_prefix n with
  | None => Some (XName "" (pn_local n))
  | Some p => match prefix_url st p with Some u => Some (XName u (pn_local n)) | None => None end
  end.

Fixpoint attribute_names (st : list (list (string * string))) (l : list (pname * string))
  : option (list (xname * string)) :=
  match l with
  | [] => Some []
  | (n, v) :: l' =>
      match attribute_name st n, attribute_names st l' with
      | Some n', Some l'' => Some ((n', v) :: l'')
      | _, _ => None
      end
  end.

(** The meaning of a document; [None] if it is not namespace-well-formed (an undeclared prefix, an
    illegal declaration, a prefix declared twice in a tag, two attributes with one expanded name). *)
Fixpoint meaning (st : list (list (string * string))) (evs : list xevent) : option (list eevent) :=
  match evs with
  | [] => Some []
  | XChars s :: r => option_map (cons (EvChars s)) (meaning st r)
  | XEnd :: r => option_map (cons EvEnd) (meaning (tl st) r)
  | XStart n ds attrs :: r =>
      if forallb legal_decl ds && distinct String.eqb (map fst ds) then
        match element_name (ds :: st) n, attribute_names (ds :: st) attrs with
        | Some n', Some attrs' =>
            if distinct xn_eqb (map fst attrs') then
              option_map (cons (EvStart n' attrs')) (meaning (ds :: st) r)
            else None
        | _, _ => None
        end
      else None
  end.

(** ** The event writer: xml-rs 0.8.4

    This is not in /repo; it is modelled from the crate's documentation and source
    ([writer::EventWriter::write], [writer::emitter::Emitter::emit_start_element],
    [namespace::NamespaceStack::put_checked]).  Every start event carries all mappings of
    [by_prefix]; the writer omits the declarations it deems redundant. *)
Inductive policy :=
| SkipIfAnywhere    (* xml-rs: some enclosing element declares the same mapping *)
| SkipIfInScope     (* what would be right: the same mapping is in scope *)
| SkipNever.

Definition redundant (pol : policy) (st : list (list (string * string))) (d : string * string) : bool :=
  match pol with
  | SkipIfAnywhere =>
      existsb (existsb (fun d' => String.eqb (fst d) (fst d') && String.eqb (snd d) (snd d'))) st
  | SkipIfInScope => match in_scope st (fst d) with Some u => String.eqb (snd d) u | None => false end
  | SkipNever => false
  end.

(** [emit_current_namespace_attributes] *)
Definition written (d : string * string) : bool :=
  negb (String.eqb (fst d) "xml" || String.eqb (fst d) "xmlns" ||
        (String.eqb (fst d) "" && String.eqb (snd d) "")).

Fixpoint emit (pol : policy) (st : list (list (string * string))) (evs : list wevent) : list xevent :=
  match evs with
  | [] => []
  | WChars s :: r => XChars s :: emit pol st r
  | WEnd :: r => XEnd :: emit pol (tl st) r
  | WStart n attrs m :: r =>
      let ds := filter (fun d => negb (redundant pol st d)) m in
      XStart n (filter written ds) attrs :: emit pol (ds :: st) r
  end.

(** ** What a program must respect *)

(** All nodes of the tree. *)
Inductive subtree : rtree -> rtree -> Prop :=
| sub_self : forall t, subtree t t
| sub_kid : forall t n reqs kids k, In k kids -> subtree t k -> subtree t (RElem n reqs kids).

Definition asks_ns (t : rtree) (p u : string) : Prop :=
  exists n reqs kids, subtree (RElem n reqs kids) t /\ In (ReqNs p u) reqs.
Definition asks_elem (t : rtree) (n : xname) : Prop := exists reqs kids, subtree (RElem n reqs kids) t.
Definition asks_attr (t : rtree) (n : xname) : Prop :=
  exists e reqs kids v, subtree (RElem e reqs kids) t /\ In (ReqAttr n v) reqs.

(** Mappings are ones that XML allows (and [ElementBuilder::namespace] documents that prefixes must
    not start with [xml]). *)
Definition legal_mappings (t : rtree) : Prop :=
  forall p u, asks_ns t p u -> starts_with "xml" p = false /\ u <> ""%string /\ u <> XML_NS /\ u <> XMLNS_NS.

(** An element that asks for a default namespace is in a namespace, and so are all elements in it. *)
Definition default_ok (t : rtree) : Prop :=
  forall n reqs kids u n', subtree (RElem n reqs kids) t -> In (ReqNs "" u) reqs ->
    asks_elem (RElem n reqs kids) n' -> xn_ns n' <> ""%string.

(** Every prefix means the same wherever it is mapped.  If an attribute is in a default namespace,
    this goes for the prefix [ns1] as well, which is then generated for it. *)
Definition coherent_by (f : string -> string) (t : rtree) : Prop :=
  (forall p u, asks_ns t p u -> f p = u) /\
  (forall u n, asks_ns t "" u -> asks_attr t n -> xn_ns n = u -> f "ns1"%string = u).
Definition coherent (t : rtree) : Prop := exists f, coherent_by f t.

Definition distinct_attrs (t : rtree) : Prop :=
  forall n reqs kids, subtree (RElem n reqs kids) t -> NoDup (map fst (req_attrs reqs)).

(** ** Start tags *)

(** The elements of a tree and the start tags of a document, in document order. *)
Fixpoint elements (t : rtree) : list (xname * list req) :=
  match t with
  | RText _ => []
  | RElem n reqs kids => (n, reqs) :: flat_map elements kids
  end.
Fixpoint tags (evs : list wevent) : list (pname * list (pname * string) * bmap string) :=
  match evs with
  | [] => []
  | WStart n a m :: r => (n, a, m) :: tags r
  | _ :: r => tags r
  end.

(** The prefix of a name whose namespace is [u], given the mappings. *)
Definition prefix_for (m : bmap string) (u : string) (p : option string) : Prop :=
  match p with
  | Some p => In (p, u) m /\ p <> ""%string \/ p = "xml"%string /\ u = XML_NS /\ ~ In u (map snd m)
  | None => False
  end.

Definition tag_ok (x : xname * list req) (y : pname * list (pname * string) * bmap string) : Prop :=
  let '(n, reqs) := x in
  let '(pn, attrs, m) := y in
  (* one-to-one *)
  NoDup (map fst m) /\ NoDup (map snd m) /\
  (* every requested namespace is mapped *)
  (forall p u, In (ReqNs p u) reqs -> In u (map snd m)) /\
  (* the element name *)
  (prefix_for m (xn_ns n) (pn_prefix pn) \/
   pn_prefix pn = None /\ (In (""%string, xn_ns n) m \/
     xn_ns n = ""%string /\ ~ In ""%string (map fst m))) /\
  (* attributes: unprefixed if in no namespace, otherwise prefixed *)
  Forall2 (fun a b => snd b = snd a /\
     (if String.eqb (xn_ns (fst a)) "" then pn_prefix (fst b) = None
      else prefix_for m (xn_ns (fst a)) (pn_prefix (fst b)))) (req_attrs reqs) attrs.

(** ** Choice of prefixes *)

(** What the calls on a builder request for the URL [u]: [inherited] is the parent's prefix for [u],
    [own] says that the element itself is in [u].  The first of these counts: the element's own name if
    the parent maps its namespace, a [namespace] call, an attribute if the parent maps its namespace. *)
Fixpoint first_request (inherited : option string) (u : string) (l : list req) : option string :=
  match l with
  | [] => None
  | ReqNs p v :: l' => if String.eqb u v then Some p else first_request inherited u l'
  | ReqAttr n _ :: l' =>
      match inherited with
      | Some p => if String.eqb u (xn_ns n) then Some p else first_request inherited u l'
      | None => first_request inherited u l'
      end
  end.
Definition requested (inherited : option string) (own : bool) (u : string) (l : list req) : option string :=
  match inherited with
  | Some p => if own then Some p else first_request inherited u l
  | None => first_request inherited u l
  end.

(** The parent's prefix for [u]. *)
Definition parent_prefix (m : bmap string) (u : string) : option string :=
  option_map fst (find (fun d => String.eqb u (snd d)) m).

Definition uses (u : string) (l : list req) : bool := existsb (fun a => String.eqb u (xn_ns (fst a))) (req_attrs l).

(** The choice, for an element [x] whose parent's mappings are [fst y] and whose own are [snd y]. *)
Definition choice_ok (x : xname * list req) (y : bmap string * bmap string) : Prop :=
  let '(n, reqs) := x in
  let want u := requested (parent_prefix (fst y) u) (String.eqb u (xn_ns n)) u reqs in
  (forall u v p, want u = Some p -> want v = Some p -> u = v) ->
  (forall u, want u = Some ""%string -> uses u reqs = false) ->
  forall u p, want u = Some p -> In (p, u) (snd y).

(** Start tags' mappings, each with those of its parent. *)
Fixpoint tags_in (st : list (bmap string)) (evs : list wevent) : list (bmap string * bmap string) :=
  match evs with
  | [] => []
  | WStart _ _ m :: r => (hd [] st, m) :: tags_in (m :: st) r
  | WChars _ :: r => tags_in st r
  | WEnd :: r => tags_in (tl st) r
  end.

(** ** Builders *)

(** Any calls on a builder. *)
Inductive reached (dbg : bool) (b0 : bstate) : bstate -> Prop :=
| reach_start : reached dbg b0 b0
| reach_ns : forall b p u b', reached dbg b0 b -> builder_namespace dbg p u b = inl b' -> reached dbg b0 b'
| reach_attr : forall b n v r b', reached dbg b0 b -> builder_attribute n v b = inl (r, b') -> reached dbg b0 b'.
