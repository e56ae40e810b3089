(** What reading a document should do, stated over the document's tree: no depth counter, no element
    stack, no skipping.

    The semantics walks the tree.  The path of ancestors is passed down so that it can say what
    [Error::stack()] should be. *)
From Verif Require Import Base Reader.

(** ** Documents *)

(** Comments and processing instructions. *)
Inductive misc :=
| Comment (s : string)
| PI (name : string) (data : option string).

Definition misc_event (m : misc) : xevent :=
  match m with Comment s => XComment s | PI n d => XPI n d end.

(** Children of an element: elements (name, attributes, namespaces in scope, position of the start
    tag, children, position of the end tag), text, comments and processing instructions, and runs
    of blank text that xml-rs reports separately. *)
Inductive node :=
| NElem (name : oname) (attrs : list attr) (ns : nsmap) (p : position)
        (kids : list node) (pe : position)
| NText (cdata : bool) (s : string) (p : position)
| NMisc (m : misc) (p : position)
| NBlank (s : string) (p : position).

Definition text_event (cdata : bool) (s : string) : xevent :=
  if cdata then XCData s else XCharacters s.

(** The events of a subtree. *)
Fixpoint events (n : node) : list (xevent * position) :=
  match n with
  | NElem name attrs ns p kids pe =>
      (XStartElement name attrs ns, p) :: List.flat_map events kids ++ [(XEndElement name, pe)]
  | NText c s p => [(text_event c s, p)]
  | NMisc m p => [(misc_event m, p)]
  | NBlank s p => [(XWhitespace s, p)]
  end.

(** A whole document: prolog, root element, epilogue. *)
Record doc := Doc {
  d_start : position;
  d_prolog : list (misc * position);
  d_name : oname; d_attrs : list attr; d_ns : nsmap; d_pos : position;
  d_kids : list node; d_pe : position;
  d_epilogue : list (misc * position);
}.

Definition d_root (d : doc) : node :=
  NElem (d_name d) (d_attrs d) (d_ns d) (d_pos d) (d_kids d) (d_pe d).

Definition misc_events (l : list (misc * position)) : list (xevent * position) :=
  map (fun mp => (misc_event (fst mp), snd mp)) l.

Definition doc_events (d : doc) : list (xevent * position) :=
  (XStartDocument, d_start d) :: misc_events (d_prolog d) ++ events (d_root d) ++
  misc_events (d_epilogue d).

(** ** Walking the tree *)

(** Where reading stopped: the innermost element being read with its ancestors, and the position of
    the last event looked at. *)
Definition place := (list selem * position)%type.

(** The text content of an element, or an error at its first child element. *)
Fixpoint sem_string (path : list selem) (acc : string) (kids : list node) (pe : position)
  : res error string * place :=
  match kids with
  | [] => (Ok acc, (path, pe))
  | NText _ s _ :: kids' => sem_string path (acc ++ s)%string kids' pe
  | NMisc _ _ :: kids' | NBlank _ _ :: kids' => sem_string path acc kids' pe
  | NElem name _ _ p _ _ :: _ =>
      let path' := path ++ [SElem name p] in
      (Err (Error (EMsg (MUnexpectedElement name)) path' p), (path', p))
  end.

Section Sem.
  Context {St : Type} (V : visitors St).

  Fixpoint sem_attrs (path : list selem) (p : position) (attrs : list attr) (s : St)
    : res error unit * St :=
    match attrs with
    | [] => (Ok tt, s)
    | a :: attrs' =>
        match v_attribute V s (from_xml_name (a_name a)) (a_value a) with
        | (Ok _, s') => sem_attrs path p attrs' s'
        | (Err e, s') => (Err (wrap e path p), s')
        | (Abort x, s') => (Abort x, s')
        end
    end.

  (** What an action does to the element [path] ending with start position [p].  [rd] is reading it
      with a visitor. *)
  Definition sem_act {A} (rd : St -> (res error endinfo * St) * place)
    (path : list selem) (p : position) (kids : list node) (pe : position) (act : action St A)
    : (A + abort) * place :=
    match act with
    | ANoRead a => (inl a, (path, p))
    | AReadString k =>
        match sem_string path "" kids pe with
        | (Ok s, pl) => (inl (k (inl s)), pl)
        | (Err e, pl) => (inl (k (inr (Propagate e))), pl)
        | (Abort x, pl) => (inr x, pl)
        end
    | AReadTo s0 k =>
        match rd s0 with
        | (Ok i, s, pl) => (inl (k (inl i) s), pl)
        | (Err e, s, pl) => (inl (k (inr (Propagate e)) s), pl)
        | (Abort x, _, pl) => (inr x, pl)
        end
    end.

  (** The children of an element, in document order, each offered to the visitor once.  [rd] reads
      a child. *)
  Definition sem_kids (rd : node -> list selem -> St -> (res error endinfo * St) * place)
    : list selem -> endinfo -> list node -> St -> (res error endinfo * St) * place :=
    fix sem_kids (path : list selem) (fin : endinfo) (kids : list node) (s : St)
    : (res error endinfo * St) * place :=
    match kids with
    | [] => ((Ok fin, s), (path, snd fin))
    | c :: kids' =>
        match c with
        | NMisc _ _ | NBlank _ _ => sem_kids path fin kids' s
        | NText _ str p =>
            match v_characters V s str p with
            | (Ok _, s') => sem_kids path fin kids' s'
            | (Err m, s') => ((Err (Error (EDeserializer m) path p), s'), (path, p))
            | (Abort x, s') => ((Abort x, s'), (path, p))
            end
        | NElem name attrs ns p kids1 pe =>
            let path' := path ++ [SElem name p] in
            match sem_act (rd c path) path' p kids1 pe
                    (v_element V s (EInfo name ns (List.length path'))) with
            | (inl (Ok _, s'), _) => sem_kids path fin kids' s'
            | (inl (Err e, s'), pl) => ((Err (wrap e (fst pl) p), s'), pl)
            | (inl (Abort x, s'), pl) => ((Abort x, s'), pl)
            | (inr x, pl) => ((Abort x, s), pl)
            end
        end
    end.

  (** Reading an element with a visitor: its attributes, then its children. *)
  Fixpoint sem_read (n : node) (parents : list selem) (s : St)
    : (res error endinfo * St) * place :=
    match n with
    | NElem name attrs ns p kids pe =>
        let path := parents ++ [SElem name p] in
        match sem_attrs path p attrs s with
        | (Ok _, s1) => sem_kids sem_read path (name, ns, pe) kids s1
        | (Err e, s1) => ((Err e, s1), (path, p))
        | (Abort x, s1) => ((Abort x, s1), (path, p))
        end
    | _ => ((Abort (Panic "not an element"), s), (parents, (0%N, 0%N)))
    end.

  (** Reading a document with the [Deserialize] implementation [D]. *)
  Definition sem_doc {T} (D : einfo -> action St (res verr T)) (d : doc) : res error T :=
    let path := [SElem (d_name d) (d_pos d)] in
    match sem_act (sem_read (d_root d) []) path (d_pos d) (d_kids d) (d_pe d)
            (D (EInfo (d_name d) (d_ns d) 1)) with
    | (inl (Ok v), _) => Ok v
    | (inl (Err e), pl) => Err (wrap e (fst pl) (snd pl))
    | (inl (Abort x), _) => Abort x
    | (inr x, _) => Abort x
    end.
End Sem.

(** ** Conditions on user code *)

(** The reader's debug assertions fail when reading goes on after a read failed part-way (see C14):
    user code is [propagating] when a failed [read_to] or [read_string] always makes the callback
    fail, too. *)
Definition propagating_act {St A} (fails : A -> Prop) (act : action St A) : Prop :=
  match act with
  | ANoRead _ => True
  | AReadString k => forall e, fails (k (inr e))
  | AReadTo _ k => forall e s, fails (k (inr e) s)
  end.

Definition propagating {St} (V : visitors St) : Prop :=
  forall s i, propagating_act (fun a => forall b, fst a <> Ok b) (v_element V s i).

Definition propagating_root {St T} (D : einfo -> action St (res verr T)) : Prop :=
  forall i, propagating_act (fun a => forall v, a <> Ok v) (D i).

(** User code is [total] when, from states satisfying [Inv], callbacks neither panic nor loop, and
    lead to states satisfying [Inv]. *)
Definition no_abort {E A} (r : res E A) : Prop := forall x, r <> Abort x.

Definition total_act {St A} (Inv : St -> Prop) (good : A -> Prop) (act : action St A) : Prop :=
  match act with
  | ANoRead a => good a
  | AReadString k => forall x, good (k x)
  | AReadTo s0 k => Inv s0 /\ forall x s, Inv s -> good (k x s)
  end.

Record total {St} (Inv : St -> Prop) (V : visitors St) : Prop := Total {
  total_attribute : forall s n v, Inv s ->
    no_abort (fst (v_attribute V s n v)) /\ Inv (snd (v_attribute V s n v));
  total_characters : forall s str p, Inv s ->
    no_abort (fst (v_characters V s str p)) /\ Inv (snd (v_characters V s str p));
  total_element : forall s i, Inv s ->
    total_act Inv (fun a => no_abort (fst a) /\ Inv (snd a)) (v_element V s i);
}.

Definition total_root {St T} (Inv : St -> Prop) (D : einfo -> action St (res verr T)) : Prop :=
  forall i, total_act Inv no_abort (D i).

(** ** Streams xml-rs can deliver *)

(** End tags match the open elements (innermost first), and the end of the document is only
    reported once all are closed.  [StartDocument] comes only once, and blank text is not reported
    outside the root element.  A stream may stop with an error anywhere. *)
Fixpoint well_nested (open : list oname) (src : list (xevent * position)) (fin : final) : Prop :=
  match src with
  | [] => match fin with FEndDocument _ => open = [] | FError _ => True end
  | (XStartElement n _ _, _) :: src' => well_nested (n :: open) src' fin
  | (XEndElement n, _) :: src' =>
      match open with
      | n' :: open' => n = n' /\ well_nested open' src' fin
      | [] => False
      end
  | (XStartDocument, _) :: _ => False
  | (XWhitespace _, _) :: src' => open <> [] /\ well_nested open src' fin
  | _ :: src' => well_nested open src' fin
  end.

(** The end of the document is not reported before a root element was seen. *)
Definition has_root (src : list (xevent * position)) (fin : final) : Prop :=
  match fin with
  | FError _ => True
  | FEndDocument _ => exists n a ns p, In (XStartElement n a ns, p) src
  end.

(** The streams xml-rs delivers: an immediate error, or [StartDocument] and then a (perhaps
    interrupted) document.  More than one root element is not excluded here. *)
Definition deliverable (src : list (xevent * position)) (fin : final) : Prop :=
  match src with
  | [] => exists e, fin = FError e
  | (e, _) :: src' => e = XStartDocument /\ well_nested [] src' fin /\ has_root src' fin
  end.

(** ** Content *)

(** The text content of an element: its text and CDATA, in order. *)
Definition text_of (kids : list node) : string :=
  String.concat "" (map (fun k => match k with NText _ s _ => s | _ => ""%string end) kids).

Definition is_elem (n : node) : bool := match n with NElem _ _ _ _ _ _ => true | _ => false end.

(** Same elements, attributes and text: comments, processing instructions, blank runs, positions,
    and whether text comes as CDATA may differ. *)
Inductive same_content : list node -> list node -> Prop :=
| sc_nil : same_content [] []
| sc_misc_l : forall m p k1 k2, same_content k1 k2 -> same_content (NMisc m p :: k1) k2
| sc_misc_r : forall m p k1 k2, same_content k1 k2 -> same_content k1 (NMisc m p :: k2)
| sc_blank_l : forall s p k1 k2, same_content k1 k2 -> same_content (NBlank s p :: k1) k2
| sc_blank_r : forall s p k1 k2, same_content k1 k2 -> same_content k1 (NBlank s p :: k2)
| sc_text : forall c1 c2 s p1 p2 k1 k2, same_content k1 k2 ->
    same_content (NText c1 s p1 :: k1) (NText c2 s p2 :: k2)
| sc_elem : forall name attrs ns p1 p2 kk1 kk2 pe1 pe2 k1 k2,
    same_content kk1 kk2 -> same_content k1 k2 ->
    same_content (NElem name attrs ns p1 kk1 pe1 :: k1) (NElem name attrs ns p2 kk2 pe2 :: k2).

(** Errors that differ in positions only. *)
Definition error_sim (e1 e2 : error) : Prop :=
  er_kind e1 = er_kind e2 /\ map se_name (er_stack e1) = map se_name (er_stack e2).

Definition verr_sim (e1 e2 : verr) : Prop :=
  match e1, e2 with
  | Propagate e1, Propagate e2 => error_sim e1 e2
  | Wrap m1, Wrap m2 => m1 = m2
  | _, _ => False
  end.

Definition res_sim {E A} (R : E -> E -> Prop) (x y : res E A) : Prop :=
  match x, y with
  | Ok a, Ok b => a = b
  | Err e, Err f => R e f
  | Abort a, Abort b => a = b
  | _, _ => False
  end.

(** User code that does not look at positions. *)
Definition blind_act {St A} (R : A -> A -> Prop) (act : action St A) : Prop :=
  match act with
  | ANoRead _ => True
  | AReadString k => forall e1 e2, verr_sim e1 e2 -> R (k (inr e1)) (k (inr e2))
  | AReadTo _ k =>
      (forall e1 e2 s, verr_sim e1 e2 -> R (k (inr e1) s) (k (inr e2) s)) /\
      (forall n ns p1 p2 s, R (k (inl (n, ns, p1)) s) (k (inl (n, ns, p2)) s))
  end.

Definition outcome_sim {A St} (x y : res verr A * St) : Prop :=
  res_sim verr_sim (fst x) (fst y) /\ snd x = snd y.

Definition blind {St} (V : visitors St) : Prop :=
  (forall s str p1 p2, v_characters V s str p1 = v_characters V s str p2) /\
  forall s i, blind_act outcome_sim (v_element V s i).

Definition blind_root {St T} (D : einfo -> action St (res verr T)) : Prop :=
  forall i, blind_act (res_sim verr_sim) (D i).

(** ** Blame *)

(** User code that hands errors of reads on unchanged and otherwise only makes new ones. *)
Definition new_error {A} (x : res verr A) : Prop := forall e, x = Err e -> exists m, e = Wrap m.

Definition transparent_act {St A B} (get : A -> res verr B) (act : action St A) : Prop :=
  match act with
  | ANoRead a => new_error (get a)
  | AReadString k => (forall s, new_error (get (k (inl s)))) /\ forall e, get (k (inr e)) = Err e
  | AReadTo _ k => (forall i s, new_error (get (k (inl i) s))) /\ forall e s, get (k (inr e) s) = Err e
  end.

Definition transparent {St} (V : visitors St) : Prop :=
  (forall s n v, new_error (fst (v_attribute V s n v))) /\
  forall s i, transparent_act fst (v_element V s i).

Definition transparent_root {St T} (D : einfo -> action St (res verr T)) : Prop :=
  forall i, transparent_act (fun x => x) (D i).

(** [path] leads from below [parents] through [n] to the element [target]. *)
Inductive on_path : list selem -> node -> list selem -> node -> Prop :=
| on_path_here : forall parents name attrs ns p kids pe,
    on_path parents (NElem name attrs ns p kids pe) (parents ++ [SElem name p])
      (NElem name attrs ns p kids pe)
| on_path_below : forall parents name attrs ns p kids pe k path target,
    In k kids -> on_path (parents ++ [SElem name p]) k path target ->
    on_path parents (NElem name attrs ns p kids pe) path target.

(** The results an action can end with, other than by handing on an error. *)
Definition outcome {St A} (act : action St A) (a : A) : Prop :=
  match act with
  | ANoRead b => a = b
  | AReadString k => exists s, a = k (inl s)
  | AReadTo _ k => exists i s, a = k (inl i) s
  end.

(** [e] is an error about the element [n] at [path]: a callback for one of its attributes, one of
    its texts or itself failed, or it is a child of a text element. *)
Inductive blames {St} (V : visitors St) (path : list selem) : node -> error -> Prop :=
| blame_attribute : forall name attrs ns p kids pe a s s' m, In a attrs ->
    v_attribute V s (from_xml_name (a_name a)) (a_value a) = (Err (Wrap m), s') ->
    blames V path (NElem name attrs ns p kids pe) (Error (EDeserializer m) path p)
| blame_text : forall name attrs ns p kids pe c str pt s s' m, In (NText c str pt) kids ->
    v_characters V s str pt = (Err m, s') ->
    blames V path (NElem name attrs ns p kids pe) (Error (EDeserializer m) path pt)
| blame_element : forall name attrs ns p kids pe s s' m,
    outcome (v_element V s (EInfo name ns (List.length path))) (Err (Wrap m), s') ->
    blames V path (NElem name attrs ns p kids pe) (Error (EDeserializer m) path p)
| blame_in_string : forall name attrs ns p kids pe,
    blames V path (NElem name attrs ns p kids pe) (Error (EMsg (MUnexpectedElement name)) path p).

(** ** Open elements *)

(** The elements open after a stretch of events (the root first). *)
Fixpoint opened (st : list selem) (evs : list (xevent * position)) : list selem :=
  match evs with
  | [] => st
  | (XStartElement n _ _, p) :: evs' => opened (st ++ [SElem n p]) evs'
  | (XEndElement _, _) :: evs' => opened (removelast st) evs'
  | _ :: evs' => opened st evs'
  end.
