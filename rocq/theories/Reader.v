(** Model of the streaming reader: static-xml/src/de/mod.rs 86-98, 151-186, 214-639.

    The xml-rs [EventReader] is a list of events, each with the position [inner.position()] reports
    after it, followed by a final result that every further call returns again (in xml-rs both the
    end of the document and errors are sticky).

    User code (visitors, [Deserialize] implementations) is an arbitrary [visitors] value: any state
    type, any callbacks, including ones that ignore child elements or swallow errors. *)
From Verif Require Import Base.

(** ** xml-rs types *)

(** [xml::common::TextPosition]. *)
Definition position := (N * N)%type.

(** [xml::name::OwnedName]. *)
Record oname := OName { on_prefix : option string; on_ns : option string; on_local : string }.

(** lib.rs 478-491: [ExpandedNameRef::from_xml_name]. *)
Definition from_xml_name (n : oname) : xname :=
  XName (match on_ns n with
         | Some ns => ns
         | None => match on_prefix n with
                   | Some p => if String.eqb p "xml" then XML_NS else ""
                   | None => ""
                   end
         end) (on_local n).

(** [xml::attribute::OwnedAttribute]. *)
Record attr := Attr { a_name : oname; a_value : string }.

(** [xml::namespace::Namespace]: prefix to URL. *)
Definition nsmap := bmap string.

(** [xml::reader::XmlEvent], except [EndDocument] (see [final]). *)
Inductive xevent :=
| XStartDocument
| XStartElement (name : oname) (attrs : list attr) (ns : nsmap)
| XEndElement (name : oname)
| XCharacters (s : string)
| XCData (s : string)
| XWhitespace (s : string)
| XComment (s : string)
| XPI (name : string) (data : option string).

(** [xml::reader::Error]: position and message. *)
Record xerr := XErr { xe_pos : position; xe_msg : string }.

(** What the event reader returns once its events are used up, again and again. *)
Inductive final :=
| FEndDocument (p : position)
| FError (e : xerr).

(** ** Errors *)

(** de/mod.rs 17-25: [StackElement]. *)
Record selem := SElem { se_name : oname; se_pos : position }.

(** What an [ErrorKind::Msg] says.  The debug rendering of the offending event is kept as the event
    itself ([None]: the end of the document). *)
Inductive msg :=
| MExpectedStartDocument (got : option xevent)
| MExpectedStartElement (got : xevent)
| MExpectedEndDocument (got : xevent)
| MUnexpectedElement (name : oname).

(** de/mod.rs 222-231: [ErrorKind].  A boxed user error is represented by what it displays. *)
Inductive ekind :=
| EXml (e : xerr)
| EDeserializer (m : string)
| EMsg (m : msg).

(** de/mod.rs 151-220: [Error]. *)
Record error := Error { er_kind : ekind; er_stack : list selem; er_pos : position }.

(** de/mod.rs 33-36: [VisitorError]. *)
Inductive verr :=
| Propagate (e : error)
| Wrap (m : string).

(** de/mod.rs 86-91: [VisitorError::wrap]. *)
Definition wrap (e : verr) (stack : list selem) (p : position) : error :=
  match e with
  | Propagate e => e
  | Wrap m => Error (EDeserializer m) stack p
  end.

(** ** The reader *)

(** de/mod.rs 282-292: [Reader], with the state of its [EventReader]. [r_pos] is
    [inner.position()]. *)
Record rstate := RState {
  r_src : list (xevent * position);
  r_fin : final;
  r_pos : position;
  r_depth : nat;
  r_stack : list selem;   (* the root first *)
}.

(** de/mod.rs 371-386: [Event]. *)
Inductive event :=
| EvStart (attrs : list attr) (ns : nsmap)
| EvEnd (name : oname)
| EvChars (s : string).

Definition oname_eqb (a b : oname) : bool :=
  opt_str_eqb (on_prefix a) (on_prefix b) && opt_str_eqb (on_ns a) (on_ns b) &&
  String.eqb (on_local a) (on_local b).

(** A computation: result and new reader state.  The state survives errors, because a visitor may
    swallow an error and go on reading. *)
Definition rres (A : Type) := (res error A * rstate)%type.

Definition set_src (r : rstate) (src : list (xevent * position)) (p : position) : rstate :=
  RState src (r_fin r) p (r_depth r) (r_stack r).

(** de/mod.rs 428-465: the loop of [next].  [dbg]: debug assertions are enabled.
    - Past the end of the document inside this loop, [EndDocument] is skipped forever: [Diverge].
    - An end tag at depth 0 would make [depth -= 1] overflow: [Panic] (it wraps around in release
      builds; xml-rs never emits such a tag). *)
Fixpoint next_loop (dbg : bool) (fin : final) (depth : nat) (stack : list selem)
  (src : list (xevent * position)) : rres (event * position) :=
  match src with
  | [] =>
      match fin with
      | FEndDocument p => (Abort Diverge, RState [] fin p depth stack)
      | FError e => (Err (Error (EXml e) stack (xe_pos e)), RState [] fin (xe_pos e) depth stack)
      end
  | (e, p) :: src' =>
      match e with
      | XStartElement name attrs ns =>
          (Ok (EvStart attrs ns, p), RState src' fin p (S depth) (stack ++ [SElem name p]))
      | XEndElement name =>
          match depth with
          | O => (Abort (Panic "attempt to subtract with overflow"), RState src' fin p O stack)
          | S depth' =>
              let r' := RState src' fin p depth' stack in
              if dbg then
                match nth_error stack depth' with
                | Some el =>
                    if oname_eqb (se_name el) name then (Ok (EvEnd name, p), r')
                    else (Abort (Panic "assertion failed: name"), r')
                | None => (Abort (Panic "index out of bounds"), r')
                end
              else (Ok (EvEnd name, p), r')
          end
      | XCharacters s | XCData s => (Ok (EvChars s, p), RState src' fin p depth stack)
      | XComment _ | XWhitespace _ | XPI _ _ | XStartDocument =>
          next_loop dbg fin depth stack src'
      end
  end.

(** de/mod.rs 422-466: [next]. *)
Definition next (dbg : bool) (r : rstate) : rres (event * position) :=
  if dbg && negb (Nat.eqb (List.length (r_stack r)) (r_depth r))
  then (Abort (Panic "assertion failed: stack.len() == depth"), r)
  else next_loop dbg (r_fin r) (r_depth r) (r_stack r) (r_src r).

(** [self.stack.truncate(self.depth)] *)
Definition truncate (r : rstate) : rstate :=
  RState (r_src r) (r_fin r) (r_pos r) (r_depth r) (firstn (r_depth r) (r_stack r)).

(** de/mod.rs 475-478: [while self.depth > depth { self.next()?; self.stack.truncate(self.depth) }] *)
Fixpoint skip_loop (fuel : nat) (dbg : bool) (target : nat) (r : rstate) : rres unit :=
  match fuel with
  | O => (Abort Diverge, r)
  | S fuel' =>
      if Nat.ltb target (r_depth r) then
        match next dbg r with
        | (Ok _, r') => skip_loop fuel' dbg target (truncate r')
        | (Err e, r') => (Err e, r')
        | (Abort x, r') => (Abort x, r')
        end
      else (Ok tt, truncate r)
  end.

(** de/mod.rs 468-481: [return_to_depth]. *)
Definition return_to_depth (dbg : bool) (target : nat) (r : rstate) : rres unit :=
  if dbg && Nat.ltb (r_depth r) target
  then (Abort (Panic "assertion failed: depth >= target"), r)
  else skip_loop (S (List.length (r_src r))) dbg target r.

(** ** User code *)

(** What a [Deserialize] implementation or visitor can see of an [ElementReader] (de/mod.rs 511-538):
    name with prefix, namespace mappings, depth.  *)
Record einfo := EInfo { ei_name : oname; ei_ns : nsmap; ei_depth : nat }.

(** Result of a successful [read_to] (de/mod.rs 548-555). *)
Definition endinfo := (oname * nsmap * position)%type.

(** A decision about an [ElementReader].  [read_to] and [read_string] consume it, so at most one
    reading call can happen:
    - [ANoRead a]: drop it (or hand it back), with outcome [a];
    - [AReadString k]: call [read_string] and go on with [k];
    - [AReadTo s0 k]: call [read_to] with a visitor in state [s0]; [k] gets the result and the
      visitor's final state. *)
Inductive action (St A : Type) :=
| ANoRead (a : A)
| AReadString (k : string + verr -> A)
| AReadTo (s0 : St) (k : endinfo + verr -> St -> A).
Arguments ANoRead {St A} a.
Arguments AReadString {St A} k.
Arguments AReadTo {St A} s0 k.

(** All visitors of a program, as one family of callbacks over a state type (a visitor's state may
    include which visitor it is).  [ElementVisitor], de/mod.rs 777-820.  The [bool] of [v_element]
    says whether the child was handed back ([Ok(Some(child))]). *)
Record visitors (St : Type) := Visitors {
  v_attribute : St -> xname -> string -> res verr (option string) * St;
  v_characters : St -> string -> position -> res string (option string) * St;
  v_element : St -> einfo -> action St (res verr bool * St);
}.
Arguments v_attribute {St} v.
Arguments v_characters {St} v.
Arguments v_element {St} v.

(** ** read_string: de/mod.rs 605-638 *)

(** [debug_assert_eq!(self.stack_pos, self.reader.stack().len() - 1)] *)
Definition stack_check (dbg : bool) (sp : nat) (r : rstate) : bool :=
  negb dbg || Nat.eqb (S sp) (List.length (r_stack r)).

Definition stack_panic : abort := Panic "assertion failed: stack_pos == stack.len() - 1".

Fixpoint read_string_loop (fuel : nat) (dbg : bool) (sp : nat) (out : string) (r : rstate)
  : rres string :=
  match fuel with
  | O => (Abort Diverge, r)
  | S fuel' =>
      if stack_check dbg sp r then
        match next dbg r with
        | (Ok (EvStart _ _, p), r') =>
            match nth_error (r_stack r') (List.length (r_stack r') - 1) with
            | Some child => (Err (Error (EMsg (MUnexpectedElement (se_name child))) (r_stack r') p), r')
            | None => (Abort (Panic "called `Option::unwrap()` on a `None` value"), r')
            end
        | (Ok (EvEnd _, _), r') => (Ok out, r')
        | (Ok (EvChars s, _), r') =>
            read_string_loop fuel' dbg sp
              (if String.eqb out "" then s else (out ++ s)%string) r'
        | (Err e, r') => (Err e, r')
        | (Abort x, r') => (Abort x, r')
        end
      else (Abort stack_panic, r)
  end.

Definition read_string (dbg : bool) (sp : nat) (r : rstate) : rres string :=
  read_string_loop (S (List.length (r_src r))) dbg sp "" r.

(** ** read_to: de/mod.rs 540-603 *)
Section ReadTo.
  Context {St : Type} (dbg : bool) (V : visitors St).

  (** de/mod.rs 557-565: the attributes, in document order. *)
  Fixpoint attrs_loop (stack : list selem) (p : position) (attrs : list attr) (s : St)
    : res error unit * St :=
    match attrs with
    | [] => (Ok tt, s)
    | a :: attrs' =>
        match v_attribute V s (from_xml_name (a_name a)) (a_value a) with
        | (Ok _, s') => attrs_loop stack p attrs' s'
        | (Err e, s') => (Err (wrap e stack p), s')
        | (Abort x, s') => (Abort x, s')
        end
    end.

  (** Runs an action on the element at stack position [sp] whose start tag has just been read.
      [body] is the loop of [read_to]. *)
  Definition run_action {A} (body : nat -> nsmap -> St -> rstate -> res error endinfo * St * rstate)
    (sp : nat) (attrs : list attr) (ns : nsmap) (act : action St A) (r : rstate)
    : (A + abort) * rstate :=
    match act with
    | ANoRead a => (inl a, r)
    | AReadString k =>
        match read_string dbg sp r with
        | (Ok s, r') => (inl (k (inl s)), r')
        | (Err e, r') => (inl (k (inr (Propagate e))), r')
        | (Abort x, r') => (inr x, r')
        end
    | AReadTo s0 k =>
        match nth_error (r_stack r) sp with
        | None => (inr (Panic "index out of bounds"), r)
        | Some el =>
            match attrs_loop (r_stack r) (se_pos el) attrs s0 with
            | (Ok _, s1) =>
                match body sp ns s1 r with
                | (Ok i, s2, r') => (inl (k (inl i) s2), r')
                | (Err e, s2, r') => (inl (k (inr (Propagate e)) s2), r')
                | (Abort x, _, r') => (inr x, r')
                end
            | (Err e, s1) => (inl (k (inr (Propagate e)) s1), r)
            | (Abort x, _) => (inr x, r)
            end
        end
    end.

  (** de/mod.rs 566-602: the loop over child nodes. *)
  Fixpoint read_loop (fuel : nat) (sp : nat) (ns : nsmap) (s : St) (r : rstate)
    : res error endinfo * St * rstate :=
    match fuel with
    | O => (Abort Diverge, s, r)
    | S fuel' =>
        if stack_check dbg sp r then
          match next dbg r with
          | (Ok (EvStart attrs ns', p), r1) =>
              match nth_error (r_stack r1) (S sp) with
              | None => (Abort (Panic "index out of bounds"), s, r1)
              | Some el =>
                  let child := EInfo (se_name el) ns' (S (S sp)) in
                  match run_action (read_loop fuel') (S sp) attrs ns' (v_element V s child) r1 with
                  | (inr x, r2) => (Abort x, s, r2)
                  | (inl (Abort x, s'), r2) => (Abort x, s', r2)
                  | (inl (Err e, s'), r2) => (Err (wrap e (r_stack r2) p), s', r2)
                  | (inl (Ok _, s'), r2) =>
                      match return_to_depth dbg (S sp) r2 with
                      | (Ok _, r3) => read_loop fuel' sp ns s' r3
                      | (Err e, r3) => (Err e, s', r3)
                      | (Abort x, r3) => (Abort x, s', r3)
                      end
                  end
              end
          | (Ok (EvEnd name, p), r1) => (Ok (name, ns, p), s, r1)
          | (Ok (EvChars str, p), r1) =>
              match v_characters V s str p with
              | (Ok _, s') => read_loop fuel' sp ns s' r1
              | (Err m, s') => (Err (Error (EDeserializer m) (r_stack r1) p), s', r1)
              | (Abort x, s') => (Abort x, s', r1)
              end
          | (Err e, r1) => (Err e, s, r1)
          | (Abort x, r1) => (Abort x, s, r1)
          end
        else (Abort stack_panic, s, r)
    end.

  (** ** Top level *)

  (** [inner.next()] as called directly by [root] and [end]: [None] is [EndDocument]. *)
  Definition inner_next (r : rstate) : res xerr (option xevent) * rstate :=
    match r_src r with
    | (e, p) :: src' => (Ok (Some e), set_src r src' p)
    | [] =>
        match r_fin r with
        | FEndDocument p => (Ok None, set_src r [] p)
        | FError e => (Err e, set_src r [] (xe_pos e))
        end
    end.

  (** de/mod.rs 304-340: [root]; on success the attributes and namespaces of the root element. *)
  Definition root (r : rstate) : rres (list attr * nsmap) :=
    match inner_next r with
    | (Err e, r1) => (Err (Error (EXml e) [] (xe_pos e)), r1)
    | (Abort x, r1) => (Abort x, r1)
    | (Ok (Some XStartDocument), r1) =>
        match next dbg r1 with
        | (Ok (EvStart attrs ns, _), r2) => (Ok (attrs, ns), r2)
        | (Ok (EvEnd n, p), r2) => (Err (Error (EMsg (MExpectedStartElement (XEndElement n))) [] p), r2)
        | (Ok (EvChars s, p), r2) => (Err (Error (EMsg (MExpectedStartElement (XCharacters s))) [] p), r2)
        | (Err e, r2) => (Err e, r2)
        | (Abort x, r2) => (Abort x, r2)
        end
    | (Ok o, r1) => (Err (Error (EMsg (MExpectedStartDocument o)) [] (r_pos r1)), r1)
    end.

  (** de/mod.rs 349-361: the loop of [end]. *)
  Fixpoint end_loop (fin : final) (src : list (xevent * position)) : res error unit :=
    match src with
    | [] => match fin with
            | FEndDocument _ => Ok tt
            | FError e => Err (Error (EXml e) [] (xe_pos e))
            end
    | (XPI _ _, _) :: src' | (XComment _, _) :: src' => end_loop fin src'
    | (e, p) :: _ => Err (Error (EMsg (MExpectedEndDocument e)) [] p)
    end.

  (** de/mod.rs 342-362: [end]. *)
  Definition end_ (r : rstate) : res error unit :=
    match return_to_depth dbg 0 r with
    | (Ok _, r') => end_loop (r_fin r') (r_src r')
    | (Err e, _) => Err e
    | (Abort x, _) => Abort x
    end.

  (** de/mod.rs 260-269: [read], for the [Deserialize] implementation [D].  The element's name is
      [stack()[0]]. *)
  Definition read {T} (D : einfo -> action St (res verr T)) (r : rstate) : res error T :=
    match root r with
    | (Err e, _) => Err e
    | (Abort x, _) => Abort x
    | (Ok (attrs, ns), r1) =>
        match nth_error (r_stack r1) 0 with
        | None => Abort (Panic "index out of bounds")
        | Some el =>
            match run_action (read_loop (S (List.length (r_src r1)))) 0 attrs ns
                    (D (EInfo (se_name el) ns 1)) r1 with
            | (inr x, _) => Abort x
            | (inl (Abort x), _) => Abort x
            | (inl (Err e), r2) => Err (wrap e (r_stack r2) (r_pos r2))
            | (inl (Ok v), r2) =>
                match end_ r2 with
                | Ok _ => Ok v
                | Err e => Err e
                | Abort x => Abort x
                end
            end
        end
    end.
End ReadTo.

(** [Reader::new] on a source. *)
Definition reader_new (src : list (xevent * position)) (fin : final) : rstate :=
  RState src fin (0%N, 0%N) 0 [].

(** ** Text types *)

(** de/mod.rs 1067-1072: [Deserialize] for every [ParseText] type. *)
Definition deserialize_text {St T} (parse : string -> res string T) (_ : einfo)
  : action St (res verr T) :=
  AReadString (fun x => match x with
                        | inl s => map_err Wrap (parse s)
                        | inr e => Err e
                        end).

(** de/mod.rs 1002-1010: [DeserializeAttrField::init] for every [ParseText] type. *)
Definition attr_init {T} (parse : string -> res string T) (value : string) : res verr T :=
  map_err Wrap (parse value).
