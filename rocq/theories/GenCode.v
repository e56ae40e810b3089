(** The code the derive macros generate: static-xml-derive/src/deserialize.rs, serialize.rs, parse.rs and
    to_text.rs, as syntax.

    Each constructor below stands for one shape of tokens between [quote!] braces; its arguments are the
    parts that are spliced in.  Identifiers are spliced in as text: generated fields, flags and visitors
    are found by name when the code runs (GenRun.v), tables by index. *)
From Verif Require Import Base Normalize Text Find Types DeriveAttr.

(** ** Identifiers *)

(** Raw identifiers [r#x] and [x] are the same identifier. *)
Definition unraw (x : string) : string :=
  match x with
  | String c1 (String c2 r) => if Ascii.eqb c1 "r" && Ascii.eqb c2 "#" then r else x
  | _ => x
  end.

Definition same_ident (x y : string) : bool := String.eqb (unraw x) (unraw y).

(** [format_ident!("{}_present", ..)], [format_ident!("{}_visitor", ..)] and
    [format_ident!("{}Visitor", ..)]: deserialize.rs 18, 38, 39, 233, 338 and others.  [format_ident!]
    drops [r#]. *)
Definition present_of (f : string) : string := (unraw f ++ "_present")%string.
Definition visitor_of (f : string) : string := (unraw f ++ "_visitor")%string.
Definition visitor_type (t : string) : string := (unraw t ++ "Visitor")%string.

(** The type of a field as the user wrote it ([#ty]). *)
Definition rty := (fkind * ety)%type.

(** ** Positions *)

(** common.rs 446-467: the positions of the fields of a mode, in declaration order. *)
Definition same_mode (a b : emode) : bool :=
  match a, b with
  | EElement, EElement | EAttribute, EAttribute | EText_, EText_ | EFlatten, EFlatten => true
  | _, _ => false
  end.

Definition mode_positions (m : emode) (fs : list efield) : list nat :=
  map fst (filter (fun '(_, f) => same_mode (ef_mode f) m) (indexed_from 0 fs)).

(** [fields[p].name.expanded()]. *)
Definition ename (f : efield) : xname := expanded (dname_of (ef_name f)).
Definition name_at (fs : list efield) (p : nat) : xname :=
  match nth_error fs p with Some f => ename f | None => XName "" "" end.

(** common.rs 468-469: [sort_by_key]. *)
Definition sort_positions (fs : list efield) (ps : list nat) : list nat :=
  sort_by (fun a b => match xn_compare (name_at fs a) (name_at fs b) with Gt => false | _ => true end) ps.

Definition sorted_of (m : emode) (fs : list efield) : list nat := sort_positions fs (mode_positions m fs).

(** common.rs 470-481: each field is told its position in the sorted list; [None]: the placeholder
    [usize::MAX] (564, 569). *)
Definition assign_positions (n : nat) (sorted : list nat) : list (option nat) :=
  fold_left (fun ps '(i, p) => set_nth p (Some i) ps) (indexed_from 0 sorted) (repeat None n).

Definition position_of (m : emode) (fs : list efield) (p : nat) : option nat :=
  match nth_error (assign_positions (List.length fs) (sorted_of m fs)) p with Some x => x | None => None end.

(** ** Deserialize for structs *)

(** deserialize.rs 32-54 and 276-277: types of the visitor's fields. *)
Inductive gty :=
| GOutPtr (t : string)                         (* [*mut #ident]  *)
| GPhantom (t : string)                        (* [PhantomData<&'out mut #ident>] *)
| GBool
| GVisitor (t : rty).                          (* [<#ty as RawDeserialize<'out>>::Visitor] *)

(** deserialize.rs 56-88 and 314-315: initializers of the visitor's fields. *)
Inductive ginit :=
| GInitOut                                     (* [out.as_mut_ptr()] *)
| GInitPhantom
| GInitFalse
| GInitVisitor (t : rty) (f : string).         (* [<#ty>::Visitor::new(&mut (out).#fident)] *)

(** Statements of match arms, deserialize.rs 164-224. *)
Inductive gstmt :=
| GUpdate (f : string)          (* [DeserializeElementField::update(&mut (self.out).#f, child)?;] *)
| GWriteElement (f : string)    (* [ptr::write(&mut (self.out).#f, DeserializeElementField::init(child)?);] *)
| GWriteAttribute (f : string)  (* [ptr::write(&mut (self.out).#f, DeserializeAttrField::init(value)?);] *)
| GSetTrue (x : string).        (* [self.#x = true;] *)

(** What a match arm returns. *)
Inductive gtail :=
| GOkNone                       (* [Ok(None)] *)
| GOkSome                       (* [Ok(Some(child))], [Ok(Some(value))] *)
| GDuplicate                    (* [Err(VisitorError::duplicate_attribute(name))] *)
| GDelegate (vs : list string). (* [delegate_element(&mut [..], child)] and the like *)

(** [Some(#i) if self.#guard => { .. }]. *)
Record garm := GArm { ga_index : nat; ga_guard : option string; ga_body : list gstmt; ga_tail : gtail }.

(** [match find(..) { #arms.. _ => #fallthrough }]. *)
Record gmatch := GMatch { gm_arms : list garm; gm_else : gtail }.

(** Values written by [finalize]. *)
Inductive gvalue :=
| GDefault (t : rty)                                 (* [<#ty as Default>::default()] *)
| GMissingElement (t : rty) (p : option nat)         (* [<#ty as DeserializeElementField>::missing(&ELEMENTS[#p])?] *)
| GMissingAttribute (t : rty) (p : option nat).      (* [<#ty as DeserializeAttrField>::missing(&ATTRIBUTES[#p])?] *)

(** Statements of [finalize], deserialize.rs 90-146. *)
Inductive gfin :=
| GWriteMissing (flag f : string) (v : gvalue)       (* [if !self.#flag { ptr::write(&mut (self.out).#f, #v) }] *)
| GFinalize (t : rty) (vis : string) (d : option rty). (* [<#ty>::Visitor::finalize(self.#vis, #d)?;] *)

Record gstruct := GStruct {
  gs_ident : string;
  gs_attributes : list xname;                        (* const ATTRIBUTES *)
  gs_elements : list xname;                          (* const ELEMENTS *)
  gs_visitor : string;                               (* struct #visitor_type *)
  gs_defs : list (string * gty);
  gs_element : gmatch;
  gs_attribute : gmatch;
  gs_characters : option (list string);              (* the method's [delegate_characters], if it is there *)
  gs_inits : list (string * ginit);                  (* new *)
  gs_finalize : list gfin }.

Definition fident (f : efield) : string := sf_ident (ef_field f).
Definition fty (f : efield) : rty := sf_ty (ef_field f).

(** deserialize.rs 12-25: [quote_flatten_visitors]. *)
Definition flatten_visitors (fs : list efield) : list string :=
  flat_map (fun f => match ef_mode f with EFlatten => [visitor_of (fident f)] | _ => [] end) fs.

(** deserialize.rs 32-54: [visitor_field_definitions]. *)
Definition visitor_field_definitions (fs : list efield) : list (string * gty) :=
  flat_map (fun f =>
    match ef_mode f with
    | EText_ => []
    | EFlatten => [(visitor_of (fident f), GVisitor (fty f))]
    | EElement | EAttribute => [(present_of (fident f), GBool)]
    end) fs.

(** deserialize.rs 56-88: [visitor_initializers]. *)
Definition visitor_initializers (fs : list efield) : list (string * ginit) :=
  map (fun f =>
    match ef_mode f with
    | EFlatten => (visitor_of (fident f), GInitVisitor (fty f) (fident f))
    | _ => (present_of (fident f), GInitFalse)
    end) fs.

(** deserialize.rs 90-146: [finalize_visitor_fields]; [None]: the [todo!] of line 143. *)
Definition finalize_field (fs : list efield) (p : nat) (f : efield) : option gfin :=
  let t := fty f in
  match ef_mode f with
  | EElement =>
      Some (GWriteMissing (present_of (fident f)) (fident f)
              (if ef_default f then GDefault t else GMissingElement t (position_of EElement fs p)))
  | EAttribute =>
      Some (GWriteMissing (present_of (fident f)) (fident f)
              (if ef_default f then GDefault t else GMissingAttribute t (position_of EAttribute fs p)))
  | EFlatten =>
      Some (GFinalize t (visitor_of (fident f)) (if ef_default f then Some t else None))
  | EText_ => None
  end.

Definition finalize_visitor_fields (fs : list efield) : option (list gfin) :=
  all_somes (map (fun '(p, f) => finalize_field fs p f) (indexed_from 0 fs)).

(** deserialize.rs 148-162: [attributes] and [elements]. *)
Definition names_of (fs : list efield) (sorted : list nat) : list xname := map (name_at fs) sorted.

(** deserialize.rs 164-191: [attribute_match_branches], for one position. *)
Definition attribute_arms (fs : list efield) (i p : nat) : list garm :=
  match nth_error fs p with
  | None => []                                       (* indexing would panic; see [mode_positions] *)
  | Some f =>
      let flag := present_of (fident f) in
      [GArm i (Some flag) [] GDuplicate; GArm i None [GWriteAttribute (fident f); GSetTrue flag] GOkNone]
  end.

(** deserialize.rs 193-224: [element_match_branches], for one position. *)
Definition element_arms (fs : list efield) (i p : nat) : list garm :=
  match nth_error fs p with
  | None => []
  | Some f =>
      let flag := present_of (fident f) in
      [GArm i (Some flag) [GUpdate (fident f)] GOkNone;
       GArm i None [GWriteElement (fident f); GSetTrue flag] GOkNone]
  end.

Definition arms_of (arm : nat -> nat -> list garm) (sorted : list nat) : list garm :=
  flat_map (fun '(i, p) => arm i p) (indexed_from 0 sorted).

(** deserialize.rs 226-329: [do_struct]; [None]: the macro panics ([finalize_visitor_fields]). *)
Definition de_struct (s : estruct) : option gstruct :=
  let fs := es_fields s in
  match finalize_visitor_fields fs with
  | None => None
  | Some fin =>
      let flat := flatten_visitors fs in
      let fallthrough := match flat with [] => GOkSome | _ => GDelegate flat end in
      Some {|
        gs_ident := es_ident s;
        gs_attributes := names_of fs (sorted_of EAttribute fs);
        gs_elements := names_of fs (sorted_of EElement fs);
        gs_visitor := visitor_type (es_ident s);
        gs_defs := [("out"%string, GOutPtr (es_ident s)); ("_phantom"%string, GPhantom (es_ident s))]
                     ++ visitor_field_definitions fs;
        gs_element := GMatch (arms_of (element_arms fs) (sorted_of EElement fs)) fallthrough;
        gs_attribute := GMatch (arms_of (attribute_arms fs) (sorted_of EAttribute fs)) fallthrough;
        gs_characters := match flat with [] => None | _ => Some flat end;
        gs_inits := [("out"%string, GInitOut); ("_phantom"%string, GInitPhantom)] ++ visitor_initializers fs;
        gs_finalize := fin |}
  end.

(** ** Deserialize for enums: deserialize.rs 331-470 *)

(** Arms of the match on the value that is already there, 344-367: [#ident::#v if element_i == Some(#i)]
    or [#ident::#v(f) if ..] ([payload]), and without the guard. *)
Inductive gsame :=
| GIfSame (v : string) (payload : bool) (i : nat)    (* update the payload, if any, and [return Ok(None)] *)
| GExpected (v : string) (payload : bool) (i : nat). (* [=> #i] *)

(** Arms of the match on [element_i], 368-391: [Some(#i) => { #ident::#v }] or
    [Some(#i) => { #ident::#v(init(child)?) }]. *)
Inductive gnew := GNew (i : nat) (v : string) (payload : bool).

Record genum := GEnum {
  ge_ident : string;                                 (* also in [stringify!(#ident)] *)
  ge_elements : list xname;                          (* const ELEMENTS *)
  ge_visitor : string;
  ge_defs : list string;                             (* out, initialized *)
  ge_same : list gsame;
  ge_new : list gnew }.

(** common.rs 654-659: the variants are sorted. *)
Definition sorted_evariants (vs : list evariant) : list evariant :=
  sort_by (fun a b => variant_le (variant_of a) (variant_of b)) vs.

Definition has_payload (v : evariant) : bool := match ev_ty v with Some _ => true | None => false end.

Definition de_enum (e : eenum) : genum :=
  let vs := sorted_evariants (ee_variants e) in
  {| ge_ident := ee_ident e;
     ge_elements := map (fun v => expanded (dname_of (ev_name v))) vs;
     ge_visitor := visitor_type (ee_ident e);
     ge_defs := ["out"; "initialized"]%string;
     ge_same := flat_map (fun '(i, v) => [GIfSame (ev_ident v) (has_payload v) i;
                                          GExpected (ev_ident v) (has_payload v) i]) (indexed_from 0 vs);
     ge_new := map (fun '(i, v) => GNew i (ev_ident v) (has_payload v)) (indexed_from 0 vs) |}.

(** ** Serialize: serialize.rs *)

(** Statements of [write_attributes] and [write_children] of structs. *)
Inductive gser :=
| GNamespace (prefix url : string)             (* 17: [builder.namespace(#prefix, #ns);] *)
| GAttr (f : string) (n : xname)               (* 34: [SerializeAttr::write(&self.#f, &mut builder, #n)?;] *)
| GFlatAttrs (f : string)                      (* 44: [Serialize::write_attributes(&self.#f, builder)?;] *)
| GElem (f : string) (n : xname)               (* 59: [SerializeField::write(&self.#f, writer, #n)?;] *)
| GFlatKids (f : string).                      (* 69: [Serialize::write_children(&self.#f, writer)?;] *)

(** Arms of an enum's [write_children], 112-134. *)
Inductive gsarm :=
| GUnit (v : string) (n : xname)               (* [Self::#v => writer.element(#n).start()?.finish()?] *)
| GPayload (v : string) (n : xname)            (* [Self::#v(ref f) => SerializeField::write(f, writer, #n)?] *)
| GIgnore.                                     (* [_ => {}] *)

Inductive gserialize :=
| GSerStruct (attrs kids : list gser) (root : xname)
| GSerEnum (attrs : list gser) (arms : list gsarm) (root : xname).

(** serialize.rs 12-22. *)
Definition gen_namespaces (a : eattr) : list gser := map (fun '(p, u) => GNamespace p u) (ea_nss a).

(** serialize.rs 24-48 and 50-73. *)
Definition each_of (m : emode) (g : efield -> gser) (fs : list efield) : list gser :=
  flat_map (fun f => if same_mode (ef_mode f) m then [g f] else []) fs.

Definition gen_attributes (fs : list efield) : list gser :=
  each_of EAttribute (fun f => GAttr (fident f) (ename f)) fs ++
  each_of EFlatten (fun f => GFlatAttrs (fident f)) fs.

Definition gen_elements (fs : list efield) : list gser :=
  each_of EElement (fun f => GElem (fident f) (ename f)) fs ++
  each_of EFlatten (fun f => GFlatKids (fident f)) fs.

(** serialize.rs 87-108: [do_struct]. *)
Definition ser_struct (s : estruct) : gserialize :=
  GSerStruct (gen_namespaces (es_attr s) ++ gen_attributes (es_fields s)) (gen_elements (es_fields s))
    (expanded (dname_of (ea_name (es_attr s)))).

(** serialize.rs 110-153: [do_enum]. *)
Definition ser_enum (e : eenum) : gserialize :=
  GSerEnum (gen_namespaces (ee_attr e))
    (map (fun v => let n := expanded (dname_of (ev_name v)) in
                   if has_payload v then GPayload (ev_ident v) n else GUnit (ev_ident v) n)
       (sorted_evariants (ee_variants e)) ++ (if ee_skipped e then [GIgnore] else []))
    (expanded (dname_of (ea_name (ee_attr e)))).

(** ** ParseText and ToText *)

(** parse.rs 26-121: the body of [parse].  [norm]: [let text = normalize(text, ..)], if it is there. *)
Inductive gparse :=
| GParseUnion (norm : option whitespace) (ident : string) (attempts : list (tty * string))
| GParseRestr (norm : option whitespace) (ident : string) (arms : list (string * string))
    (unknown : option string)                  (* [_ => Ok(Self::#unknown(text))] *)
| GParseStd (norm : option whitespace).

(** to_text.rs 20-77: the body of [to_text]. *)
Inductive gtotext :=
| GShowUnion (arms : list string)              (* [Self::#v(ref f) => ToText::to_text(f)] *)
| GShowRestr (arms : list (string * option string)) (* [Self::#v => #text], [Self::#v(text) => text.as_ref()] *)
| GShowStd.

(** parse.rs 111-121. *)
Definition gen_norm (w : whitespace) : option whitespace :=
  match w with Preserve => None | Replace => Some Replace | Collapse => Some Collapse end.

(** The variants of a [TextEnum] with what common.rs 148-235 makes of them. *)
Definition known_arms (vs : list (string * rvariant)) : list (string * string) :=
  flat_map (fun '(v, r) => match r with RKnown t => [(t, v)] | RUnknown => [] end) vs.

(** common.rs 179-188: [unknown_variant], the first one (a second one is an error). *)
Fixpoint unknown_variant (vs : list (string * rvariant)) : option string :=
  match vs with
  | [] => None
  | (v, RUnknown) :: _ => Some v
  | (_, RKnown _) :: vs' => unknown_variant vs'
  end.

(** parse.rs 26-109. *)
Definition parse_code (ident : string) (idents : list string) (t : tty) : option gparse :=
  match t with
  | TUnion _ w ts => Some (GParseUnion (gen_norm w) ident (combine ts idents))
  | TRestr _ w rs => Some (GParseRestr (gen_norm w) ident (known_arms (combine idents rs))
                             (unknown_variant (combine idents rs)))
  | TStd _ w => Some (GParseStd (gen_norm w))
  | _ => None
  end.

(** to_text.rs 20-77. *)
Definition totext_code (idents : list string) (t : tty) : option gtotext :=
  match t with
  | TUnion _ _ _ => Some (GShowUnion idents)
  | TRestr _ _ rs => Some (GShowRestr (map (fun '(v, r) => (v, match r with RKnown t => Some t | RUnknown => None end))
                                        (combine idents rs)))
  | TStd _ _ => Some GShowStd
  | _ => None
  end.
