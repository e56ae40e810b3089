(** The derive macros' reading of [#[static_xml(...)]] attributes: static-xml-derive/src/common.rs, and
    the entry points in lib.rs, deserialize.rs, serialize.rs, parse.rs and to_text.rs.

    Left out: spans, and everything about the generated code other than the type description it is
    generated from (that is modelled in DeriveDe.v, DeriveSer.v and Text.v).  Parsing of the item and its
    attributes is syn's; the model starts from the result. *)
From Verif Require Import Base Normalize Text Find Types.

(** ** Standard library functions *)

(** [str::trim] removes the characters with the Unicode property White_Space; here their UTF-8
    encodings. *)
Definition white_chars : list (list ascii) :=
  map (map ascii_of_N)
    [ [9]; [10]; [11]; [12]; [13]; [32]; [194; 133]; [194; 160]; [225; 154; 128];
      [226; 128; 128]; [226; 128; 129]; [226; 128; 130]; [226; 128; 131]; [226; 128; 132]; [226; 128; 133];
      [226; 128; 134]; [226; 128; 135]; [226; 128; 136]; [226; 128; 137]; [226; 128; 138];
      [226; 128; 168]; [226; 128; 169]; [226; 128; 175]; [226; 129; 159]; [227; 128; 128] ]%N.

(** [l] without the prefix [p]. *)
Fixpoint strip (p l : list ascii) : option (list ascii) :=
  match p, l with
  | [], _ => Some l
  | a :: p', b :: l' => if Ascii.eqb a b then strip p' l' else None
  | _ :: _, [] => None
  end.

Fixpoint strip_any (ps : list (list ascii)) (l : list ascii) : option (list ascii) :=
  match ps with
  | [] => None
  | p :: ps' => match strip p l with Some l' => Some l' | None => strip_any ps' l end
  end.

Fixpoint strip_all (ps : list (list ascii)) (fuel : nat) (l : list ascii) : list ascii :=
  match fuel with
  | O => l
  | S fuel' => match strip_any ps l with Some l' => strip_all ps fuel' l' | None => l end
  end.

Definition str_trim (s : string) : string :=
  let l := strip_all white_chars (String.length s) (bytes_of s) in
  str_of (rev (strip_all (map (@rev ascii) white_chars) (List.length l) (rev l))).

(** [str::split_once(": ")]. *)
Fixpoint split_colon (s : string) : option (string * string) :=
  match s with
  | EmptyString => None
  | String c s' =>
      if starts_with ": " s then Some (EmptyString, substring 2 (String.length s - 2) s)
      else match split_colon s' with Some (a, b) => Some (String c a, b) | None => None end
  end.

(** ** Input *)

(** [syn::Lit]: string literals and others. *)
Inductive lit := LStr (s : string) | LOther.

(** [syn::NestedMeta].  Paths that are a single identifier are [Some]. *)
Inductive item :=
| IPath (p : option string)
| INameValue (p : option string) (l : lit)
| IOther.

(** [syn::Attribute]: [AForeign] has another path than [static_xml]; otherwise the result of
    [parse_meta]: a list, something else, or an error. *)
Inductive attribute :=
| AForeign
| AList (l : list item)
| ANotList
| ABad.

(** [syn::Fields], for fields of type [T]; named fields are only used in structs. *)
Inductive fields T := FNamed (l : list T) | FUnnamed (l : list T) | FUnit.
Arguments FNamed {T} l.
Arguments FUnnamed {T} l.
Arguments FUnit {T}.

(** [syn::Field]: the identifier is used only if the field is named. [sf_dflt]: the value of
    [Default::default()] of the field's type, if it has one. *)
Record sfield := SField { sf_ident : string; sf_attrs : list attribute; sf_ty : fkind * ety;
                          sf_dflt : option value }.

(** [syn::Variant]; [T] describes the field types. *)
Record svariant T := SVariant { sv_ident : string; sv_attrs : list attribute; sv_fields : fields T }.
Arguments SVariant {T}.
Arguments sv_ident {T} s.
Arguments sv_attrs {T} s.
Arguments sv_fields {T} s.

(** [syn::DeriveInput] for an element type. *)
Inductive sdata := SStruct (f : fields sfield) | SEnum (vs : list (svariant (fkind * ety))) | SUnion.
Record sinput := SInput { si_ident : string; si_attrs : list attribute; si_data : sdata }.

(** ** Errors *)

(** The errors that are pushed, with the line in common.rs unless another file is given. *)
Inductive derr :=
| EExpectedList                             (* 506: expected #[static_xml(...)] *)
| EParse                                    (* 510: the error of parse_meta *)
| ENotUnderstood                            (* 106, 165, 217, 398, 401, 404, 560, 641: item not understood *)
| EString                                   (* 677: expects a string literal *)
| EWhitespace                               (* 696: expected preserve, replace, or collapse *)
| ERedundantMode                            (* 96 *)
| EUnknownMode                              (* 103 *)
| EUnknownRename                            (* 170: unknown and rename are mutually exclusive *)
| EUnknownField                             (* 176: unknown variant should have a single field *)
| EUnknownTwice                             (* 182: duplicate unknown variant *)
| EKnownFields                              (* 192: known variants should have no fields *)
| EUnionField                               (* 221: union variant should have a single field *)
| EReassign (prefix old url : string)       (* 335: won't reassign prefix *)
| EDuplicatePrefix (old prefix : string)    (* 355: duplicate prefix *)
| EPrefixNotFound (prefix : string)         (* 368: prefix not found *)
| ENamedFields                              (* 439: only supports structs with named fields *)
| ETwoTexts                                 (* 458: more than one field marked text *)
| EDefaultFlatten                           (* 575: default and flatten are mutually exclusive *)
| EExclusive                                (* 585: attribute, flatten, and text are mutually exclusive *)
| EPayload                                  (* 721: expected zero type or one unnamed field *)
| EModeMissing                              (* parse.rs 127, to_text.rs 83: mode must be specified *)
| EUnsupported.                             (* deserialize.rs 477, serialize.rs 162, parse.rs 141, to_text.rs 97 *)

(** Code that may push errors (an append-only list) or panic. *)
Definition der A := ((list derr * A) + abort)%type.
Definition ret {A} (a : A) : der A := inl ([], a).
Definition push (e : derr) : der unit := inl ([e], tt).
Definition dbind {A B} (m : der A) (f : A -> der B) : der B :=
  match m with
  | inl (es, a) => match f a with inl (es', b) => inl (es ++ es', b) | inr x => inr x end
  | inr x => inr x
  end.
Notation "'dlet' x := m 'in' f" := (dbind m (fun x => f)) (at level 200, x pattern, right associativity).

(** [for] loops over a list, and [Iterator::map]. *)
Fixpoint dfold {A S} (f : S -> A -> der S) (s : S) (l : list A) : der S :=
  match l with [] => ret s | x :: l' => dbind (f s x) (fun s' => dfold f s' l') end.
Fixpoint dmap {A B} (f : A -> der B) (l : list A) : der (list B) :=
  match l with
  | [] => ret []
  | x :: l' => dbind (f x) (fun y => dbind (dmap f l') (fun ys => ret (y :: ys)))
  end.

(** [Iterator::flatten] of [Option]s or [Result]s. *)
Fixpoint somes {A} (l : list (option A)) : list A :=
  match l with [] => [] | Some x :: l' => x :: somes l' | None :: l' => somes l' end.

(** ** common.rs *)

(** 497-514 [get_meta_items]. *)
Fixpoint get_meta_items (attrs : list attribute) : der (list item) :=
  match attrs with
  | [] => ret []
  | AForeign :: attrs' => get_meta_items attrs'
  | AList l :: attrs' => dlet out := get_meta_items attrs' in ret (l ++ out)
  | ANotList :: attrs' => dlet _ := push EExpectedList in get_meta_items attrs'
  | ABad :: attrs' => dlet _ := push EParse in get_meta_items attrs'
  end.

(** 669-685 [with_lit_str], for code [f] that changes the state [s]. *)
Definition with_lit_str {S} (s : S) (l : lit) (f : string -> der S) : der S :=
  match l with
  | LStr v => f v
  | LOther => dlet _ := push EString in ret s
  end.

(** 703-710 [single_unnamed_field]. *)
Definition single_unnamed_field {T} (fs : fields T) : option T :=
  match fs with FUnnamed [f] => Some f | _ => None end.

(** 712-728 [optional_unnamed_field]: [None] is [Err]. *)
Definition optional_unnamed_field {T} (fs : fields T) : der (option (option T)) :=
  match fs with
  | FUnit => ret (Some None)
  | FUnnamed [f] => ret (Some (Some f))
  | _ => dlet _ := push EPayload in ret None
  end.

(** 259-264 [Name]. *)
Record pname := PName { pn_local : string; pn_prefix : option string; pn_ns : option string }.

(** 267-274 [Name::from_ident]. *)
Definition from_ident (ident : string) : pname := PName ident None None.
Definition rename (nm : pname) (s : string) : pname := PName s (pn_prefix nm) (pn_ns nm).

(** 322-346 [Namespaces::add_internal]. *)
Definition add_internal (m : bmap string) (prefix url_untrimmed : string) : der (bmap string) :=
  let url := str_trim url_untrimmed in
  match bm_get prefix m with
  | None => ret (bm_insert prefix url m)
  | Some old => dlet _ := push (EReassign prefix old url) in ret m
  end.

(** 297-314 [Namespaces::add_namespace]. *)
Definition add_namespace (m : bmap string) (l : lit) : der (bmap string) :=
  with_lit_str m l (fun value =>
    match split_colon value with
    | Some (prefix_untrimmed, url_untrimmed) =>
        if starts_with "xml" prefix_untrimmed then
          if String.eqb (str_trim prefix_untrimmed) "xml" && String.eqb (str_trim url_untrimmed) XML_NS
          then ret m
          else inr (Panic "not yet implemented: unsupported special namespace combo")
        else add_internal m (str_trim prefix_untrimmed) url_untrimmed
    | None => add_internal m "" value
    end).

(** 316-320 [Namespaces::add_default_namespace]. *)
Definition add_default_namespace (m : bmap string) (l : lit) : der (bmap string) :=
  with_lit_str m l (fun value => add_internal m "" (str_trim value)).

(** 350-376 [Namespaces::process_prefix]. *)
Definition process_prefix (m : bmap string) (l : lit) (nm : pname) : der pname :=
  with_lit_str nm l (fun value =>
    let prefix := str_trim value in
    match pn_prefix nm with
    | Some old => dlet _ := push (EDuplicatePrefix old prefix) in ret nm
    | None =>
        match bm_get prefix m with
        | Some u => ret (PName (pn_local nm) (Some prefix) (Some u))
        | None =>
            if String.eqb prefix "xml" then ret (PName (pn_local nm) (Some prefix) (Some XML_NS))
            else if String.eqb prefix "" then ret (PName (pn_local nm) (Some prefix) (pn_ns nm))
            else dlet _ := push (EPrefixNotFound prefix) in ret (PName (pn_local nm) (Some prefix) (pn_ns nm))
        end
    end).

(** [path.is_ident(s)]. *)
Definition is_ident (p : option string) (s : string) : bool :=
  match p with Some i => String.eqb i s | None => false end.

(** 379-412 [ElementAttr::new]; the state: the local name, the namespaces and the deferred prefix. *)
Definition attr_item (st : (string * bmap string) * option lit) (i : item)
  : der ((string * bmap string) * option lit) :=
  let '(local, m, p) := st in
  match i with
  | INameValue path l =>
      if is_ident path "rename" then
        dlet local := with_lit_str local l (fun s => ret s) in ret (local, m, p)
      else if is_ident path "prefix" then ret (local, m, Some l)
      else if is_ident path "namespace" then dlet m := add_namespace m l in ret (local, m, p)
      else if is_ident path "default_namespace" then dlet m := add_default_namespace m l in ret (local, m, p)
      else dlet _ := push ENotUnderstood in ret st
  | _ => dlet _ := push ENotUnderstood in ret st
  end.

Record eattr := EAttr { ea_name : pname; ea_nss : bmap string }.

Definition element_attr (ident : string) (attrs : list attribute) : der eattr :=
  dlet items := get_meta_items attrs in
  dlet (local, m, p) := dfold attr_item (ident, [], None) items in
  match p with
  | Some l => dlet nm := process_prefix m l (PName local None None) in ret (EAttr nm m)
  | None => ret (EAttr (PName local None None) m)
  end.

(** 517-532 [ElementFieldMode] (without positions) and [ElementField]. *)
Inductive emode := EElement | EAttribute | EText_ | EFlatten.
Record efield := EField { ef_field : sfield; ef_mode : emode; ef_default : bool; ef_name : pname }.

(** 536-562: the state is the flags [attribute], [default], [flatten], [text] and the name. *)
Record fstate := FState { fs_attribute : bool; fs_default : bool; fs_flatten : bool; fs_text : bool;
                          fs_name : pname }.
Definition field_item (m : bmap string) (st : fstate) (i : item) : der fstate :=
  let 'FState a d f t nm := st in
  match i with
  | IPath p =>
      if is_ident p "attribute" then ret (FState true d f t nm)
      else if is_ident p "default" then ret (FState a true f t nm)
      else if is_ident p "flatten" then ret (FState a d true t nm)
      else if is_ident p "text" then ret (FState a d f true nm)
      else dlet _ := push ENotUnderstood in ret st
  | INameValue p l =>
      if is_ident p "rename" then
        dlet nm := with_lit_str nm l (fun s => ret (rename nm s)) in ret (FState a d f t nm)
      else if is_ident p "prefix" then
        dlet nm := process_prefix m l nm in ret (FState a d f t nm)
      else dlet _ := push ENotUnderstood in ret st
  | IOther => dlet _ := push ENotUnderstood in ret st
  end.

(** 534-599 [ElementField::new]: [None] is [Err]. *)
Definition element_field (m : bmap string) (sf : sfield) : der (option efield) :=
  dlet items := get_meta_items (sf_attrs sf) in
  dlet st := dfold (field_item m) (FState false false false false (from_ident (sf_ident sf))) items in
  let 'FState attribute default flatten text nm := st in
  if attribute && negb flatten && negb text then ret (Some (EField sf EAttribute default nm))
  else if negb attribute && negb flatten && negb text then ret (Some (EField sf EElement default nm))
  else if negb attribute && flatten && negb text then
    if default then dlet _ := push EDefaultFlatten in ret None
    else ret (Some (EField sf EFlatten default nm))
  else if negb attribute && negb flatten && text then ret (Some (EField sf EText_ default nm))
  else dlet _ := push EExclusive in ret None.

(** 416-423 [ElementStruct]; the sorted positions are in Types.v. *)
Record estruct := EStruct { es_ident : string; es_attr : eattr; es_fields : list efield }.

(** 449-467: looking for a second text field. *)
Definition is_etext (f : efield) : bool := match ef_mode f with EText_ => true | _ => false end.

Definition element_struct (ident : string) (attrs : list attribute) (fs : fields sfield)
  : der (option estruct) :=
  dlet attr := element_attr ident attrs in
  match fs with
  | FNamed l =>
      dlet l := dmap (element_field (ea_nss attr)) l in
      let l := somes l in
      if Nat.leb 2 (List.length (filter is_etext l)) then dlet _ := push ETwoTexts in ret None
      else ret (Some (EStruct ident attr l))
  | _ => dlet _ := push ENamedFields in ret None
  end.

(** 610-614 [ElementVariant]. *)
Record evariant := EVariant { ev_ident : string; ev_name : pname; ev_ty : option (fkind * ety) }.

(** 625-643: [inl] is the name so far, [inr] a skipped variant (the [return None] of 639). *)
Fixpoint variant_items (m : bmap string) (nm : pname) (l : list item) : der (pname + unit) :=
  match l with
  | [] => ret (inl nm)
  | i :: l' =>
      match i with
      | INameValue p l =>
          if is_ident p "rename" then
            dlet nm := with_lit_str nm l (fun s => ret (rename nm s)) in variant_items m nm l'
          else if is_ident p "prefix" then
            dlet nm := process_prefix m l nm in variant_items m nm l'
          else dlet _ := push ENotUnderstood in variant_items m nm l'
      | IPath p =>
          if is_ident p "skip" then ret (inr tt)
          else dlet _ := push ENotUnderstood in variant_items m nm l'
      | IOther => dlet _ := push ENotUnderstood in variant_items m nm l'
      end
  end.

(** 623-652: whether the variant is skipped, and the variant unless skipped or erroneous. *)
Definition element_variant (m : bmap string) (v : svariant (fkind * ety)) : der (bool * option evariant) :=
  dlet items := get_meta_items (sv_attrs v) in
  dlet r := variant_items m (from_ident (sv_ident v)) items in
  match r with
  | inr _ => ret (true, None)
  | inl nm =>
      dlet ty := optional_unnamed_field (sv_fields v) in
      ret (false, match ty with Some ty => Some (EVariant (sv_ident v) nm ty) | None => None end)
  end.

(** 601-608 [ElementEnum]; the variants in declaration order (they are sorted in Types.v). *)
Record eenum := EEnum { ee_ident : string; ee_attr : eattr; ee_variants : list evariant; ee_skipped : bool }.

(** 617-666 [ElementEnum::new]. *)
Definition element_enum (ident : string) (attrs : list attribute) (vs : list (svariant (fkind * ety)))
  : der eenum :=
  dlet attr := element_attr ident attrs in
  dlet l := dmap (element_variant (ea_nss attr)) vs in
  ret (EEnum ident attr (somes (map snd l)) (existsb fst l)).

(** ** The derivations *)

Inductive edesc := EDStruct (s : estruct) | EDEnum (e : eenum).

(** serialize.rs 155-169 [derive]; [None]: no code is generated. *)
Definition derive_serialize (i : sinput) : der (option edesc) :=
  match si_data i with
  | SEnum vs => dlet e := element_enum (si_ident i) (si_attrs i) vs in ret (Some (EDEnum e))
  | SStruct fs =>
      dlet s := element_struct (si_ident i) (si_attrs i) fs in ret (option_map EDStruct s)
  | SUnion => dlet _ := push EUnsupported in ret None
  end.

(** deserialize.rs 472-484 [derive]; 143: text fields are not implemented. *)
Definition derive_deserialize (i : sinput) : der (option edesc) :=
  dlet d := derive_serialize i in
  match d with
  | Some (EDStruct s) =>
      if existsb is_etext (es_fields s) then inr (Panic "not yet implemented: text fields unimplemented")
      else ret d
  | _ => ret d
  end.

(** static-xml-derive/src/lib.rs 18-32: rustc accepts the macro's output only if there is no error (and no panic); what is
    described then. *)
Definition accepted {A} (m : der (option A)) : option A :=
  match m with inl ([], Some a) => Some a | _ => None end.

(** ** Trait selection by rustc

    Which field types the generated code compiles for (lib.rs 273-280, see Types.v). *)

Definition dname_of (n : pname) : dname := DName (pn_ns n) (pn_local n).

Definition field_of (f : efield) : option field :=
  let dflt := if ef_default f then match sf_dflt (ef_field f) with Some v => Some (Some v) | None => None end
              else Some None in
  let mode :=
    match ef_mode f, sf_ty (ef_field f) with
    | EElement, (k, t) => Some (MElement k t)
    | EAttribute, (KOne, EText t) => Some (MAttribute false t)
    | EAttribute, (KOpt, EText t) => Some (MAttribute true t)
    | EFlatten, (KOne, ERef id) => Some (MFlatten id)
    | EText_, (KOne, EText t) => Some (MText t)
    | _, _ => None
    end in
  match mode, dflt with
  | Some mode, Some dflt => Some (Field (dname_of (ef_name f)) mode dflt)
  | _, _ => None
  end.

Fixpoint all_somes {A} (l : list (option A)) : option (list A) :=
  match l with
  | [] => Some []
  | Some x :: l' => option_map (cons x) (all_somes l')
  | None :: _ => None
  end.

Definition variant_of (v : evariant) : variant := Variant (dname_of (ev_name v)) (ev_ty v).

Definition tdesc_of (d : edesc) : option tdesc :=
  match d with
  | EDStruct s => option_map (TDStruct (es_ident s) (dname_of (ea_name (es_attr s))) (ea_nss (es_attr s)))
                    (all_somes (map field_of (es_fields s)))
  | EDEnum e => Some (TDEnum (ee_ident e) (dname_of (ea_name (ee_attr e))) (ea_nss (ee_attr e))
                        (map variant_of (ee_variants e)) (ee_skipped e))
  end.

(** The type description of a declaration for which both derivations compile. *)
Definition declaration (i : sinput) : option tdesc :=
  match accepted (derive_deserialize i) with Some d => tdesc_of d | None => None end.

(** ** Text types *)

Inductive tmode := TMStd | TMRestriction | TMUnion.

(** 687-701 in [set_whitespace]. *)
Definition set_whitespace (w : whitespace) (l : lit) : der whitespace :=
  with_lit_str w l (fun s =>
    if String.eqb s "preserve" then ret Preserve
    else if String.eqb s "replace" then ret Replace
    else if String.eqb s "collapse" then ret Collapse
    else dlet _ := push EWhitespace in ret w).

(** 81-111 [TextAttr::new]. *)
Definition text_item (st : whitespace * option tmode) (i : item) : der (whitespace * option tmode) :=
  let '(w, m) := st in
  match i with
  | INameValue p l =>
      if is_ident p "whitespace" then dlet w := set_whitespace w l in ret (w, m)
      else if is_ident p "mode" then
        match m with
        | Some _ => dlet _ := push ERedundantMode in ret st
        | None =>
            with_lit_str st l (fun s =>
              if String.eqb s "std" then ret (w, Some TMStd)
              else if String.eqb s "restriction" then ret (w, Some TMRestriction)
              else if String.eqb s "union" then ret (w, Some TMUnion)
              else dlet _ := push EUnknownMode in ret st)
        end
      else dlet _ := push ENotUnderstood in ret st
  | _ => dlet _ := push ENotUnderstood in ret st
  end.

Definition text_attr (attrs : list attribute) : der (whitespace * option tmode) :=
  dlet items := get_meta_items attrs in dfold text_item (Preserve, None) items.

(** 157-167: the state is [text] and [unknown]. *)
Definition restr_item (st : option string * bool) (i : item) : der (option string * bool) :=
  let '(text, unknown) := st in
  match i with
  | IPath p => if is_ident p "unknown" then ret (text, true) else dlet _ := push ENotUnderstood in ret st
  | INameValue p l =>
      if is_ident p "rename" then
        dlet text := with_lit_str text l (fun s => ret (Some s)) in ret (text, unknown)
      else dlet _ := push ENotUnderstood in ret st
  | IOther => dlet _ := push ENotUnderstood in ret st
  end.

Definition when (b : bool) (m : der unit) : der unit := if b then m else ret tt.
Definition is_none {A} (x : option A) : bool := match x with None => true | Some _ => false end.

(** 154-202: [seen]: whether there was an unknown variant before. *)
Definition restr_variant (seen : bool) (v : svariant tty) : der (bool * rvariant) :=
  dlet items := get_meta_items (sv_attrs v) in
  dlet (text, unknown) := dfold restr_item (None, false) items in
  if unknown : bool then
    dlet _ := when (negb (is_none text)) (push EUnknownRename) in
    dlet _ := when (is_none (single_unnamed_field (sv_fields v))) (push EUnknownField) in
    dlet _ := when seen (push EUnknownTwice) in
    ret (true, RUnknown)
  else
    dlet _ := when (match sv_fields v with FUnit => false | _ => true end) (push EKnownFields) in
    ret (seen, RKnown (match text with Some t => t | None => sv_ident v end)).

(** 148-208 [parse_restriction_fields]. *)
Fixpoint restr_variants (seen : bool) (vs : list (svariant tty)) : der (list rvariant) :=
  match vs with
  | [] => ret []
  | v :: vs' =>
      dlet (seen, r) := restr_variant seen v in
      dlet rs := restr_variants seen vs' in ret (r :: rs)
  end.

(** 211-235 [parse_union_fields]. *)
Definition union_variant (v : svariant tty) : der (option tty) :=
  dlet items := get_meta_items (sv_attrs v) in
  dlet _ := dfold (fun _ _ => push ENotUnderstood) tt items in
  match single_unnamed_field (sv_fields v) with
  | None => dlet _ := push EUnionField in ret None
  | Some t => ret (Some t)
  end.

(** [syn::DeriveInput] for a text type.  [ti_std]: identifies the type for [mode = "std"] (Text.v). *)
Inductive tdata := TDataEnum (vs : list (svariant tty)) | TDataOther.
Record tinput := TInput { ti_ident : string; ti_attrs : list attribute; ti_data : tdata; ti_std : nat }.

(** parse.rs 123-148 and to_text.rs 79-104 [derive]: the same attributes are read. *)
Definition derive_text (i : tinput) : der (option tty) :=
  dlet (w, m) := text_attr (ti_attrs i) in
  match m with
  | None => dlet _ := push EModeMissing in ret None
  | Some TMStd => ret (Some (TStd (ti_std i) w))
  | Some TMRestriction =>
      match ti_data i with
      | TDataEnum vs => dlet l := restr_variants false vs in ret (Some (TRestr (ti_ident i) w l))
      | TDataOther => dlet _ := push EUnsupported in ret None
      end
  | Some TMUnion =>
      match ti_data i with
      | TDataEnum vs => dlet l := dmap union_variant vs in ret (Some (TUnion (ti_ident i) w (somes l)))
      | TDataOther => dlet _ := push EUnsupported in ret None
      end
  end.
