(** What the derive attributes mean: a specification of accepted declarations, independent of how the
    macro goes through the attributes. *)
From Verif Require Import Base Normalize Text Find Types BMap DeriveAttr.

(** ** Items *)

(** Every [static_xml] attribute has the form [#[static_xml(...)]]. *)
Definition well_formed (attrs : list attribute) : Prop := ~ In ANotList attrs /\ ~ In ABad attrs.
Definition items_in (attrs : list attribute) : list item :=
  flat_map (fun a => match a with AList l => l | _ => [] end) attrs.

(** The flag [key]; the values of the items [key = "..."] in order. *)
Definition flag (key : string) : item := IPath (Some key).
Definition has_flag (key : string) (l : list item) : bool :=
  existsb (fun i => match i with IPath (Some k) => String.eqb k key | _ => false end) l.
Definition values (key : string) (l : list item) : list string :=
  flat_map (fun i => match i with
    | INameValue (Some k) (LStr s) => if String.eqb k key then [s] else []
    | _ => [] end) l.
Definition literals (key : string) (l : list item) : list lit :=
  flat_map (fun i => match i with
    | INameValue (Some k) v => if String.eqb k key then [v] else []
    | _ => [] end) l.

Definition is_value (key : string) (i : item) : Prop := exists s, i = INameValue (Some key) (LStr s).

(** ** White space *)

(** Unicode's White_Space property. *)
Definition white_space (c : N) : Prop :=
  (9 <= c <= 13 \/ c = 0x20 \/ c = 0x85 \/ c = 0xA0 \/ c = 0x1680 \/ 0x2000 <= c <= 0x200A \/
   c = 0x2028 \/ c = 0x2029 \/ c = 0x202F \/ c = 0x205F \/ c = 0x3000)%N.

(** [ts] is [cs] without white space at its ends. *)
Definition trimmed (cs ts : list N) : Prop :=
  exists a b, cs = a ++ ts ++ b /\ Forall white_space a /\ Forall white_space b /\
    (forall c r, ts = c :: r -> ~ white_space c) /\ (forall c r, ts = r ++ [c] -> ~ white_space c).

(** ** Namespaces *)

(** The first ": " in [s] is between [p] and [u]. *)
Definition first_colon (s p u : string) : Prop :=
  s = (p ++ ": " ++ u)%string /\ forall p' u', s = (p' ++ ": " ++ u')%string -> String.length p <= String.length p'.

(** The mappings (prefix, URL) that [namespace = "s"] declares. *)
Inductive namespace_means (s : string) : list (string * string) -> Prop :=
| nm_prefix : forall p u, first_colon s p u -> starts_with "xml" p = false ->
    namespace_means s [(str_trim p, str_trim u)]
| nm_xml : forall p u, first_colon s p u -> starts_with "xml" p = true -> str_trim p = "xml"%string ->
    str_trim u = XML_NS -> namespace_means s []
| nm_default : (forall p u, s <> (p ++ ": " ++ u)%string) -> namespace_means s [(""%string, str_trim s)].

(** The mappings that the items of a type declare. *)
Inductive declarations : list item -> list (string * string) -> Prop :=
| de_nil : declarations [] []
| de_namespace : forall s l d ds, namespace_means s d -> declarations l ds ->
    declarations (INameValue (Some "namespace"%string) (LStr s) :: l) (d ++ ds)
| de_default : forall s l ds, declarations l ds ->
    declarations (INameValue (Some "default_namespace"%string) (LStr s) :: l) ((""%string, str_trim s) :: ds)
| de_other : forall k v l ds, (k = "rename" \/ k = "prefix")%string -> declarations l ds ->
    declarations (INameValue (Some k) v :: l) ds.

(** What a prefix means, given what is declared. *)
Inductive prefix_means (decls : list (string * string)) : string -> option string -> Prop :=
| pm_declared : forall p u, In (p, u) decls -> prefix_means decls p (Some u)
| pm_xml : (forall u, ~ In ("xml"%string, u) decls) -> prefix_means decls "xml" (Some XML_NS)
| pm_none : (forall u, ~ In (""%string, u) decls) -> prefix_means decls "" None.

(** The name of something called [local] with these [prefix = "..."] items. *)
Inductive names (decls : list (string * string)) (local : string) : list string -> pname -> Prop :=
| na_plain : names decls local [] (PName local None None)
| na_prefix : forall s ns, prefix_means decls (str_trim s) ns ->
    names decls local [s] (PName local (Some (str_trim s)) ns).

(** ** Types *)

Definition type_item (i : item) : Prop :=
  is_value "rename" i \/ is_value "namespace" i \/ is_value "default_namespace" i \/
  exists v, i = INameValue (Some "prefix"%string) v.

(** Only the last [prefix] item counts. *)
Definition last_prefix (l : list item) (ps : list string) : Prop :=
  match rev (literals "prefix" l) with
  | [] => ps = []
  | v :: _ => exists s, v = LStr s /\ ps = [s]
  end.

Inductive type_attrs (ident : string) (attrs : list attribute) (decls : list (string * string)) : eattr -> Prop :=
| ty_attrs : forall ps nm nss, well_formed attrs -> Forall type_item (items_in attrs) ->
    declarations (items_in attrs) decls -> NoDup (map fst decls) ->
    last_prefix (items_in attrs) ps ->
    names decls (last (values "rename" (items_in attrs)) ident) ps nm ->
    ksorted nss -> (forall p u, bm_get p nss = Some u <-> In (p, u) decls) ->
    type_attrs ident attrs decls (EAttr nm nss).

(** ** Fields *)

Definition field_item_ok (i : item) : Prop :=
  In i [flag "attribute"; flag "default"; flag "flatten"; flag "text"] \/
  is_value "rename" i \/ is_value "prefix" i.

(** [attribute], [flatten] and [text] exclude each other, and so do [flatten] and [default]. *)
Inductive mode_is (l : list item) : emode -> Prop :=
| mo_element : ~ In (flag "attribute") l -> ~ In (flag "flatten") l -> ~ In (flag "text") l -> mode_is l EElement
| mo_attribute : In (flag "attribute") l -> ~ In (flag "flatten") l -> ~ In (flag "text") l -> mode_is l EAttribute
| mo_flatten : ~ In (flag "attribute") l -> In (flag "flatten") l -> ~ In (flag "text") l ->
    ~ In (flag "default") l -> mode_is l EFlatten
| mo_text : ~ In (flag "attribute") l -> ~ In (flag "flatten") l -> In (flag "text") l -> mode_is l EText_.

Inductive field_means (decls : list (string * string)) (sf : sfield) : efield -> Prop :=
| fi_means : forall mode nm, well_formed (sf_attrs sf) -> Forall field_item_ok (items_in (sf_attrs sf)) ->
    mode_is (items_in (sf_attrs sf)) mode ->
    names decls (last (values "rename" (items_in (sf_attrs sf))) (sf_ident sf))
      (values "prefix" (items_in (sf_attrs sf))) nm ->
    field_means decls sf (EField sf mode (has_flag "default" (items_in (sf_attrs sf))) nm).

(** ** Variants *)

Definition variant_item_ok (i : item) : Prop := is_value "rename" i \/ is_value "prefix" i.

(** The variant's payload: none, or a single unnamed field. *)
Inductive payload_is {T} : fields T -> option T -> Prop :=
| pa_unit : payload_is FUnit None
| pa_one : forall t, payload_is (FUnnamed [t]) (Some t).

(** [None] for skipped variants. What follows [skip] is not looked at. *)
Inductive variant_means (decls : list (string * string)) (v : svariant (fkind * ety)) : option evariant -> Prop :=
| va_skip : forall l1 l2 nm, well_formed (sv_attrs v) -> items_in (sv_attrs v) = l1 ++ flag "skip" :: l2 ->
    Forall variant_item_ok l1 -> names decls (last (values "rename" l1) (sv_ident v)) (values "prefix" l1) nm ->
    variant_means decls v None
| va_means : forall nm ty, well_formed (sv_attrs v) -> Forall variant_item_ok (items_in (sv_attrs v)) ->
    names decls (last (values "rename" (items_in (sv_attrs v))) (sv_ident v))
      (values "prefix" (items_in (sv_attrs v))) nm ->
    payload_is (sv_fields v) ty -> variant_means decls v (Some (EVariant (sv_ident v) nm ty)).

(** ** Declarations *)

Inductive input_means (i : sinput) : edesc -> Prop :=
| in_struct : forall fs decls attr efs, si_data i = SStruct (FNamed fs) ->
    type_attrs (si_ident i) (si_attrs i) decls attr -> Forall2 (field_means decls) fs efs ->
    List.length (filter is_etext efs) <= 1 ->
    input_means i (EDStruct (EStruct (si_ident i) attr efs))
| in_enum : forall vs decls attr evs, si_data i = SEnum vs ->
    type_attrs (si_ident i) (si_attrs i) decls attr -> Forall2 (variant_means decls) vs evs ->
    input_means i (EDEnum (EEnum (si_ident i) attr (somes evs) (existsb is_none evs))).

(** ** Types of fields and what is generated for them *)

(** A name without its prefix. *)
Definition qualified (n : pname) : dname := DName (pn_ns n) (pn_local n).

(** How a field of this type is written: elements may have any type, attributes have a text type or an
    [Option] of one, flattened fields a derived type. *)
Inductive fits : emode -> fkind * ety -> fmode -> Prop :=
| ft_element : forall k t, fits EElement (k, t) (MElement k t)
| ft_attribute : forall t, fits EAttribute (KOne, EText t) (MAttribute false t)
| ft_optional : forall t, fits EAttribute (KOpt, EText t) (MAttribute true t)
| ft_flatten : forall id, fits EFlatten (KOne, ERef id) (MFlatten id).

(** [sf_dflt]: the default value of the field's type, if it has one. *)
Inductive default_is (sf : sfield) : option value -> Prop :=
| df_none : ~ In (flag "default") (items_in (sf_attrs sf)) -> default_is sf None
| df_some : forall v, In (flag "default") (items_in (sf_attrs sf)) -> sf_dflt sf = Some v -> default_is sf (Some v).

Inductive field_described (decls : list (string * string)) (sf : sfield) : field -> Prop :=
| fi_described : forall mode nm m d, well_formed (sf_attrs sf) -> Forall field_item_ok (items_in (sf_attrs sf)) ->
    mode_is (items_in (sf_attrs sf)) mode -> fits mode (sf_ty sf) m -> default_is sf d ->
    names decls (last (values "rename" (items_in (sf_attrs sf))) (sf_ident sf))
      (values "prefix" (items_in (sf_attrs sf))) nm ->
    field_described decls sf (Field (qualified nm) m d).

(** Skipped variants are not described. *)
Inductive variants_described (decls : list (string * string)) :
    list (svariant (fkind * ety)) -> list variant -> bool -> Prop :=
| vs_nil : variants_described decls [] [] false
| vs_skip : forall v vs ws s, variant_means decls v None -> variants_described decls vs ws s ->
    variants_described decls (v :: vs) ws true
| vs_keep : forall v vs ws s x, variant_means decls v (Some x) -> variants_described decls vs ws s ->
    variants_described decls (v :: vs) (Variant (qualified (ev_name x)) (ev_ty x) :: ws) s.

Inductive described (i : sinput) : tdesc -> Prop :=
| ds_struct : forall fs decls nm nss fields, si_data i = SStruct (FNamed fs) ->
    type_attrs (si_ident i) (si_attrs i) decls (EAttr nm nss) -> Forall2 (field_described decls) fs fields ->
    described i (TDStruct (si_ident i) (qualified nm) nss fields)
| ds_enum : forall vs decls nm nss ws s, si_data i = SEnum vs ->
    type_attrs (si_ident i) (si_attrs i) decls (EAttr nm nss) -> variants_described decls vs ws s ->
    described i (TDEnum (si_ident i) (qualified nm) nss ws s).

(** ** Text types *)

Inductive space_means : string -> whitespace -> Prop :=
| sp_preserve : space_means "preserve" Preserve
| sp_replace : space_means "replace" Replace
| sp_collapse : space_means "collapse" Collapse.

(** [whitespace] may be repeated (the last one counts), [mode] may not. *)
Definition text_item_ok (i : item) : Prop :=
  (exists s w, i = INameValue (Some "whitespace"%string) (LStr s) /\ space_means s w) \/ is_value "mode" i.

Definition text_space (l : list item) (w : whitespace) : Prop :=
  match rev (values "whitespace" l) with [] => w = Preserve | s :: _ => space_means s w end.

(** A restriction variant: marked [unknown] with a single field, or without fields. *)
Inductive restr_means (v : svariant tty) : rvariant -> Prop :=
| re_unknown : forall t, well_formed (sv_attrs v) -> items_in (sv_attrs v) <> [] ->
    Forall (eq (flag "unknown")) (items_in (sv_attrs v)) -> sv_fields v = FUnnamed [t] -> restr_means v RUnknown
| re_known : well_formed (sv_attrs v) -> Forall (is_value "rename") (items_in (sv_attrs v)) ->
    sv_fields v = FUnit ->
    restr_means v (RKnown (last (values "rename" (items_in (sv_attrs v))) (sv_ident v))).

Definition is_runknown (v : rvariant) : bool := match v with RUnknown => true | RKnown _ => false end.

Inductive text_means (i : tinput) : tty -> Prop :=
| te_std : forall w, values "mode" (items_in (ti_attrs i)) = ["std"%string] ->
    text_space (items_in (ti_attrs i)) w -> text_means i (TStd (ti_std i) w)
| te_restriction : forall w vs rs, values "mode" (items_in (ti_attrs i)) = ["restriction"%string] ->
    text_space (items_in (ti_attrs i)) w -> ti_data i = TDataEnum vs -> Forall2 restr_means vs rs ->
    List.length (filter is_runknown rs) <= 1 -> text_means i (TRestr (ti_ident i) w rs)
| te_union : forall w vs ts, values "mode" (items_in (ti_attrs i)) = ["union"%string] ->
    text_space (items_in (ti_attrs i)) w -> ti_data i = TDataEnum vs ->
    Forall2 (fun v t => well_formed (sv_attrs v) /\ items_in (sv_attrs v) = [] /\ sv_fields v = FUnnamed [t]) vs ts ->
    text_means i (TUnion (ti_ident i) w ts).

Definition text_input_means (i : tinput) (t : tty) : Prop :=
  well_formed (ti_attrs i) /\ Forall text_item_ok (items_in (ti_attrs i)) /\ text_means i t.
