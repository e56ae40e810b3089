(** The XML Schema content model that a derived type stands for, as the tables in
    static-xml/src/lib.rs 100-184 and 321-450 give it: a struct is a sequence of its fields with
    minOccurs and maxOccurs from [T], [Option<T>] and [Vec<T>]; a flattened enum is a choice.
    Stated over trees of elements; nothing about reading or writing. *)
From Verif Require Import Base Normalize Text Find FindProofs Types Ser SerSpec DSerSpec DeSpec RTSpec.

Section Schema.
  (** [lex_elem t s], [lex_attr t s]: [s] is in the lexical space of the text type [t], in an element or
      as the value of an attribute. *)
  Context (env : tenv) (lex_elem lex_attr : tty -> string -> Prop).

  (** lib.rs 254-256: a field may be absent if it is marked [default]. *)
  Definition allowed (k : fkind) (default : option value) (n : nat) : Prop :=
    match k with
    | KOne => n = 1 \/ (n = 0 /\ default <> None)
    | KOpt => n <= 1
    | KVec => True
    end.

  (** lib.rs 303-304: an enum has a child element matching one of its variants; 370-408: more than one
      if the variant holds a [Vec]. *)
  Definition variant_allowed (k : fkind) (n : nat) : Prop :=
    match k with KOne | KOpt => n = 1 | KVec => 1 <= n end.

  (** Attributes: declared ones only, at most once each; the required ones are there. *)
  Definition attrs_valid (fs : list field) (attrs : list (xname * string)) : Prop :=
    NoDup (map fst attrs) /\
    (forall n s, In (n, s) attrs -> exists f opt t,
       In f fs /\ f_mode f = MAttribute opt t /\ expanded (f_name f) = n /\ lex_attr t s) /\
    (forall f t, In f fs -> f_mode f = MAttribute false t -> f_default f = None ->
       In (expanded (f_name f)) (map fst attrs)).

  Inductive element (V : ety -> list (xname * string) -> list wtree -> Prop) (n : xname) (t : ety) : wtree -> Prop :=
  | element_intro : forall attrs kids, V t attrs kids -> element V n t (TElem n attrs kids).

  (** [xs:choice] *)
  Inductive one_of (V : ety -> list (xname * string) -> list wtree -> Prop) (ws : list variant)
    : list wtree -> Prop :=
  | oo_unit : forall w, In w ws -> v_ty w = None -> one_of V ws [TElem (expanded (v_name w)) [] []]
  | oo_payload : forall w k t l, In w ws -> v_ty w = Some (k, t) -> variant_allowed k (List.length l) ->
      Forall (element V (expanded (v_name w)) t) l -> one_of V ws l.

  (** [xs:sequence] *)
  Inductive sequence (V : ety -> list (xname * string) -> list wtree -> Prop)
    : list field -> list wtree -> Prop :=
  | sq_nil : sequence V [] []
  | sq_element : forall f fs k t l l', f_mode f = MElement k t ->
      allowed k (f_default f) (List.length l) -> Forall (element V (expanded (f_name f)) t) l ->
      sequence V fs l' -> sequence V (f :: fs) (l ++ l')
  | sq_flatten : forall f fs id ident root nss ws sk l l', f_mode f = MFlatten id ->
      env id = Some (TDEnum ident root nss ws sk) -> one_of V ws l ->
      sequence V fs l' -> sequence V (f :: fs) (l ++ l')
  | sq_attribute : forall f fs l, is_attribute f = true -> sequence V fs l -> sequence V (f :: fs) l.

  (** Between the child elements there is nothing but white space. *)
  Definition between_blank (kids : list wtree) : Prop :=
    Forall (fun x => match x with TText s => blank s = true | TElem _ _ _ => True end) kids.

  (** [valid t attrs kids]: an element with these attributes and children is valid for the type [t]. *)
  Inductive valid : ety -> list (xname * string) -> list wtree -> Prop :=
  | va_text : forall t kids s, texts kids = [s] -> lex_elem t s -> valid (EText t) [] kids
  | va_struct : forall id ident root nss fs attrs kids, env id = Some (TDStruct ident root nss fs) ->
      attrs_valid fs attrs -> between_blank kids ->
      sequence valid fs (filter is_telem kids) -> valid (ERef id) attrs kids
  | va_enum : forall id ident root nss ws sk kids, env id = Some (TDEnum ident root nss ws sk) ->
      between_blank kids -> one_of valid ws (filter is_telem kids) -> valid (ERef id) [] kids.
End Schema.

(** ** Conditions on types and values *)

(** Flattened fields are declared after the element fields. *)
Definition flattened_last (env : tenv) : Prop := forall id ident root nss fs,
  env id = Some (TDStruct ident root nss fs) ->
  forall fs1 f fs2, fs = fs1 ++ f :: fs2 -> is_flatten f = true -> Forall (fun g => is_element g = false) fs2.

(** At most one field is flattened, and its variants are not called like an element field. *)
Definition one_choice (env : tenv) : Prop := forall id ident root nss fs,
  env id = Some (TDStruct ident root nss fs) ->
  List.length (filter is_flatten fs) <= 1 /\
  forall f id' ident' root' nss' ws sk, In f fs -> f_mode f = MFlatten id' ->
    env id' = Some (TDEnum ident' root' nss' ws sk) ->
    forall w, In w ws -> ~ In (expanded (v_name w)) (field_names is_element fs).

(** No enum in the value holds a skipped variant, [None] or an empty [Vec]. *)
Definition holds_some (x : value) : bool :=
  match x with VNone | VVec [] => false | _ => true end.

Fixpoint filled (v : value) : bool :=
  match v with
  | VText _ | VNone | VEnum _ None => true
  | VStruct l | VVec l => forallb filled l
  | VEnum _ (Some x) => holds_some x && filled x
  | VSkipped => false
  | VSome x => filled x
  end.

(** So it is for default values. *)
Definition filled_defaults (env : tenv) : Prop := forall id ident root nss fs f v,
  env id = Some (TDStruct ident root nss fs) -> In f fs -> f_default f = Some v -> filled v = true.
