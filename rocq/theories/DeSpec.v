(** What a derived type reads from an element, stated over the element's attributes and children:
    no visitors, no states, no order of events. *)
From Verif Require Import Base Normalize Text Find FindProofs Types Reader ReaderSpec.

(** ** Children by name *)

Definition has_name (n : xname) (k : node) : bool :=
  match k with NElem name _ _ _ _ _ => xn_eqb (from_xml_name name) n | _ => false end.

(** The children called [n], in document order. *)
Definition named (n : xname) (kids : list node) : list node := filter (has_name n) kids.

Definition name_in (ns : list xname) (k : node) : bool := existsb (fun n => has_name n k) ns.

(** The values of the attributes called [n]. (A well-formed document has at most one.) *)
Definition attr_values (n : xname) (attrs : list attr) : list string :=
  map a_value (filter (fun a => xn_eqb (from_xml_name (a_name a)) n) attrs).

(** Child elements that are not for an own element field of the struct. *)
Definition unclaimed (fs : list field) (kids : list node) : list node :=
  filter (fun k => is_elem k && negb (name_in (field_names is_element fs) k)) kids.

(** The part of a list before the first element with one of the given names. *)
Fixpoint before_first (ns : list xname) (l : list node) : list node :=
  match l with
  | [] => []
  | k :: l' => if name_in ns k then [] else k :: before_first ns l'
  end.

Section De.
  Context (o : oracles) (env : tenv).

  (** [R c v]: the child [c] reads as [v]. At least one occurrence; [T] and [Option<T>] allow one. *)
  Inductive occurs (R : node -> value -> Prop) : fkind -> list node -> value -> Prop :=
  | occ_one : forall c v, R c v -> occurs R KOne [c] v
  | occ_opt : forall c v, R c v -> occurs R KOpt [c] (VSome v)
  | occ_vec : forall cs vs, cs <> [] -> Forall2 R cs vs -> occurs R KVec cs (VVec vs).

  (** What a field holds that does not occur in the document. *)
  Inductive absent (f : field) : value -> Prop :=
  | abs_default : forall v, f_default f = Some v -> absent f v
  | abs_opt : forall t, f_default f = None -> f_mode f = MElement KOpt t -> absent f VNone
  | abs_vec : forall t, f_default f = None -> f_mode f = MElement KVec t -> absent f (VVec [])
  | abs_attr : forall t, f_default f = None -> f_mode f = MAttribute true t -> absent f VNone.

  (** An element or attribute field. *)
  Inductive field_holds (R : ety -> node -> value -> Prop) (attrs : list attr) (kids : list node)
    (f : field) : value -> Prop :=
  | fh_element : forall k t v, f_mode f = MElement k t ->
      occurs (R t) k (named (expanded (f_name f)) kids) v ->
      field_holds R attrs kids f v
  | fh_no_element : forall k t v, f_mode f = MElement k t ->
      named (expanded (f_name f)) kids = [] -> absent f v ->
      field_holds R attrs kids f v
  | fh_attribute : forall opt t s x, f_mode f = MAttribute opt t ->
      attr_values (expanded (f_name f)) attrs = [s] -> parse_text o t s = Ok x ->
      field_holds R attrs kids f (if opt then VSome (VText x) else VText x)
  | fh_no_attribute : forall opt t v, f_mode f = MAttribute opt t ->
      attr_values (expanded (f_name f)) attrs = [] -> absent f v ->
      field_holds R attrs kids f v.

  (** An enum holds variant [i] when the children that name any of its variants are at least one and
      all name this one.  (For a unit variant their number does not matter.) *)
  Inductive choice (R : ety -> node -> value -> Prop) (vs : list variant) (kids : list node)
    : value -> Prop :=
  | choice_unit : forall i v, nth_error (sorted_variants vs) i = Some v -> v_ty v = None ->
      filter (name_in (variant_names vs)) kids <> [] ->
      filter (name_in (variant_names vs)) kids = named (expanded (v_name v)) kids ->
      choice R vs kids (VEnum i None)
  | choice_field : forall i v k t x, nth_error (sorted_variants vs) i = Some v -> v_ty v = Some (k, t) ->
      filter (name_in (variant_names vs)) kids = named (expanded (v_name v)) kids ->
      occurs (R t) k (named (expanded (v_name v)) kids) x ->
      choice R vs kids (VEnum i (Some x)).

  (** The fields of a struct, in declaration order.  [l]: the children offered to the next flattened
      field.  A flattened field keeps everything after the first child it recognises; only what came
      before goes to the next flattened field. *)
  Inductive fields_hold (R : ety -> node -> value -> Prop) (attrs : list attr) (kids : list node)
    : list node -> list field -> list value -> Prop :=
  | fhs_nil : forall l, fields_hold R attrs kids l [] []
  | fhs_own : forall l f fs v vs, is_flatten f = false -> field_holds R attrs kids f v ->
      fields_hold R attrs kids l fs vs -> fields_hold R attrs kids l (f :: fs) (v :: vs)
  | fhs_flatten : forall l f fs id ident root nss variants sk v vs, f_mode f = MFlatten id ->
      env id = Some (TDEnum ident root nss variants sk) -> choice R variants l v ->
      fields_hold R attrs kids (before_first (variant_names variants) l) fs vs ->
      fields_hold R attrs kids l (f :: fs) (v :: vs).

  (** [reads t n v]: the element [n] read as type [t] is [v]. *)
  Inductive reads : ety -> node -> value -> Prop :=
  | reads_text : forall t name attrs ns p kids pe x,
      existsb is_elem kids = false -> parse_text o t (text_of kids) = Ok x ->
      reads (EText t) (NElem name attrs ns p kids pe) (VText x)
  | reads_struct : forall id ident root nss fs name attrs ns p kids pe vs,
      env id = Some (TDStruct ident root nss fs) ->
      fields_hold reads attrs kids (unclaimed fs kids) fs vs ->
      reads (ERef id) (NElem name attrs ns p kids pe) (VStruct vs)
  | reads_enum : forall id ident root nss variants sk name attrs ns p kids pe v,
      env id = Some (TDEnum ident root nss variants sk) ->
      choice reads variants kids v ->
      reads (ERef id) (NElem name attrs ns p kids pe) v.
End De.

(** ** Conditions on the program *)

(** What rustc and the derive macro check: every type mentioned exists, flattened fields are enums,
    no text fields. *)
Definition known_ty (env : tenv) (t : ety) : Prop :=
  match t with EText _ => True | ERef id => env id <> None end.

Definition field_compiles (env : tenv) (f : field) : Prop :=
  match f_mode f with
  | MElement _ t => known_ty env t
  | MAttribute _ _ => True
  | MFlatten id => exists ident root nss vs sk, env id = Some (TDEnum ident root nss vs sk)
  | MText _ => False
  end.

Definition variant_compiles (env : tenv) (v : variant) : Prop :=
  match v_ty v with None => True | Some (_, t) => known_ty env t end.

Definition compiles (env : tenv) : Prop :=
  forall id d, env id = Some d ->
  match d with
  | TDStruct _ _ _ fs => Forall (field_compiles env) fs
  | TDEnum _ _ _ vs _ => Forall (variant_compiles env) vs
  end.

(** Names do not clash: neither among the element fields or among the attribute fields of a struct,
    nor among the variants of an enum.  (The derive macro checks neither.) *)
Definition names_ok (env : tenv) : Prop :=
  forall id d, env id = Some d ->
  match d with
  | TDStruct _ _ _ fs => NoDup (field_names is_element fs) /\ NoDup (field_names is_attribute fs)
  | TDEnum _ _ _ vs _ => no_empty_ns vs /\ NoDup (variant_names vs)
  end.
