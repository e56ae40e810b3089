(** What is lost when deserializing a derived type fails: the values that were already read for the fields
    of the elements that were open at that time.  Stated over the tree, like ErrSpec.v. *)
From Verif Require Import Base Normalize Text Find FindProofs Types Reader ReaderSpec DeSpec ErrSpec.

Section Spec.
  Context (o : oracles) (env : tenv).

  (** The value of an element or attribute field, if anything was there for it: at most one value. *)
  Inductive field_so_far (attrs : list attr) (kids : list node) (f : field) : list value -> Prop :=
  | fs_element : forall k t v, f_mode f = MElement k t ->
      occurs (reads o env t) k (named (expanded (f_name f)) kids) v -> field_so_far attrs kids f [v]
  | fs_no_element : forall k t, f_mode f = MElement k t ->
      named (expanded (f_name f)) kids = [] -> field_so_far attrs kids f []
  | fs_attribute : forall opt t s x, f_mode f = MAttribute opt t ->
      attr_values (expanded (f_name f)) attrs = [s] -> parse_text o t s = Ok x ->
      field_so_far attrs kids f [if opt then VSome (VText x) else VText x]
  | fs_no_attribute : forall opt t, f_mode f = MAttribute opt t ->
      attr_values (expanded (f_name f)) attrs = [] -> field_so_far attrs kids f [].

  (** The value of an enum, if one of the children names a variant. *)
  Inductive choice_so_far (vs : list variant) (kids : list node) : list value -> Prop :=
  | cs_some : forall v, choice (reads o env) vs kids v -> choice_so_far vs kids [v]
  | cs_none : filter (name_in (variant_names vs)) kids = [] -> choice_so_far vs kids [].

  (** The fields of a struct, in declaration order ([l] as in [fields_hold]). *)
  Inductive fields_so_far (attrs : list attr) (kids : list node) : list node -> list field -> list value -> Prop :=
  | fss_nil : forall l, fields_so_far attrs kids l [] []
  | fss_own : forall l f fs v vs, is_flatten f = false -> field_so_far attrs kids f v ->
      fields_so_far attrs kids l fs vs -> fields_so_far attrs kids l (f :: fs) (v ++ vs)
  | fss_flatten : forall l f fs id ident root nss variants sk v vs, f_mode f = MFlatten id ->
      env id = Some (TDEnum ident root nss variants sk) -> choice_so_far variants l v ->
      fields_so_far attrs kids (before_first (variant_names variants) l) fs vs ->
      fields_so_far attrs kids l (f :: fs) (v ++ vs).

  Definition so_far (d : tdesc) (attrs : list attr) (kids : list node) (vs : list value) : Prop :=
    match d with
    | TDStruct _ _ _ fs => fields_so_far attrs kids (unclaimed fs kids) fs vs
    | TDEnum _ _ _ variants _ => choice_so_far variants kids vs
    end.

  (** At the end of a struct some field is missing. The fields declared before it hold what they would hold in the
      struct (so defaults too), those after it what was read for them. *)
  Inductive fields_until (attrs : list attr) (kids : list node) : list node -> list field -> list value -> Prop :=
  | fu_here : forall l f fs vs, fields_lack env attrs kids l [f] <> None ->
      fields_so_far attrs kids l (f :: fs) vs -> fields_until attrs kids l (f :: fs) vs
  | fu_own : forall l f fs v vs, is_flatten f = false -> field_holds o (reads o env) attrs kids f v ->
      fields_until attrs kids l fs vs -> fields_until attrs kids l (f :: fs) (v :: vs)
  | fu_flatten : forall l f fs id ident root nss variants sk v vs, f_mode f = MFlatten id ->
      env id = Some (TDEnum ident root nss variants sk) -> choice (reads o env) variants l v ->
      fields_until attrs kids (before_first (variant_names variants) l) fs vs ->
      fields_until attrs kids l (f :: fs) (v :: vs).

  Definition until_missing (d : tdesc) (attrs : list attr) (kids : list node) (vs : list value) : Prop :=
    match d with
    | TDStruct _ _ _ fs => fields_until attrs kids (unclaimed fs kids) fs vs
    | TDEnum _ _ _ _ _ => vs = []
    end.

  (** [leaks t n vs]: the element [n] does not read as [t], and in trying so the values [vs] are lost.
      The cases are those of [fails]. *)
  Inductive leaks : ety -> node -> list value -> Prop :=
  | leaks_text_child : forall t name attrs ns p kids pe,
      existsb is_elem kids = true -> leaks (EText t) (NElem name attrs ns p kids pe) []
  | leaks_text : forall t name attrs ns p kids pe m,
      existsb is_elem kids = false -> parse_text o t (text_of kids) = Err m ->
      leaks (EText t) (NElem name attrs ns p kids pe) []
  | leaks_attribute : forall id d name a1 a a2 ns p kids pe m vs, env id = Some d ->
      all_fine (attrs_check o d) a1 -> attrs_check o d a1 a = Err m -> so_far d a1 [] vs ->
      leaks (ERef id) (NElem name (a1 ++ a :: a2) ns p kids pe) vs
  | leaks_rejected : forall id d name attrs ns p k1 c k2 pe m vs, env id = Some d ->
      all_fine (attrs_check o d) attrs -> all_met o env (child_demand env d) k1 ->
      child_demand env d k1 c = Reject m -> so_far d attrs k1 vs ->
      leaks (ERef id) (NElem name attrs ns p (k1 ++ c :: k2) pe) vs
  | leaks_nested : forall id d name attrs ns p k1 c k2 pe t vs inner, env id = Some d ->
      all_fine (attrs_check o d) attrs -> all_met o env (child_demand env d) k1 ->
      child_demand env d k1 c = ReadAs t -> leaks t c inner -> so_far d attrs k1 vs ->
      leaks (ERef id) (NElem name attrs ns p (k1 ++ c :: k2) pe) (vs ++ inner)
  | leaks_incomplete : forall id d name attrs ns p kids pe m vs, env id = Some d ->
      all_fine (attrs_check o d) attrs -> all_met o env (child_demand env d) kids ->
      lacks env d attrs kids = Some m -> until_missing d attrs kids vs ->
      leaks (ERef id) (NElem name attrs ns p kids pe) vs.
End Spec.
