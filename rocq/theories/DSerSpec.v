(** What a derived value is as a tree, and when it is of its type: no API calls, no errors, no
    order of execution. *)
From Verif Require Import Base Normalize Text Find Types Ser SerSpec.

Section Spec.
  Context (o : oracles) (env : tenv).

  (** ** Types *)

  (** The values of [T], [Option<T>] or [Vec<T>]: the [T]s they hold. *)
  Inductive items : fkind -> value -> list value -> Prop :=
  | it_one : forall v, items KOne v [v]
  | it_none : items KOpt VNone []
  | it_some : forall v, items KOpt (VSome v) [v]
  | it_vec : forall l, items KVec (VVec l) l.

  Inductive typed_field (R : ety -> value -> Prop) (f : field) : value -> Prop :=
  | tf_element : forall k t v l, f_mode f = MElement k t -> items k v l -> Forall (R t) l ->
      typed_field R f v
  | tf_attribute : forall t x, f_mode f = MAttribute false t -> to_text o t x <> None ->
      typed_field R f (VText x)
  | tf_no_attribute : forall t, f_mode f = MAttribute true t -> typed_field R f VNone
  | tf_opt_attribute : forall t x, f_mode f = MAttribute true t -> to_text o t x <> None ->
      typed_field R f (VSome (VText x))
  | tf_flatten : forall id v, f_mode f = MFlatten id -> R (ERef id) v -> typed_field R f v
  | tf_text : forall t x, f_mode f = MText t -> to_text o t x <> None -> typed_field R f (VText x).

  Inductive typed : ety -> value -> Prop :=
  | ty_text : forall t x, to_text o t x <> None -> typed (EText t) (VText x)
  | ty_struct : forall id ident root nss fs vs, env id = Some (TDStruct ident root nss fs) ->
      Forall2 (typed_field typed) fs vs -> typed (ERef id) (VStruct vs)
  | ty_unit : forall id ident root nss ws sk i w, env id = Some (TDEnum ident root nss ws sk) ->
      nth_error (sorted_variants ws) i = Some w -> v_ty w = None -> typed (ERef id) (VEnum i None)
  | ty_payload : forall id ident root nss ws sk i w k t x l,
      env id = Some (TDEnum ident root nss ws sk) ->
      nth_error (sorted_variants ws) i = Some w -> v_ty w = Some (k, t) ->
      items k x l -> Forall (typed t) l -> typed (ERef id) (VEnum i (Some x))
  | ty_skipped : forall id ident root nss ws, env id = Some (TDEnum ident root nss ws true) ->
      typed (ERef id) VSkipped.

  (** ** Trees *)

  (** The attribute fields. *)
  Inductive attrs_are : list field -> list value -> list req -> Prop :=
  | aa_nil : attrs_are [] [] []
  | aa_here : forall f fs opt t x s vs l, f_mode f = MAttribute opt t -> to_text o t x = Some s ->
      attrs_are fs vs l ->
      attrs_are (f :: fs) ((if opt then VSome (VText x) else VText x) :: vs)
        (ReqAttr (expanded (f_name f)) s :: l)
  | aa_none : forall f fs t vs l, f_mode f = MAttribute true t -> attrs_are fs vs l ->
      attrs_are (f :: fs) (VNone :: vs) l
  | aa_other : forall f fs v vs l, is_attribute f = false -> attrs_are fs vs l ->
      attrs_are (f :: fs) (v :: vs) l.

  (** One element called [n] for each item. *)
  Inductive elems_are (R : ety -> value -> list req -> list rtree -> Prop) (n : xname) (t : ety)
    : list value -> list rtree -> Prop :=
  | ea_nil : elems_are R n t [] []
  | ea_cons : forall v vs reqs kids l, R t v reqs kids -> elems_are R n t vs l ->
      elems_are R n t (v :: vs) (RElem n reqs kids :: l).

  (** The element fields, in declaration order. *)
  Inductive own_kids (R : ety -> value -> list req -> list rtree -> Prop)
    : list field -> list value -> list rtree -> Prop :=
  | ok_nil : own_kids R [] [] []
  | ok_here : forall f fs k t v xs l vs l', f_mode f = MElement k t -> items k v xs ->
      elems_are R (expanded (f_name f)) t xs l -> own_kids R fs vs l' ->
      own_kids R (f :: fs) (v :: vs) (l ++ l')
  | ok_other : forall f fs v vs l, is_element f = false -> own_kids R fs vs l ->
      own_kids R (f :: fs) (v :: vs) l.

  (** The flattened fields, in declaration order. *)
  Inductive flattened (R : ety -> value -> list req -> list rtree -> Prop)
    : list field -> list value -> list req -> list rtree -> Prop :=
  | fl_nil : flattened R [] [] [] []
  | fl_here : forall f fs id v vs reqs kids reqs' kids', f_mode f = MFlatten id ->
      R (ERef id) v reqs kids -> flattened R fs vs reqs' kids' ->
      flattened R (f :: fs) (v :: vs) (reqs ++ reqs') (kids ++ kids')
  | fl_other : forall f fs v vs reqs kids, is_flatten f = false -> flattened R fs vs reqs kids ->
      flattened R (f :: fs) (v :: vs) reqs kids.

  Definition mappings (nss : bmap string) : list req := map (fun d => ReqNs (fst d) (snd d)) nss.

  (** [content t v reqs kids]: as an element, [v] has the namespace mappings and attributes [reqs] and
      the children [kids]. *)
  Inductive content : ety -> value -> list req -> list rtree -> Prop :=
  | co_text : forall t x s, to_text o t x = Some s -> content (EText t) (VText x) [] [RText s]
  | co_struct : forall id ident root nss fs vs attrs kids reqs' kids',
      env id = Some (TDStruct ident root nss fs) ->
      attrs_are fs vs attrs -> own_kids content fs vs kids -> flattened content fs vs reqs' kids' ->
      content (ERef id) (VStruct vs) (mappings nss ++ attrs ++ reqs') (kids ++ kids')
  | co_unit : forall id ident root nss ws sk i w, env id = Some (TDEnum ident root nss ws sk) ->
      nth_error (sorted_variants ws) i = Some w -> v_ty w = None ->
      content (ERef id) (VEnum i None) (mappings nss) [RElem (expanded (v_name w)) [] []]
  | co_payload : forall id ident root nss ws sk i w k t x xs l,
      env id = Some (TDEnum ident root nss ws sk) ->
      nth_error (sorted_variants ws) i = Some w -> v_ty w = Some (k, t) ->
      items k x xs -> elems_are content (expanded (v_name w)) t xs l ->
      content (ERef id) (VEnum i (Some x)) (mappings nss) l
  | co_skipped : forall id ident root nss ws, env id = Some (TDEnum ident root nss ws true) ->
      content (ERef id) VSkipped (mappings nss) [].
End Spec.

(** ** Conditions on the program *)

Definition td_nss (d : tdesc) : bmap string :=
  match d with TDStruct _ _ nss _ | TDEnum _ _ nss _ _ => nss end.
Definition td_root (d : tdesc) : dname :=
  match d with TDStruct _ root _ _ | TDEnum _ root _ _ _ => root end.

(** Names of child elements, and of attributes. *)
Definition elem_names (d : tdesc) : list xname :=
  match d with
  | TDStruct _ _ _ fs => map (fun f => expanded (f_name f)) (filter is_element fs)
  | TDEnum _ _ _ ws _ => map (fun w => expanded (v_name w)) ws
  end.
Definition attr_names (d : tdesc) : list xname :=
  match d with
  | TDStruct _ _ _ fs => map (fun f => expanded (f_name f)) (filter is_attribute fs)
  | TDEnum _ _ _ _ _ => []
  end.

(** The namespace of a name is declared by the type: what the derive macro ensures (C41). *)
Definition declared (d : tdesc) (n : xname) : Prop :=
  xn_ns n = ""%string \/ xn_ns n = XML_NS \/ exists p, In (p, xn_ns n) (td_nss d).

Definition names_declared (env : tenv) : Prop := forall id d, env id = Some d ->
  Forall (declared d) (expanded (td_root d) :: elem_names d ++ attr_names d).

(** No prefix begins with [xml] (the derive macro means to ensure this), and [XML_NS] is not the
    default namespace. *)
Definition prefixes_ok (env : tenv) : Prop := forall id d p u, env id = Some d -> In (p, u) (td_nss d) ->
  starts_with "xml" p = false /\ ~ (p = ""%string /\ u = XML_NS).

(** Default namespaces and element names without namespace are not both used. *)
Definition no_default (env : tenv) : Prop :=
  (forall id d u, env id = Some d -> ~ In (""%string, u) (td_nss d)) \/
  (forall id d n, env id = Some d -> In n (expanded (td_root d) :: elem_names d) -> xn_ns n <> ""%string).

(** The declared mappings are ones that XML allows. *)
Definition legal_env (env : tenv) : Prop := forall id d p u, env id = Some d -> In (p, u) (td_nss d) ->
  starts_with "xml" p = false /\ u <> ""%string /\ u <> XML_NS /\ u <> "http://www.w3.org/2000/xmlns/"%string.

(** All types agree about what a prefix means.  If an attribute is in a default namespace, this goes
    for the prefix [ns1] as well, which is then generated for it. *)
Definition coherent_env (env : tenv) : Prop := exists f : string -> string,
  (forall id d p u, env id = Some d -> In (p, u) (td_nss d) -> f p = u) /\
  (forall id d u id' d' n, env id = Some d -> In (""%string, u) (td_nss d) ->
     env id' = Some d' -> In n (attr_names d') -> xn_ns n = u -> f "ns1"%string = u).

(** The attributes of a struct have different names; flattened fields are enums, which have no
    attributes. *)
Definition attrs_apart (env : tenv) : Prop := forall id ident root nss fs,
  env id = Some (TDStruct ident root nss fs) ->
  NoDup (attr_names (TDStruct ident root nss fs)) /\
  forall f id', In f fs -> f_mode f = MFlatten id' ->
    exists ident' root' nss' ws sk, env id' = Some (TDEnum ident' root' nss' ws sk).
