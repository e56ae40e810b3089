(** Values with texts that cannot be printed: a hand-written [ToText] may return an error.  Which of
    them comes first, and what of the tree comes before it. *)
From Verif Require Import Base Normalize Text Find Types Ser SerSpec DSerSpec.

(** [o], but every text can be printed. *)
Definition printing (o : oracles) : oracles := {|
  o_debug := o_debug o; o_std_parse := o_std_parse o; o_std_show := o_std_show o;
  o_float_parse := o_float_parse o; o_float_show := o_float_show o; o_hand_parse := o_hand_parse o;
  o_hand_show := fun i n => inl (match o_hand_show o i n with inl s => s | inr _ => "" end)%string |}.

(** A value of the type, whether or not its texts can be printed. *)
Definition of_type (o : oracles) (env : tenv) : ety -> value -> Prop := typed (printing o) env.

(** Flattened fields are enums. *)
Definition flats_enums (env : tenv) : Prop := forall id ident root nss fs f id',
  env id = Some (TDStruct ident root nss fs) -> In f fs -> f_mode f = MFlatten id' ->
  exists ident' root' nss' ws sk, env id' = Some (TDEnum ident' root' nss' ws sk).

(** Part of an element: nothing, or its start tag, some complete children and part of the next one. *)
Inductive part :=
| Nothing
| Opened (n : xname) (reqs : list req) (kids : list rtree) (next : part).

Fixpoint part_sevs (p : part) : list sev :=
  match p with
  | Nothing => []
  | Opened n reqs kids next =>
      SStart (xn_local n) (map (fun a => (xn_local (fst a), snd a)) (req_attrs reqs)) ::
      flat_map (fun t => tree_sevs (tree_of t)) kids ++ part_sevs next
  end.

Section Spec.
  Context (o : oracles) (env : tenv).
  Notation content := (content o env).

  (** The first attribute field whose text fails. *)
  Inductive attr_fails : list field -> list value -> string -> Prop :=
  | af_here : forall f fs opt t x vs m, f_mode f = MAttribute opt t -> text_error o t x = Some m ->
      attr_fails (f :: fs) ((if opt then VSome (VText x) else VText x) :: vs) m
  | af_later : forall f fs opt t x s vs m, f_mode f = MAttribute opt t -> to_text o t x = Some s ->
      attr_fails fs vs m -> attr_fails (f :: fs) ((if opt then VSome (VText x) else VText x) :: vs) m
  | af_none : forall f fs t vs m, f_mode f = MAttribute true t -> attr_fails fs vs m ->
      attr_fails (f :: fs) (VNone :: vs) m
  | af_other : forall f fs v vs m, is_attribute f = false -> attr_fails fs vs m ->
      attr_fails (f :: fs) (v :: vs) m.

  (** A start tag fails if an attribute of a struct does; flattened fields are enums and have none. *)
  Inductive tag_fails : ety -> value -> string -> Prop :=
  | tag_fails_struct : forall id ident root nss fs vs m, env id = Some (TDStruct ident root nss fs) ->
      attr_fails fs vs m -> tag_fails (ERef id) (VStruct vs) m.

  (** Otherwise these are its mappings and attributes. *)
  Inductive flat_tags : list field -> list value -> list req -> Prop :=
  | ft_nil : flat_tags [] [] []
  | ft_here : forall f fs id ident root nss ws sk v vs l, f_mode f = MFlatten id ->
      env id = Some (TDEnum ident root nss ws sk) -> (exists i p, v = VEnum i p) \/ v = VSkipped ->
      flat_tags fs vs l -> flat_tags (f :: fs) (v :: vs) (mappings nss ++ l)
  | ft_other : forall f fs v vs l, is_flatten f = false -> flat_tags fs vs l -> flat_tags (f :: fs) (v :: vs) l.

  Inductive tag : ety -> value -> list req -> Prop :=
  | tag_text : forall t v, tag (EText t) v []
  | tag_struct : forall id ident root nss fs vs attrs l, env id = Some (TDStruct ident root nss fs) ->
      attrs_are o fs vs attrs -> flat_tags fs vs l -> tag (ERef id) (VStruct vs) (mappings nss ++ attrs ++ l)
  | tag_enum : forall id ident root nss ws sk v, env id = Some (TDEnum ident root nss ws sk) ->
      (exists i p, v = VEnum i p) \/ v = VSkipped -> tag (ERef id) v (mappings nss).

  (** [fails n t v p m]: the first text of the element [n] for [v] that fails, its attributes coming
      before its children, has the error [m]; [p] comes before it. *)
  Section Kids.
    Context (kids_fail : ety -> value -> list rtree -> part -> string -> Prop).

    Inductive elem_fails (n : xname) (t : ety) (v : value) : part -> string -> Prop :=
    | ef_tag : forall m, tag_fails t v m -> elem_fails n t v Nothing m
    | ef_kids : forall reqs kids next m, tag t v reqs -> kids_fail t v kids next m ->
        elem_fails n t v (Opened n reqs kids next) m.

    Inductive items_fail (n : xname) (t : ety) : list value -> list rtree -> part -> string -> Prop :=
    | if_here : forall v vs p m, elem_fails n t v p m -> items_fail n t (v :: vs) [] p m
    | if_later : forall v vs reqs kids l p m, content t v reqs kids -> items_fail n t vs l p m ->
        items_fail n t (v :: vs) (RElem n reqs kids :: l) p m.

    Inductive own_fail : list field -> list value -> list rtree -> part -> string -> Prop :=
    | of_here : forall f fs k t v xs vs l p m, f_mode f = MElement k t -> items k v xs ->
        items_fail (expanded (f_name f)) t xs l p m -> own_fail (f :: fs) (v :: vs) l p m
    | of_later : forall f fs k t v xs vs l l' p m, f_mode f = MElement k t -> items k v xs ->
        elems_are content (expanded (f_name f)) t xs l -> own_fail fs vs l' p m ->
        own_fail (f :: fs) (v :: vs) (l ++ l') p m
    | of_other : forall f fs v vs l p m, is_element f = false -> own_fail fs vs l p m ->
        own_fail (f :: fs) (v :: vs) l p m.

    Inductive flat_fail : list field -> list value -> list rtree -> part -> string -> Prop :=
    | ff_here : forall f fs id v vs l p m, f_mode f = MFlatten id -> kids_fail (ERef id) v l p m ->
        flat_fail (f :: fs) (v :: vs) l p m
    | ff_later : forall f fs id v vs reqs l l' p m, f_mode f = MFlatten id -> content (ERef id) v reqs l ->
        flat_fail fs vs l' p m -> flat_fail (f :: fs) (v :: vs) (l ++ l') p m
    | ff_other : forall f fs v vs l p m, is_flatten f = false -> flat_fail fs vs l p m ->
        flat_fail (f :: fs) (v :: vs) l p m.
  End Kids.

  Inductive kids_fail : ety -> value -> list rtree -> part -> string -> Prop :=
  | kf_text : forall t x m, text_error o t x = Some m -> kids_fail (EText t) (VText x) [] Nothing m
  | kf_own : forall id ident root nss fs vs l p m, env id = Some (TDStruct ident root nss fs) ->
      own_fail kids_fail fs vs l p m -> kids_fail (ERef id) (VStruct vs) l p m
  | kf_flat : forall id ident root nss fs vs l l' p m, env id = Some (TDStruct ident root nss fs) ->
      own_kids content fs vs l -> flat_fail kids_fail fs vs l' p m ->
      kids_fail (ERef id) (VStruct vs) (l ++ l') p m
  | kf_payload : forall id ident root nss ws sk i w k t x xs l p m,
      env id = Some (TDEnum ident root nss ws sk) ->
      nth_error (sorted_variants ws) i = Some w -> v_ty w = Some (k, t) -> items k x xs ->
      items_fail kids_fail (expanded (v_name w)) t xs l p m -> kids_fail (ERef id) (VEnum i (Some x)) l p m.

  Definition fails : xname -> ety -> value -> part -> string -> Prop := elem_fails kids_fail.
End Spec.
