(** Which values survive being written and read when some of their parts have hand-written
    [Serialize] and [Deserialize] implementations. *)
From Verif Require Import Base Normalize Text Find FindProofs Types Ser SerSpec DSerSpec DeriveMixedSer MixedSerSpec
  Reader ReaderSpec DeSpec MixedReads RTSpec.

(** Flattened fields are derived enums, and there are no text fields: what derived deserialization
    supports ([mfield_compiles], MixedSpec.v). *)
Definition flattens_enums (env : tenv) : Prop := forall id ident root nss fs f,
  env id = Some (TDStruct ident root nss fs) -> In f fs ->
  match f_mode f with
  | MFlatten id' => exists ident' root' nss' vs sk, env id' = Some (TDEnum ident' root' nss' vs sk)
  | MText _ => False
  | _ => True
  end.

Section Spec.
  Context (o : oracles) (env : tenv).

  (** [M t v]: the value [v] of type [t] survives.  For text types and derived types this is determined
      as by [survives] (RTSpec.v) from what [M] says about the types of their fields; for types with
      hand-written implementations it may be anything. *)
  Record survival (M : ety -> value -> Prop) : Prop := Survival {
    s_text : forall t v, M (EText t) v <->
      exists x s, v = VText x /\ to_text o t x = Some s /\ parse_text o t (seen s) = Ok x;
    s_struct : forall id ident root nss fs v, env id = Some (TDStruct ident root nss fs) ->
      M (ERef id) v <->
      exists vs, v = VStruct vs /\ Forall2 (survives_field o env M (field_names is_element fs)) fs vs /\
        List.length (filter is_flatten fs) <= 1;
    s_enum : forall id ident root nss ws sk v, env id = Some (TDEnum ident root nss ws sk) ->
      M (ERef id) v <->
      exists i w, nth_error (sorted_variants ws) i = Some w /\
        (v = VEnum i None /\ v_ty w = None \/
         exists k t x l, v = VEnum i (Some x) /\ v_ty w = Some (k, t) /\ items k x l /\ l <> [] /\ Forall (M t) l);
  }.

  Context (hand : nat -> option (value -> serialize)) (R : ety -> node -> value -> Prop) (M : ety -> value -> Prop).

  (** An element that shows what was written for a value is read as this value exactly if it survives. *)
  Definition faithful (t : ety) (c : node) : Prop := forall v n reqs kids,
    mcontent o env hand t v reqs kids -> shows (tree_of (RElem n reqs kids)) c -> (R t c v <-> M t v).

  (** The hand-written implementations agree with each other: what [write_attributes] and
      [write_children] ask for is read back exactly if [M] says so, provided that this holds for
      everything they can call. *)
  Definition hand_written_faithful : Prop := forall id c, env id = None ->
    (forall m t, below m c -> faithful t m) -> (forall t, known_ty env t -> faithful t c) ->
    faithful (ERef id) c.
End Spec.
