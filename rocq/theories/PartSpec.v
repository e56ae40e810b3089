(** A value is read and written like its parts on their own. *)
From Verif Require Import Base Normalize Text Find Types Ser SerSpec Reader ReaderSpec DeSpec DeriveDe DeriveSer DSerSpec
  DeriveMixed MixedSpec.
From Verif Require NsSpec.

Section Parts.
  Context (o : oracles) (alg : bs_alg) (env : tenv).

  (** ** Reading *)

  (** A document consisting of the element [c], with whatever around it, is read as [v]. *)
  Definition read_alone (t : ety) (c : node) (v : value) : Prop :=
    exists d dbg pe, d_root d = c /\ read_as o alg env dbg t (doc_events d) (FEndDocument pe) = Ok v.

  (** The same if some types have hand-written implementations [P]. *)
  Definition mixed_alone {U} (P : user U) (t : ety) (c : node) (v : value) : Prop :=
    exists d dbg pe, d_root d = c /\ (dbg = true -> strict P) /\
      read_mixed o alg env P dbg t (doc_events d) (FEndDocument pe) = Ok v.

  (** ** Writing *)

  (** If [v] is written as a document with root [n], its tree is [c]. *)
  Definition written_alone (pol : NsSpec.policy) (t : ety) (n : xname) (v : value) (c : wtree) : Prop :=
    forall dbg w k, serialize_with_name o env dbg w t v n = inl (None, k) ->
    NsSpec.meaning [] (NsSpec.emit pol [] (k_out k)) = Some (NsSpec.tree_events c).

  (** The children [l] that element fields are written as: those of the first field, then those of the second ... *)
  Inductive own_parts (pol : NsSpec.policy) : list field -> list value -> list wtree -> Prop :=
  | op_nil : own_parts pol [] [] []
  | op_element : forall f fs k t v xs l vs l', f_mode f = MElement k t -> items k v xs ->
      Forall2 (written_alone pol t (expanded (f_name f))) xs l -> own_parts pol fs vs l' ->
      own_parts pol (f :: fs) (v :: vs) (l ++ l')
  | op_other : forall f fs v vs l, is_element f = false -> own_parts pol fs vs l -> own_parts pol (f :: fs) (v :: vs) l.

  (** The children a variant is written as. *)
  Inductive variant_parts (pol : NsSpec.policy) (v : variant) : option value -> list wtree -> Prop :=
  | vp_unit : v_ty v = None -> variant_parts pol v None [TElem (expanded (v_name v)) [] []]
  | vp_payload : forall k t x xs l, v_ty v = Some (k, t) -> items k x xs ->
      Forall2 (written_alone pol t (expanded (v_name v))) xs l -> variant_parts pol v (Some x) l.

  (** The attributes and children that flattened fields are written as: those of the documents with just their values. *)
  Inductive flat_parts (pol : NsSpec.policy)
    : list field -> list value -> list (xname * string) -> list wtree -> Prop :=
  | fp_nil : flat_parts pol [] [] [] []
  | fp_flatten : forall f fs id v vs a l a' l', f_mode f = MFlatten id ->
      (forall n, root_name env id = Some n -> written_alone pol (ERef id) n v (TElem n a l)) -> flat_parts pol fs vs a' l' ->
      flat_parts pol (f :: fs) (v :: vs) (a ++ a') (l ++ l')
  | fp_other : forall f fs v vs a l, is_flatten f = false -> flat_parts pol fs vs a l ->
      flat_parts pol (f :: fs) (v :: vs) a l.

  (** The attributes: a text for each attribute field that is there. *)
  Inductive attr_parts : list field -> list value -> list (xname * string) -> Prop :=
  | ap_nil : attr_parts [] [] []
  | ap_one : forall f fs t x s vs l, f_mode f = MAttribute false t -> to_text o t x = Some s -> attr_parts fs vs l ->
      attr_parts (f :: fs) (VText x :: vs) ((expanded (f_name f), s) :: l)
  | ap_some : forall f fs t x s vs l, f_mode f = MAttribute true t -> to_text o t x = Some s -> attr_parts fs vs l ->
      attr_parts (f :: fs) (VSome (VText x) :: vs) ((expanded (f_name f), s) :: l)
  | ap_none : forall f fs t vs l, f_mode f = MAttribute true t -> attr_parts fs vs l -> attr_parts (f :: fs) (VNone :: vs) l
  | ap_other : forall f fs v vs l, is_attribute f = false -> attr_parts fs vs l -> attr_parts (f :: fs) (v :: vs) l.
End Parts.
