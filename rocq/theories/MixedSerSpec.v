(** What a value is as a tree when some of its parts have hand-written [Serialize] implementations. *)
From Verif Require Import Base Normalize Text Find Types Ser SerSpec DSerSpec.

Section Spec.
  Context (o : oracles) (env : tenv) (hand : nat -> option (value -> serialize)).

  (** [typed] of DSerSpec.v; the values of a hand-written type are its own business. *)
  Inductive mtyped : ety -> value -> Prop :=
  | mty_text : forall t x, to_text o t x <> None -> mtyped (EText t) (VText x)
  | mty_struct : forall id ident root nss fs vs, env id = Some (TDStruct ident root nss fs) ->
      Forall2 (typed_field o mtyped) fs vs -> mtyped (ERef id) (VStruct vs)
  | mty_unit : forall id ident root nss ws sk i w, env id = Some (TDEnum ident root nss ws sk) ->
      nth_error (sorted_variants ws) i = Some w -> v_ty w = None -> mtyped (ERef id) (VEnum i None)
  | mty_payload : forall id ident root nss ws sk i w k t x l,
      env id = Some (TDEnum ident root nss ws sk) ->
      nth_error (sorted_variants ws) i = Some w -> v_ty w = Some (k, t) ->
      items k x l -> Forall (mtyped t) l -> mtyped (ERef id) (VEnum i (Some x))
  | mty_skipped : forall id ident root nss ws, env id = Some (TDEnum ident root nss ws true) ->
      mtyped (ERef id) VSkipped
  | mty_hand : forall id h v, env id = None -> hand id = Some h -> mtyped (ERef id) v.

  (** [content] of DSerSpec.v; a hand-written type has the attributes and children its implementation
      asks for on a new element, if it asks for something. *)
  Inductive mcontent : ety -> value -> list req -> list rtree -> Prop :=
  | mco_text : forall t x s, to_text o t x = Some s -> mcontent (EText t) (VText x) [] [RText s]
  | mco_struct : forall id ident root nss fs vs attrs kids reqs' kids',
      env id = Some (TDStruct ident root nss fs) ->
      attrs_are o fs vs attrs -> own_kids mcontent fs vs kids -> flattened mcontent fs vs reqs' kids' ->
      mcontent (ERef id) (VStruct vs) (mappings nss ++ attrs ++ reqs') (kids ++ kids')
  | mco_unit : forall id ident root nss ws sk i w, env id = Some (TDEnum ident root nss ws sk) ->
      nth_error (sorted_variants ws) i = Some w -> v_ty w = None ->
      mcontent (ERef id) (VEnum i None) (mappings nss) [RElem (expanded (v_name w)) [] []]
  | mco_payload : forall id ident root nss ws sk i w k t x xs l,
      env id = Some (TDEnum ident root nss ws sk) ->
      nth_error (sorted_variants ws) i = Some w -> v_ty w = Some (k, t) ->
      items k x xs -> elems_are mcontent (expanded (v_name w)) t xs l ->
      mcontent (ERef id) (VEnum i (Some x)) (mappings nss) l
  | mco_skipped : forall id ident root nss ws, env id = Some (TDEnum ident root nss ws true) ->
      mcontent (ERef id) VSkipped (mappings nss) []
  | mco_hand : forall id h v reqs kids, env id = None -> hand id = Some h ->
      ask_a (s_attrs (h v)) [] = Some reqs -> ask_w (s_kids (h v)) [] [] = Some kids ->
      mcontent (ERef id) v reqs kids.

  (** [write_attributes] hands on the error of a repeated attribute (or panics). *)
  Fixpoint hands_on (a : aprog) : Prop :=
    match a with
    | ARet _ | APanic _ => True
    | ANs _ _ a' => hands_on a'
    | AAttr _ _ f => hands_on (f None) /\ forall e l, ask_a (f (Some e)) l = None
    end.

  (** Types that are flattened somewhere, if hand-written, do so. *)
  Definition flattens_hand_on : Prop := forall id ident root nss fs f id' h v,
    env id = Some (TDStruct ident root nss fs) -> In f fs -> f_mode f = MFlatten id' ->
    env id' = None -> hand id' = Some h -> hands_on (s_attrs (h v)).
End Spec.
