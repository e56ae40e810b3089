(** Changing types compatibly: adding optional fields and variants, and allowing more occurrences. *)
From Verif Require Import Base Normalize Text Find FindProofs Types Reader ReaderSpec DeSpec DSerSpec.

(** [T] to [Option<T>] or [Vec<T>], and [Option<T>] to [Vec<T>]. *)
Inductive widens : fkind -> fkind -> Prop :=
| wi_same : forall k, widens k k
| wi_opt : widens KOne KOpt
| wi_vec : widens KOne KVec
| wi_opt_vec : widens KOpt KVec.

Section Evolve.
  (** The types before and after, the names that are new, and which values new fields may have. *)
  Context (env env' : tenv) (new : list xname) (fill : field -> value -> Prop).

  Definition is_new (n : dname) : Prop := In (expanded n) new.

  (** ** Values *)

  (** The value of a kept field, before and after. *)
  Inductive field_up (R : ety -> value -> value -> Prop) (f f' : field) : value -> value -> Prop :=
  | fu_element : forall k k' t v v' l l', f_mode f = MElement k t -> f_mode f' = MElement k' t ->
      items k v l -> items k' v' l' -> Forall2 (R t) l l' -> field_up R f f' v v'
  | fu_attribute : forall (opt opt' : bool) t x, f_mode f = MAttribute opt t -> f_mode f' = MAttribute opt' t ->
      field_up R f f' (if opt then VSome (VText x) else VText x) (if opt' then VSome (VText x) else VText x)
  | fu_no_attribute : forall t, f_mode f = MAttribute true t -> f_mode f' = MAttribute true t ->
      field_up R f f' VNone VNone
  | fu_flatten : forall id v v', f_mode f = MFlatten id -> f_mode f' = MFlatten id -> R (ERef id) v v' ->
      field_up R f f' v v'.

  (** The fields of a struct. *)
  Inductive fields_up (R : ety -> value -> value -> Prop) : list field -> list field -> list value -> list value -> Prop :=
  | fsu_nil : fields_up R [] [] [] []
  | fsu_keep : forall f f' fs fs' v v' vs vs', ~ is_new (f_name f') -> field_up R f f' v v' -> fields_up R fs fs' vs vs' ->
      fields_up R (f :: fs) (f' :: fs') (v :: vs) (v' :: vs')
  | fsu_new : forall f' fs fs' v' vs vs', is_new (f_name f') -> fill f' v' -> fields_up R fs fs' vs vs' ->
      fields_up R fs (f' :: fs') vs (v' :: vs').

  (** [up t v v']: [v'], of the new type [t], says what [v], of the old type, does.  (A variant's number is its
      position in the sorted table, which changes when variants are added.) *)
  Inductive up : ety -> value -> value -> Prop :=
  | up_text : forall t x, up (EText t) (VText x) (VText x)
  | up_struct : forall id i r n fs i' r' n' fs' vs vs', env id = Some (TDStruct i r n fs) ->
      env' id = Some (TDStruct i' r' n' fs') -> fields_up up fs fs' vs vs' -> up (ERef id) (VStruct vs) (VStruct vs')
  | up_unit : forall id i r n ws sk i' r' n' ws' sk' j j' w w', env id = Some (TDEnum i r n ws sk) ->
      env' id = Some (TDEnum i' r' n' ws' sk') ->
      nth_error (sorted_variants ws) j = Some w -> nth_error (sorted_variants ws') j' = Some w' ->
      expanded (v_name w) = expanded (v_name w') -> v_ty w = None -> v_ty w' = None ->
      up (ERef id) (VEnum j None) (VEnum j' None)
  | up_payload : forall id i r n ws sk i' r' n' ws' sk' j j' w w' k k' t p p' l l', env id = Some (TDEnum i r n ws sk) ->
      env' id = Some (TDEnum i' r' n' ws' sk') ->
      nth_error (sorted_variants ws) j = Some w -> nth_error (sorted_variants ws') j' = Some w' ->
      expanded (v_name w) = expanded (v_name w') -> v_ty w = Some (k, t) -> v_ty w' = Some (k', t) ->
      items k p l -> items k' p' l' -> Forall2 (up t) l l' ->
      up (ERef id) (VEnum j (Some p)) (VEnum j' (Some p')).

  (** ** Types *)

  Inductive mode_evolves : fmode -> fmode -> Prop :=
  | me_element : forall k k' t, widens k k' -> mode_evolves (MElement k t) (MElement k' t)
  | me_attribute : forall (opt opt' : bool) t, (opt = true -> opt' = true) -> mode_evolves (MAttribute opt t) (MAttribute opt' t)
  | me_flatten : forall id, mode_evolves (MFlatten id) (MFlatten id).

  Definition field_evolves (f f' : field) : Prop :=
    expanded (f_name f) = expanded (f_name f') /\ ~ is_new (f_name f') /\ mode_evolves (f_mode f) (f_mode f').

  (** New fields may be absent. *)
  Inductive fields_evolve : list field -> list field -> Prop :=
  | fe_nil : fields_evolve [] []
  | fe_keep : forall f f' fs fs', field_evolves f f' -> fields_evolve fs fs' -> fields_evolve (f :: fs) (f' :: fs')
  | fe_new : forall f' fs fs', is_new (f_name f') -> (is_element f' || is_attribute f') = true -> (exists v, absent f' v) ->
      fields_evolve fs fs' -> fields_evolve fs (f' :: fs').

  Inductive payload_evolves : option (fkind * ety) -> option (fkind * ety) -> Prop :=
  | pe_none : payload_evolves None None
  | pe_some : forall k k' t, widens k k' -> payload_evolves (Some (k, t)) (Some (k', t)).

  Definition variants_evolve (ws ws' : list variant) : Prop :=
    (forall w, In w ws -> ~ is_new (v_name w) /\
       exists w', In w' ws' /\ expanded (v_name w) = expanded (v_name w') /\ payload_evolves (v_ty w) (v_ty w')) /\
    (forall w', In w' ws' -> is_new (v_name w') \/ In (expanded (v_name w')) (variant_names ws)).

  Definition desc_evolves (d d' : tdesc) : Prop :=
    match d, d' with
    | TDStruct _ _ _ fs, TDStruct _ _ _ fs' => fields_evolve fs fs'
    | TDEnum _ _ _ ws _, TDEnum _ _ _ ws' _ => variants_evolve ws ws'
    | _, _ => False
    end.

  Definition evolves : Prop := forall id d, env id = Some d -> exists d', env' id = Some d' /\ desc_evolves d d'.

  (** The kept fields, before and after. *)
  Inductive kept : list field -> list field -> field -> field -> Prop :=
  | ke_here : forall f f' fs fs', ~ is_new (f_name f') -> kept (f :: fs) (f' :: fs') f f'
  | ke_keep : forall f f' g g' fs fs', ~ is_new (f_name g') -> kept fs fs' f f' -> kept (g :: fs) (g' :: fs') f f'
  | ke_new : forall f f' g' fs fs', is_new (f_name g') -> kept fs fs' f f' -> kept fs (g' :: fs') f f'.

  Definition for_kept (P : field -> field -> Prop) : Prop := forall id i r n fs i' r' n' fs',
    env id = Some (TDStruct i r n fs) -> env' id = Some (TDStruct i' r' n' fs') -> forall f f', kept fs fs' f f' -> P f f'.

  (** Defaults of kept fields: whatever an absent field was, it still is. *)
  Definition defaults_kept : Prop :=
    for_kept (fun f f' => forall v, absent f v -> exists v', absent f' v' /\ field_up up f f' v v').

  (** Conversely, what an absent field is now, it was. *)
  Definition defaults_old : Prop :=
    for_kept (fun f f' => forall v v', field_up up f f' v v' -> absent f' v' -> absent f v).

  (** ** Documents *)

  (** No element below the root and no attribute has a new name. *)
  Inductive free_of : node -> Prop :=
  | fr_elem : forall name attrs ns p kids pe, Forall (fun a => ~ In (from_xml_name (a_name a)) new) attrs ->
      Forall (fun c => name_in new c = false) kids -> Forall free_of kids -> free_of (NElem name attrs ns p kids pe)
  | fr_text : forall cdata s p, free_of (NText cdata s p)
  | fr_misc : forall m p, free_of (NMisc m p)
  | fr_blank : forall s p, free_of (NBlank s p).
End Evolve.
