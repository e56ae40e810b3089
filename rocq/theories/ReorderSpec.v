(** Declaring fields and variants in another order, and changing what does not concern XML (Rust identifiers, prefixes, the
    root's name). *)
From Verif Require Import Base Normalize Text Find FindProofs Types Reader ReaderSpec DeSpec SerSpec DSerSpec.

(** [l'] is [l] in another order, except that elements which are [fixed] are not moved past each other. *)
Inductive shuffle {A} (fixed : A -> bool) : list A -> list A -> Prop :=
| sh_nil : shuffle fixed [] []
| sh_cons : forall x l l', shuffle fixed l l' -> shuffle fixed (x :: l) (x :: l')
| sh_swap : forall x y l, fixed x && fixed y = false -> shuffle fixed (x :: y :: l) (y :: x :: l)
| sh_trans : forall a b c, shuffle fixed a b -> shuffle fixed b c -> shuffle fixed a c.

(** The same field of the XML format.  (A flattened field has no name there.) *)
Definition same_field (f f' : field) : Prop :=
  f_mode f = f_mode f' /\ (is_flatten f = false -> expanded (f_name f) = expanded (f_name f')).

Definition same_variant (w w' : variant) : Prop :=
  expanded (v_name w) = expanded (v_name w') /\ v_ty w = v_ty w'.

Section Reorder.
  Context (env env' : tenv).

  (** ** Values *)

  Inductive field_re (R : ety -> value -> value -> Prop) : fmode -> value -> value -> Prop :=
  | fre_element : forall k t v v' l l', items k v l -> items k v' l' -> Forall2 (R t) l l' ->
      field_re R (MElement k t) v v'
  | fre_attribute : forall opt t v, field_re R (MAttribute opt t) v v
  | fre_flatten : forall id v v', R (ERef id) v v' -> field_re R (MFlatten id) v v'.

  (** The values of fields that correspond. *)
  Inductive fields_re (R : ety -> value -> value -> Prop)
    : list (field * value) -> list (field * value) -> Prop :=
  | fsr_nil : fields_re R [] []
  | fsr_cons : forall f v f' v' l l', same_field f f' -> field_re R (f_mode f) v v' -> fields_re R l l' ->
      fields_re R ((f, v) :: l) ((f', v') :: l').

  (** [re t v v']: the same value, of type [t] before and after. *)
  Inductive re : ety -> value -> value -> Prop :=
  | re_text : forall t x, re (EText t) (VText x) (VText x)
  | re_struct : forall id i r n fs i' r' n' fs' vs vs' m, env id = Some (TDStruct i r n fs) ->
      env' id = Some (TDStruct i' r' n' fs') ->
      List.length fs = List.length vs -> List.length fs' = List.length vs' ->
      shuffle (fun p => is_flatten (fst p)) (combine fs vs) m -> fields_re re m (combine fs' vs') ->
      re (ERef id) (VStruct vs) (VStruct vs')
  | re_unit : forall id i r n ws sk i' r' n' ws' sk' j j' w w', env id = Some (TDEnum i r n ws sk) ->
      env' id = Some (TDEnum i' r' n' ws' sk') ->
      nth_error (sorted_variants ws) j = Some w -> nth_error (sorted_variants ws') j' = Some w' ->
      same_variant w w' -> v_ty w = None -> re (ERef id) (VEnum j None) (VEnum j' None)
  | re_payload : forall id i r n ws sk i' r' n' ws' sk' j j' w w' k t p p' l l', env id = Some (TDEnum i r n ws sk) ->
      env' id = Some (TDEnum i' r' n' ws' sk') ->
      nth_error (sorted_variants ws) j = Some w -> nth_error (sorted_variants ws') j' = Some w' ->
      same_variant w w' -> v_ty w = Some (k, t) -> items k p l -> items k p' l' -> Forall2 (re t) l l' ->
      re (ERef id) (VEnum j (Some p)) (VEnum j' (Some p'))
  | re_skipped : forall id i r n ws i' r' n' ws', env id = Some (TDEnum i r n ws true) ->
      env' id = Some (TDEnum i' r' n' ws' true) -> re (ERef id) VSkipped VSkipped.

  (** ** Types *)

  (** Defaults are the same values. *)
  Definition same_default (f f' : field) : Prop :=
    match f_default f, f_default f' with
    | None, None => True
    | Some d, Some d' => field_re re (f_mode f) d d'
    | _, _ => False
    end.

  Definition desc_re (d d' : tdesc) : Prop :=
    match d, d' with
    | TDStruct _ _ _ fs, TDStruct _ _ _ fs' => exists m, shuffle is_flatten fs m /\
        Forall2 (fun f f' => same_field f f' /\ same_default f f') m fs'
    | TDEnum _ _ _ ws _, TDEnum _ _ _ ws' _ => exists m, Permutation.Permutation ws m /\ Forall2 same_variant m ws'
    | _, _ => False
    end.

  Definition rearranged : Prop := forall id,
    match env id, env' id with
    | Some d, Some d' => desc_re d d'
    | None, None => True
    | _, _ => False
    end.
End Reorder.

(** ** Trees *)

(** [l'] is [l] in another order, except that only elements that are [apart] are moved past each other. *)
Inductive mixed {A} (apart : A -> A -> Prop) : list A -> list A -> Prop :=
| mx_nil : mixed apart [] []
| mx_cons : forall x l l', mixed apart l l' -> mixed apart (x :: l) (x :: l')
| mx_swap : forall x y l, apart x y -> mixed apart (x :: y :: l) (y :: x :: l)
| mx_trans : forall a b c, mixed apart a b -> mixed apart b c -> mixed apart a c.

(** Elements with different names. *)
Definition apart (t t' : wtree) : Prop :=
  match t, t' with
  | TElem n _ _, TElem n' _ _ => n <> n'
  | _, _ => False
  end.

(** The same tree, up to the order of attributes and the order of elements with different names. *)
Inductive same_tree : wtree -> wtree -> Prop :=
| same_text : forall s, same_tree (TText s) (TText s)
| same_elem : forall n attrs attrs' kids m kids', Permutation.Permutation attrs attrs' ->
    mixed apart kids m -> Forall2 same_tree m kids' -> same_tree (TElem n attrs kids) (TElem n attrs' kids').
