(** What a value keeps of the document it was read from. *)
From Verif Require Import Base Normalize Text Find FindProofs Types Reader ReaderSpec DeSpec.

Section Loss.
  Context (o : oracles) (env : tenv).

  (** Texts that are read as the same. *)
  Definition same_parse (t : tty) (s s' : string) : Prop := exists x, parse_text o t s = Ok x /\ parse_text o t s' = Ok x.

  (** Children and attributes of the name of a field. *)
  Definition field_equal (R : ety -> node -> node -> Prop) (attrs attrs' : list attr) (kids kids' : list node)
    (f : field) : Prop :=
    (forall k t, f_mode f = MElement k t ->
       Forall2 (R t) (named (expanded (f_name f)) kids) (named (expanded (f_name f)) kids')) /\
    (forall opt t, f_mode f = MAttribute opt t ->
       Forall2 (same_parse t) (attr_values (expanded (f_name f)) attrs) (attr_values (expanded (f_name f)) attrs')).

  (** Children of the names of variants.  Of those of variants without data it only matters whether there are any. *)
  Definition choice_equal (R : ety -> node -> node -> Prop) (ws : list variant) (l l' : list node) : Prop :=
    forall w, In w ws ->
    (v_ty w = None -> named (expanded (v_name w)) l = [] <-> named (expanded (v_name w)) l' = []) /\
    (forall k t, v_ty w = Some (k, t) -> Forall2 (R t) (named (expanded (v_name w)) l) (named (expanded (v_name w)) l')).

  (** [equal_for t n n']: the elements agree in everything that a value of type [t] holds. *)
  Inductive equal_for : ety -> node -> node -> Prop :=
  | eq_text : forall t name attrs ns p kids pe name' attrs' ns' p' kids' pe',
      existsb is_elem kids = false -> existsb is_elem kids' = false -> same_parse t (text_of kids) (text_of kids') ->
      equal_for (EText t) (NElem name attrs ns p kids pe) (NElem name' attrs' ns' p' kids' pe')
  | eq_struct : forall id ident root nss fs name attrs ns p kids pe name' attrs' ns' p' kids' pe',
      env id = Some (TDStruct ident root nss fs) ->
      (forall f, In f fs -> field_equal equal_for attrs attrs' kids kids' f) ->
      (forall f i ident' root' nss' ws sk, In f fs -> f_mode f = MFlatten i -> env i = Some (TDEnum ident' root' nss' ws sk) ->
         choice_equal equal_for ws (unclaimed fs kids) (unclaimed fs kids')) ->
      equal_for (ERef id) (NElem name attrs ns p kids pe) (NElem name' attrs' ns' p' kids' pe')
  | eq_enum : forall id ident root nss ws sk name attrs ns p kids pe name' attrs' ns' p' kids' pe',
      env id = Some (TDEnum ident root nss ws sk) -> choice_equal equal_for ws kids kids' ->
      equal_for (ERef id) (NElem name attrs ns p kids pe) (NElem name' attrs' ns' p' kids' pe').

  (** The same with hand-written implementations: of the types that have one, [hand] says which elements agree. *)
  Inductive mixed_equal (hand : nat -> node -> node -> Prop) : ety -> node -> node -> Prop :=
  | me_text : forall t name attrs ns p kids pe name' attrs' ns' p' kids' pe',
      existsb is_elem kids = false -> existsb is_elem kids' = false -> same_parse t (text_of kids) (text_of kids') ->
      mixed_equal hand (EText t) (NElem name attrs ns p kids pe) (NElem name' attrs' ns' p' kids' pe')
  | me_struct : forall id ident root nss fs name attrs ns p kids pe name' attrs' ns' p' kids' pe',
      env id = Some (TDStruct ident root nss fs) ->
      (forall f, In f fs -> field_equal (mixed_equal hand) attrs attrs' kids kids' f) ->
      (forall f i ident' root' nss' ws sk, In f fs -> f_mode f = MFlatten i -> env i = Some (TDEnum ident' root' nss' ws sk) ->
         choice_equal (mixed_equal hand) ws (unclaimed fs kids) (unclaimed fs kids')) ->
      mixed_equal hand (ERef id) (NElem name attrs ns p kids pe) (NElem name' attrs' ns' p' kids' pe')
  | me_enum : forall id ident root nss ws sk name attrs ns p kids pe name' attrs' ns' p' kids' pe',
      env id = Some (TDEnum ident root nss ws sk) -> choice_equal (mixed_equal hand) ws kids kids' ->
      mixed_equal hand (ERef id) (NElem name attrs ns p kids pe) (NElem name' attrs' ns' p' kids' pe')
  | me_hand : forall id n n', env id = None -> hand id n n' -> mixed_equal hand (ERef id) n n'.
End Loss.

(** Elements that are read as the same value, where [R] says what they are read as. *)
Definition alike (R : ety -> node -> value -> Prop) (id : nat) (n n' : node) : Prop :=
  exists v, R (ERef id) n v /\ R (ERef id) n' v.

(** No field has a default: what is absent is not read as something that may be present. *)
Definition defaultless (env : tenv) : Prop := forall id ident root nss fs f,
  env id = Some (TDStruct ident root nss fs) -> In f fs -> f_default f = None.

(** At most one flattened field per struct. *)
Definition one_flattened (env : tenv) : Prop := forall id ident root nss fs,
  env id = Some (TDStruct ident root nss fs) -> List.length (filter is_flatten fs) <= 1.
