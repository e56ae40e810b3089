(** What a program with hand-written [Deserialize] implementations reads. *)
From Verif Require Import Base Normalize Text Find FindProofs Types Reader ReaderSpec DeriveDe DeSpec DeriveMixed MixedSpec.

(** [m] is a proper descendant of [n]. *)
Inductive below : node -> node -> Prop :=
| below_child : forall c name attrs ns p kids pe, In c kids -> below c (NElem name attrs ns p kids pe)
| below_deeper : forall m c name attrs ns p kids pe, In c kids -> below m c ->
    below m (NElem name attrs ns p kids pe).

Section Reads.
  Context {U : Type} (o : oracles) (alg : bs_alg) (env : tenv) (P : user U).

  (** [R t n v]: the element [n] read as type [t] is [v].  For text types and derived types this is
      determined as by [reads] (DeSpec.v) from what [R] says about the types of their fields; for types
      with hand-written implementations it may be anything. *)
  Record denotes (R : ety -> node -> value -> Prop) : Prop := Denotes {
    d_text : forall t name attrs ns p kids pe v,
      R (EText t) (NElem name attrs ns p kids pe) v <->
      exists x, v = VText x /\ existsb is_elem kids = false /\ parse_text o t (text_of kids) = Ok x;
    d_struct : forall id ident root nss fs name attrs ns p kids pe v,
      env id = Some (TDStruct ident root nss fs) ->
      R (ERef id) (NElem name attrs ns p kids pe) v <->
      exists vs, v = VStruct vs /\ fields_hold o env R attrs kids (unclaimed fs kids) fs vs;
    d_enum : forall id ident root nss variants sk name attrs ns p kids pe v,
      env id = Some (TDEnum ident root nss variants sk) ->
      R (ERef id) (NElem name attrs ns p kids pe) v <-> choice R variants kids v;
    d_elem : forall t n v, R t n v -> is_elem n = true;
    d_none : forall id n v, env id = None -> u_type P id = None -> ~ R (ERef id) n v;
  }.

  (** All code of the program. *)
  Definition everything : visitors (mstate U) := mixed (fun _ => Abort ill_typed) o alg env P.

  (** What [T::deserialize] returns for the element [n], below the open elements [parents]: the tree
      semantics of ReaderSpec.v (C11). *)
  Definition result_of (t : ety) (n : node) (parents : list selem) : option (res verr value) :=
    match n with
    | NElem name attrs ns p kids pe =>
        let path := parents ++ [SElem name p] in
        match sem_act (sem_read everything n parents) path p kids pe
                (mdeserialize (fun _ => Abort ill_typed) o env P t (EInfo name ns (List.length path))) with
        | (inl (r, _), _) => Some r
        | (inr _, _) => None
        end
    | _ => None
    end.

  (** [T::deserialize] succeeds on [n], wherever it is, exactly if [R] relates [n] to a value. *)
  Definition implements (R : ety -> node -> value -> Prop) (t : ety) (n : node) : Prop :=
    is_elem n = true -> forall parents v, result_of t n parents = Some (Ok v) <-> R t n v.

  (** The hand-written implementations do what [R] says, provided everything they can call does. *)
  Definition hand_written_ok (R : ety -> node -> value -> Prop) : Prop :=
    forall id n, env id = None -> u_type P id <> None ->
    (forall m t, below m n -> implements R t m) ->
    (forall t, known_ty env t -> implements R t n) ->
    implements R (ERef id) n.
End Reads.
