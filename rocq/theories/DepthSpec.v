(** How deeply calls of [read_to] nest.

    [ElementReader::read_to] (de/mod.rs 540-603) calls the visitor, which may call [read_to] for a child: this is the
    only recursion of reading.  A program is compared with the same program made to give up instead of nesting
    [read_to] more than [b] deep: if the two always have the same outcome, [b] levels are enough.  Nothing here is
    about the code: a visitor only gets to know its level. *)
From Verif Require Import Base Normalize Text Find FindProofs Types Reader ReaderSpec DeriveDe DeSpec.

Section Limit.
  Context {St : Type} (b : nat) (stop : abort).

  (** The action [act] of user code at level [n]; [given_up] instead of a call of [read_to] beyond level [b]. *)
  Definition limit {A B} (n : nat) (given_up : B) (f : A -> B) (act : action St A) : action (nat * St) B :=
    match act with
    | ANoRead a => ANoRead (f a)
    | AReadString k => AReadString (fun x => f (k x))
    | AReadTo s0 k =>
        if Nat.ltb n b then AReadTo (S n, s0) (fun x s => f (k x (snd s))) else ANoRead given_up
    end.

  (** A visitor's state together with the level it is at. *)
  Definition limited (V : visitors St) : visitors (nat * St) := {|
    v_attribute := fun '(n, s) x v => let (r, s') := v_attribute V s x v in (r, (n, s'));
    v_characters := fun '(n, s) str p => let (r, s') := v_characters V s str p in (r, (n, s'));
    v_element := fun '(n, s) i =>
      limit n (Abort stop, (n, s)) (fun '(r, s') => (r, (n, s'))) (v_element V s i);
  |}.

  Definition limited_root {T} (D : einfo -> action St (res verr T)) (i : einfo)
    : action (nat * St) (res verr T) :=
    limit 0 (Abort stop) (fun r => r) (D i).
End Limit.

(** [b] levels are enough for reading this stream: giving up beyond them makes no difference. *)
Definition levels_enough {St T} (b : nat) (V : visitors St) (D : einfo -> action St (res verr T))
  (src : list (xevent * position)) (fin : final) : Prop :=
  forall dbg stop, read dbg (limited b stop V) (limited_root b stop D) (reader_new src fin) =
                   read dbg V D (reader_new src fin).

(** [b] levels are not enough for it: the limit is hit. *)
Definition levels_exceeded {St T} (b : nat) (V : visitors St) (D : einfo -> action St (res verr T))
  (src : list (xevent * position)) (fin : final) : Prop :=
  forall dbg stop, read dbg (limited b stop V) (limited_root b stop D) (reader_new src fin) = Abort stop.

(** At most [b] elements are open at any time. *)
Definition depth_at_most (b : nat) (src : list (xevent * position)) : Prop :=
  forall k, List.length (opened [] (firstn k src)) <= b.

(** ** Derived types *)

(** Derived types used as variants, and as fields or variants of flattened fields. *)
Definition variant_type (vs : list variant) (id : nat) : Prop :=
  exists v k, In v vs /\ v_ty v = Some (k, ERef id).

Inductive child_type (env : tenv) : tdesc -> nat -> Prop :=
| ct_field : forall ident root nss fs f k id, In f fs -> f_mode f = MElement k (ERef id) ->
    child_type env (TDStruct ident root nss fs) id
| ct_flatten : forall ident root nss fs f fid ident' root' nss' vs sk id, In f fs -> f_mode f = MFlatten fid ->
    env fid = Some (TDEnum ident' root' nss' vs sk) -> variant_type vs id ->
    child_type env (TDStruct ident root nss fs) id
| ct_variant : forall ident root nss vs sk id, variant_type vs id ->
    child_type env (TDEnum ident root nss vs sk) id.

(** [chain env id n]: from type [id], [n] steps to the type of a child element are possible. *)
Inductive chain (env : tenv) : nat -> nat -> Prop :=
| chain_here : forall id d, env id = Some d -> chain env id 0
| chain_step : forall id d id' n, env id = Some d -> child_type env d id' -> chain env id' n -> chain env id (S n).

(** The names of the flattened variants of a struct clash neither with each other nor with those of its element
    fields. *)
Definition flat_names (env : tenv) (f : field) : list xname :=
  match f_mode f with
  | MFlatten id => match env id with Some (TDEnum _ _ _ vs _) => variant_names vs | _ => [] end
  | _ => []
  end.

Definition unshadowed (env : tenv) : Prop :=
  forall id ident root nss fs, env id = Some (TDStruct ident root nss fs) ->
  NoDup (field_names is_element fs ++ flat_map (flat_names env) fs).

(** [id'] can be met below [id]. *)
Inductive below_type (env : tenv) : nat -> nat -> Prop :=
| bt_child : forall id d id', env id = Some d -> child_type env d id' -> below_type env id id'
| bt_deeper : forall id d id' id'', env id = Some d -> child_type env d id' -> below_type env id' id'' ->
    below_type env id id''.
