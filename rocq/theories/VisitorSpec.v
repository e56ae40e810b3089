(** What a derived visitor holds after any calls of its methods, stated over the calls: no flags, no memory. *)
From Verif Require Import Base Normalize Text Find FindProofs Types Reader DeriveDe DeSpec DeriveMixed Catch Visitor MixedSpec.

(** The children called [n] that could be read, in the order of the calls. *)
Definition children (n : xname) (calls : list vcall) : list value :=
  flat_map (fun c => match c with
                     | CallElement i (Ok v) => if xn_eqb (from_xml_name (ei_name i)) n then [v] else []
                     | _ => []
                     end) calls.

(** The values of attributes called [n] that could be parsed. *)
Definition parsed (o : oracles) (t : tty) (n : xname) (calls : list vcall) : list tval :=
  flat_map (fun c => match c with
                     | CallAttribute m s =>
                         if xn_eqb m n then match parse_text o t s with Ok x => [x] | _ => [] end else []
                     | _ => []
                     end) calls.

(** [T] and [Option<T>] keep the first value, [Vec<T>] keeps all. *)
Definition kept (k : fkind) (v : value) (vs : list value) : value :=
  match k with KOne => v | KOpt => VSome v | KVec => VVec (v :: vs) end.

Section Spec.
  Context (o : oracles) (env : tenv).

  (** What the calls have stored in an element or attribute field. *)
  Definition stored (calls : list vcall) (f : field) : option value :=
    match f_mode f with
    | MElement k _ =>
        match children (expanded (f_name f)) calls with [] => None | v :: vs => Some (kept k v vs) end
    | MAttribute opt t =>
        match parsed o t (expanded (f_name f)) calls with
        | [] => None
        | x :: _ => Some (if opt then VSome (VText x) else VText x)
        end
    | _ => None
    end.

  Definition field_kept (calls : list vcall) (f : field) (v : value) : Prop :=
    match stored calls f with Some x => v = x | None => absent f v end.

  (** The call [c] is for an element called like the variant [w], which could be read or need not be. *)
  Definition hits (w : variant) (c : vcall) : Prop :=
    exists i r, c = CallElement i r /\ from_xml_name (ei_name i) = expanded (v_name w) /\
      (v_ty w = None \/ exists v, r = Ok v).

  Definition no_hits (ws : list variant) (l : list vcall) : Prop := forall w c, In w ws -> In c l -> ~ hits w c.

  (** Not called like a variant. *)
  Definition unnamed (ws : list variant) (c : vcall) : bool :=
    match c with
    | CallElement i _ => negb (existsb (xn_eqb (from_xml_name (ei_name i))) (variant_names ws))
    | _ => true
    end.

  (** An enum: the first call that hits a variant chooses it; later ones for this variant add to it.  [rest]: what goes
      to the flattened fields after it. *)
  Inductive enum_kept (ws : list variant) : list vcall -> option value -> list vcall -> Prop :=
  | ek_none : forall l, no_hits ws l -> enum_kept ws l None (filter (unnamed ws) l)
  | ek_unit : forall l1 c l2 j w, no_hits ws l1 -> nth_error (sorted_variants ws) j = Some w -> hits w c ->
      v_ty w = None ->
      enum_kept ws (l1 ++ c :: l2) (Some (VEnum j None)) (filter (unnamed ws) l1)
  | ek_field : forall l1 c l2 j w k t v vs, no_hits ws l1 -> nth_error (sorted_variants ws) j = Some w -> hits w c ->
      v_ty w = Some (k, t) -> children (expanded (v_name w)) (c :: l2) = v :: vs ->
      enum_kept ws (l1 ++ c :: l2) (Some (VEnum j (Some (kept k v vs)))) (filter (unnamed ws) l1).

  (** The calls for child elements that are not for an own element field of the struct. *)
  Definition left_over (fs : list field) (calls : list vcall) : list vcall :=
    filter (fun c => match c with
                     | CallElement i _ => negb (existsb (xn_eqb (from_xml_name (ei_name i))) (field_names is_element fs))
                     | _ => false
                     end) calls.

  (** The fields of a struct.  [l]: the calls that go to the next flattened field. *)
  Inductive fields_kept (calls : list vcall) : list vcall -> list field -> list value -> Prop :=
  | fk_nil : forall l, fields_kept calls l [] []
  | fk_own : forall l f fs v vs, is_flatten f = false -> field_kept calls f v ->
      fields_kept calls l fs vs -> fields_kept calls l (f :: fs) (v :: vs)
  | fk_flatten : forall l f fs id ident root nss ws sk v rest vs, f_mode f = MFlatten id ->
      env id = Some (TDEnum ident root nss ws sk) -> enum_kept ws l (Some v) rest ->
      fields_kept calls rest fs vs -> fields_kept calls l (f :: fs) (v :: vs).

  Inductive value_kept (id : nat) (calls : list vcall) : value -> Prop :=
  | vk_struct : forall ident root nss fs vs, env id = Some (TDStruct ident root nss fs) ->
      fields_kept calls (left_over fs calls) fs vs -> value_kept id calls (VStruct vs)
  | vk_enum : forall ident root nss ws sk v rest, env id = Some (TDEnum ident root nss ws sk) ->
      enum_kept ws calls (Some v) rest -> value_kept id calls v.
End Spec.

(** ** Conditions *)

(** rustc accepts the derived types, whatever the types of their fields are. *)
Definition accepted (env : tenv) : Prop :=
  forall id ident root nss fs f, env id = Some (TDStruct ident root nss fs) -> In f fs ->
    match f_mode f with
    | MElement _ _ | MAttribute _ _ => True
    | MFlatten id => exists ident root nss vs sk, env id = Some (TDEnum ident root nss vs sk)
    | MText _ => False
    end.

Section Conditions.
  Context {U : Type} (env : tenv) (P : huser U) (Q : abort -> Prop).

  Definition h_has (t : ety) : Prop :=
    match t with EText _ => True | ERef id => env id <> None \/ h_type P id <> None end.

  (** The types of the fields have [Deserialize] implementations. *)
  Definition h_fields : Prop :=
    (forall id ident root nss fs f k t, env id = Some (TDStruct ident root nss fs) -> In f fs ->
       f_mode f = MElement k t -> h_has t) /\
    (forall id ident root nss vs sk v k t, env id = Some (TDEnum ident root nss vs sk) -> In v vs ->
       v_ty v = Some (k, t) -> h_has t).

  (** What hand-written code may get from a call: panics only with [Q]. *)
  Definition caught {X} (x : X + failure) : Prop := forall m, x = inr (Panicked m) -> Q (Panic m).

  (** Every outcome of a decision satisfies [good]; types and visitors are of the program. *)
  Inductive outcomes {A} (good : A -> Prop) : haction U A -> Prop :=
  | out_none : forall a, good a -> outcomes good (HNoRead a)
  | out_string : forall k, (forall x, caught x -> good (k x)) -> outcomes good (HReadString k)
  | out_read : forall u0 k, (forall x u, caught x -> good (k x u)) -> outcomes good (HReadTo u0 k)
  | out_derived : forall w0 k, env (dv_type w0) <> None -> (forall x w, dv_type w = dv_type w0 -> caught x -> good (k x w)) ->
      outcomes good (HReadDerived w0 k)
  | out_element : forall w back k, env (dv_type w) <> None -> (forall w', dv_type w' = dv_type w -> outcomes good (back w')) ->
      (forall x w', dv_type w' = dv_type w -> caught x -> good (k x w')) -> outcomes good (HElement w back k)
  | out_deserialize : forall t k, h_has t -> (forall x, caught x -> good (k x)) -> outcomes good (HDeserialize t k).

  (** rustc accepts the program; hand-written code panics, if at all, with [Q], unless something it calls panics with
      something else. *)
  Record h_program : Prop := HProgram {
    hp_accepted : accepted env;
    hp_fields : h_fields;
    hp_type : forall id D i, h_type P id = Some D -> outcomes (aborts_in Q) (D i);
    hp_attribute : forall u n v, aborts_in Q (fst (h_attribute P u n v));
    hp_characters : forall u s p, aborts_in Q (fst (h_characters P u s p));
    hp_element : forall u i, outcomes (fun a => aborts_in Q (fst a)) (h_element P u i);
  }.
End Conditions.

(** What [finalize] makes of the calls: an enum without a value takes the default. *)
Definition finalizes (o : oracles) (env : tenv) (w : dvisitor) (default : option (value + string)) (v : value) : Prop :=
  value_kept o env (dv_type w) (dv_calls w) v \/
  exists ident root nss ws sk, env (dv_type w) = Some (TDEnum ident root nss ws sk) /\ no_hits ws (dv_calls w) /\
    default = Some (inl v).

(** The call is not answered with [Ok]. *)
Definition fails_call (o : oracles) (alg : bs_alg) (env : tenv) (w : dvisitor) (c : vcall) : Prop :=
  match c with
  | CallAttribute n v => forall x, reply_attribute o alg env w n v <> Ok x
  | CallCharacters s p => forall x, reply_characters o alg env w s p <> Ok x
  | CallElement i r => forall x, reply_element o alg env w i r <> Ok x
  end.

(** ** Programs as in DeriveMixed.v: panics are not caught, no derived visitor is called directly *)

Definition rethrowing_act {U A} (ab : abort -> A) (act : uaction U A) : haction U A :=
  let caught {X} (k : X + verr -> A) (x : X + failure) :=
    match x with inl v => k (inl v) | inr (Failed e) => k (inr e) | inr (Panicked m) => ab (Panic m) end in
  match act with
  | UNoRead a => HNoRead a
  | UReadString k => HReadString (caught k)
  | UReadTo u0 k => HReadTo u0 (fun x u => caught (fun x => k x u) x)
  | UDeserialize t k => HDeserialize t (caught k)
  end.

Definition rethrowing {U} (P : user U) : huser U := {|
  h_type := fun id => option_map (fun D i => rethrowing_act Abort (D i)) (u_type P id);
  h_attribute := u_attribute P;
  h_characters := u_characters P;
  h_element := fun u i => rethrowing_act (fun x => (Abort x, u)) (u_element P u i);
|}.
