(** Derived types whose fields have hand-written [Deserialize] implementations, and hand-written
    implementations that use derived types (de/mod.rs 641-670: "It's occasionally useful to implement
    this manually").

    Hand-written code is arbitrary: any state, any decisions; it may ignore children, swallow errors and
    panic.  It is safe Rust, so all it can do with an [ElementReader] is to drop it, to call
    [read_string] or [read_to] with a visitor of its own, or to call [T::deserialize] for a text type or
    a derived type (for another hand-written type: that type's code is then part of the caller's). *)
From Verif Require Import Base Normalize Text Find Types Reader DeriveDe.

(** ** Derived code over an arbitrary [T::deserialize]

    The definitions of DeriveDe.v (and its citations) with [deserialize] as a parameter; [generic_same]
    in MixedProofs.v shows that they are the same. *)
Section Generic.
  Context {St : Type} (alg : bs_alg) (deser : ety -> einfo -> action St (res verr value * list value)).

  (** de/mod.rs 958-1000. *)
  Definition gfield_init (k : fkind) (t : ety) (i : einfo) : action St (res verr value * list value) :=
    amap (fun '(r, l) => (map_ok (init_value k) r, l)) (deser t i).

  (** de/mod.rs 958-1000. *)
  Definition gfield_update (k : fkind) (t : ety) (old : value) (i : einfo) : action St (res verr value * list value) :=
    match k with
    | KOne | KOpt => ANoRead (Err (duplicate_element (from_xml_name (ei_name i))), [])
    | KVec => amap (fun '(r, l) => (bind r (push_value old), l)) (deser t i)
    end.

  (** deserialize.rs 344-435. *)
  Definition genum_element (e : estate) (i : einfo) : option (action St (res verr unit * estate * list value)) :=
    let name := from_xml_name (ei_name i) in
    let vs := sorted_variants (e_variants e) in
    let element_i := find alg name (variant_table (e_variants e)) in
    if e_init e then
      Some match e_mem e with
      | Some (VEnum j p) =>
          match nth_error vs j with
          | None => ANoRead (Abort UB, e, [])
          | Some v =>
              match element_i with
              | Some j' =>
                  if Nat.eqb j' j then
                    match v_ty v, p with
                    | None, _ => ANoRead (Ok tt, e, [])
                    | Some (k, t), Some f =>
                        amap (fun '(r, l) =>
                                match r with
                                | Ok f' => (Ok tt, e_set e (VEnum j (Some f')), l)
                                | Err err => (Err err, e, l)
                                | Abort x => (Abort x, e, l)
                                end) (gfield_update k t f i)
                    | Some _, None => ANoRead (Abort UB, e, [])
                    end
                  else ANoRead (Err (unexpected_element name (expanded (v_name v))), e, [])
              | None => ANoRead (Ok tt, e, [])
              end
          end
      | _ => ANoRead (Abort UB, e, [])
      end
    else
      match element_i with
      | None => None
      | Some j =>
          Some match nth_error vs j with
          | None => ANoRead (Abort UB, e, [])
          | Some v =>
              let write (v : value) (l : list value) :=
                match e_mem e with
                | None => (Ok tt, e_set e v, l)
                | Some _ => (Abort overwritten, e, l)
                end in
              match v_ty v with
              | None => ANoRead (write (VEnum j None) [])
              | Some (k, t) =>
                  amap (fun '(r, l) =>
                          match r with
                          | Ok f => write (VEnum j (Some f)) l
                          | Err err => (Err err, e, l)
                          | Abort x => (Abort x, e, l)
                          end) (gfield_init k t i)
              end
          end
      end.

  (** de/mod.rs 893-912. *)
  Fixpoint gdelegate_element (ss : list slot) (i : einfo)
    : option (action St (res verr unit * list slot * list value)) :=
    match ss with
    | [] => None
    | s :: ss' =>
        let rest := option_map (amap (fun '(r, ss'', l) => (r, s :: ss'', l))) (gdelegate_element ss' i) in
        match s with
        | SField _ _ => rest
        | SFlat e =>
            match genum_element e i with
            | Some act => Some (amap (fun '(r, e', l) => (r, SFlat e' :: ss', l)) act)
            | None => rest
            end
        end
    end.

  (** deserialize.rs 193-224. *)
  Definition gelement_field (k : fkind) (t : ety) (present : bool) (mem : option value) (i : einfo)
    : action St (res verr unit * slot * list value) :=
    if present then
      match mem with
      | None => ANoRead (Abort UB, SField present mem, [])
      | Some old =>
          amap (fun '(r, l) =>
                  match r with
                  | Ok v => (Ok tt, SField true (Some v), l)
                  | Err err => (Err err, SField present mem, l)
                  | Abort x => (Abort x, SField present mem, l)
                  end) (gfield_update k t old i)
      end
    else
      amap (fun '(r, l) =>
              match bind r (write_mem mem) with
              | Ok mem' => (Ok tt, SField true mem', l)
              | Err err => (Err err, SField present mem, l)
              | Abort x => (Abort x, SField present mem, l)
              end) (gfield_init k t i).

  (** deserialize.rs 284-304. *)
  Definition gstruct_element (s : vstate) (fs : list field) (ss : list slot) (i : einfo)
    : action St (res verr bool * vstate) :=
    match find_field alg is_element fs (from_xml_name (ei_name i)) with
    | Some p =>
        match nth_error fs p, nth_error ss p with
        | Some (Field _ (MElement k t) _), Some (SField present mem) =>
            amap (fun '(r, sl, l) => (map_ok (fun _ => false) r, put s (set_nth p sl ss) l))
              (gelement_field k t present mem i)
        | _, _ => ANoRead (Abort ill_typed, s)
        end
    | None =>
        match gdelegate_element ss i with
        | Some act => amap (fun '(r, ss', l) => (map_ok (fun _ => false) r, put s ss' l)) act
        | None => ANoRead (Ok true, s)
        end
    end.

  Definition gelement (s : vstate) (i : einfo) : action St (res verr bool * vstate) :=
    match vs_kind s with
    | VkStruct fs ss => gstruct_element s fs ss i
    | VkEnum e =>
        match genum_element e i with
        | Some act => amap (fun '(r, e', l) => (map_ok (fun _ => false) r, VState (VkEnum e') (l ++ vs_leaked s))) act
        | None => ANoRead (Ok true, s)
        end
    end.
End Generic.

(** ** Hand-written code *)

(** A decision about an [ElementReader] ([action] in Reader.v), including [T::deserialize]. *)
Inductive uaction (U A : Type) :=
| UNoRead (a : A)
| UReadString (k : string + verr -> A)
| UReadTo (u0 : U) (k : endinfo + verr -> U -> A)
| UDeserialize (t : ety) (k : value + verr -> A).
Arguments UNoRead {U A} a.
Arguments UReadString {U A} k.
Arguments UReadTo {U A} u0 k.
Arguments UDeserialize {U A} t k.

(** All hand-written code of a program. [u_type]: the types with a hand-written [Deserialize], named by
    numbers that the type environment does not use. [u_attribute], [u_characters], [u_element]:
    [ElementVisitor] (de/mod.rs 777-820) of the hand-written visitors. *)
Record user (U : Type) := User {
  u_type : nat -> option (einfo -> uaction U (res verr value));
  u_attribute : U -> xname -> string -> res verr (option string) * U;
  u_characters : U -> string -> position -> res string (option string) * U;
  u_element : U -> einfo -> uaction U (res verr bool * U);
}.
Arguments User {U} _ _ _ _.
Arguments u_type {U} _.
Arguments u_attribute {U} _.
Arguments u_characters {U} _.
Arguments u_element {U} _.

(** A visitor: a derived or a hand-written one. *)
Inductive mstate (U : Type) := MDerived (s : vstate) | MUser (u : U).
Arguments MDerived {U} s.
Arguments MUser {U} u.

Section Mixed.
  (** [odd]: the result if [read_to] gave back a visitor of another type than it was called with. That
      cannot happen. *)
  Context {U : Type} (odd : forall A, res verr A) (o : oracles) (alg : bs_alg) (env : tenv) (P : user U).

  (** [T::deserialize] for text types and derived types: de/mod.rs 1067-1072 and 743-755. *)
  Definition known_deserialize (t : ety) (i : einfo) : action (mstate U) (res verr value * list value) :=
    match t with
    | EText t => amap (fun r => (map_ok VText r, [])) (deserialize_text (parse_text o t) i)
    | ERef id =>
        match new_visitor env id with
        | None => ANoRead (Abort ill_typed, [])
        | Some s0 => AReadTo (MDerived s0) (fun x s =>
            match s with
            | MDerived s => match x with inl _ => finalize s | inr e => (Err e, live s) end
            | MUser _ => (odd value, [])
            end)
        end
    end.

  (** A hand-written decision as one of Reader.v. A panic inside [T::deserialize] is not caught: [ab]. *)
  Definition lower {A} (ab : abort -> A) (oddA : A) (act : uaction U A) (i : einfo) : action (mstate U) A :=
    match act with
    | UNoRead a => ANoRead a
    | UReadString k => AReadString k
    | UReadTo u0 k => AReadTo (MUser u0) (fun x s => match s with MUser u => k x u | MDerived _ => oddA end)
    | UDeserialize t k =>
        amap (fun '(r, _) => match r with Ok v => k (inl v) | Err e => k (inr e) | Abort x => ab x end)
          (known_deserialize t i)
    end.

  (** [T::deserialize] for any type. What hand-written code leaks is not recorded. *)
  Definition mdeserialize (t : ety) (i : einfo) : action (mstate U) (res verr value * list value) :=
    match t with
    | EText _ => known_deserialize t i
    | ERef id =>
        match env id, u_type P id with
        | None, Some D => amap (fun r => (r, [])) (lower Abort (odd value) (D i) i)
        | _, _ => known_deserialize t i
        end
    end.

  (** All visitors of the program. *)
  Definition mixed : visitors (mstate U) := {|
    v_attribute := fun s n v =>
      match s with
      | MDerived s => let (r, s') := v_attribute (derived o alg env) s n v in (r, MDerived s')
      | MUser u => let (r, u') := u_attribute P u n v in (r, MUser u')
      end;
    v_characters := fun s str p =>
      match s with
      | MDerived s => let (r, s') := v_characters (derived o alg env) s str p in (r, MDerived s')
      | MUser u => let (r, u') := u_characters P u str p in (r, MUser u')
      end;
    v_element := fun s i =>
      match s with
      | MDerived s => amap (fun '(r, s') => (r, MDerived s')) (gelement alg mdeserialize s i)
      | MUser u =>
          amap (fun '(r, u') => (r, MUser u')) (lower (fun x => (Abort x, u)) (odd bool, u) (u_element P u i) i)
      end;
  |}.

  Definition mixed_root (t : ety) (i : einfo) : action (mstate U) (res verr value) := amap fst (mdeserialize t i).

  Definition read_with (dbg : bool) (t : ety) (src : list (xevent * position)) (fin : final) : res error value :=
    read dbg mixed (mixed_root t) (reader_new src fin).
End Mixed.

(** [static_xml::de::read::<T>] (de/mod.rs 260-269) for a text type, a derived type or a hand-written one. *)
Definition read_mixed {U} (o : oracles) (alg : bs_alg) (env : tenv) (P : user U) (dbg : bool) (t : ety)
  (src : list (xevent * position)) (fin : final) : res error value :=
  read_with (fun _ => Abort ill_typed) o alg env P dbg t src fin.
