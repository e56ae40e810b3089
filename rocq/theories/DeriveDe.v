(** Code generated by [#[derive(Deserialize)]] (static-xml-derive/src/deserialize.rs), with the
    runtime helpers it calls (static-xml/src/de/mod.rs 741-757 and 893-1020).

    Memory: every place a generated visitor writes through a raw pointer or [MaybeUninit] is an
    [option value] ([None]: uninitialized).  Using an uninitialized place is [Abort UB].
    [ptr::write] on a place that holds a live value would silently leak that value; the model aborts
    instead, so that "never aborts" includes "never overwrites a live value".

    Leaks: the generated visitors have no [Drop] and [MaybeUninit] does not drop its content, so
    when deserialization fails everything already stored is leaked.  The second component of the
    results below collects these values. *)
From Verif Require Import Base Normalize Text Find Types Reader.

(** ** Messages: de/mod.rs 38-83 *)
Definition missing_element (n : xname) : verr := Wrap ("Missing expected element " ++ xn_display n).
Definition missing_attribute (n : xname) : verr := Wrap ("Missing expected attribute " ++ xn_display n).
Definition duplicate_attribute (n : xname) : verr := Wrap ("Duplicate attribute " ++ xn_display n).
Definition duplicate_element (n : xname) : verr := Wrap ("Duplicate element " ++ xn_display n).
Definition unexpected_element (n after : xname) : verr :=
  Wrap ("Got unexpected element " ++ xn_display n ++ " after " ++ xn_display after)%string.
Definition cant_be_empty (ident : string) : verr := Wrap (ident ++ " can't be empty").

(** The program would have been rejected by rustc, so there is nothing to run. *)
Definition ill_typed : abort := Panic "does not compile".
Definition overwritten : abort := Panic "live value overwritten".

Definition amap {St A B} (f : A -> B) (act : action St A) : action St B :=
  match act with
  | ANoRead a => ANoRead (f a)
  | AReadString k => AReadString (fun x => f (k x))
  | AReadTo s k => AReadTo s (fun x s' => f (k x s'))
  end.

(** ** Visitor states *)

(** The visitor generated for an enum, deserialize.rs 404-407: [initialized] and [out]. *)
Record estate := EState {
  e_ident : string; e_variants : list variant;   (* the visitor's type *)
  e_init : bool; e_mem : option value }.

(** What a struct's visitor keeps per field, deserialize.rs 32-54: the flag [<field>_present] and
    the field's part of [out], or the visitor of a flattened field. *)
Inductive slot :=
| SField (present : bool) (mem : option value)
| SFlat (e : estate).

(** A visitor.  [leaked]: values leaked by reads nested in it that failed. *)
Inductive vkind := VkStruct (fields : list field) (slots : list slot) | VkEnum (e : estate).
Record vstate := VState { vs_kind : vkind; vs_leaked : list value }.

Definition opt_list {A} (o : option A) : list A := match o with Some a => [a] | None => [] end.

Definition slot_mem (s : slot) : option value :=
  match s with SField _ m => m | SFlat e => e_mem e end.

(** Values that are lost when the visitor goes away without its [out] being used. *)
Definition live_slots (ss : list slot) : list value := flat_map (fun s => opt_list (slot_mem s)) ss.

Definition live (s : vstate) : list value :=
  match vs_kind s with
  | VkStruct _ ss => live_slots ss
  | VkEnum e => opt_list (e_mem e)
  end ++ vs_leaked s.

(** [RawDeserializeVisitor::new]: deserialize.rs 441-446 (enum), 56-88 and 312-318 (struct). *)
Definition new_enum (ident : string) (vs : list variant) : estate := EState ident vs false None.

Fixpoint new_slots (env : tenv) (fs : list field) : option (list slot) :=
  match fs with
  | [] => Some []
  | f :: fs' =>
      match new_slots env fs' with
      | None => None
      | Some ss =>
          match f_mode f with
          | MElement _ _ | MAttribute _ _ => Some (SField false None :: ss)
          | MFlatten id =>
              match env id with
              | Some (TDEnum ident _ _ vs _) => Some (SFlat (new_enum ident vs) :: ss)
              | _ => None
              end
          | MText _ => None     (* deserialize.rs 143: [todo!] while deriving *)
          end
      end
  end.

Definition new_visitor (env : tenv) (id : nat) : option vstate :=
  match env id with
  | Some (TDStruct _ _ _ fs) =>
      option_map (fun ss => VState (VkStruct fs ss) []) (new_slots env fs)
  | Some (TDEnum ident _ _ vs _) => Some (VState (VkEnum (new_enum ident vs)) [])
  | None => None
  end.

(** ** finalize *)

(** deserialize.rs 448-461: an enum's [finalize]. The generated code never passes a default:
    [impl_deserialize_via_raw] passes [None] (de/mod.rs 751), and [default] with [flatten] is an
    error (common.rs 574-580). *)
Definition enum_finalize (e : estate) : res verr estate :=
  if e_init e then Ok e else Err (cant_be_empty (e_ident e)).

(** [ptr::write]. *)
Definition write_mem (mem : option value) (v : value) : res verr (option value) :=
  match mem with None => Ok (Some v) | Some _ => Abort overwritten end.

(** [DeserializeElementField::missing] and [DeserializeAttrField::missing], de/mod.rs 967-1000 and
    1006-1020. *)
Definition missing (f : field) : res verr value :=
  match f_mode f with
  | MElement KOne _ => Err (missing_element (expanded (f_name f)))
  | MElement KOpt _ => Ok VNone
  | MElement KVec _ => Ok (VVec [])
  | MAttribute false _ => Err (missing_attribute (expanded (f_name f)))
  | MAttribute true _ => Ok VNone
  | MFlatten _ | MText _ => Abort ill_typed
  end.

(** deserialize.rs 90-146, one field. *)
Definition finalize_slot (f : field) (s : slot) : res verr slot :=
  match s with
  | SField true _ => Ok s
  | SField false mem =>
      bind (match f_default f with Some v => Ok v | None => missing f end) (fun v =>
      map_ok (SField false) (write_mem mem v))
  | SFlat e => map_ok SFlat (enum_finalize e)
  end.

Fixpoint finalize_slots (fs : list field) (ss : list slot) : res verr unit * list slot :=
  match fs, ss with
  | f :: fs', s :: ss' =>
      match finalize_slot f s with
      | Ok s' => let (r, ss'') := finalize_slots fs' ss' in (r, s' :: ss'')
      | Err e => (Err e, ss)
      | Abort x => (Abort x, ss)
      end
  | _, _ => (Ok tt, ss)
  end.

(** [assume_init]: all memory must be initialized. *)
Fixpoint assume_init (ss : list slot) : res verr (list value) :=
  match ss with
  | [] => Ok []
  | s :: ss' =>
      match slot_mem s with
      | None => Abort UB
      | Some v => map_ok (cons v) (assume_init ss')
      end
  end.

(** The rest of [deserialize] after [read_to], de/mod.rs 751-753. *)
Definition finalize (s : vstate) : res verr value * list value :=
  match vs_kind s with
  | VkStruct fs ss =>
      match finalize_slots fs ss with
      | (Ok _, ss') => (map_ok VStruct (assume_init ss'), vs_leaked s)
      | (Err e, ss') => (Err e, live_slots ss' ++ vs_leaked s)
      | (Abort x, ss') => (Abort x, live_slots ss' ++ vs_leaked s)
      end
  | VkEnum e =>
      match enum_finalize e with
      | Ok _ => (match e_mem e with Some v => Ok v | None => Abort UB end, vs_leaked s)
      | Err err => (Err err, live s)
      | Abort x => (Abort x, live s)
      end
  end.

Section Derive.
  Context (o : oracles) (alg : bs_alg) (env : tenv).

  (** [Deserialize::deserialize] for a text type (de/mod.rs 1067-1072) or a derived type
      (de/mod.rs 743-755). *)
  Definition deserialize (t : ety) (i : einfo) : action vstate (res verr value * list value) :=
    match t with
    | EText t => amap (fun r => (map_ok VText r, [])) (deserialize_text (parse_text o t) i)
    | ERef id =>
        match new_visitor env id with
        | None => ANoRead (Abort ill_typed, [])
        | Some s0 => AReadTo s0 (fun x s =>
            match x with
            | inl _ => finalize s
            | inr e => (Err e, live s)
            end)
        end
    end.

  (** [DeserializeElementField::init], de/mod.rs 958-1000. *)
  Definition init_value (k : fkind) (v : value) : value :=
    match k with KOne => v | KOpt => VSome v | KVec => VVec [v] end.

  Definition field_init (k : fkind) (t : ety) (i : einfo) : action vstate (res verr value * list value) :=
    amap (fun '(r, l) => (map_ok (init_value k) r, l)) (deserialize t i).

  (** [DeserializeElementField::update] on the value [old], de/mod.rs 958-1000: the new value. *)
  Definition push_value (old v : value) : res verr value :=
    match old with VVec vs => Ok (VVec (vs ++ [v])) | _ => Abort UB end.

  Definition field_update (k : fkind) (t : ety) (old : value) (i : einfo)
    : action vstate (res verr value * list value) :=
    match k with
    | KOne | KOpt => ANoRead (Err (duplicate_element (from_xml_name (ei_name i))), [])
    | KVec => amap (fun '(r, l) => (bind r (push_value old), l)) (deserialize t i)
    end.

  (** ** Enums: deserialize.rs 344-435 *)

  Definition e_set (e : estate) (v : value) : estate :=
    EState (e_ident e) (e_variants e) true (Some v).

  (** [ElementVisitor::element] of an enum's visitor.  [None]: the child is passed back unread.
      The match on the initialized value has no arm for skipped variants, so deriving [Deserialize]
      for an enum that has some does not compile (rustc: non-exhaustive patterns). *)
  Definition enum_element (e : estate) (i : einfo)
    : option (action vstate (res verr unit * estate * list value)) :=
    let name := from_xml_name (ei_name i) in
    let vs := sorted_variants (e_variants e) in
    let element_i := find alg name (variant_table (e_variants e)) in
    if e_init e then
      Some match e_mem e with
      | Some (VEnum j p) =>
          match nth_error vs j with
          | None => ANoRead (Abort UB, e, [])
          | Some v =>
              match element_i with
              | Some j' =>
                  if Nat.eqb j' j then
                    match v_ty v, p with
                    | None, _ => ANoRead (Ok tt, e, [])
                    | Some (k, t), Some f =>
                        amap (fun '(r, l) =>
                                match r with
                                | Ok f' => (Ok tt, e_set e (VEnum j (Some f')), l)
                                | Err err => (Err err, e, l)
                                | Abort x => (Abort x, e, l)
                                end) (field_update k t f i)
                    | Some _, None => ANoRead (Abort UB, e, [])
                    end
                  else ANoRead (Err (unexpected_element name (expanded (v_name v))), e, [])
              | None => ANoRead (Ok tt, e, [])
              end
          end
      | _ => ANoRead (Abort UB, e, [])
      end
    else
      match element_i with
      | None => None
      | Some j =>
          Some match nth_error vs j with
          | None => ANoRead (Abort UB, e, [])
          | Some v =>
              let write (v : value) (l : list value) :=
                match e_mem e with
                | None => (Ok tt, e_set e v, l)
                | Some _ => (Abort overwritten, e, l)
                end in
              match v_ty v with
              | None => ANoRead (write (VEnum j None) [])
              | Some (k, t) =>
                  amap (fun '(r, l) =>
                          match r with
                          | Ok f => write (VEnum j (Some f)) l
                          | Err err => (Err err, e, l)
                          | Abort x => (Abort x, e, l)
                          end) (field_init k t i)
              end
          end
      end.

  (** An enum's visitor does not override [attribute] and [characters] (de/mod.rs 784-791,
      813-819): it passes everything back. *)
  Definition enum_attribute (e : estate) (_ : xname) (v : string) : res verr (option string) * estate :=
    (Ok (Some v), e).
  Definition enum_characters (e : estate) (s : string) (_ : position) : res string (option string) * estate :=
    (Ok (Some s), e).

  (** ** Delegation to flattened fields, in declaration order: de/mod.rs 893-946 *)

  (** [None]: every flattened field passed the child back. *)
  Fixpoint delegate_element (ss : list slot) (i : einfo)
    : option (action vstate (res verr unit * list slot * list value)) :=
    match ss with
    | [] => None
    | s :: ss' =>
        let rest := option_map (amap (fun '(r, ss'', l) => (r, s :: ss'', l))) (delegate_element ss' i) in
        match s with
        | SField _ _ => rest
        | SFlat e =>
            match enum_element e i with
            | Some act => Some (amap (fun '(r, e', l) => (r, SFlat e' :: ss', l)) act)
            | None => rest
            end
        end
    end.

  Fixpoint delegate {E A} (f : estate -> A -> res E (option A) * estate) (ss : list slot) (a : A)
    : res E (option A) * list slot :=
    match ss with
    | [] => (Ok (Some a), [])
    | s :: ss' =>
        let go a s := let (r, ss'') := delegate f ss' a in (r, s :: ss'') in
        match s with
        | SField _ _ => go a s
        | SFlat e =>
            match f e a with
            | (Ok (Some a'), e') => go a' (SFlat e')
            | (r, e') => (r, SFlat e' :: ss')
            end
        end
    end.

  (** ** Structs: deserialize.rs 164-224 and 284-304 *)

  (** [find(name, ELEMENTS)] / [find(name, ATTRIBUTES)] and the field the match arm is for. *)
  Definition find_field (sel : field -> bool) (fs : list field) (n : xname) : option nat :=
    match find alg n (table (sorted_fields sel fs)) with
    | Some i => option_map fst (nth_error (sorted_fields sel fs) i)
    | None => None
    end.

  Definition put (s : vstate) (ss : list slot) (l : list value) : vstate :=
    match vs_kind s with
    | VkStruct fs _ => VState (VkStruct fs ss) (l ++ vs_leaked s)
    | VkEnum _ => s
    end.

  (** deserialize.rs 193-224: the match arms of an element field, whose present flag and memory are
      given. *)
  Definition element_field (k : fkind) (t : ety) (present : bool) (mem : option value) (i : einfo)
    : action vstate (res verr unit * slot * list value) :=
    if present then
      match mem with
      | None => ANoRead (Abort UB, SField present mem, [])
      | Some old =>
          amap (fun '(r, l) =>
                  match r with
                  | Ok v => (Ok tt, SField true (Some v), l)
                  | Err err => (Err err, SField present mem, l)
                  | Abort x => (Abort x, SField present mem, l)
                  end) (field_update k t old i)
      end
    else
      amap (fun '(r, l) =>
              match bind r (write_mem mem) with
              | Ok mem' => (Ok tt, SField true mem', l)
              | Err err => (Err err, SField present mem, l)
              | Abort x => (Abort x, SField present mem, l)
              end) (field_init k t i).

  Definition struct_element (s : vstate) (fs : list field) (ss : list slot) (i : einfo)
    : action vstate (res verr bool * vstate) :=
    match find_field is_element fs (from_xml_name (ei_name i)) with
    | Some p =>
        match nth_error fs p, nth_error ss p with
        | Some (Field _ (MElement k t) _), Some (SField present mem) =>
            amap (fun '(r, sl, l) => (map_ok (fun _ => false) r, put s (set_nth p sl ss) l))
              (element_field k t present mem i)
        | _, _ => ANoRead (Abort ill_typed, s)
        end
    | None =>
        match delegate_element ss i with
        | Some act => amap (fun '(r, ss', l) => (map_ok (fun _ => false) r, put s ss' l)) act
        | None => ANoRead (Ok true, s)
        end
    end.

  (** deserialize.rs 164-191. *)
  Definition attribute_field (n : xname) (opt : bool) (t : tty) (present : bool) (mem : option value)
    (v : string) : res verr unit * slot :=
    if present then (Err (duplicate_attribute n), SField present mem)
    else
      match bind (map_ok (fun x => if opt then VSome (VText x) else VText x)
                    (attr_init (parse_text o t) v)) (write_mem mem) with
      | Ok mem' => (Ok tt, SField true mem')
      | Err e => (Err e, SField present mem)
      | Abort x => (Abort x, SField present mem)
      end.

  Definition struct_attribute (s : vstate) (fs : list field) (ss : list slot) (n : xname) (v : string)
    : res verr (option string) * vstate :=
    match find_field is_attribute fs n with
    | Some p =>
        match nth_error fs p, nth_error ss p with
        | Some (Field _ (MAttribute opt t) _), Some (SField present mem) =>
            let (r, sl) := attribute_field n opt t present mem v in
            (map_ok (fun _ => None) r, put s (set_nth p sl ss) [])
        | _, _ => (Abort ill_typed, s)
        end
    | None =>
        let (r, ss') := delegate (fun e v => enum_attribute e n v) ss v in (r, put s ss' [])
    end.

  Definition struct_characters (s : vstate) (ss : list slot) (str : string) (p : position)
    : res string (option string) * vstate :=
    let (r, ss') := delegate (fun e str => enum_characters e str p) ss str in (r, put s ss' []).

  (** All derived visitors of the program. *)
  Definition derived : visitors vstate := {|
    v_attribute := fun s n v =>
      match vs_kind s with
      | VkStruct fs ss => struct_attribute s fs ss n v
      | VkEnum e => let (r, e') := enum_attribute e n v in (r, VState (VkEnum e') (vs_leaked s))
      end;
    v_characters := fun s str p =>
      match vs_kind s with
      | VkStruct fs ss => struct_characters s ss str p
      | VkEnum e => let (r, e') := enum_characters e str p in (r, VState (VkEnum e') (vs_leaked s))
      end;
    v_element := fun s i =>
      match vs_kind s with
      | VkStruct fs ss => struct_element s fs ss i
      | VkEnum e =>
          match enum_element e i with
          | Some act => amap (fun '(r, e', l) => (map_ok (fun _ => false) r, VState (VkEnum e') (l ++ vs_leaked s))) act
          | None => ANoRead (Ok true, s)
          end
      end;
  |}.

  (** [static_xml::de::read::<T>], for a derived or text type. *)
  Definition de_root (t : ety) (i : einfo) : action vstate (res verr value) :=
    amap fst (deserialize t i).

  Definition read_as (dbg : bool) (t : ety) (src : list (xevent * position)) (fin : final)
    : res error value :=
    read dbg derived (de_root t) (reader_new src fin).
End Derive.
