(** Derived structs whose flattened fields have hand-written [RawDeserialize] implementations (de/mod.rs 709-730):
    README.md 96-106 plans such a type, for the parts of an element that no field is for.

    A flattened field's visitor is arbitrary code over a state type [St]: it sees attributes, text and child elements
    that are not for a field of the struct and were not taken by a flattened field declared before it. *)
From Verif Require Import Base Normalize Text Find Types Reader DeriveDe DeriveMixed.

(** A visitor: the one generated for a struct (its fields other than flattened ones with their slots, the values
    leaked, the visitors of the flattened fields in declaration order), or a hand-written one.  The order of the
    visitor's fields (deserialize.rs 32-54) cannot be observed, so they are kept apart here. *)
Inductive fstate (St : Type) :=
| FStruct (fs : list field) (ss : list slot) (leaked : list value) (flats : list St)
| FOther (s : St).
Arguments FStruct {St} fs ss leaked flats.
Arguments FOther {St} s.

(** What [ElementVisitor::element] (de/mod.rs 799-804) does with a child.  It owns the [ElementReader], so it can hand it
    back only unread: [Pass] is [Ok(Some(child))], [Take] everything else. *)
Inductive offer (St : Type) :=
| Pass (s : St)
| Take (act : action (fstate St) (res verr unit * St)).
Arguments Pass {St} s.
Arguments Take {St} act.

(** Hand-written code.  [fu_new]: [RawDeserializeVisitor::new] (de/mod.rs 714) of the types with a hand-written
    [RawDeserialize]; [fu_attribute], [fu_characters], [fu_element]: [ElementVisitor] (de/mod.rs 777-820);
    [fu_finalize]: [finalize] with [None] (de/mod.rs 716-719; [default] with [flatten] is an error, common.rs 574-580)
    and the value in [out] afterwards, which the trait's contract guarantees.  [fu_deserialize]: [T::deserialize] for
    the types of fields, arbitrary. *)
Record fuser (St : Type) := FUser {
  fu_new : nat -> option St;
  fu_attribute : St -> xname -> string -> res verr (option string) * St;
  fu_characters : St -> string -> position -> res string (option string) * St;
  fu_element : St -> einfo -> offer St;
  fu_finalize : St -> res verr value;
  fu_deserialize : ety -> einfo -> action (fstate St) (res verr value * list value);
}.
Arguments FUser {St} _ _ _ _ _ _.
Arguments fu_new {St} _.
Arguments fu_attribute {St} _.
Arguments fu_characters {St} _.
Arguments fu_element {St} _.
Arguments fu_finalize {St} _.
Arguments fu_deserialize {St} _.

Section Flat.
  Context {St : Type} (o : oracles) (alg : bs_alg) (P : fuser St).

  (** de/mod.rs 893-910: [delegate_element]. *)
  Fixpoint offer_flats (fl : list St) (i : einfo) : list St + action (fstate St) (res verr unit * list St) :=
    match fl with
    | [] => inl []
    | s :: fl' =>
        match fu_element P s i with
        | Take act => inr (amap (fun '(r, s') => (r, s' :: fl')) act)
        | Pass s' =>
            match offer_flats fl' i with
            | inl fl'' => inl (s' :: fl'')
            | inr act => inr (amap (fun '(r, fl'') => (r, s' :: fl'')) act)
            end
        end
    end.

  (** de/mod.rs 912-946: [delegate_attribute], [delegate_characters].  What a visitor hands back need not be what it was
      given. *)
  Fixpoint delegate_flats {E} (f : St -> string -> res E (option string) * St) (fl : list St) (a : string)
    : res E (option string) * list St :=
    match fl with
    | [] => (Ok (Some a), [])
    | s :: fl' =>
        match f s a with
        | (Ok (Some a'), s') => let (r, fl'') := delegate_flats f fl' a' in (r, s' :: fl'')
        | (r, s') => (r, s' :: fl')
        end
    end.

  (** deserialize.rs 285-293 (with 237-249): an own field, or the flattened ones. *)
  Definition fstruct_element (fs : list field) (ss : list slot) (l : list value) (fl : list St) (i : einfo)
    : action (fstate St) (res verr bool * fstate St) :=
    match find_field alg is_element fs (from_xml_name (ei_name i)) with
    | Some _ =>
        amap (fun '(r, s) => (r, match vs_kind s with
                                 | VkStruct _ ss' => FStruct fs ss' (vs_leaked s) fl
                                 | VkEnum _ => FStruct fs ss l fl
                                 end))
          (gstruct_element alg (fu_deserialize P) (VState (VkStruct fs ss) l) fs ss i)
    | None =>
        match offer_flats fl i with
        | inl fl' => ANoRead (Ok true, FStruct fs ss l fl')
        | inr act => amap (fun '(r, fl') => (map_ok (fun _ => false) r, FStruct fs ss l fl')) act
        end
    end.

  (** deserialize.rs 164-191 and 295-304 (with 237-249). *)
  Definition fstruct_attribute (fs : list field) (ss : list slot) (l : list value) (fl : list St) (n : xname) (v : string)
    : res verr (option string) * fstate St :=
    match find_field alg is_attribute fs n with
    | Some _ =>
        let (r, s) := struct_attribute o alg (VState (VkStruct fs ss) l) fs ss n v in
        (r, match vs_kind s with
            | VkStruct _ ss' => FStruct fs ss' (vs_leaked s) fl
            | VkEnum _ => FStruct fs ss l fl
            end)
    | None => let (r, fl') := delegate_flats (fun s v => fu_attribute P s n v) fl v in (r, FStruct fs ss l fl')
    end.

  (** deserialize.rs 257-263. *)
  Definition fstruct_characters (fs : list field) (ss : list slot) (l : list value) (fl : list St) (str : string) (p : position)
    : res string (option string) * fstate St :=
    let (r, fl') := delegate_flats (fun s str => fu_characters P s str p) fl str in (r, FStruct fs ss l fl').

  (** All visitors of the program. *)
  Definition flat_visitors : visitors (fstate St) := {|
    v_attribute := fun s n v =>
      match s with
      | FStruct fs ss l fl => fstruct_attribute fs ss l fl n v
      | FOther s => let (r, s') := fu_attribute P s n v in (r, FOther s')
      end;
    v_characters := fun s str p =>
      match s with
      | FStruct fs ss l fl => fstruct_characters fs ss l fl str p
      | FOther s => let (r, s') := fu_characters P s str p in (r, FOther s')
      end;
    v_element := fun s i =>
      match s with
      | FStruct fs ss l fl => fstruct_element fs ss l fl i
      | FOther s =>
          match fu_element P s i with
          | Pass s' => ANoRead (Ok true, FOther s')
          | Take act => amap (fun '(r, s') => (map_ok (fun _ => false) r, FOther s')) act
          end
      end;
  |}.

  Definition own (fs : list field) : list field := filter (fun f => negb (is_flatten f)) fs.

  (** deserialize.rs 56-88: the visitors of the flattened fields. *)
  Fixpoint new_flats (fs : list field) : option (list St) :=
    match fs with
    | [] => Some []
    | f :: fs' =>
        match new_flats fs' with
        | None => None
        | Some fl =>
            match f_mode f with
            | MFlatten id => option_map (fun s => s :: fl) (fu_new P id)
            | _ => Some fl
            end
        end
    end.

  (** deserialize.rs 90-146 and 320-330, in declaration order. *)
  Fixpoint flat_finalize (fs : list field) (ss : list slot) (fl : list St) : res verr (list value) :=
    match fs with
    | [] => Ok []
    | f :: fs' =>
        if is_flatten f then
          match fl with
          | s :: fl' => bind (fu_finalize P s) (fun v => map_ok (cons v) (flat_finalize fs' ss fl'))
          | [] => Abort ill_typed
          end
        else
          match ss with
          | s :: ss' =>
              bind (finalize_slot f s) (fun s' =>
              match slot_mem s' with
              | Some v => map_ok (cons v) (flat_finalize fs' ss' fl)
              | None => Abort UB
              end)
          | [] => Abort ill_typed
          end
    end.

  (** [T::deserialize] for the struct with the fields [fs] (de/mod.rs 743-755). *)
  Definition flat_deserialize (fs : list field) (i : einfo) : action (fstate St) (res verr value) :=
    match new_flats fs with
    | None => ANoRead (Abort ill_typed)
    | Some fl =>
        AReadTo (FStruct (own fs) (map (fun _ => SField false None) (own fs)) [] fl) (fun x s =>
          match x, s with
          | inr e, _ => Err e
          | inl _, FStruct _ ss _ fl' => map_ok VStruct (flat_finalize fs ss fl')
          | inl _, FOther _ => Abort ill_typed
          end)
    end.

  (** [static_xml::de::read] (de/mod.rs 260-269) of the struct. *)
  Definition read_flat (dbg : bool) (fs : list field) (src : list (xevent * position)) (fin : final) : res error value :=
    read dbg flat_visitors (flat_deserialize fs) (reader_new src fin).
End Flat.
