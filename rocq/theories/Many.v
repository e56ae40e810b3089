(** A choice that may be made any number of times, to be flattened: static-xml/src/lib.rs 413-447 gives the schema and says
    that the derive macros cannot represent it yet.  This is a type for it in user code, a list written against the traits;
    the code derived for the struct that flattens it is that of DeriveFlat.v and DeriveMixedSer.v. *)
From Verif Require Import Base Text Types Reader DeriveDe DeriveMixed DeriveFlat Ser DeriveSer DeriveMixedSer.

(** The names of the choices and the types of what they hold.  A value of the type is a list of [VEnum k (Some x)]. *)
Definition choices := list (xname * ety).

Fixpoint choice_from (i : nat) (cs : choices) (n : xname) : option (nat * ety) :=
  match cs with
  | [] => None
  | (m, t) :: cs' => if xn_eqb m n then Some (i, t) else choice_from (S i) cs' n
  end.
Definition choice_of : choices -> xname -> option (nat * ety) := choice_from 0.

(** ** [RawDeserialize]

    The traits are those of de/mod.rs 709-730 and 777-818.  The visitor collects elements that are called like a choice and
    hands back everything else; [mid] is the type, [deser] the [Deserialize] implementations of the program. *)
Definition many_user (mid : nat) (cs : choices)
    (deser : ety -> einfo -> action (fstate (list value)) (res verr value * list value)) : fuser (list value) := {|
  fu_new := fun id => if Nat.eqb id mid then Some [] else None;
  fu_attribute := fun b n v => (Ok (Some v), b);
  fu_characters := fun b s _ => (Ok (Some s), b);
  fu_element := fun b i =>
    match choice_of cs (from_xml_name (ei_name i)) with
    | None => Pass b
    | Some (k, t) => Take (amap (fun '(r, _) =>
        match r with
        | Ok x => (Ok tt, VEnum k (Some x) :: b)
        | Err e => (Err e, b)
        | Abort x => (Abort x, b)
        end) (deser t i))
    end;
  fu_finalize := fun b => Ok (VVec (rev b));
  fu_deserialize := deser;
|}.

(** ** [Serialize]

    The trait is that of ser/mod.rs 494-501; [sub] are the [Serialize] implementations of the program, [nss] the
    namespaces the type declares. *)
Definition write_item (cs : choices) (sub : ety -> value -> serialize) {d} (v : value) (k : option serr -> wprog d) : wprog d :=
  match v with
  | VEnum i (Some x) =>
      match nth_error cs i with
      | Some (n, t) => write_one n (s_attrs (sub t x)) (fun k' => graft (s_kids (sub t x)) k') k
      | None => WPanic "unreachable"
      end
  | _ => WPanic "unreachable"
  end.
Definition many_serialize (nss : bmap string) (cs : choices) (sub : ety -> value -> serialize) (v : value) : serialize :=
  match v with
  | VVec l => Ser (write_namespaces nss (ARet None)) (for_each (write_item cs sub) l WRet)
  | _ => Ser (APanic "unreachable") (WPanic "unreachable")
  end.

(** ** Programs whose other types are text

    de/mod.rs 1067-1072; [ERef] does not occur. *)
Definition text_deser (o : oracles) {St} (t : ety) (i : einfo) : action St (res verr value * list value) :=
  match t with
  | EText t => amap (fun r => (map_ok VText r, [])) (deserialize_text (parse_text o t) i)
  | ERef _ => ANoRead (Abort (Panic "unreachable"), [])
  end.
