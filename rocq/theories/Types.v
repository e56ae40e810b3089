(** Descriptions of the types [static-xml-derive] generates code for: the result of
    [ElementStruct::new] and [ElementEnum::new] (static-xml-derive/src/common.rs 414-667), and
    values of such types. *)
From Verif Require Import Base Normalize Text Find.

(** [Name], common.rs 259-264.  The identifier and prefix only serve diagnostics. *)
Record dname := DName { n_ns : option string; n_local : string }.

(** [Name::expanded] and [Name::quote_expanded], common.rs 276-293. *)
Definition expanded (n : dname) : xname :=
  XName (match n_ns n with Some s => s | None => "" end) (n_local n).

(** A Rust type [T: Deserialize + Serialize]: a text type, or a derived type (a key of the type
    environment).  *)
Inductive ety := EText (t : tty) | ERef (id : nat).

(** The field's type: [T], [Option<T>] or [Vec<T>] (de/mod.rs 958-1000, ser/mod.rs 525-564). *)
Inductive fkind := KOne | KOpt | KVec.

(** Values. [VStruct]: the fields in declaration order. [VEnum i p]: the [i]th variant, in the sorted
    order of [ElementEnum::variants], with its payload if any. [VSkipped]: a variant marked
    [skip]. *)
Inductive value :=
| VText (v : tval)
| VStruct (fs : list value)
| VEnum (i : nat) (p : option value)
| VSkipped
| VNone
| VSome (v : value)
| VVec (l : list value).

(** [ElementFieldMode], common.rs 516-523.  A flattened field's type must implement
    [RawDeserialize], which only the enum derivation provides (deserialize.rs 464), so it names an
    enum. An attribute's type is [T] or [Option<T>] for [T: ParseText]; there is no [Vec] impl. *)
Inductive fmode :=
| MElement (k : fkind) (t : ety)
| MAttribute (opt : bool) (t : tty)
| MFlatten (id : nat)
| MText (t : tty).

(** [ElementField], common.rs 525-532.  [f_default]: the value of [Default::default()] of the field's
    type if the field is marked [default]. *)
Record field := Field { f_name : dname; f_mode : fmode; f_default : option value }.

(** [ElementVariant], common.rs 610-614: [None] is a unit variant. *)
Record variant := Variant { v_name : dname; v_ty : option (fkind * ety) }.

(** [s_ident]/[en_ident]: the Rust identifier, as printed by [stringify!]. [_root]: the name from
    [SerializeRoot].  [_nss]: the declared prefixes (prefix to URL, common.rs 256-257).
    [en_variants]: the non-skipped variants in declaration order. *)
Inductive tdesc :=
| TDStruct (ident : string) (root : dname) (nss : bmap string) (fields : list field)
| TDEnum (ident : string) (root : dname) (nss : bmap string) (variants : list variant)
    (skipped : bool).

Definition tenv := nat -> option tdesc.

(** Order used for struct fields: [sort_by_key(|p| fields[p].name.expanded())], common.rs 468-469. *)
Definition field_le (a b : nat * dname) : bool :=
  match xn_compare (expanded (snd a)) (expanded (snd b)) with Gt => false | _ => true end.

Fixpoint indexed_from {A} (i : nat) (l : list A) : list (nat * A) :=
  match l with [] => [] | x :: l' => (i, x) :: indexed_from (S i) l' end.

Definition is_element (f : field) : bool :=
  match f_mode f with MElement _ _ => true | _ => false end.
Definition is_attribute (f : field) : bool :=
  match f_mode f with MAttribute _ _ => true | _ => false end.
Definition is_flatten (f : field) : bool :=
  match f_mode f with MFlatten _ => true | _ => false end.

(** Fields of the given mode with their declaration positions, sorted by name: [sorted_elements] /
    [sorted_attributes], common.rs 446-481. *)
Definition sorted_fields (sel : field -> bool) (fields : list field) : list (nat * dname) :=
  sort_by field_le
    (map (fun '(i, f) => (i, f_name f)) (filter (fun '(_, f) => sel f) (indexed_from 0 fields))).

Definition sorted_elements := sorted_fields is_element.
Definition sorted_attributes := sorted_fields is_attribute.

(** The generated [ELEMENTS] / [ATTRIBUTES] constants, deserialize.rs 148-162. *)
Definition table (l : list (nat * dname)) : list xname := map (fun p => expanded (snd p)) l.

(** The derived [Ord] of [Option<String>]: [None] is less than [Some]. *)
Definition opt_compare (a b : option string) : comparison :=
  match a, b with
  | None, None => Eq
  | None, Some _ => Lt
  | Some _, None => Gt
  | Some x, Some y => String.compare x y
  end.

(** Order used for enum variants, common.rs 654-659. *)
Definition variant_le (a b : variant) : bool :=
  match opt_compare (n_ns (v_name a)) (n_ns (v_name b)) with
  | Lt => true
  | Gt => false
  | Eq => match String.compare (n_local (v_name a)) (n_local (v_name b)) with
          | Gt => false | _ => true end
  end.

Definition sorted_variants (vs : list variant) : list variant := sort_by variant_le vs.

(** The generated [ELEMENTS] constant of an enum, deserialize.rs 339-343. *)
Definition variant_table (vs : list variant) : list xname :=
  map (fun v => expanded (v_name v)) (sorted_variants vs).
