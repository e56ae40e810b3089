(** A type for the parts of an element that no field is for, to be flattened: README.md 96-106 plans one
    ("retaining unknown field values easily").  It is user code, written against the traits; the code derived
    for the struct that flattens it is that of DeriveFlat.v and DeriveMixedSer.v. *)
From Verif Require Import Base Text Types Reader DeriveMixed DeriveFlat Ser SerSpec Dom.

(** ** Values

    Values of all types are [value]s, so attributes and trees are encoded. *)
Definition text_value (s : string) : value := VText (TVStr s).
Definition name_value (n : xname) : value := VStruct [text_value (xn_ns n); text_value (xn_local n)].
Definition attribute_value (a : xname * string) : value := VStruct [name_value (fst a); text_value (snd a)].
Fixpoint tree_value (t : wtree) : value :=
  match t with
  | TText s => text_value s
  | TElem n attrs kids => VStruct [name_value n; VVec (map attribute_value attrs); VVec (map tree_value kids)]
  end.
Definition rest_value (attrs : list (xname * string)) (kids : list wtree) : value :=
  VStruct [VVec (map attribute_value attrs); VVec (map tree_value kids)].

Definition all {A B} (f : A -> option B) : list A -> option (list B) :=
  fix all (l : list A) : option (list B) :=
    match l with
    | [] => Some []
    | x :: l' => match f x, all l' with Some y, Some r => Some (y :: r) | _, _ => None end
    end.
Definition as_name (v : value) : option xname :=
  match v with
  | VStruct [VText (TVStr u); VText (TVStr l)] => Some (XName u l)
  | _ => None
  end.
Definition as_attribute (v : value) : option (xname * string) :=
  match v with
  | VStruct [n; VText (TVStr s)] => option_map (fun n => (n, s)) (as_name n)
  | _ => None
  end.
Fixpoint as_tree (v : value) : option wtree :=
  match v with
  | VText (TVStr s) => Some (TText s)
  | VStruct [n; VVec a; VVec k] =>
      match as_name n, all as_attribute a, all as_tree k with
      | Some n, Some attrs, Some kids => Some (TElem n attrs kids)
      | _, _, _ => None
      end
  | _ => None
  end.
Definition as_rest (v : value) : option (list (xname * string) * list wtree) :=
  match v with
  | VStruct [VVec a; VVec k] =>
      match all as_attribute a, all as_tree k with Some attrs, Some kids => Some (attrs, kids) | _, _ => None end
  | _ => None
  end.

(** ** [RawDeserialize]

    The traits are those of de/mod.rs 709-730 and 777-818.  The visitor takes everything; [rid] is the type,
    [deser] the [Deserialize] implementations of the program. *)
Definition rest_user (rid : nat) (deser : ety -> einfo -> action (fstate building) (res verr value * list value))
  : fuser building := {|
  fu_new := fun id => if Nat.eqb id rid then Some fresh else None;
  fu_attribute := fun b n v => (Ok None, Building ((n, v) :: b_attributes b) (b_children b));
  fu_characters := fun b s _ => (Ok None, Building (b_attributes b) (add_piece s (b_children b)));
  fu_element := fun b i => Take (AReadTo (FOther fresh) (fun r s =>
    match r, s with
    | inl _, FOther b' =>
        (Ok tt, Building (b_attributes b) (finished (from_xml_name (ei_name i)) b' :: b_children b))
    | inl _, FStruct _ _ _ _ => (Abort (Panic "unreachable"), b)
    | inr e, _ => (Err e, b)
    end));
  fu_finalize := fun b => Ok (rest_value (rev (b_attributes b)) (rev (b_children b)));
  fu_deserialize := deser;
|}.

(** ** [Serialize]

    The trait is that of ser/mod.rs 494-501. *)
Definition rest_serialize (px : string -> string) (v : value) : serialize :=
  match as_rest v with
  | Some (attrs, kids) => Ser (dom_start px (XName "" "") attrs) (dom_children px kids)
  | None => Ser (APanic "unreachable") (WPanic "unreachable")
  end.
