(** Property theorems C72: what no field is for can be kept.

    README.md 96-106 plans a type to be flattened into a struct "which would allow retaining unknown field values
    easily". Rest.v is such a type, written against the public traits: [rest_user rid deser] reads (in a program whose
    other [Deserialize] implementations are [deser]), [rest_serialize px] writes.  The derived code is that of C61 and
    C53.  [own fs]: the fields but for the flattened one; specifications: RestSpec.v, FlatSpec.v, DomSpec.v. *)
From Verif Require Import Base Normalize Text TextProofs Find FindProofs Types NsSpec Ser SerSpec DeriveSer Reader ReaderSpec DeriveDe DeSpec
  DeriveMixed DeriveMixedSer MixedSerSpec DeriveFlat FlatSpec FlatProofs RTSpec RTProps Dom DomSpec DomProofs Rest RestSpec RestProofs.

(** The field holds exactly what no other field is for, whatever the document; the other fields are as without it. *)
Theorem C72_kept : forall o alg rid deser dbg fs f0 d pe v,
  fine_names fs -> filter is_flatten fs = [f0] -> f_mode f0 = MFlatten rid ->
  (dbg = true -> forall t i, propagating_act (fun a => forall v, fst a <> Ok v) (deser t i)) ->
  read_flat o alg (rest_user rid deser) dbg fs (doc_events d) (FEndDocument pe) = Ok v <->
  exists ovs vs, read_flat o alg (rest_user rid deser) dbg (own fs) (doc_events d) (FEndDocument pe) = Ok (VStruct ovs) /\
    merge fs ovs [rest_value (unknown_attrs fs d) (unknown_kids fs d)] vs /\ v = VStruct vs.
Proof. exact rest_keeps. Qed.
Print Assumptions C72_kept.

(** Written again, the element is the one that the struct without the field would write, and all that was unknown
    ([asked]: what is asked of the writer, see C29, C31 and C52 for what becomes of it).  Read again from there, however it
    is laid out, the unknown parts are the same but for blank text. *)
Theorem C72_survives : forall o alg dbg env hand px rid id oid ident ident' root root' nss fs f0 deser d pe v,
  flattens_hand_on env hand ->
  env id = Some (TDStruct ident root nss fs) -> env oid = Some (TDStruct ident' root' nss (own fs)) ->
  env rid = None -> hand rid = Some (rest_serialize px) ->
  fine_names fs -> filter is_flatten fs = [f0] -> f_mode f0 = MFlatten rid ->
  (dbg = true -> forall t i, propagating_act (fun a => forall v, fst a <> Ok v) (deser t i)) ->
  expressible (dom_of (d_root d)) ->
  read_flat o alg (rest_user rid deser) dbg fs (doc_events d) (FEndDocument pe) = Ok v ->
  exists ovs, read_flat o alg (rest_user rid deser) dbg (own fs) (doc_events d) (FEndDocument pe) = Ok (VStruct ovs) /\
  forall n,
    match asked n (mser_value o env hand (ERef oid) (VStruct ovs)) with
    | Some T0 => exists T, asked n (mser_value o env hand (ERef id) v) = Some T /\
        tree_of T = with_parts (tree_of T0) (unknown_attrs fs d) (unknown_kids fs d) /\
        forall t' d', indented (tree_of T) t' -> shows t' (d_root d') ->
          unknown_attrs fs d' = unknown_attrs fs d /\
          TElem n [] (unknown_kids fs d') = clean (TElem n [] (unknown_kids fs d))
    | None => asked n (mser_value o env hand (ERef id) v) = None
    end.
Proof. exact rest_survives. Qed.
Print Assumptions C72_survives.

(** Different unknown parts are different values, and the type hands on errors, as C53 asks of flattened types. *)
Theorem C72_values : forall attrs kids, as_rest (rest_value attrs kids) = Some (attrs, kids).
Proof. exact as_rest_value. Qed.
Print Assumptions C72_values.

Theorem C72_hands_on : forall px v, hands_on (s_attrs (rest_serialize px v)).
Proof. exact rest_hands_on. Qed.
Print Assumptions C72_hands_on.

(** ** Example *)

Definition oracles1 : oracles := {|
  o_debug := fun s => s;
  o_std_parse := fun _ _ => Err "no"%string; o_std_show := fun _ _ => ""%string;
  o_float_parse := fun _ _ => Err "no"%string; o_float_show := fun _ _ => ""%string;
  o_hand_parse := fun _ _ => Err "no"%string; o_hand_show := fun _ _ => inl ""%string |}.

(** [struct Foo { known: String, #[static_xml(flatten)] rest: Rest, #[static_xml(attribute)] id: Option<String> }] *)
Definition foo : list field :=
  [ Field (DName None "known") (MElement KOne (EText TString)) None;
    Field (DName None "rest") (MFlatten 2) None;
    Field (DName None "id") (MAttribute true TString) None ].
Definition strings (_ : ety) (_ : einfo) : action (fstate building) (res verr value * list value) :=
  AReadString (fun x => match x with inl s => (Ok (VText (TVStr s)), []) | inr e => (Err e, []) end).
Definition env1 : tenv := fun i =>
  match i with
  | 0 => Some (TDStruct "Foo" (DName None "foo") [] foo)
  | 1 => Some (TDStruct "Bare" (DName None "foo") [] (own foo))
  | _ => None
  end.
Definition hand1 (i : nat) : option (value -> serialize) :=
  match i with 2 => Some (rest_serialize px_letters) | _ => None end.

Definition at0 : position := (0, 0)%N.
Definition nm (s : string) : oname := OName None None s.
Definition u1 (s : string) : oname := OName (Some "p"%string) (Some "urn:1"%string) s.
Definition el (n : oname) (kids : list node) : node := NElem n [] [] at0 kids at0.
Definition foo_doc : doc :=
  Doc at0 [] (nm "foo") [Attr (nm "id") "7"; Attr (u1 "id") "8"; Attr (nm "x") "9"] [] at0
    [ NText false "a" at0; el (u1 "known") [el (nm "b") []]; NText false "c" at0; el (nm "known") [NText false "K" at0];
      NText false "d" at0; NMisc (Comment "no") at0; el (nm "known2") [] ] at0 [].

Definition foo_value : value :=
  VStruct [ VText (TVStr "K");
            rest_value [(XName "urn:1" "id", "8"); (XName "" "x", "9")]%string
              [ TText "a"; TElem (XName "urn:1" "known") [] [TElem (XName "" "b") [] []]; TText "cd";
                TElem (XName "" "known2") [] [] ];
            VSome (VText (TVStr "7")) ].

Example C72_example :
  flattens_hand_on env1 hand1 /\ fine_names foo /\ expressible (dom_of (d_root foo_doc)) /\
  (forall t i, propagating_act (fun a => forall v, fst a <> Ok v) (strings t i)) /\
  read_flat oracles1 Bisect (rest_user 2 strings) true foo (doc_events foo_doc) (FEndDocument at0) = Ok foo_value /\
  option_map tree_of (asked (XName "" "foo") (mser_value oracles1 env1 hand1 (ERef 0) foo_value)) =
    Some (TElem (XName "" "foo") [(XName "" "id", "7"); (XName "urn:1" "id", "8"); (XName "" "x", "9")]%string
      [ TElem (XName "" "known") [] [TText "K"];
        TText "a"; TElem (XName "urn:1" "known") [] [TElem (XName "" "b") [] []]; TText "cd";
        TElem (XName "" "known2") [] [] ]) /\
  exists k, to true (fun _ => None) (XName "" "foo") (mser_value oracles1 env1 hand1 (ERef 0) foo_value) = inl (None, k).
Proof.
  split; [|split; [|split; [|split; [|split; [|split]]]]].
  - intros i ident root nss fs f id' h v E Hf Mf E' Hh. unfold hand1 in Hh.
    destruct id' as [|[|[|]]]; try discriminate. injection Hh as <-. apply rest_hands_on.
  - split; repeat constructor; intros [].
  - repeat first
      [ constructor
      | progress intros
      | discriminate
      | match goal with H : In _ _ |- _ => cbn in H end
      | match goal with H : _ \/ _ |- _ => destruct H as [H|H]; subst end
      | match goal with H : False |- _ => destruct H end ].
    all: cbn; try (intros H; decompose [or] H; try discriminate; easy).
  - intros t i e v. discriminate.
  - vm_compute. reflexivity.
  - vm_compute. reflexivity.
  - eexists. vm_compute. reflexivity.
Qed.
