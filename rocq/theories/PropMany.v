(** Property theorems C73: a choice that may be made any number of times.

    static-xml/src/lib.rs 413-447: such a choice "is not yet possible to represent with the derive macros"; [Vec<Choice>] cannot be
    flattened.  Many.v is a type of user code for it, written against the public traits: [many_user mid cs deser] reads,
    [many_serialize mnss cs sub] writes, where [cs] lists the choices.  The derived code is that of C61 and C53.  [own fs]: the
    fields but for the flattened one; specifications: ManySpec.v, FlatSpec.v, RestSpec.v. *)
From Verif Require Import Base Normalize Text TextProofs Find FindProofs Types NsSpec Ser SerSpec DeriveSer DSerSpec Reader ReaderSpec DeriveDe DeSpec
  DeriveMixed DeriveMixedSer MixedSerSpec DeriveFlat FlatSpec FlatProofs RTSpec RTProps RestSpec Many ManySpec ManyProofs.

(** The field holds one item for each child that is called like a choice and that no field is for, in document order; the
    other fields are as without it.  It is read iff all of these children are read, and nothing else matters to it. *)
Theorem C73_read : forall o alg mid cs deser, NoDup (map fst cs) -> forall dbg fs f0 d pe v,
  let P := many_user mid cs deser in
  fine_names fs -> filter is_flatten fs = [f0] -> f_mode f0 = MFlatten mid ->
  (dbg = true -> forall t i, propagating_act (fun a => forall v, fst a <> Ok v) (deser t i)) ->
  read_flat o alg P dbg fs (doc_events d) (FEndDocument pe) = Ok v <->
  exists ovs items vs, read_flat o alg P dbg (own fs) (doc_events d) (FEndDocument pe) = Ok (VStruct ovs) /\
    Forall2 (reads_as (flat_visitors o alg P) deser cs [SElem (d_name d) (d_pos d)]) (chosen cs fs d) items /\
    merge fs ovs [VVec items] vs /\ v = VStruct vs.
Proof. exact many_read. Qed.
Print Assumptions C73_read.

(** Written, the element is the one that the struct without the field would write, with one more child for each item, in
    order; and there is such an element iff the struct and each of the items can be written. *)
Theorem C73_written : forall o env hand mnss cs sub mid id oid ident ident' root root' nss fs f0,
  flattens_hand_on env hand ->
  env id = Some (TDStruct ident root nss fs) -> env oid = Some (TDStruct ident' root' nss (own fs)) ->
  env mid = None -> hand mid = Some (many_serialize mnss cs sub) ->
  filter is_flatten fs = [f0] -> f_mode f0 = MFlatten mid ->
  forall n ovs items vs, merge fs ovs [VVec items] vs -> forall T,
  asked n (mser_value o env hand (ERef id) (VStruct vs)) = Some T <->
  exists T0 Ts, asked n (mser_value o env hand (ERef oid) (VStruct ovs)) = Some T0 /\
    Forall2 (asks_item cs sub) items Ts /\ T = with_items T0 (mappings mnss) Ts.
Proof. exact many_asked. Qed.
Print Assumptions C73_written.

(** Round trip: read from a document that shows what was written, however it is laid out, the items are the same, however
    many and in whatever order, if each of them is read from its own element; the names of the choices must not be those
    of fields. *)
Theorem C73_survives : forall o alg dbg env hand mnss cs sub mid id oid ident ident' root root' nss fs f0 deser n ovs items vs T t' d' pe,
  flattens_hand_on env hand ->
  env id = Some (TDStruct ident root nss fs) -> env oid = Some (TDStruct ident' root' nss (own fs)) ->
  env mid = None -> hand mid = Some (many_serialize mnss cs sub) ->
  fine_names fs -> filter is_flatten fs = [f0] -> f_mode f0 = MFlatten mid ->
  NoDup (map fst cs) -> (forall n, In n (map fst cs) -> ~ In n (field_names is_element fs)) ->
  (dbg = true -> forall t i, propagating_act (fun a => forall v, fst a <> Ok v) (deser t i)) ->
  merge fs ovs [VVec items] vs ->
  asked n (mser_value o env hand (ERef id) (VStruct vs)) = Some T -> indented (tree_of T) t' -> shows t' (d_root d') ->
  let P := many_user mid cs deser in
  (forall v T1 c, In v items -> asks_item cs sub v T1 -> shows (tree_of T1) c ->
     reads_as (flat_visitors o alg P) deser cs [SElem (d_name d') (d_pos d')] c v) ->
  read_flat o alg P dbg (own fs) (doc_events d') (FEndDocument pe) = Ok (VStruct ovs) ->
  read_flat o alg P dbg fs (doc_events d') (FEndDocument pe) = Ok (VStruct vs).
Proof. exact many_survives. Qed.
Print Assumptions C73_survives.

(** A choice that holds a text is read from its own element if the text survives the loss of blank text (as in C31). *)
Theorem C73_text : forall o St (V : visitors (fstate St)) env cs path k n t x s T1 c,
  nth_error cs k = Some (n, EText t) -> to_text o t x = Some s -> parse_text o t (seen s) = Ok x ->
  asked n (ser_value o env (EText t) (VText x)) = Some T1 -> shows (tree_of T1) c ->
  reads_as V (text_deser o) cs path c (VEnum k (Some (VText x))).
Proof. exact text_item. Qed.
Print Assumptions C73_text.

(** The type hands on errors, as C53 asks of flattened types. *)
Theorem C73_hands_on : forall nss cs sub v, hands_on (s_attrs (many_serialize nss cs sub v)).
Proof. exact many_hands_on. Qed.
Print Assumptions C73_hands_on.

(** ** Example: the schema of static-xml/src/lib.rs 415-426 *)

Definition oracles1 : oracles := {|
  o_debug := fun s => s;
  o_std_parse := fun _ _ => Err "no"%string; o_std_show := fun _ _ => ""%string;
  o_float_parse := fun _ _ => Err "no"%string; o_float_show := fun _ _ => ""%string;
  o_hand_parse := fun _ _ => Err "no"%string; o_hand_show := fun _ _ => inl ""%string |}.

(** [struct Outer { #[static_xml(rename = "FixedField")] fixed_field: String, #[static_xml(flatten)] choice: Choices }] *)
Definition outer : list field :=
  [ Field (DName None "FixedField") (MElement KOne (EText TString)) None; Field (DName None "choice") (MFlatten 2) None ].
Definition two : choices := [(XName "" "ChoiceA", EText TString); (XName "" "ChoiceB", EText TString)].
Definition env1 : tenv := fun i =>
  match i with
  | 0 => Some (TDStruct "Outer" (DName None "outer") [] outer)
  | 1 => Some (TDStruct "Bare" (DName None "outer") [] (own outer))
  | _ => None
  end.
Definition sub1 : ety -> value -> serialize := ser_value oracles1 env1.
Definition hand1 (i : nat) : option (value -> serialize) :=
  match i with 2 => Some (many_serialize [] two sub1) | _ => None end.
Definition user1 : fuser (list value) := many_user 2 two (text_deser oracles1).

Definition at0 : position := (0, 0)%N.
Definition nm (s : string) : oname := OName None None s.
Definition el (n : oname) (s : string) : node := NElem n [] [] at0 [NText false s at0] at0.
Definition outer_doc : doc :=
  Doc at0 [] (nm "outer") [] [] at0
    [ el (nm "ChoiceB") "x"; NText false "a" at0; el (nm "ChoiceA") "y"; el (nm "FixedField") "F"; el (nm "other") "o";
      el (nm "ChoiceB") "z" ] at0 [].
Definition str (s : string) : value := VText (TVStr s).
Definition items1 : list value := [VEnum 1 (Some (str "x")); VEnum 0 (Some (str "y")); VEnum 1 (Some (str "z"))].
Definition outer_value : value := VStruct [str "F"; VVec items1].

Definition leaf1 (n s : string) : rtree := RElem (XName "" n) [] [RText s].
Definition outer_tree : rtree :=
  RElem (XName "" "outer") [] [leaf1 "FixedField" "F"; leaf1 "ChoiceB" "x"; leaf1 "ChoiceA" "y"; leaf1 "ChoiceB" "z"].
(** What the parser shows of it. *)
Definition outer_doc' : doc :=
  Doc at0 [] (nm "outer") [] [] at0
    [ el (nm "FixedField") "F"; el (nm "ChoiceB") "x"; NBlank " " at0; el (nm "ChoiceA") "y"; el (nm "ChoiceB") "z" ] at0 [].

Example C73_example :
  flattens_hand_on env1 hand1 /\ fine_names outer /\ NoDup (map fst two) /\
  (forall n, In n (map fst two) -> ~ In n (field_names is_element outer)) /\
  (forall t i, propagating_act (fun a => forall v, fst a <> Ok v) (text_deser (St := fstate (list value)) oracles1 t i)) /\
  merge outer [str "F"] [VVec items1] [str "F"; VVec items1] /\
  read_flat oracles1 Bisect user1 true outer (doc_events outer_doc) (FEndDocument at0) = Ok outer_value /\
  asked (XName "" "outer") (mser_value oracles1 env1 hand1 (ERef 0) outer_value) = Some outer_tree /\
  shows (tree_of outer_tree) (d_root outer_doc') /\
  (forall v T1 c, In v items1 -> asks_item two sub1 v T1 -> shows (tree_of T1) c ->
     reads_as (flat_visitors oracles1 Bisect user1) (text_deser oracles1) two [SElem (nm "outer") at0] c v) /\
  read_flat oracles1 Bisect user1 true (own outer) (doc_events outer_doc') (FEndDocument at0) = Ok (VStruct [str "F"]) /\
  read_flat oracles1 Bisect user1 true outer (doc_events outer_doc') (FEndDocument at0) = Ok outer_value.
Proof.
  split; [|split; [|split; [|split; [|split; [|split; [|split; [|split; [|split; [|split; [|split]]]]]]]]]].
  - intros i ident root nss fs f id' h v E Hf Mf E' Hh. unfold hand1 in Hh.
    destruct id' as [|[|[|]]]; try discriminate. injection Hh as <-. apply many_hands_on.
  - split; repeat constructor; intros [].
  - repeat constructor; cbn; intuition discriminate.
  - cbn. intros n [<-|[<-|[]]]; intuition discriminate.
  - intros [t|t] i; cbn; auto. intros e v. discriminate.
  - apply mg_own; [reflexivity|]. apply mg_flat; [reflexivity|]. constructor.
  - vm_compute. reflexivity.
  - vm_compute. reflexivity.
  - cbn. constructor; try reflexivity. cbn. repeat constructor.
  - intros v T1 c Hv (k & n & t & x & -> & E & A) S.
    assert (X : forall k n s, nth_error two k = Some (n, EText TString) -> seen s = s ->
      asked n (sub1 (EText TString) (str s)) = Some T1 ->
      reads_as (flat_visitors oracles1 Bisect user1) (text_deser oracles1) two [SElem (nm "outer") at0] c (VEnum k (Some (str s)))).
    { intros k' n' s E' Es A'. apply (C73_text oracles1 _ _ env1 two _ k' n' TString (TVStr s) s T1 c); auto. cbn. now rewrite Es. }
    destruct Hv as [Hv|[Hv|[Hv|[]]]]; injection Hv as <- <-; cbn in E; injection E as <- <-; (eapply X; [reflexivity|reflexivity|exact A]).
  - vm_compute. reflexivity.
  - vm_compute. reflexivity.
Qed.
