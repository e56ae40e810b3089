(** Property theorems C19 and C21-C28: derived deserialization.

    [names_ok env]: names do not clash within a type; [compiles env]: what rustc and the derive macro
    check (DeSpec.v).  [reads o env t n v]: the specification of what type [t] reads from the element
    [n] (DeSpec.v). *)
From Coq Require Import Permutation.
From Verif Require Import Base Normalize Text TextProofs Find FindProofs Types Reader ReaderSpec
  ReaderProofs ReaderTotal ReaderMore ReaderProps DeriveDe DeSpec DeProofs DeMain DeDet DeLike DeTotal DeProps
  PropReader.

(** ** Types and documents for the examples *)

Definition oracles0 : oracles := {|
  o_debug := fun s => s;
  o_std_parse := fun _ _ => Err "no"%string; o_std_show := fun _ _ => ""%string;
  o_float_parse := fun _ _ => Err "no"%string; o_float_show := fun _ _ => ""%string;
  o_hand_parse := fun _ _ => Err "no"%string; o_hand_show := fun _ _ => inl ""%string |}.

Definition ln (s : string) : dname := DName None s.
Definition un (s : string) : dname := DName (Some "urn:u") s.
Definition str_ty : ety := EText TString.

(** [struct Person { #[attr] id: bool, name: String, nick: Option<String>, tag: Vec<String>,
    friend: Vec<Person>, #[flatten] contact: Contact }],
    [enum Contact { Email(String), Phone(Vec<String>), Nothing }],
    [struct Two { #[flatten] a: A, #[flatten] b: B }], [enum A { A }], [enum B { B }]. *)
Definition person_fields : list field :=
  [ Field (ln "id") (MAttribute false TBool) None;
    Field (un "name") (MElement KOne str_ty) None;
    Field (un "nick") (MElement KOpt str_ty) None;
    Field (un "tag") (MElement KVec str_ty) None;
    Field (un "friend") (MElement KVec (ERef 0)) None;
    Field (ln "contact") (MFlatten 1) None ].
Definition contact_variants : list variant :=
  [ Variant (un "phone") (Some (KVec, str_ty));
    Variant (un "email") (Some (KOne, str_ty));
    Variant (un "nothing") None ].
Definition two_fields : list field :=
  [ Field (ln "a") (MFlatten 3) None; Field (ln "b") (MFlatten 4) None ].
Definition env0 : tenv := fun id =>
  match id with
  | 0 => Some (TDStruct "Person" (ln "person") [] person_fields)
  | 1 => Some (TDEnum "Contact" (ln "contact") [] contact_variants false)
  | 2 => Some (TDStruct "Two" (ln "two") [] two_fields)
  | 3 => Some (TDEnum "A" (ln "a") [] [Variant (ln "a") None] false)
  | 4 => Some (TDEnum "B" (ln "b") [] [Variant (ln "b") None] false)
  | _ => None
  end.

Lemma env0_ok : names_ok env0.
Proof.
  intros [|[|[|[|[|id]]]]] d [= <-]; split; try (vm_compute; nodup; fail);
    intros v Hv; vm_compute in Hv; intuition subst; discriminate.
Qed.

Lemma env0_compiles : compiles env0.
Proof.
  intros [|[|[|[|[|id]]]]] d [= <-]; repeat constructor; cbn; try discriminate;
    unfold field_compiles; cbn; do 5 eexists; reflexivity.
Qed.

Lemma oracles0_total : oracles_total oracles0.
Proof. split; [|split]; intros; discriminate. Qed.

(** Elements in the namespace urn:u, with some prefix. *)
Definition uq (p s : string) : oname := OName (Some p) (Some "urn:u"%string) s.
Definition uel (p s : string) (attrs : list attr) (kids : list node) : node :=
  NElem (uq p s) attrs [] (at_ 1) kids (at_ 2).
Definition tx (s : string) : node := NText false s (at_ 1).

Definition friend (p : string) : node :=
  uel p "friend" [Attr (nm "id") "false"] [uel p "nothing" [] []; uel p "name" [] [tx "Bo"]].

Definition person_doc (p : string) : doc := doc_of [Attr (nm "id") "true"]
  [ uel p "tag" [] [tx "x"]; uel p "phone" [] [tx "1"]; uel p "name" [] [tx "Al"; tx "ice"];
    friend p; uel p "tag" [] []; uel p "phone" [] [tx "2"] ].

Definition s_ (s : string) : value := VText (TVStr s).
Definition person_value : value :=
  VStruct [VText (TVBool true); s_ "Alice"; VNone; VVec [s_ "x"; s_ ""];
           VVec [VStruct [VText (TVBool false); s_ "Bo"; VNone; VVec []; VVec []; VEnum 1 None]];
           VEnum 2 (Some (VVec [s_ "1"; s_ "2"]))].

Definition end0 : final := FEndDocument (at_ 200).

(** ** C23: derived structs *)

(** Deserializing succeeds with [v] exactly if the specification relates the root element to [v];
    and the specification relates an element to at most one value. *)
Theorem C23_reads_iff : forall o alg env dbg t d pe v, names_ok env ->
  read_as o alg env dbg t (doc_events d) (FEndDocument pe) = Ok v <-> reads o env t (d_root d) v.
Proof. exact read_as_iff. Qed.
Print Assumptions C23_reads_iff.

Theorem C23_reads_functional : forall o env, names_ok env ->
  forall n t v1 v2, reads o env t n v1 -> reads o env t n v2 -> v1 = v2.
Proof. exact reads_det. Qed.
Print Assumptions C23_reads_functional.

Example C23_example : names_ok env0 /\
  read_as oracles0 Bisect env0 true (ERef 0) (doc_events (person_doc "p")) end0 = Ok person_value /\
  reads oracles0 env0 (ERef 0) (d_root (person_doc "p")) person_value.
Proof.
  assert (H : read_as oracles0 Bisect env0 true (ERef 0) (doc_events (person_doc "p")) end0 = Ok person_value)
    by (vm_compute; reflexivity).
  split; [exact env0_ok|]. split; [exact H|]. apply read_as_iff in H; auto using env0_ok.
Qed.

(** ** C19: prefixes do not matter *)

(** Documents that differ only in prefixes (and the namespace declarations behind them, and
    positions) read as the same value. *)
Theorem C19_prefixes_irrelevant : forall o alg env dbg t d1 d2 pe1 pe2 v, names_ok env ->
  renamed (d_root d1) (d_root d2) ->
  read_as o alg env dbg t (doc_events d1) (FEndDocument pe1) = Ok v <->
  read_as o alg env dbg t (doc_events d2) (FEndDocument pe2) = Ok v.
Proof. exact read_as_renamed. Qed.
Print Assumptions C19_prefixes_irrelevant.

(** The root element's name is not checked. *)
Theorem C19_root_name_unchecked : forall o alg env dbg t d name pe1 pe2 v, names_ok env ->
  read_as o alg env dbg t (doc_events d) (FEndDocument pe1) = Ok v <->
  read_as o alg env dbg t (doc_events (Doc (d_start d) (d_prolog d) name (d_attrs d) (d_ns d) (d_pos d)
    (d_kids d) (d_pe d) (d_epilogue d))) (FEndDocument pe2) = Ok v.
Proof. exact read_as_root_name. Qed.
Print Assumptions C19_root_name_unchecked.

(** The namespace of a name: the one bound to its prefix; the prefix "xml" needs no declaration. *)
Theorem C19_namespace_of_name : forall p ns l,
  from_xml_name (OName p (Some ns) l) = XName ns l /\
  from_xml_name (OName (Some "xml"%string) None l) = XName "http://www.w3.org/XML/1998/namespace" l /\
  from_xml_name (OName None None l) = XName "" l.
Proof. intros p ns l. repeat split. Qed.
Print Assumptions C19_namespace_of_name.

Example C19_example : renamed (d_root (person_doc "p")) (d_root (person_doc "q")) /\
  d_kids (person_doc "p") <> d_kids (person_doc "q") /\
  read_as oracles0 Branchless env0 true (ERef 0) (doc_events (person_doc "q")) end0 = Ok person_value.
Proof.
  split; [|split; [vm_compute; discriminate|vm_compute; reflexivity]].
  cbn. repeat (apply ren_elem || apply ren_text || (intro; reflexivity) || constructor).
Qed.

(** ** C21: memory safety of derived deserializers *)

(** Every derived type (recursive, flattened, also with clashing names), every stream xml-rs can
    deliver, complete or not: no use of uninitialized memory ([Abort UB]), no write over a live
    value ([Abort overwritten]), no panic, no endless loop. *)
Theorem C21_derived_total : forall o alg env, compiles env -> oracles_total o ->
  forall dbg t src fin, known_ty env t -> deliverable src fin ->
  no_abort (read_as o alg env dbg t src fin).
Proof. exact read_as_total. Qed.
Print Assumptions C21_derived_total.

(** Derived deserializers are user code to which the reader's theorems (C11-C17) apply. *)
Theorem C21_derived_well_behaved : forall o alg env t,
  transparent (derived o alg env) /\ transparent_root (de_root o env t) /\
  propagating (derived o alg env) /\ propagating_root (de_root o env t) /\
  blind (derived o alg env) /\ blind_root (de_root o env t).
Proof.
  intros. repeat split; try apply derived_transparent; try apply de_root_transparent;
    try apply derived_propagating; try apply de_root_propagating; try apply derived_blind; apply de_root_blind.
Qed.
Print Assumptions C21_derived_well_behaved.

Example C21_example : compiles env0 /\ oracles_total oracles0 /\
  read_as oracles0 Bisect env0 true (ERef 0) (firstn 10 (doc_events (person_doc "p"))) (FError cut_err) =
  Err (Error (EXml cut_err) [SElem (nm "root") (at_ 1); SElem (uq "p" "name") (at_ 1)] (at_ 6)).
Proof. split; [exact env0_compiles|]. split; [exact oracles0_total|]. vm_compute. reflexivity. Qed.

(** ** C22: leaks *)

(** Nothing leaks when reading succeeds (any stream). *)
Theorem C22_ok_no_leak : forall o alg env dbg t src fin v,
  read_as o alg env dbg t src fin = Ok v -> leaked_by o alg env dbg t src fin = [].
Proof. exact ok_no_leak. Qed.
Print Assumptions C22_ok_no_leak.

(** When reading fails, what was already read is leaked: here the strings "x" and "Alice". *)
Definition leak_doc : doc := doc_of []
  [ uel "p" "tag" [] [tx "x"]; uel "p" "name" [] [tx "Alice"]; uel "p" "name" [] [] ].

Theorem C22_leak_on_error_refuted : exists o alg env dbg t d pe e,
  names_ok env /\ compiles env /\ oracles_total o /\
  read_as o alg env dbg t (doc_events d) (FEndDocument pe) = Err e /\
  leaked_by o alg env dbg t (doc_events d) (FEndDocument pe) = [s_ "Alice"; VVec [s_ "x"]].
Proof.
  exists oracles0, Bisect, env0, true, (ERef 0), leak_doc, (at_ 200). eexists.
  split; [exact env0_ok|]. split; [exact env0_compiles|]. split; [exact oracles0_total|].
  split; vm_compute; reflexivity.
Qed.
Print Assumptions C22_leak_on_error_refuted.

Example C22_example :
  leaked_by oracles0 Bisect env0 true (ERef 0) (doc_events (person_doc "p")) end0 = [].
Proof. vm_compute. reflexivity. Qed.

(** ** C24: unknown attributes, elements and text *)

(** Two documents with the same known attributes and children (in the same order): same value.
    Also with flattened fields, whose variants' names are known. *)
Theorem C24_unknown_ignored : forall o alg env dbg id ident root nss fs d1 d2 pe1 pe2 v,
  names_ok env -> env id = Some (TDStruct ident root nss fs) ->
  filter (fun a => existsb (xn_eqb (from_xml_name (a_name a))) (field_names is_attribute fs)) (d_attrs d1) =
  filter (fun a => existsb (xn_eqb (from_xml_name (a_name a))) (field_names is_attribute fs)) (d_attrs d2) ->
  filter (name_in (known_names env fs)) (d_kids d1) = filter (name_in (known_names env fs)) (d_kids d2) ->
  read_as o alg env dbg (ERef id) (doc_events d1) (FEndDocument pe1) = Ok v <->
  read_as o alg env dbg (ERef id) (doc_events d2) (FEndDocument pe2) = Ok v.
Proof. exact read_as_known. Qed.
Print Assumptions C24_unknown_ignored.

(** At every depth, together with C25: documents that agree in what the types know about. *)
Theorem C24_alike : forall o alg env dbg t d1 d2 pe1 pe2 v, names_ok env ->
  like env t (d_root d1) (d_root d2) ->
  read_as o alg env dbg t (doc_events d1) (FEndDocument pe1) = Ok v <->
  read_as o alg env dbg t (doc_events d2) (FEndDocument pe2) = Ok v.
Proof. exact read_as_like. Qed.
Print Assumptions C24_alike.

(** Enums: only children naming a variant count. *)
Theorem C24_unknown_ignored_enum : forall o alg env dbg id ident root nss vs sk d1 d2 pe1 pe2 v,
  names_ok env -> env id = Some (TDEnum ident root nss vs sk) ->
  filter (name_in (variant_names vs)) (d_kids d1) = filter (name_in (variant_names vs)) (d_kids d2) ->
  read_as o alg env dbg (ERef id) (doc_events d1) (FEndDocument pe1) = Ok v <->
  read_as o alg env dbg (ERef id) (doc_events d2) (FEndDocument pe2) = Ok v.
Proof. exact read_as_known_enum. Qed.
Print Assumptions C24_unknown_ignored_enum.

Definition noisy_doc : doc := doc_of [Attr (nm "other") "?"; Attr (nm "id") "true"; Attr (uq "p" "id") "?"]
  [ tx "text"; uel "p" "tag" [] [tx "x"]; uel "p" "other" [] [uel "p" "name" [] []]; uel "p" "phone" [] [tx "1"];
    uel "p" "name" [] [tx "Al"; tx "ice"]; elem "name" 5 [] [tx "not in the namespace"];
    friend "p"; uel "p" "tag" [] []; uel "p" "phone" [] [tx "2"]; tx " more" ].

Example C24_example :
  filter (fun a => existsb (xn_eqb (from_xml_name (a_name a))) (field_names is_attribute person_fields)) (d_attrs (person_doc "p")) =
  filter (fun a => existsb (xn_eqb (from_xml_name (a_name a))) (field_names is_attribute person_fields)) (d_attrs noisy_doc) /\
  filter (name_in (known_names env0 person_fields)) (d_kids (person_doc "p")) =
  filter (name_in (known_names env0 person_fields)) (d_kids noisy_doc) /\
  read_as oracles0 Bisect env0 true (ERef 0) (doc_events noisy_doc) end0 = Ok person_value.
Proof. repeat split; vm_compute; reflexivity. Qed.

(** ** C25: order of children with different names *)

Theorem C25_order_irrelevant : forall o alg env dbg id ident root nss fs d1 d2 pe1 pe2 v,
  names_ok env -> env id = Some (TDStruct ident root nss fs) -> existsb is_flatten fs = false ->
  (forall n, In n (field_names is_attribute fs) -> attr_values n (d_attrs d1) = attr_values n (d_attrs d2)) ->
  (forall n, In n (field_names is_element fs) -> named n (d_kids d1) = named n (d_kids d2)) ->
  read_as o alg env dbg (ERef id) (doc_events d1) (FEndDocument pe1) = Ok v <->
  read_as o alg env dbg (ERef id) (doc_events d2) (FEndDocument pe2) = Ok v.
Proof. exact read_as_reordered. Qed.
Print Assumptions C25_order_irrelevant.

(** Attributes of a well-formed document (distinct names) may be permuted freely. *)
Theorem C25_attributes_permuted : forall n a1 a2,
  NoDup (map (fun a => from_xml_name (a_name a)) a1) -> Permutation a1 a2 ->
  attr_values n a1 = attr_values n a2.
Proof. exact attr_values_perm. Qed.
Print Assumptions C25_attributes_permuted.

Definition pair_fields : list field :=
  [ Field (ln "x") (MElement KVec str_ty) None; Field (ln "y") (MElement KVec str_ty) None ].
Definition env1 : tenv := fun id =>
  match id with 0 => Some (TDStruct "Pair" (ln "pair") [] pair_fields) | _ => None end.

Example C25_example :
  let d1 := doc_of [] [elem "x" 1 [] [tx "1"]; elem "y" 2 [] [tx "a"]; elem "x" 3 [] [tx "2"]; elem "y" 4 [] [tx "b"]] in
  let d2 := doc_of [] [elem "y" 2 [] [tx "a"]; elem "y" 4 [] [tx "b"]; elem "x" 1 [] [tx "1"]; elem "x" 3 [] [tx "2"]] in
  (forall n, In n (field_names is_element pair_fields) -> named n (d_kids d1) = named n (d_kids d2)) /\
  read_as oracles0 Bisect env1 true (ERef 0) (doc_events d1) end0 =
  Ok (VStruct [VVec [s_ "1"; s_ "2"]; VVec [s_ "a"; s_ "b"]]).
Proof.
  split; [|vm_compute; reflexivity]. intros n [<-|[<-|[]]]; vm_compute; reflexivity.
Qed.

(** ** C26: duplicates and missing fields *)

(** [violates attrs kids f]: a plain or [Option] element field or an attribute occurs twice, or a
    required one (no [Option], no [Vec], no [default]) does not occur. *)
Theorem C26_duplicate_or_missing_is_error : forall o alg env dbg id ident root nss fs d pe f,
  names_ok env -> compiles env -> oracles_total o ->
  env id = Some (TDStruct ident root nss fs) -> In f fs -> violates (d_attrs d) (d_kids d) f ->
  exists e, read_as o alg env dbg (ERef id) (doc_events d) (FEndDocument pe) = Err e.
Proof. exact read_as_violated. Qed.
Print Assumptions C26_duplicate_or_missing_is_error.

(** The same for a struct anywhere in the document: it does not read as any value. *)
Theorem C26_duplicate_or_missing_nested : forall o env id ident root nss fs name attrs ns p kids pe v f,
  env id = Some (TDStruct ident root nss fs) -> In f fs -> violates attrs kids f ->
  ~ reads o env (ERef id) (NElem name attrs ns p kids pe) v.
Proof. exact struct_violated. Qed.
Print Assumptions C26_duplicate_or_missing_nested.

Example C26_example :
  violates (d_attrs leak_doc) (d_kids leak_doc) (Field (un "name") (MElement KOne str_ty) None) /\
  violates (d_attrs leak_doc) (d_kids leak_doc) (Field (ln "id") (MAttribute false TBool) None) /\
  read_as oracles0 Bisect env0 true (ERef 0) (doc_events leak_doc) end0 =
  Err (Error (EDeserializer "Duplicate element {urn:u}name")
        [SElem (nm "root") (at_ 1); SElem (uq "p" "name") (at_ 1)] (at_ 1)).
Proof. split; [|split]; [left; split; [discriminate|repeat constructor]|right; repeat split|vm_compute; reflexivity]. Qed.

(** ** C27: derived enums *)

Theorem C27_enum_iff : forall o alg env dbg id ident root nss vs sk d pe v, names_ok env ->
  env id = Some (TDEnum ident root nss vs sk) ->
  read_as o alg env dbg (ERef id) (doc_events d) (FEndDocument pe) = Ok v <->
  choice (reads o env) vs (d_kids d) v.
Proof. exact read_as_enum. Qed.
Print Assumptions C27_enum_iff.

Theorem C27_mixed_variants_error : forall o alg env dbg id ident root nss vs sk d pe c1 c2,
  names_ok env -> compiles env -> oracles_total o -> env id = Some (TDEnum ident root nss vs sk) ->
  In c1 (d_kids d) -> In c2 (d_kids d) ->
  name_in (variant_names vs) c1 = true -> name_in (variant_names vs) c2 = true ->
  (exists n, has_name n c1 = true /\ has_name n c2 = false) ->
  exists e, read_as o alg env dbg (ERef id) (doc_events d) (FEndDocument pe) = Err e.
Proof. exact read_as_mixed. Qed.
Print Assumptions C27_mixed_variants_error.

Theorem C27_no_variant_error : forall o alg env dbg id ident root nss vs sk d pe,
  names_ok env -> compiles env -> oracles_total o -> env id = Some (TDEnum ident root nss vs sk) ->
  existsb (name_in (variant_names vs)) (d_kids d) = false ->
  exists e, read_as o alg env dbg (ERef id) (doc_events d) (FEndDocument pe) = Err e.
Proof. exact read_as_no_variant. Qed.
Print Assumptions C27_no_variant_error.

Example C27_example :
  read_as oracles0 Bisect env0 true (ERef 1) (doc_events
    (doc_of [] [uel "p" "phone" [] [tx "1"]; uel "p" "?" [] []; uel "q" "phone" [] [tx "2"]])) end0 =
    Ok (VEnum 2 (Some (VVec [s_ "1"; s_ "2"]))) /\
  read_as oracles0 Bisect env0 true (ERef 1) (doc_events
    (doc_of [] [uel "p" "phone" [] [tx "1"]; uel "q" "email" [] [tx "2"]])) end0 =
    Err (Error (EDeserializer "Got unexpected element {urn:u}email after {urn:u}phone")
          [SElem (nm "root") (at_ 1); SElem (uq "q" "email") (at_ 1)] (at_ 1)) /\
  read_as oracles0 Bisect env0 true (ERef 1) (doc_events (doc_of [] [uel "p" "?" [] []])) end0 =
    Err (Error (EDeserializer "Contact can't be empty") [SElem (nm "root") (at_ 1)] (at_ 101)).
Proof. repeat split; vm_compute; reflexivity. Qed.

(** ** C28: flattened fields *)

(** A flattened field chooses among the unclaimed children that come before the first one recognised
    by any flattened field declared earlier ([offered]). *)
Theorem C28_flatten_order :
  forall o alg env dbg id ident root nss fs1 f fs2 id' ident' root' nss' variants sk d pe v,
  names_ok env -> env id = Some (TDStruct ident root nss (fs1 ++ f :: fs2)) ->
  f_mode f = MFlatten id' -> env id' = Some (TDEnum ident' root' nss' variants sk) ->
  read_as o alg env dbg (ERef id) (doc_events d) (FEndDocument pe) = Ok v ->
  exists vs x, v = VStruct vs /\ nth_error vs (List.length fs1) = Some x /\
    choice (reads o env) variants (offered env fs1 (unclaimed (fs1 ++ f :: fs2) (d_kids d))) x.
Proof. exact read_as_flatten. Qed.
Print Assumptions C28_flatten_order.

(** So it is not true that an unclaimed child is offered to the flattened fields until one
    recognises it (lib.rs 262-263): once a flattened enum has its variant, it keeps everything. Here
    "b" is recognised by the second flattened field only, and is read if it comes first, but not if
    it comes after "a". *)
Theorem C28_offered_to_each_refuted : exists env d1 d2 c1 c2 v e,
  names_ok env /\ compiles env /\ d_kids d1 = [c1; c2] /\ d_kids d2 = [c2; c1] /\
  name_in (variant_names [Variant (ln "a") None]) c2 = false /\
  name_in (variant_names [Variant (ln "b") None]) c2 = true /\
  read_as oracles0 Bisect env true (ERef 2) (doc_events d2) end0 = Ok v /\
  read_as oracles0 Bisect env true (ERef 2) (doc_events d1) end0 = Err e.
Proof.
  exists env0, (doc_of [] [elem "a" 1 [] []; elem "b" 2 [] []]), (doc_of [] [elem "b" 2 [] []; elem "a" 1 [] []]).
  do 4 eexists. split; [exact env0_ok|]. split; [exact env0_compiles|]. repeat split; vm_compute; reflexivity.
Qed.
Print Assumptions C28_offered_to_each_refuted.

Example C28_example :
  read_as oracles0 Bisect env0 true (ERef 2) (doc_events (doc_of [] [elem "b" 2 [] []; elem "a" 1 [] []])) end0 =
    Ok (VStruct [VEnum 0 None; VEnum 0 None]) /\
  read_as oracles0 Bisect env0 true (ERef 2) (doc_events (doc_of [] [elem "a" 1 [] []; elem "b" 2 [] []])) end0 =
    Err (Error (EDeserializer "B can't be empty") [SElem (nm "root") (at_ 1)] (at_ 101)).
Proof. split; vm_compute; reflexivity. Qed.
