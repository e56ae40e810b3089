(** Property theorems C41, C42, C44, C45: derive attributes.

    [derive_serialize i = inl (errors, r)]: what the derive macro does with the declaration [i]; [inr] is
    a panic of the macro.  The program compiles only if there are no errors.  What a declaration means is
    specified in DASpec.v ([input_means], [declarations], [prefix_means]). *)
From Verif Require Import Base Normalize NormalizeSpec Text Find Types BMap Ser SerSpec NsSpec DeriveSer DSerSpec DSerProps
  Reader ReaderSpec DeSpec DeriveDe DeProps RTSpec RTProps DeriveAttr DASpec DAProofs DAType DATrim DAProps DALink
  PropDeriveSer PropRoundTrip.

(** ** Sources for the examples *)

Definition kv (k v : string) : item := INameValue (Some k) (LStr v).
Definition sx (l : list item) : list attribute := [AForeign; AList l].
Definition sfld (ident : string) (l : list item) (ty : fkind * ety) : sfield := SField ident (sx l) ty None.

(** The source of [person] and [contact] (PropDeriveSer.v). *)
Definition person_src : sinput := SInput "Person"
  (sx [kv "prefix" "u"; kv "rename" "person"; kv "namespace" "u : urn:u "])
  (SStruct (FNamed
    [ sfld "id" [flag "attribute"] (KOne, EText TBool);
      sfld "lang" [flag "attribute"; kv "prefix" "u"] (KOpt, str_ty);
      sfld "name" [kv "prefix" " u"] (KOne, str_ty);
      sfld "nick" [kv "prefix" "u"] (KOpt, str_ty);
      sfld "tag" [kv "prefix" "u"] (KVec, str_ty);
      sfld "friends" [kv "rename" "friend"; kv "prefix" "u"] (KVec, ERef 0);
      sfld "contact" [flag "flatten"] (KOne, ERef 1) ])).
Definition contact_src : sinput := SInput "Contact"
  (sx [kv "rename" "contact"; kv "namespace" "u: urn:u"])
  (SEnum
    [ SVariant "Phone" (sx [kv "rename" "phone"; kv "prefix" "u"]) (FUnnamed [(KVec, str_ty)]);
      SVariant "Email" (sx [kv "rename" "email"; kv "prefix" "u"]) (FUnnamed [(KOne, str_ty)]);
      SVariant "Nothing" (sx [kv "rename" "nothing"; kv "prefix" "u"]) FUnit;
      SVariant "Unknown" (sx [flag "skip"]) FUnit ]).
Definition prog1 : program := fun id => match id with 0 => Some person_src | 1 => Some contact_src | _ => None end.

Example sources_mean : declaration person_src = Some person /\ declaration contact_src = Some contact.
Proof. split; vm_compute; reflexivity. Qed.

(** ** C41: prefixes *)

(** The declarations that compile are those that mean something. *)
Theorem C41_serialize_accepts : forall i r,
  derive_serialize i = inl ([], r) <-> exists d, r = Some d /\ input_means i d.
Proof. exact derive_serialize_ok. Qed.
Print Assumptions C41_serialize_accepts.

Theorem C41_deserialize_accepts : forall i r,
  derive_deserialize i = inl ([], r) <-> exists d, r = Some d /\ input_means i d /\ textless d.
Proof. exact derive_deserialize_ok. Qed.
Print Assumptions C41_deserialize_accepts.

(** White space around prefixes and URLs is removed. [trimmed]: Unicode white space at both ends. *)
Theorem C41_trim : forall cs, forallb is_scalar cs = true ->
  exists ts, trimmed cs ts /\ str_trim (str_of (utf8 cs)) = str_of (utf8 ts).
Proof. exact trim_chars. Qed.
Print Assumptions C41_trim.
Example C41_trim_example :
  forallb is_scalar [0x3000; 9; 0xE9; 32; 0xE9; 0xA0]%N = true /\
  str_trim (str_of (utf8 [0x3000; 9; 0xE9; 32; 0xE9; 0xA0]%N)) = str_of (utf8 [0xE9; 32; 0xE9]%N).
Proof. split; vm_compute; reflexivity. Qed.

(** The names of fields, variants and types. [name_ns i ps ns]: with the [prefix] items [ps] the
    namespace is [ns]. *)
Theorem C41_field_names : forall i r s, derive_serialize i = inl ([], r) -> r = Some (EDStruct s) ->
  exists fs, si_data i = SStruct (FNamed fs) /\
    Forall2 (fun f ef => ef_field ef = f /\
      pn_local (ef_name ef) = last (values "rename" (items_in (sf_attrs f))) (sf_ident f) /\
      name_ns i (values "prefix" (items_in (sf_attrs f))) (pn_ns (ef_name ef)) /\
      mode_is (items_in (sf_attrs f)) (ef_mode ef) /\
      (ef_default ef = true <-> In (flag "default") (items_in (sf_attrs f)))) fs (es_fields s).
Proof. exact accepted_struct_names. Qed.
Print Assumptions C41_field_names.

Theorem C41_variant_names : forall i r e, derive_serialize i = inl ([], r) -> r = Some (EDEnum e) ->
  exists vs evs, si_data i = SEnum vs /\ ee_variants e = somes evs /\ ee_skipped e = existsb is_none evs /\
    Forall2 (fun v ev => match ev with
      | None => In (flag "skip") (items_in (sv_attrs v))
      | Some x => ~ In (flag "skip") (items_in (sv_attrs v)) /\ ev_ident x = sv_ident v /\
          pn_local (ev_name x) = last (values "rename" (items_in (sv_attrs v))) (sv_ident v) /\
          name_ns i (values "prefix" (items_in (sv_attrs v))) (pn_ns (ev_name x)) /\
          payload_is (sv_fields v) (ev_ty x)
      end) vs evs.
Proof. exact accepted_enum_names. Qed.
Print Assumptions C41_variant_names.

Theorem C41_type_name : forall i r d, derive_serialize i = inl ([], r) -> r = Some d ->
  let attr := match d with EDStruct s => es_attr s | EDEnum e => ee_attr e end in
  pn_local (ea_name attr) = last (values "rename" (items_in (si_attrs i))) (si_ident i) /\
  (exists ps, last_prefix (items_in (si_attrs i)) ps /\ name_ns i ps (pn_ns (ea_name attr))) /\
  exists decls, declares i decls /\ NoDup (map fst decls) /\ forall p u, bm_get p (ea_nss attr) = Some u <-> In (p, u) decls.
Proof. exact accepted_type_name. Qed.
Print Assumptions C41_type_name.

Example C41_names_example : exists s e,
  derive_serialize person_src = inl ([], Some (EDStruct s)) /\
  derive_serialize contact_src = inl ([], Some (EDEnum e)) /\
  map (fun f => pn_ns (ef_name f)) (es_fields s) =
    [None; Some "urn:u"; Some "urn:u"; Some "urn:u"; Some "urn:u"; Some "urn:u"; None]%string.
Proof. eexists _, _. split; [vm_compute; reflexivity|]. split; [vm_compute; reflexivity|]. reflexivity. Qed.

(** Undeclared prefixes. *)
Theorem C41_undeclared_rejected : forall i p, uses_prefix i p -> ~ known_prefix i p -> not_derived i.
Proof. exact undeclared_rejected. Qed.
Print Assumptions C41_undeclared_rejected.

Definition undeclared_src : sinput := SInput "A" (sx [kv "namespace" "u: urn:u"])
  (SStruct (FNamed [sfld "x" [kv "prefix" "w"] (KOne, str_ty)])).

Lemma declares_g : forall ident data l, Forall (fun i => exists k v, i = kv k v /\ (k = "rename" \/ k = "prefix")%string) l ->
  forall s p u, first_colon s p u -> starts_with "xml" p = false ->
  declares (SInput ident (sx (l ++ [kv "namespace" s])) data) [(str_trim p, str_trim u)].
Proof.
  intros ident data l HL s p u H X. unfold declares. cbn [si_attrs sx items_in flat_map app]. rewrite app_nil_r.
  induction HL as [|i l (k & v & -> & Hk) _ IH]; cbn [app].
  - apply (de_namespace s [] [_] []); [now apply nm_prefix|apply de_nil].
  - now apply de_other.
Qed.

Example C41_undeclared_example : uses_prefix undeclared_src "w" /\ ~ known_prefix undeclared_src "w" /\
  derive_serialize undeclared_src = inl ([EPrefixNotFound "w"], 
    match derive_serialize undeclared_src with inl (_, r) => r | inr _ => None end).
Proof.
  split; [|split; [|vm_compute; reflexivity]].
  - exists "w"%string. split; [reflexivity|]. left. eexists. split; [eexists; split; [reflexivity|now left]|]. now left.
  - intros [[=]|[[=]|H]].
    assert (D : declares undeclared_src [("u", "urn:u")]%string).
    { apply (declares_g "A" _ [] (Forall_nil _) "u: urn:u" "u" "urn:u"); [apply split_colon_ok|]; reflexivity. }
    destruct (H _ D) as (u & [[=]|[]]).
Qed.

(** Two prefixes on one field or variant, or two declarations of a prefix. *)
Theorem C41_two_prefixes_rejected : forall i l,
  (exists f, has_field i f /\ l = items_in (sf_attrs f)) \/
  (exists v, has_variant i v /\ l = items_in (sv_attrs v) /\ unskipped l) ->
  2 <= List.length (values "prefix" l) -> not_derived i.
Proof. exact two_prefixes_rejected. Qed.
Print Assumptions C41_two_prefixes_rejected.

Example C41_two_prefixes_example : exists f, has_field (SInput "A" [] (SStruct (FNamed
    [sfld "x" [kv "prefix" "xml"; kv "prefix" "xml"] (KOne, str_ty)]))) f /\
  2 <= List.length (values "prefix" (items_in (sf_attrs f))).
Proof. eexists. split; [eexists; split; [reflexivity|now left]|]. cbn. auto. Qed.

Theorem C41_redeclared_rejected : forall i decls, declares i decls -> ~ NoDup (map fst decls) -> not_derived i.
Proof. exact redeclared_rejected. Qed.
Print Assumptions C41_redeclared_rejected.

Definition redeclared_src : sinput := SInput "A" (sx [kv "default_namespace" "urn:a"; kv "default_namespace" "urn:a"])
  (SStruct (FNamed [])).
Example C41_redeclared_example : exists decls, declares redeclared_src decls /\ ~ NoDup (map fst decls).
Proof.
  eexists. split; [apply de_default, de_default, de_nil|]. cbn. intros H. inversion H as [|? ? HN _]; subst. apply HN. now left.
Qed.

(** For the type itself, two prefixes are not reported, the last one counts. *)
Theorem C41_two_type_prefixes_refuted : exists i s,
  values "prefix" (items_in (si_attrs i)) = ["a"; "b"]%string /\
  derive_serialize i = inl ([], Some (EDStruct s)) /\
  pn_ns (ea_name (es_attr s)) = Some "urn:b"%string.
Proof.
  exists (SInput "A" (sx [kv "namespace" "a: urn:a"; kv "prefix" "a"; kv "namespace" "b: urn:b"; kv "prefix" "b"])
            (SStruct (FNamed []))).
  eexists. split; [reflexivity|]. split; [vm_compute; reflexivity|]. reflexivity.
Qed.
Print Assumptions C41_two_type_prefixes_refuted.

(** The predefined prefix [xml] can be redefined, by writing a space before it.  The result compiles.
    Then serialization panics in debug builds, and in release builds the attribute is written in another
    namespace than the declared one. *)
Definition xml_src : sinput := SInput "A" (sx [kv "namespace" " xml: urn:x"])
  (SStruct (FNamed [sfld "x" [flag "attribute"; kv "prefix" "xml"] (KOne, str_ty)])).

Theorem C41_xml_redefined_refuted : exists s,
  derive_serialize xml_src = inl ([], Some (EDStruct s)) /\
  derive_deserialize xml_src = inl ([], Some (EDStruct s)) /\
  map (fun f => pn_ns (ef_name f)) (es_fields s) = [Some "urn:x"%string] /\
  let env := env_of (fun id => match id with 0 => Some xml_src | _ => None end) in
  (forall o w s, exists msg, serialize_root o env true w 0 (VStruct [st s]) = inr (Panic msg)) /\
  option_map (fun out => meaning [] (emit SkipIfAnywhere [] out))
    (PropDeriveSer.written (serialize_root oracles1 env false steady 0 (VStruct [st "v"]))) =
    Some (Some (tree_events (TElem (XName "" "A") [(XName XML_NS "x", "v"%string)] []))).
Proof.
  eexists. split; [vm_compute; reflexivity|]. split; [vm_compute; reflexivity|]. split; [reflexivity|].
  cbn zeta. split; [intros o w t; eexists; reflexivity|]. vm_compute. reflexivity.
Qed.
Print Assumptions C41_xml_redefined_refuted.

(** The macro panics only for a [namespace] item whose prefix begins with [xml]. *)
Theorem C41_panics_iff : forall i x, derive_serialize i = inr x <->
  si_data i <> SUnion /\
  (exists s p u, In (kv "namespace" s) (items_in (si_attrs i)) /\ first_colon s p u /\
     starts_with "xml" p = true /\ ~ (str_trim p = "xml"%string /\ str_trim u = XML_NS)) /\
  x = todo_namespace.
Proof. exact panics_iff. Qed.
Print Assumptions C41_panics_iff.

Example C41_panics_example :
  derive_serialize (SInput "A" (sx [kv "namespace" "xmlfoo: urn:x"]) (SEnum [])) = inr todo_namespace.
Proof. vm_compute. reflexivity. Qed.

(** ** C42: field modes, and other mistakes *)

Theorem C42_exclusive_rejected : forall i f a b, has_field i f ->
  In a ["attribute"; "flatten"; "text"]%string -> In b ["attribute"; "flatten"; "text"]%string -> a <> b ->
  In (flag a) (items_in (sf_attrs f)) -> In (flag b) (items_in (sf_attrs f)) -> not_derived i.
Proof. exact exclusive_rejected. Qed.
Print Assumptions C42_exclusive_rejected.

Definition one_field (l : list item) : sinput := SInput "A" [] (SStruct (FNamed [sfld "x" l (KOne, str_ty)])).
Lemma one_has l : has_field (one_field l) (sfld "x" l (KOne, str_ty)).
Proof. eexists. split; [reflexivity|now left]. Qed.

Example C42_exclusive_example : not_derived (one_field [flag "text"; kv "rename" "y"; flag "flatten"]).
Proof. apply (C42_exclusive_rejected _ _ "flatten" "text" (one_has _)); cbn; auto. discriminate. Qed.

Theorem C42_default_flatten_rejected : forall i f, has_field i f ->
  In (flag "default") (items_in (sf_attrs f)) -> In (flag "flatten") (items_in (sf_attrs f)) -> not_derived i.
Proof. exact default_flatten_rejected. Qed.
Print Assumptions C42_default_flatten_rejected.

Example C42_default_flatten_example : not_derived (one_field [flag "default"; flag "flatten"]).
Proof. apply (C42_default_flatten_rejected _ _ (one_has _)); cbn; auto. Qed.

Theorem C42_two_texts_rejected : forall i f1 f2 l1 l2 l3,
  si_data i = SStruct (FNamed (l1 ++ f1 :: l2 ++ f2 :: l3)) ->
  In (flag "text") (items_in (sf_attrs f1)) -> In (flag "text") (items_in (sf_attrs f2)) -> not_derived i.
Proof. exact two_texts_rejected. Qed.
Print Assumptions C42_two_texts_rejected.

Example C42_two_texts_example : not_derived (SInput "A" [] (SStruct (FNamed
  [sfld "x" [flag "text"] (KOne, str_ty); sfld "y" [] (KOne, str_ty); sfld "z" [flag "text"] (KOne, str_ty)]))).
Proof.
  eapply (C42_two_texts_rejected _ (sfld "x" [flag "text"] (KOne, str_ty)) (sfld "z" [flag "text"] (KOne, str_ty))
            [] [sfld "y" [] (KOne, str_ty)] []); [reflexivity| |]; cbn; auto.
Qed.

(** Unknown items and literals that are not strings, on fields, variants without [skip] and types. *)
Theorem C42_misplaced_rejected : forall i, misplaced_item i -> not_derived i.
Proof. exact misplaced_rejected. Qed.
Print Assumptions C42_misplaced_rejected.

Example C42_misplaced_example :
  misplaced_item (one_field [flag "atribute"]) /\
  misplaced_item (one_field [INameValue (Some "rename"%string) LOther]) /\
  misplaced_item (SInput "A" (sx [kv "rename_all" "kebab-case"]) (SEnum [])).
Proof.
  split; [|split].
  - left. eexists _, _. split; [apply one_has|]. split; [now left|]. cbn. intuition discriminate.
  - left. eexists _, _. split; [apply one_has|]. split; [now left|]. cbn. tauto.
  - right. right. split; [discriminate|]. eexists. split; [now left|]. split; [discriminate|]. cbn. intuition discriminate.
Qed.

(** Unions, tuple and unit structs, and variants with more than one field or named fields. *)
Theorem C42_shape_rejected : forall i,
  match si_data i with
  | SUnion | SStruct FUnit | SStruct (FUnnamed _) => True
  | SStruct (FNamed _) => False
  | SEnum vs => exists v, In v vs /\ unskipped (items_in (sv_attrs v)) /\ forall ty, ~ payload_is (sv_fields v) ty
  end -> not_derived i.
Proof. exact shape_rejected. Qed.
Print Assumptions C42_shape_rejected.

Example C42_shape_example : exists v, In v [SVariant "V" [] (FUnnamed [(KOne, str_ty); (KOne, str_ty)])] /\
  unskipped (items_in (sv_attrs v)) /\ forall ty, ~ payload_is (sv_fields v) ty.
Proof. eexists. split; [now left|]. split; [intros []|]. intros ty H. inversion H. Qed.

(** Not every mistake is reported: a [prefix] that is not a string is overwritten by a later one, and
    nothing after [skip] is looked at. *)
Theorem C42_literal_refuted : exists i d,
  In (INameValue (Some "prefix"%string) LOther) (items_in (si_attrs i)) /\
  derive_serialize i = inl ([], Some d) /\ derive_deserialize i = inl ([], Some d).
Proof.
  exists (SInput "A" (sx [INameValue (Some "prefix"%string) LOther; kv "prefix" "xml"]) (SStruct (FNamed []))).
  eexists. split; [now left|]. split; vm_compute; reflexivity.
Qed.
Print Assumptions C42_literal_refuted.

Theorem C42_after_skip_refuted : forall l, exists i d,
  si_data i = SEnum [SVariant "V" (sx (flag "skip" :: l)) FUnit] /\
  derive_serialize i = inl ([], Some d) /\ derive_deserialize i = inl ([], Some d).
Proof.
  intros l. exists (SInput "A" [] (SEnum [SVariant "V" (sx (flag "skip" :: l)) FUnit])).
  eexists. split; [reflexivity|]. split; reflexivity.
Qed.
Print Assumptions C42_after_skip_refuted.

(** The documented mode [text] (lib.rs 266-267) cannot be used in types that are read. *)
Theorem C42_text_refuted : forall i f, has_field i f -> In (flag "text") (items_in (sf_attrs f)) ->
  rejected (derive_deserialize i).
Proof. exact text_not_deserialized. Qed.
Print Assumptions C42_text_refuted.

Example C42_text_example : exists d, derive_serialize (one_field [flag "text"]) = inl ([], Some d) /\
  derive_deserialize (one_field [flag "text"]) = inr (Panic "not yet implemented: text fields unimplemented").
Proof. eexists. split; vm_compute; reflexivity. Qed.

(** ** C44: text types *)

Theorem C44_text_accepts : forall i r,
  derive_text i = inl ([], r) <-> exists t, r = Some t /\ text_input_means i t.
Proof. exact derive_text_ok. Qed.
Print Assumptions C44_text_accepts.

(** It never panics. *)
Theorem C44_never_panics : forall i x, derive_text i <> inr x.
Proof. exact derive_text_calm. Qed.
Print Assumptions C44_never_panics.

(** A restriction that compiles: one text per variant, at most one unknown variant. *)
Theorem C44_restriction : forall i r name w rs,
  derive_text i = inl ([], r) -> r = Some (TRestr name w rs) ->
  exists vs, ti_data i = TDataEnum vs /\ Forall2 restr_means vs rs /\
    List.length (filter is_runknown rs) <= 1 /\ text_space (items_in (ti_attrs i)) w.
Proof. exact accepted_restriction. Qed.
Print Assumptions C44_restriction.

Definition color_src : tinput := TInput "Color" (sx [kv "mode" "restriction"; kv "whitespace" "collapse"])
  (TDataEnum [SVariant "Red" (sx [kv "rename" "red"]) FUnit; SVariant "Blue" [] FUnit;
              SVariant "Other" (sx [flag "unknown"]) (FUnnamed [TString])]) 0.
Example C44_example :
  derive_text color_src = inl ([], Some (TRestr "Color" Collapse [RKnown "red"; RKnown "Blue"; RUnknown])).
Proof. vm_compute. reflexivity. Qed.

(** Two variants may have the same text; the later one is never read. *)
Theorem C44_same_text_refuted : exists i name w s,
  derive_text i = inl ([], Some (TRestr name w [RKnown s; RKnown s])).
Proof.
  exists (TInput "Color" (sx [kv "mode" "restriction"])
    (TDataEnum [SVariant "Red" [] FUnit; SVariant "Blue" (sx [kv "rename" "Red"]) FUnit]) 0).
  eexists _, _, _. vm_compute. reflexivity.
Qed.
Print Assumptions C44_same_text_refuted.

(** ** C45: programs given by their source

    [env_of prog]: the types of the program [prog].  [maps prog p u]: some type of the program declares
    that the prefix [p] means [u]. *)

(** The type that a declaration means ([described], DASpec.v): its name, namespaces, fields and variants
    with their names, types, and defaults. *)
Theorem C45_description : forall i td, declaration i = Some td <-> described i td.
Proof. exact declaration_described. Qed.
Print Assumptions C45_description.

Example C45_description_example : described person_src person /\ described contact_src contact.
Proof. split; apply C45_description; apply sources_mean. Qed.

(** Every name the generated code writes is in a declared namespace. *)
Theorem C45_names_declared : forall prog, names_declared (env_of prog).
Proof. exact program_declared. Qed.
Print Assumptions C45_names_declared.

Theorem C45_never_panics : forall prog o dbg w id v,
  (forall p u, maps prog p u -> starts_with "xml" p = false /\ ~ (p = ""%string /\ u = XML_NS)) /\
  ((forall u, ~ maps prog "" u) \/
   (forall id d n, env_of prog id = Some d -> In n (expanded (td_root d) :: elem_names d) -> xn_ns n <> ""%string)) ->
  typed o (env_of prog) (ERef id) v ->
  exists r k, serialize_root o (env_of prog) dbg w id v = inl (r, k).
Proof. exact program_no_panic. Qed.
Print Assumptions C45_never_panics.

Theorem C45_round_trip : forall prog o alg dbg id v pol,
  (forall p u, maps prog p u -> starts_with "xml" p = false /\ ~ (p = ""%string /\ u = XML_NS)) /\
  ((forall u, ~ maps prog "" u) \/
   (forall id d n, env_of prog id = Some d -> In n (expanded (td_root d) :: elem_names d) -> xn_ns n <> ""%string)) ->
  (forall p u, maps prog p u -> u <> ""%string /\ u <> XML_NS /\ u <> "http://www.w3.org/2000/xmlns/"%string) /\
  (exists f : string -> string, (forall p u, maps prog p u -> f p = u) /\
     (forall u id d n, maps prog "" u -> env_of prog id = Some d -> In n (attr_names d) -> xn_ns n = u ->
        f "ns1"%string = u)) ->
  compiles (env_of prog) -> names_ok (env_of prog) -> lossless_env o (env_of prog) ->
  typed o (env_of prog) (ERef id) v ->
  exists k t, serialize_root o (env_of prog) dbg (fun _ => None) id v = inl (None, k) /\
    meaning [] (emit pol [] (k_out k)) = Some (tree_events t) /\
    shows t (render t) /\
    forall d, shows t (d_root d) -> forall dbg' pe,
      read_as o alg (env_of prog) dbg' (ERef id) (doc_events d) (FEndDocument pe) = Ok v.
Proof. exact program_round_trip. Qed.
Print Assumptions C45_round_trip.

(** [#[static_xml(prefix = "g", namespace = "g: urn:g")] struct Point { #[attribute] label: String,
    #[prefix = "g"] x: i32, #[prefix = "g"] next: Vec<Point> }] *)
Definition point_src : sinput := SInput "Point" (sx ([kv "prefix" "g"] ++ [kv "namespace" "g: urn:g"]))
  (SStruct (FNamed
    [ sfld "label" [flag "attribute"] (KOne, str_ty);
      sfld "x" [kv "prefix" "g"] (KOne, EText (TInt I32));
      sfld "next" [kv "prefix" "g"] (KVec, ERef 0) ])).
Definition gn (s : string) : dname := DName (Some "urn:g"%string) s.
Definition point_ty : tdesc := TDStruct "Point" (gn "Point") [("g", "urn:g")]%string
  [ Field (ln "label") (MAttribute false TString) None;
    Field (gn "x") (MElement KOne (EText (TInt I32))) None;
    Field (gn "next") (MElement KVec (ERef 0)) None ].
Definition prog2 : program := fun id => match id with 0 => Some point_src | _ => None end.

Lemma point_env : env_of prog2 0 = Some point_ty.
Proof. vm_compute. reflexivity. Qed.
Lemma point_only : forall id d, env_of prog2 id = Some d -> d = point_ty.
Proof. intros [|id] d H; [rewrite point_env in H; now injection H|discriminate]. Qed.

Lemma point_maps : forall p u, maps prog2 p u -> p = "g"%string /\ u = "urn:g"%string.
Proof.
  intros p u ([|id] & i & decls & [= <-] & HD & HI).
  assert (D : declares point_src [("g", "urn:g")]%string).
  { apply (declares_g "Point" _ [kv "prefix" "g"]) with (s := "g: urn:g"%string) (p := "g"%string) (u := "urn:g"%string).
    - constructor; [|constructor]. eexists _, _. split; [reflexivity|now right].
    - apply split_colon_ok. reflexivity.
    - reflexivity. }
  rewrite (declarations_functional _ _ _ HD D) in HI. destruct HI as [[= <- <-]|[]]. auto.
Qed.

Example C45_example : forall o,
  ((forall p u, maps prog2 p u -> starts_with "xml" p = false /\ ~ (p = ""%string /\ u = XML_NS)) /\
   ((forall u, ~ maps prog2 "" u) \/
    (forall id d n, env_of prog2 id = Some d -> In n (expanded (td_root d) :: elem_names d) -> xn_ns n <> ""%string))) /\
  ((forall p u, maps prog2 p u -> u <> ""%string /\ u <> XML_NS /\ u <> "http://www.w3.org/2000/xmlns/"%string) /\
   (exists f : string -> string, (forall p u, maps prog2 p u -> f p = u) /\
     (forall u id d n, maps prog2 "" u -> env_of prog2 id = Some d -> In n (attr_names d) -> xn_ns n = u ->
        f "ns1"%string = u))) /\
  compiles (env_of prog2) /\ names_ok (env_of prog2) /\ lossless_env o (env_of prog2) /\
  typed o (env_of prog2) (ERef 0) (VStruct [st " l "; VText (TVInt 1);
    VVec [VStruct [st ""; VText (TVInt (-3)); VVec []]]]).
Proof.
  intros o. destruct (C38_lossless_text o) as (Hb & _ & Hs & Hi & _).
  split.
  { split.
    - intros p u H. destruct (point_maps _ _ H) as [-> ->]. split; [reflexivity|]. intros [E _]. discriminate.
    - left. intros u H. destruct (point_maps _ _ H). discriminate. }
  split.
  { split.
    - intros p u H. destruct (point_maps _ _ H) as [-> ->]. split; [discriminate|]. split; discriminate.
    - exists (fun _ => "urn:g"%string). split; [intros p u H|intros u id d n H _ _ _]; now destruct (point_maps _ _ H) as [_ ->]. }
  split. { intros id d H. rewrite (point_only _ _ H). repeat constructor. vm_compute. discriminate. }
  split. { intros id d H. rewrite (point_only _ _ H). split; naming. }
  split.
  { intros id d H. rewrite (point_only _ _ H). split; [|cbn; repeat constructor].
    constructor; [exact Hs|]. constructor; [apply Hi|]. constructor; [split; [exact I|now left]|]. constructor. }
  pose proof point_env as E. typing.
Qed.

(** [#[static_xml(prefix = "", default_namespace = "urn:g")] struct Spot { #[attribute] label: String,
    #[attribute, prefix = ""] id: u8, #[prefix = ""] x: i32, #[prefix = ""] next: Vec<Spot> }] *)
Definition spot_src : sinput := SInput "Spot" (sx ([kv "prefix" ""] ++ [kv "namespace" "urn:g"]))
  (SStruct (FNamed
    [ sfld "label" [flag "attribute"] (KOne, str_ty);
      sfld "id" [flag "attribute"; kv "prefix" ""] (KOne, EText (TInt U8));
      sfld "x" [kv "prefix" ""] (KOne, EText (TInt I32));
      sfld "next" [kv "prefix" ""] (KVec, ERef 0) ])).
Definition spot_ty : tdesc := TDStruct "Spot" (gn "Spot") [("", "urn:g")]%string
  [ Field (ln "label") (MAttribute false TString) None;
    Field (gn "id") (MAttribute false (TInt U8)) None;
    Field (gn "x") (MElement KOne (EText (TInt I32))) None;
    Field (gn "next") (MElement KVec (ERef 0)) None ].
Definition prog3 : program := fun id => match id with 0 => Some spot_src | _ => None end.

Lemma spot_env : env_of prog3 0 = Some spot_ty.
Proof. vm_compute. reflexivity. Qed.
Lemma spot_only : forall id d, env_of prog3 id = Some d -> d = spot_ty.
Proof. intros [|id] d H; [rewrite spot_env in H; now injection H|discriminate]. Qed.

Lemma spot_maps : forall p u, maps prog3 p u -> p = ""%string /\ u = "urn:g"%string.
Proof.
  intros p u ([|id] & i & decls & [= <-] & HD & HI).
  assert (D : declares spot_src [("", "urn:g")]%string).
  { apply de_other; [now right|]. apply (de_namespace "urn:g" [] [_] []); [|apply de_nil].
    apply (nm_default "urn:g"). intros p' u' E.
    do 5 (destruct p' as [|? p']; [discriminate E|injection E as _ E]). destruct p'; discriminate E. }
  rewrite (declarations_functional _ _ _ HD D) in HI. destruct HI as [[= <- <-]|[]]. auto.
Qed.

Definition spot_value : value := VStruct [st " l "; VText (TVInt 7); VText (TVInt 1);
    VVec [VStruct [st ""; VText (TVInt 8); VText (TVInt (-3)); VVec []]]].

Example C45_default_example : forall o,
  ((forall p u, maps prog3 p u -> starts_with "xml" p = false /\ ~ (p = ""%string /\ u = XML_NS)) /\
   ((forall u, ~ maps prog3 "" u) \/
    (forall id d n, env_of prog3 id = Some d -> In n (expanded (td_root d) :: elem_names d) -> xn_ns n <> ""%string))) /\
  ((forall p u, maps prog3 p u -> u <> ""%string /\ u <> XML_NS /\ u <> "http://www.w3.org/2000/xmlns/"%string) /\
   (exists f : string -> string, (forall p u, maps prog3 p u -> f p = u) /\
     (forall u id d n, maps prog3 "" u -> env_of prog3 id = Some d -> In n (attr_names d) -> xn_ns n = u ->
        f "ns1"%string = u))) /\
  compiles (env_of prog3) /\ names_ok (env_of prog3) /\ lossless_env o (env_of prog3) /\
  typed o (env_of prog3) (ERef 0) spot_value.
Proof.
  intros o. destruct (C38_lossless_text o) as (Hb & _ & Hs & Hi & _).
  split.
  { split.
    - intros p u H. destruct (spot_maps _ _ H) as [-> ->]. split; [reflexivity|]. intros [_ E]. discriminate.
    - right. intros id d n H. rewrite (spot_only _ _ H). intros [<-|[<-|[<-|[]]]]; discriminate. }
  split.
  { split.
    - intros p u H. destruct (spot_maps _ _ H) as [-> ->]. split; [discriminate|]. split; discriminate.
    - exists (fun _ => "urn:g"%string). split; [intros p u H|intros u id d n H _ _ _]; now destruct (spot_maps _ _ H) as [_ ->]. }
  split. { intros id d H. rewrite (spot_only _ _ H). repeat constructor. vm_compute. discriminate. }
  split. { intros id d H. rewrite (spot_only _ _ H). split; naming. }
  split.
  { intros id d H. rewrite (spot_only _ _ H). split; [|cbn; repeat constructor].
    constructor; [exact Hs|]. constructor; [apply Hi|]. constructor; [apply Hi|].
    constructor; [split; [exact I|now left]|]. constructor. }
  pose proof spot_env as E. unfold spot_value. typing.
Qed.

Example C45_default_written_example :
  option_map (emit SkipIfAnywhere [])
    (PropDeriveSer.written (serialize_root oracles1 (env_of prog3) true steady 0 spot_value)) =
  Some [ XStart (Ser.PName (Some "ns1"%string) "Spot") [("ns1", "urn:g")]%string
           [(Ser.PName None "label", " l "%string); (Ser.PName (Some "ns1"%string) "id", "7"%string)];
         XStart (Ser.PName (Some "ns1"%string) "x") [] []; XChars "1"; XEnd;
         XStart (Ser.PName (Some "ns1"%string) "next") []
           [(Ser.PName None "label", ""%string); (Ser.PName (Some "ns1"%string) "id", "8"%string)];
         XStart (Ser.PName (Some "ns1"%string) "x") [] []; XChars "-3"; XEnd; XEnd; XEnd ].
Proof. vm_compute. reflexivity. Qed.

(** Sources that the macro accepts but that cannot be read: a variant in an empty namespace is not found. *)
Definition empty_url_src : sinput := SInput "E" (sx [kv "namespace" "p: "])
  (SEnum [SVariant "a" (sx [kv "prefix" "p"]) FUnit; SVariant "b" [] FUnit]).

Theorem C45_empty_url_refuted : exists e,
  derive_serialize empty_url_src = inl ([], Some (EDEnum e)) /\
  derive_deserialize empty_url_src = inl ([], Some (EDEnum e)) /\
  map (fun v => xn_ns (expanded (dname_of (ev_name v)))) (ee_variants e) = [""; ""]%string /\
  ~ names_ok (env_of (fun id => match id with 0 => Some empty_url_src | _ => None end)).
Proof.
  eexists. split; [vm_compute; reflexivity|]. split; [vm_compute; reflexivity|]. split; [reflexivity|].
  intros H. specialize (H 0 _ eq_refl). destruct H as [H _]. refine (H (Variant (DName (Some ""%string) "a") None) _ eq_refl).
  vm_compute. now left.
Qed.
Print Assumptions C45_empty_url_refuted.
