(** The code the derive macros generate does what the declarations mean, whatever the identifiers are (C63).

    GenCode.v has the generated code, with the names of fields, flags and variants as [quote!] puts them
    there; GenRun.v and GenSer.v run it, finding everything by name. *)
From Verif Require Import Base Normalize Text Find Types NsSpec Ser DeriveSer Reader ReaderSpec DeriveDe DeSpec DeriveAttr DASpec DAProps
  DALink GenCode GenRun GenSer GenNames GenSerProofs GenLink Conformance.

(** Reading with the generated visitors gives what the declarations mean: the same value, the same error,
    the same place. *)
Theorem C63_deserialize : forall o alg dflt prog dbg t src fin, compiles dflt prog ->
  read_generated o alg (de_decls prog) dflt dbg t src fin = read_as o alg (env_of prog) dbg t src fin.
Proof. exact read_expanded. Qed.

(** And so does writing. *)
Theorem C63_serialize : forall o dflt prog dbg w id v, compiles dflt prog -> shaped (ser_decls prog) (ERef id) v ->
  g_serialize o (ser_decls prog) dbg w id v = serialize_root o (env_of prog) dbg w id v.
Proof. exact write_expanded. Qed.

(** Also of types that derive only [Serialize]; these may have a text field. *)
Theorem C63_serialize_only : forall o prog dbg w id v, ser_compiles prog -> shaped (ser_decls prog) (ERef id) v ->
  g_serialize o (ser_decls prog) dbg w id v = serialize_root o (ser_env prog) dbg w id v.
Proof. exact write_only. Qed.

(** The fields of a generated visitor have different names, each of them is initialized once, and nothing
    else is: neither [x_present] and [x_visitor] nor [out] and [_phantom] collide. *)
Theorem C63_visitor_fields : forall dflt prog id s, compiles dflt prog -> de_decls prog id = Some (EDStruct s) ->
  exists g, de_struct s = Some g /\ NoDup (map unraw (map fst (gs_defs g))) /\ map fst (gs_inits g) = map fst (gs_defs g).
Proof. exact visitor_fields. Qed.

(** The generated [parse]: the same error, or the variant of the same name. *)
Theorem C63_parse : forall o i t code text, derive_text i = inl ([], Some t) ->
  parse_code (ti_ident i) (variant_idents i) t = Some code ->
  match run_parse o (ti_std i) code text, parse_text o t text with
  | Ok g, Ok x => stands_for (variant_idents i) t x g
  | Err e, Err e' => e = e'
  | Abort x, Abort y => x = y
  | _, _ => False
  end.
Proof. exact run_parse_same. Qed.

(** The generated [to_text]. *)
Theorem C63_to_text : forall o i t code x g, derive_text i = inl ([], Some t) -> NoDup (map unraw (variant_idents i)) ->
  totext_code (variant_idents i) t = Some code -> stands_for (variant_idents i) t x g ->
  run_totext o (ti_std i) (union_types i t) code g = shown o t x.
Proof. exact run_totext_same. Qed.

(** ** Examples *)

(** Identifiers that are as unfortunate as possible. *)
Definition thing_src : sinput := SInput "r#Thing" [AList [kv_ "rename" "foo"]]
  (SStruct (FNamed
    [ DeriveAttr.SField "r#type" [AList [fl "attribute"; kv_ "rename" "type"]] (KOne, EText TBool) None;
      DeriveAttr.SField "out" [] (KOne, tstr) None;
      DeriveAttr.SField "out_present" [AList [fl "default"]] (KVec, tstr) (Some (VVec []));
      DeriveAttr.SField "self_" [AList [fl "flatten"]] (KOne, ERef 1) None;
      DeriveAttr.SField "_phantom" [AList [kv_ "rename" "a"]] (KOpt, tstr) None ])).
Definition part_src : sinput := SInput "Part" []
  (SEnum [SVariant "r#Self_" [AList [kv_ "rename" "z"]] (FUnnamed [(KOne, tstr)]); SVariant "None" [] FUnit;
          SVariant "Skipped" [AList [fl "skip"]] (FUnnamed [(KOne, tstr)])]).
Definition things : program := fun id => match id with 0 => Some thing_src | 1 => Some part_src | _ => None end.
Definition things_dflt (t : rty) : option value :=
  match fst t with KVec => Some (VVec []) | KOpt => Some VNone | KOne => None end.

Example C63_compiles : compiles things_dflt things.
Proof.
  intros [|[|id]] i H; cbn in H; try discriminate; injection H as <-; (split; [constructor|]); cbn;
    try (repeat constructor; cbn; intuition discriminate); vm_compute; discriminate.
Qed.

(** The two fields of the visitor whose names could collide. *)
Example C63_names : exists s g, de_decls things 0 = Some (EDStruct s) /\ de_struct s = Some g /\
  map fst (gs_defs g) = ["out"; "_phantom"; "type_present"; "out_present"; "out_present_present"; "self__visitor";
                         "_phantom_present"]%string.
Proof. vm_compute. eauto. Qed.

Definition thing_doc : list (xevent * position) :=
  doc_src [Attr (plain "type") "true"] [ws; leaf "out" "1"; leaf "z" "2"; leaf "out_present" "3"; leaf "b" "4"; leaf "out_present" "5"].
Definition thing_value : value :=
  VStruct [VText (TVBool true); VText (TVStr "1"); VVec [VText (TVStr "3"); VText (TVStr "5")];
           VEnum 1 (Some (VText (TVStr "2"))); VNone].

Example C63_read : forall alg dbg,
  read_generated t_oracles alg (de_decls things) things_dflt dbg (ERef 0) thing_doc t_end = Ok thing_value.
Proof. intros [] []; vm_compute; reflexivity. Qed.

Example C63_duplicate : forall alg dbg, exists e,
  read_generated t_oracles alg (de_decls things) things_dflt dbg (ERef 0)
    (doc_src [Attr (plain "type") "true"] [leaf "z" "0"; leaf "out" "1"; leaf "out" "2"]) t_end = Err e.
Proof. intros [] []; vm_compute; eauto. Qed.

Example C63_shaped : shaped (ser_decls things) (ERef 0) thing_value.
Proof.
  eapply sh_struct; [vm_compute; reflexivity|].
  repeat (apply Forall2_cons || apply Forall2_nil).
  - apply sf_one, sh_text.
  - apply sf_one, sh_text.
  - apply sf_vec. repeat constructor.
  - apply sf_one. eapply sh_payload; [vm_compute; reflexivity|vm_compute; reflexivity|reflexivity|]. apply sf_one, sh_text.
  - apply sf_none.
Qed.

(** A type with a text field, which only [Serialize] accepts (and leaves out, C36). *)
Definition note_src : sinput := SInput "Note" []
  (SStruct (FNamed
    [ DeriveAttr.SField "r#lang" [AList [fl "attribute"; kv_ "rename" "lang"]] (KOpt, tstr) None;
      DeriveAttr.SField "body" [AList [fl "text"]] (KOne, tstr) None ])).
Definition notes : program := fun id => match id with 0 => Some note_src | _ => None end.

Example C63_only : ser_compiles notes /\ declaration note_src = None /\
  shaped (ser_decls notes) (ERef 0) (VStruct [VSome (VText (TVStr "en")); VText (TVStr "hello")]).
Proof.
  split; [|split; [reflexivity|]].
  - intros [|id] i H; cbn in H; try discriminate. injection H as <-.
    split; [|split]; [cbn; repeat constructor; cbn; intuition discriminate|constructor|vm_compute; discriminate].
  - eapply sh_struct; [vm_compute; reflexivity|]. repeat (apply Forall2_cons || apply Forall2_nil).
    + apply sf_some, sh_text.
    + apply sf_one, sh_text.
Qed.

(** A text type whose variants are written with raw identifiers. *)
Definition raw_src : tinput := TInput "Colour" [AList [kv_ "mode" "restriction"; kv_ "whitespace" "collapse"]]
  (TDataEnum [SVariant "r#Red" [AList [kv_ "rename" "red"]] FUnit; SVariant "Green" [] FUnit;
              SVariant "r#Other" [AList [fl "unknown"]] (FUnnamed [TString])]) 1.

Example C63_text : exists t p s, derive_text raw_src = inl ([], Some t) /\ NoDup (map unraw (variant_idents raw_src)) /\
  parse_code (ti_ident raw_src) (variant_idents raw_src) t = Some p /\
  totext_code (variant_idents raw_src) t = Some s /\
  run_parse t_oracles 1 p " red " = Ok (GTUnit "r#Red") /\
  run_parse t_oracles 1 p "Red" = Ok (GTText "r#Other" "Red") /\
  stands_for (variant_idents raw_src) t (TVKnown 0) (GTUnit "r#Red") /\
  stands_for (variant_idents raw_src) t (TVUnknown "Red") (GTText "r#Other" "Red") /\
  run_totext t_oracles 1 [] s (GTUnit "r#Red") = Some (inl "red"%string) /\
  run_totext t_oracles 1 [] s (GTText "r#Other" "Red") = Some (inl "Red"%string).
Proof.
  do 3 eexists. repeat apply conj; try (vm_compute; reflexivity).
  - cbn. repeat constructor; cbn; intuition discriminate.
  - apply (sf_known _ "Colour" Collapse [RKnown "red"; RKnown "Green"; RUnknown] 0 "red"); reflexivity.
  - apply (sf_unknown _ "Colour" Collapse [RKnown "red"; RKnown "Green"; RUnknown] 2 "r#Other" "Red"); reflexivity.
Qed.

Print Assumptions C63_deserialize.
Print Assumptions C63_serialize.
Print Assumptions C63_serialize_only.
Print Assumptions C63_visitor_fields.
Print Assumptions C63_parse.
Print Assumptions C63_to_text.
