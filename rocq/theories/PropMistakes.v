(** Property theorem C62: the errors of the derive macros.

    [macro_serialize (Some i)]: what the macro comes to when syn parses its input as [i].  Which errors a
    declaration has, in which order, is specified in MistakeSpec.v ([input_errors], [text_errors]). *)
From Verif Require Import Base Normalize Text Find Types DeriveAttr DASpec DAType DAProps DeriveEntry MistakeSpec MistakeProofs.

(** ** C62: every mistake is reported, in order, and nothing else *)

(** The macro returns the errors that are pushed, in the order of pushing, followed by the code; a panic of
    the derivation is the macro's, and does not become an abort of the compiler. *)
Theorem C62_entry : forall I A (i : I) (f : I -> der (option A)),
  (forall errs code, derive_entry (Some i) f = Expanded errs code <-> f i = inl (errs, code)) /\
  (forall x, derive_entry (Some i) f = Panicked x <-> f i = inr x) /\
  derive_entry (Some i) f <> Killed /\ derive_entry (Some i) f <> NotParsed.
Proof. exact @entry_spec. Qed.
Print Assumptions C62_entry.

(** [panics_on]: there is a [namespace] item whose prefix begins with xml (C41). *)
Theorem C62_serialize : forall i,
  (panics_on (items_in (si_attrs i)) /\ si_data i <> SUnion -> macro_serialize (Some i) = Panicked todo_namespace) /\
  (~ panics_on (items_in (si_attrs i)) \/ si_data i = SUnion ->
    exists code, macro_serialize (Some i) = Expanded (input_errors i) code).
Proof. exact serialize_reports. Qed.
Print Assumptions C62_serialize.

(** [one_text]: exactly one field is text; that is not implemented. *)
Theorem C62_deserialize : forall i,
  (panics_on (items_in (si_attrs i)) /\ si_data i <> SUnion -> macro_deserialize (Some i) = Panicked todo_namespace) /\
  (~ panics_on (items_in (si_attrs i)) -> one_text i = true -> macro_deserialize (Some i) = Panicked todo_text) /\
  (~ panics_on (items_in (si_attrs i)) \/ si_data i = SUnion -> one_text i = false ->
    exists code, macro_deserialize (Some i) = Expanded (input_errors i) code).
Proof. exact deserialize_reports. Qed.
Print Assumptions C62_deserialize.

Theorem C62_text : forall i,
  exists code, macro_parse_text (Some i) = Expanded (text_errors i) code /\
    macro_to_text (Some i) = Expanded (text_errors i) code.
Proof. exact text_reports. Qed.
Print Assumptions C62_text.

(** Without errors there is code, for what the declaration means. *)
Theorem C62_code : forall i code, macro_serialize (Some i) = Expanded [] code <-> exists d, code = Some d /\ input_means i d.
Proof. exact serialize_code. Qed.
Print Assumptions C62_code.

Theorem C62_text_code : forall i code,
  macro_parse_text (Some i) = Expanded [] code <-> exists t, code = Some t /\ text_input_means i t.
Proof. exact text_code. Qed.
Print Assumptions C62_text_code.

(** What is wrong with one field is reported whatever is wrong with the others. *)
Theorem C62_fields : forall i fs1 sf fs2 errs code, si_data i = SStruct (FNamed (fs1 ++ sf :: fs2)) ->
  macro_serialize (Some i) = Expanded errs code ->
  exists a b, errs = a ++ field_errors (offers (items_in (si_attrs i))) sf ++ b /\
    forall sf', exists b', macro_serialize (Some (SInput (si_ident i) (si_attrs i) (SStruct (FNamed (fs1 ++ sf' :: fs2))))) =
      Expanded (a ++ field_errors (offers (items_in (si_attrs i))) sf' ++ fst b') (snd b').
Proof. exact field_reported. Qed.
Print Assumptions C62_fields.

(** Where syn cannot parse the input, its error is lost: the macro panics instead. *)
Theorem C62_unparsable_refuted : forall I A (f : I -> der (option A)),
  derive_entry None f <> NotParsed /\
  derive_entry None f = Panicked (Panic "Errors dropped without take_compile_errors call").
Proof. exact @unparsable. Qed.
Print Assumptions C62_unparsable_refuted.

(** Eight mistakes in a declaration: all are reported. *)
Example C62_example :
  let kv k v := INameValue (Some k) (LStr v) in
  let i := SInput "Person"
    [AForeign; AList [kv "namespace" "u: urn:u"; kv "namespace" "u: urn:v"; kv "rename_all" "x"; kv "prefix" "q"]%string; ANotList]
    (SStruct (FNamed
      [ SField "id" [AList [flag "attribute"; flag "text"]] (KOne, EText TBool) None;
        SField "name" [AList [kv "prefix" "w"; kv "rename" "n"; kv "prefix" "u"]%string] (KOne, EText TBool) None;
        SField "more" [AList [INameValue (Some "rename"%string) LOther]] (KOpt, EText TBool) None ])) in
  (exists code, macro_serialize (Some i) = Expanded
    [ EExpectedList; EReassign "u" "urn:u" "urn:v"; ENotUnderstood; EPrefixNotFound "q"; EExclusive;
      EPrefixNotFound "w"; EDuplicatePrefix "w" "u"; EString ] code) /\
  ~ panics_on (items_in (si_attrs i)).
Proof.
  cbv zeta. split; [eexists; reflexivity|]. intros (s & H & p & u & F & X & _). apply split_colon_ok in F.
  cbn in H. destruct H as [H|[H|[H|[H|[]]]]]; try discriminate; injection H as <-; cbn in F; injection F as <- <-; discriminate.
Qed.
