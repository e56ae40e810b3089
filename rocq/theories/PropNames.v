(** Property theorem C59: what is written is made of XML names and characters.

    [ncname], [xml_text], [event_wf]: XML 1.0 and Namespaces in XML, see NamesSpec.v. *)
From Verif Require Import Base Normalize NormalizeSpec Text Find Types BMap Ser SerSpec DeriveSer DSerSpec DeriveAttr DASpec DALink
  Reader ReaderSpec DeSpec DeriveDe
  NamesSpec Names NamesDerived NamesSource NamesReads PropReader PropDe PropDeriveSer PropAttr.
From Coq Require Import Lia.

(** ** C59: for all programs *)

(** If a program asks only for elements and attributes named by [NCName]s, for prefixes that are [NCName]s and
    for texts of XML characters (whatever its calls return), then so do all events written, also when the
    run ends with an error: in particular the prefixes the library makes up are [NCName]s. *)
Theorem C59_programs : forall dbg w n v r k,
  ncname (xn_local n) -> proper_a (s_attrs v) -> proper_w (s_kids v) ->
  to dbg w n v = inl (r, k) -> Forall event_wf (k_out k).
Proof. exact written_wf. Qed.
Print Assumptions C59_programs.

(** ** For derived types *)

(** [names_wf env]: the names and mappings in the declarations; [holds env t v t' x]: the value [v] of the type
    [t] has the value [x] of the text type [t'] in it. *)
Theorem C59_derived : forall o env dbg w id v r k, names_wf env ->
  (forall t x s, holds env (ERef id) v t x -> to_text o t x = Some s -> xml_text s) ->
  serialize_root o env dbg w id v = inl (r, k) -> Forall event_wf (k_out k).
Proof. exact root_wf. Qed.
Print Assumptions C59_derived.

Theorem C59_with_name : forall o env, names_wf env -> forall dbg w t v n r k, ncname (xn_local n) ->
  (forall t' x s, holds env t v t' x -> to_text o t' x = Some s -> xml_text s) ->
  serialize_with_name o env dbg w t v n = inl (r, k) -> Forall event_wf (k_out k).
Proof. exact with_name_wf. Qed.
Print Assumptions C59_with_name.

(** Types all of whose values print as XML characters need no condition on the values. *)
Theorem C59_any_value : forall o env dbg w id v r k, names_wf env ->
  (forall t x, holds env (ERef id) v t x -> prints_xml o t) ->
  serialize_root o env dbg w id v = inl (r, k) -> Forall event_wf (k_out k).
Proof. exact safe_root. Qed.
Print Assumptions C59_any_value.

Theorem C59_text_types : forall o,
  prints_xml o TBool /\ (forall k, prints_xml o (TInt k)) /\
  (forall name ws vs, (forall t, In (RKnown t) vs -> xml_text t) -> ~ In RUnknown vs -> prints_xml o (TRestr name ws vs)) /\
  (forall name ws vs, Forall (prints_xml o) vs -> prints_xml o (TUnion name ws vs)).
Proof.
  exact (fun o => conj (bool_prints o) (conj (int_prints o) (conj (restr_prints o) (union_prints o)))).
Qed.
Print Assumptions C59_text_types.

(** ** In terms of the source *)

Theorem C59_source : forall prog,
  (forall id i, prog id = Some i ->
     ncname (last (values "rename" (items_in (si_attrs i))) (si_ident i)) /\
     (forall f, has_field i f -> ncname (last (values "rename" (items_in (sf_attrs f))) (sf_ident f))) /\
     (forall v, has_variant i v -> ~ In (flag "skip") (items_in (sv_attrs v)) ->
        ncname (last (values "rename" (items_in (sv_attrs v))) (sv_ident v)))) /\
  (forall p u, maps prog p u -> prefix_wf p /\ xml_text u) ->
  names_wf (env_of prog).
Proof. exact source_wf. Qed.
Print Assumptions C59_source.

(** Identifiers of ASCII letters, digits and underscores are [NCName]s (so is [_]). *)
Theorem C59_identifiers : forall s, ascii_ident s -> ncname s.
Proof. exact ascii_ident_ncname. Qed.
Print Assumptions C59_identifiers.

(** ** What was read is written back so *)

(** Every text in a value that was read was parsed from a text of the document (the content of an element or
    the value of an attribute), or is part of a field's default. *)
Theorem C59_origin : forall o alg env dbg t d pe v t' x, names_ok env ->
  read_as o alg env dbg t (doc_events d) (FEndDocument pe) = Ok v -> holds env t v t' x ->
  (exists s, text_in (d_root d) s /\ parse_text o t' s = Ok x) \/ default_has env t' x.
Proof. exact read_origin. Qed.
Print Assumptions C59_origin.

Theorem C59_read_back : forall o alg env dbg dbg' w t d pe v n r k,
  names_ok env -> names_wf env -> ncname (xn_local n) -> node_xml (d_root d) ->
  read_as o alg env dbg t (doc_events d) (FEndDocument pe) = Ok v ->
  (forall t' x, holds env t v t' x -> keeps_xml o t') ->
  (forall t' x s, default_has env t' x -> to_text o t' x = Some s -> xml_text s) ->
  serialize_with_name o env dbg' w t v n = inl (r, k) -> Forall event_wf (k_out k).
Proof. exact read_back. Qed.
Print Assumptions C59_read_back.

(** Text types: strings, restrictions also with an unknown variant, unions; and those of [C59_text_types]. *)
Theorem C59_kept : forall o,
  (forall t, prints_xml o t -> keeps_xml o t) /\ keeps_xml o TString /\
  (forall name ws vs, (forall t, In (RKnown t) vs -> xml_text t) -> keeps_xml o (TRestr name ws vs)) /\
  (forall name ws vs, Forall (keeps_xml o) vs -> keeps_xml o (TUnion name ws vs)).
Proof.
  exact (fun o => conj (prints_keeps o) (conj (string_keeps o) (conj (restr_keeps o) (union_keeps o)))).
Qed.
Print Assumptions C59_kept.

(** ** Examples *)

Ltac name_lit := apply ascii_ident_ncname, ident_lit_spec; reflexivity.
Ltac text_lit := apply text_lit_spec; reflexivity.

Definition x_asks : serialize :=
  Ser (ANs "p" "urn:a" (ANs "p" "urn:b" (AAttr (XName "urn:a" "a") "1" (fun _ => AAttr (XName "urn:b" "b") "2" (fun _ => ARet None)))))
      (WText "hello" (fun _ => WElem (XName "urn:a" "kid") (BStart (WFinish (fun _ => WRet None)) (fun _ => WRet None)))).

Example C59_example :
  ncname "root" /\ proper_a (s_attrs x_asks) /\ proper_w (s_kids x_asks) /\
  written (to true steady (XName "" "root") x_asks) = Some
    [WStart (Ser.PName None "root") [(Ser.PName (Some "p") "a", "1"); (Ser.PName (Some "p2") "b", "2")] [("p", "urn:a"); ("p2", "urn:b")];
     WChars "hello"; WStart (Ser.PName (Some "p") "kid") [] [("p", "urn:a"); ("p2", "urn:b")]; WEnd; WEnd]%string.
Proof.
  split; [name_lit|]. split; [|split; [|vm_compute; reflexivity]].
  - assert (prefix_wf "p") by (right; name_lit). cbn. split; [assumption|]. split; [text_lit|]. split; [assumption|].
    split; [text_lit|]. split; [name_lit|]. split; [text_lit|]. intros _. split; [name_lit|]. split; [text_lit|]. auto.
  - cbn. split; [text_lit|]. intros _. split; [name_lit|]. split; auto.
Qed.

(** The program [prog2] of PropAttr.v. *)
Example C59_source_example : names_wf (env_of prog2) /\
  forall o t x s, holds (env_of prog2) (ERef 0) (VStruct [st " l "; VText (TVInt 1); VVec []]) t x ->
    to_text o t x = Some s -> xml_text s.
Proof.
  split.
  - apply C59_source. split.
    + intros [|id] i [= <-]. split; [name_lit|]. split.
      * intros f (fs & [= <-] & [<-|[<-|[<-|[]]]]); name_lit.
      * intros v (vs & [=] & _).
    + intros p u H. destruct (point_maps _ _ H) as [-> ->]. split; [right; name_lit|text_lit].
  - intros o t x s H Hs.
    inversion H as [|? ? ? ? fs ? j f ? ? ? E Hf M Hv|? ? ? ? fs ? j f ? ? ? ? ? ? ? E Hf M Hv I HI HH
      |? ? ? ? fs ? j f ? ? ? ? E Hf M Hv HH|]; subst; clear H; rewrite point_env in E; injection E as <- <- <- <-;
      destruct j as [|[|[|j]]]; cbn in Hf; try discriminate; try injection Hf as <-; try discriminate; try (destruct j; discriminate).
    + injection M as <- <-. injection Hv as <-. injection Hs as <-. text_lit.
    + injection M as <- <-. injection Hv as <-. inversion I; subst. destruct HI as [<-|[]]. inversion HH; subst. eapply int_prints; eauto.
    + injection M as <- <-. injection Hv as <-. inversion I; subst. destruct HI.
Qed.

(** A point with another in it. *)
Definition gel (s : string) (attrs : list attr) (kids : list node) : node :=
  NElem (OName (Some "g"%string) (Some "urn:g"%string) s) attrs [] (at_ 1) kids (at_ 2).
Definition point_doc : doc := doc_of [Attr (nm "label") " a "]
  [ gel "x" [] [tx "1"]; gel "next" [Attr (nm "label") "b"] [gel "x" [] [tx "2"]] ].
Definition point_value : value := VStruct [st " a "; VText (TVInt 1); VVec [VStruct [st "b"; VText (TVInt 2); VVec []]]].

Lemma point_texts : forall t v t' x, holds (env_of prog2) t v t' x -> t = ERef 0 \/ t = EText (TInt I32) ->
  t' = TString \/ t' = TInt I32.
Proof.
  induction 1 as [t x|id ident root nss fs vs j f opt t x E Hf M Hv
      |id ident root nss fs vs j f k t' v l w t x E Hf M Hv I HI HH IH
      |id ident root nss fs vs j f id' v t x E Hf M Hv HH IH
      |id ident root nss vs sk i w k t' p l u t x E Hi Hw I HI HH IH]; intros HT;
    try (apply point_only in E; injection E as -> -> -> ->; apply nth_error_In in Hf; destruct Hf as [<-|[<-|[<-|[]]]]; try discriminate M);
    try (apply point_only in E; discriminate E).
  - destruct HT as [[=]|[= ->]]. auto.
  - injection M as <- <-. auto.
  - injection M as <- <-. auto.
  - injection M as <- <-. auto.
Qed.

Example C59_read_back_example : forall o,
  names_ok (env_of prog2) /\ names_wf (env_of prog2) /\ ncname "Point" /\ node_xml (d_root point_doc) /\
  read_as oracles1 Bisect (env_of prog2) true (ERef 0) (doc_events point_doc) end0 = Ok point_value /\
  (forall t' x, holds (env_of prog2) (ERef 0) point_value t' x -> keeps_xml o t') /\
  (forall t' x s, default_has (env_of prog2) t' x -> to_text o t' x = Some s -> xml_text s) /\
  exists k, serialize_with_name oracles1 (env_of prog2) true steady (ERef 0) point_value (XName "urn:g" "Point") = inl (None, k).
Proof.
  intros o. split; [apply (C45_example o)|]. split; [apply C59_source_example|]. split; [name_lit|]. split.
  { repeat (constructor; try text_lit). }
  split; [vm_compute; reflexivity|]. split.
  { intros t' x H. destruct (point_texts _ _ _ _ H (or_introl eq_refl)) as [->| ->]; [apply string_keeps|apply prints_keeps, int_prints]. }
  split; [|eexists; vm_compute; reflexivity].
  intros t' x s (id & ident & root & nss & fs & f & v & E & Hf & D & _). apply point_only in E. injection E as -> -> -> ->.
  destruct Hf as [<-|[<-|[<-|[]]]]; discriminate D.
Qed.

(** ** The hypotheses are needed *)

(** [#[static_xml(rename = "a b")]] and [r#type] (without [rename]) are accepted. *)
Definition odd_src : sinput := SInput "T" (sx [kv "rename" "a b"])
  (SStruct (FNamed [sfld "r#type" [] (KOne, EText TBool)])).

Theorem C59_rename_refuted : exists prog o v k, prog = (fun id => match id with 0 => Some odd_src | _ => None end) /\
  declaration odd_src <> None /\ typed o (env_of prog) (ERef 0) v /\
  serialize_root o (env_of prog) true (fun _ => None) 0 v = inl (None, k) /\
  k_out k = [WStart (Ser.PName None "a b") [] []; WStart (Ser.PName None "r#type") [] []; WChars "true"; WEnd; WEnd]%string /\
  ~ ncname "a b" /\ ~ ncname "r#type" /\ ~ Forall event_wf (k_out k).
Proof.
  eexists _, oracles1, (VStruct [VText (TVBool true)]), _. split; [reflexivity|]. split; [vm_compute; discriminate|].
  assert (A : ~ ncname "a b").
  { intros H. apply (ncname_bytes _ " "%char) in H; [|cbn; auto|reflexivity]. unfold name_char, name_start_char in H. cbn in H. lia. }
  assert (B : ~ ncname "r#type").
  { intros H. apply (ncname_bytes _ "#"%char) in H; [|cbn; auto|reflexivity]. unfold name_char, name_start_char in H. cbn in H. lia. }
  split; [typing|]. split; [vm_compute; reflexivity|]. split; [reflexivity|]. split; [assumption|]. split; [assumption|].
  intros H. apply Forall_inv in H. destruct H as [[_ H] _]. exact (A H).
Qed.
Print Assumptions C59_rename_refuted.

(** A control character in a [String] is written. *)
Theorem C59_control_character_refuted : exists prog o v k,
  typed o (env_of prog) (ERef 0) v /\ names_wf (env_of prog) /\
  serialize_root o (env_of prog) true (fun _ => None) 0 v = inl (None, k) /\
  In (WChars (String (ascii_of_N 1) "")) (k_out k) /\ ~ xml_text (String (ascii_of_N 1) "").
Proof.
  exists (fun id => match id with 0 => Some (SInput "T" [] (SStruct (FNamed [sfld "s" [] (KOne, str_ty)]))) | _ => None end).
  eexists oracles1, (VStruct [VText (TVStr (String (ascii_of_N 1) ""))]), _. split; [typing|]. split.
  - apply C59_source. split.
    + intros [|id] i [= <-]. split; [name_lit|]. split.
      * intros f (fs & [= <-] & [<-|[]]); name_lit.
      * intros v (vs & [=] & _).
    + intros p u ([|id] & i & decls & [= <-] & HD & HI). inversion HD; subst. destruct HI.
  - split; [vm_compute; reflexivity|]. split; [cbn; auto|].
    intros H. apply (text_bytes _ (ascii_of_N 1)) in H; [|cbn; auto|reflexivity]. unfold xml_char in H. cbn in H. lia.
Qed.
Print Assumptions C59_control_character_refuted.
