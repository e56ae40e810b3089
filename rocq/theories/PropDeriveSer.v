(** Property theorems C35-C37: derived serialization.

    [typed o env t v]: [v] is a value of type [t]; [content o env t v reqs kids]: what [v] is as a tree
    (DSerSpec.v).  [serialize_root o env dbg w id v]: the result of [serialize(&v).to(writer)] for the
    derived type [id] and a writer with failure pattern [w]; [inr] is a panic. *)
From Verif Require Import Base Normalize Text Find Types BMap Ser SerSpec NsSpec DeriveSer DSerSpec
  DSerProofs DSerPanic DSerProps.

(** ** Types and values for the examples *)

Definition oracles1 : oracles := {|
  o_debug := fun s => s;
  o_std_parse := fun _ _ => Err "no"%string; o_std_show := fun _ _ => ""%string;
  o_float_parse := fun _ _ => Err "no"%string; o_float_show := fun _ _ => ""%string;
  o_hand_parse := fun _ _ => Err "no"%string; o_hand_show := fun _ _ => inl ""%string |}.

Definition ln (s : string) : dname := DName None s.
Definition un (s : string) : dname := DName (Some "urn:u") s.
Definition str_ty : ety := EText TString.

(** [#[static_xml(namespace = "u: urn:u", prefix = "u")] struct Person { #[attribute] id: bool,
    #[attribute, prefix = "u"] lang: Option<String>, name: String, nick: Option<String>,
    tag: Vec<String>, friend: Vec<Person>, #[flatten] contact: Contact }],
    [#[static_xml(namespace = "u: urn:u")] enum Contact { Email(String), Phone(Vec<String>), Nothing,
    #[skip] Unknown }]; the elements have prefix [u]. *)
Definition person : tdesc := TDStruct "Person" (un "person") [("u", "urn:u")]%string
  [ Field (ln "id") (MAttribute false TBool) None;
    Field (un "lang") (MAttribute true TString) None;
    Field (un "name") (MElement KOne str_ty) None;
    Field (un "nick") (MElement KOpt str_ty) None;
    Field (un "tag") (MElement KVec str_ty) None;
    Field (un "friend") (MElement KVec (ERef 0)) None;
    Field (ln "contact") (MFlatten 1) None ].
Definition contact : tdesc := TDEnum "Contact" (ln "contact") [("u", "urn:u")]%string
  [ Variant (un "phone") (Some (KVec, str_ty));
    Variant (un "email") (Some (KOne, str_ty));
    Variant (un "nothing") None ] true.
Definition env1 : tenv := fun id =>
  match id with 0 => Some person | 1 => Some contact | _ => None end.

Definition st (s : string) : value := VText (TVStr s).
Definition bo : value :=
  VStruct [VText (TVBool false); VNone; st "Bo"; VSome (st "B"); VVec []; VVec []; VEnum 1 None].
Definition al : value :=
  VStruct [VText (TVBool true); VSome (st "en"); st "Al"; VNone; VVec [st "x"; st "y"]; VVec [bo];
           VEnum 2 (Some (VVec [st "1"; st "2"]))].

Ltac typing := lazymatch goal with
  | |- Forall2 _ [] [] => constructor
  | |- Forall2 _ _ _ => constructor; [typing|typing]
  | |- Forall _ [] => constructor
  | |- Forall _ _ => constructor; [typing|typing]
  | |- typed_field _ _ _ _ => first
      [ eapply tf_element; [reflexivity|constructor|typing]
      | eapply tf_attribute; [reflexivity|discriminate]
      | eapply tf_opt_attribute; [reflexivity|discriminate]
      | eapply tf_no_attribute; reflexivity
      | eapply tf_flatten; [reflexivity|typing] ]
  | |- typed _ _ _ _ => first
      [ eapply ty_struct; [reflexivity|typing]
      | eapply ty_unit; [reflexivity|reflexivity|reflexivity]
      | eapply ty_payload; [reflexivity|reflexivity|reflexivity|constructor|typing]
      | eapply ty_text; discriminate
      | eapply ty_skipped; reflexivity ]
  end.

Lemma bo_typed : typed oracles1 env1 (ERef 0) bo.
Proof. typing. Qed.
Lemma al_typed : typed oracles1 env1 (ERef 0) al.
Proof. typing. Qed.

Ltac declares := apply Forall_forall; cbn; intros ? H;
  repeat (destruct H as [<-|H]; [unfold declared; first [now left|right; right; eexists; left; reflexivity]|]);
  destruct H.
Lemma env1_declared : names_declared env1.
Proof.
  intros [|[|id]] d [= <-]; declares.
Qed.
Lemma env1_mapped id d p u : env1 id = Some d -> In (p, u) (td_nss d) -> p = "u"%string /\ u = "urn:u"%string.
Proof. destruct id as [|[|id]]; intros [= <-] [[= <- <-]|[]]; auto. Qed.
Lemma env1_prefixes : prefixes_ok env1.
Proof. intros id d p u E H. destruct (env1_mapped _ _ _ _ E H) as [-> ->]. split; [reflexivity|]. intros [? _]. discriminate. Qed.
Lemma env1_no_default : no_default env1.
Proof. left. intros id d u E H. destruct (env1_mapped _ _ _ _ E H). discriminate. Qed.
Lemma env1_apart : attrs_apart env1.
Proof.
  intros [|[|id]] ident root nss fs [= <- <- <- <-]. split.
  - repeat constructor; cbn; intuition discriminate.
  - intros f id' Hf. cbn in Hf.
    repeat (destruct Hf as [<-|Hf]; [cbn; intros E; try discriminate; injection E as <-; do 5 eexists; reflexivity|]).
    destruct Hf.
Qed.
Lemma env1_legal : legal_env env1.
Proof. intros id d p u E H. destruct (env1_mapped _ _ _ _ E H) as [-> ->]. repeat split; discriminate. Qed.
Lemma env1_coherent : coherent_env env1.
Proof.
  exists (fun _ => "urn:u"%string). split.
  - intros id d p u E H. destruct (env1_mapped _ _ _ _ E H) as [-> ->]. reflexivity.
  - intros id d u id' d' n E H. destruct (env1_mapped _ _ _ _ E H). discriminate.
Qed.

Definition steady : io := fun _ => None.

(** The events written, if serialization succeeded. *)
Definition written (r : (option serr * sink) + abort) : option (list wevent) :=
  match r with inl (None, k) => Some (k_out k) | _ => None end.

(** ** C35: no panic *)

(** [names_declared]: the namespaces of a type's names are declared on that type; [prefixes_ok]: no
    declared prefix begins with [xml]; [no_default]: default namespaces and element names without
    namespace are not both used.  The writer may fail in any way. *)
Theorem C35_root_never_panics : forall o env dbg w id v, typed o env (ERef id) v ->
  names_declared env -> prefixes_ok env -> no_default env ->
  exists r k, serialize_root o env dbg w id v = inl (r, k).
Proof. exact root_no_panic. Qed.
Print Assumptions C35_root_never_panics.

(** If moreover attribute names do not clash and the writer does not fail, it succeeds. *)
Theorem C35_root_succeeds : forall o env, attrs_apart env -> forall dbg w id v, typed o env (ERef id) v ->
  names_declared env -> prefixes_ok env -> no_default env -> (forall i, w i = None) ->
  exists k, serialize_root o env dbg w id v = inl (None, k).
Proof. exact root_succeeds. Qed.
Print Assumptions C35_root_succeeds.

Example C35_example : typed oracles1 env1 (ERef 0) al /\ names_declared env1 /\ prefixes_ok env1 /\
  no_default env1 /\ attrs_apart env1.
Proof.
  split; [exact al_typed|]. split; [exact env1_declared|]. split; [exact env1_prefixes|].
  split; [exact env1_no_default|exact env1_apart].
Qed.

(** [#[static_xml(default_namespace = "urn:u", prefix = "")] struct Item { name: String }]: the field
    [name] has no namespace, and serializing any value panics. *)
Definition env_default : tenv := fun id =>
  match id with
  | 0 => Some (TDStruct "Item" (un "Item") [("", "urn:u")]%string [Field (ln "name") (MElement KOne str_ty) None])
  | _ => None
  end.

Theorem C35_default_namespace_refuted : exists env, names_declared env /\ prefixes_ok env /\ attrs_apart env /\
  forall o dbg s, typed o env (ERef 0) (VStruct [st s]) /\
    serialize_root o env dbg steady 0 (VStruct [st s]) = inr default_set.
Proof.
  exists env_default. split; [|split; [|split]].
  - intros [|id] d [= <-]. declares.
  - intros [|id] d p u [= <-] [[= <- <-]|[]]. split; [reflexivity|]. intros [_ ?]. discriminate.
  - intros [|id] ident root nss fs [= <- <- <- <-]. split; [constructor|]. intros f id' [<-|[]]. discriminate.
  - intros o dbg s. split.
    + typing.
    + destruct dbg; reflexivity.
Qed.
Print Assumptions C35_default_namespace_refuted.

(** [serialize_with_name], and text types: the name must be one the value's own type can resolve. *)
Theorem C35_with_name_never_panics : forall o env dbg w t v n, typed o env t v ->
  names_declared env -> prefixes_ok env -> no_default env ->
  (xn_ns n = ""%string /\ (forall id d u, env id = Some d -> ~ In (""%string, u) (td_nss d)) \/
   xn_ns n = XML_NS \/
   exists id d p, t = ERef id /\ env id = Some d /\ In (p, xn_ns n) (td_nss d)) ->
  exists r k, serialize_with_name o env dbg w t v n = inl (r, k).
Proof. exact with_name_no_panic. Qed.
Print Assumptions C35_with_name_never_panics.

(** [serialize_with_name] with a name in a namespace the value's type does not declare. *)
Theorem C35_undeclared_name_refuted : forall dbg,
  serialize_with_name oracles1 env1 dbg steady (ERef 0) al (XName "urn:other" "al") = inr undeclared /\
  serialize_with_name oracles1 env1 dbg steady str_ty (st "x") (XName "urn:u" "al") = inr undeclared.
Proof. intros []; split; vm_compute; reflexivity. Qed.
Print Assumptions C35_undeclared_name_refuted.

(** ** C36: a value is written as its fields *)

(** What the tree is. *)
Theorem C36_content_unique : forall o env v t reqs kids reqs' kids',
  content o env t v reqs kids -> content o env t v reqs' kids' -> reqs = reqs' /\ kids = kids'.
Proof. exact (fun o env v t r k r' k' => content_det o env v t r k r' k'). Qed.
Print Assumptions C36_content_unique.

Theorem C36_content_exists : forall o env v t, typed o env t v ->
  exists reqs kids, content o env t v reqs kids.
Proof. exact content_total. Qed.
Print Assumptions C36_content_exists.

(** The events written, up to prefixes and namespaces. *)
Theorem C36_tree_written : forall o env dbg w t v n k,
  serialize_with_name o env dbg w t v n = inl (None, k) ->
  exists reqs kids, content o env t v reqs kids /\
    asked n (ser_value o env t v) = Some (RElem n reqs kids) /\
    map ev_sev (k_out k) = tree_sevs (tree_of (RElem n reqs kids)).
Proof. exact success_content. Qed.
Print Assumptions C36_tree_written.

(** With namespaces: the document written, read with the rules of Namespaces in XML, is that tree. *)
Theorem C36_document : forall o env dbg w id v k pol,
  legal_env env -> no_default env -> (pol = SkipIfAnywhere -> coherent_env env) ->
  serialize_root o env dbg w id v = inl (None, k) ->
  exists n reqs kids, root_name env id = Some n /\ content o env (ERef id) v reqs kids /\
    meaning [] (emit pol [] (k_out k)) = Some (tree_events (tree_of (RElem n reqs kids))).
Proof. exact root_meaning. Qed.
Print Assumptions C36_document.

Definition u_ (s : string) : xname := XName "urn:u" s.
Definition leaf (n : xname) (s : string) : wtree := TElem n [] [TText s].

Example C36_example :
  legal_env env1 /\ no_default env1 /\ coherent_env env1 /\
  option_map (fun out => meaning [] (emit SkipIfAnywhere [] out))
    (written (serialize_root oracles1 env1 true steady 0 al)) = Some (Some (tree_events
    (TElem (u_ "person") [(XName "" "id", "true"); (u_ "lang", "en")]%string
       [ leaf (u_ "name") "Al"; leaf (u_ "tag") "x"; leaf (u_ "tag") "y";
         TElem (u_ "friend") [(XName "" "id", "false")]%string
           [ leaf (u_ "name") "Bo"; leaf (u_ "nick") "B"; TElem (u_ "nothing") [] [] ];
         leaf (u_ "phone") "1"; leaf (u_ "phone") "2" ]))).
Proof.
  split; [exact env1_legal|]. split; [exact env1_no_default|]. split; [exact env1_coherent|].
  vm_compute. reflexivity.
Qed.

(** Text fields are documented ("the field represents text", trait [ser::ToText]) but are not
    written: [struct Note { #[attribute] id: bool, #[text] body: String }]. *)
Definition env_text : tenv := fun id =>
  match id with
  | 0 => Some (TDStruct "Note" (ln "note") [] [ Field (ln "id") (MAttribute false TBool) None;
                                                 Field (ln "body") (MText TString) None ])
  | _ => None
  end.

Theorem C36_text_field_refuted : exists env, forall o dbg s,
  typed o env (ERef 0) (VStruct [VText (TVBool true); st s]) /\
  exists k, serialize_root o env dbg steady 0 (VStruct [VText (TVBool true); st s]) = inl (None, k) /\
    k_out k = [WStart (PName None "note") [(PName None "id", "true"%string)] []; WEnd].
Proof.
  exists env_text. intros o dbg s. split.
  - eapply ty_struct; [reflexivity|]. constructor.
    + eapply tf_attribute; [reflexivity|discriminate].
    + constructor; [|constructor]. eapply tf_text; [reflexivity|discriminate].
  - eexists. split; [destruct dbg; reflexivity|]. reflexivity.
Qed.
Print Assumptions C36_text_field_refuted.

(** ** C37: skipped variants *)

(** They are documented to produce an error on serialization.  In fact serializing one succeeds, for
    every enum; nothing is written for it. *)
Theorem C37_skipped_content : forall o env id ident root nss ws reqs kids,
  env id = Some (TDEnum ident root nss ws true) ->
  content o env (ERef id) VSkipped reqs kids <-> reqs = mappings nss /\ kids = [].
Proof. exact skipped_content. Qed.
Print Assumptions C37_skipped_content.

Theorem C37_skipped_variant_refuted :
  typed oracles1 env1 (ERef 1) VSkipped /\
  written (serialize_root oracles1 env1 true steady 1 VSkipped) =
    Some [WStart (PName None "contact") [] [("u", "urn:u")]%string; WEnd] /\
  typed oracles1 env1 (ERef 0)
    (VStruct [VText (TVBool false); VNone; st "Bo"; VNone; VVec []; VVec []; VSkipped]) /\
  option_map (map ev_sev) (written (serialize_root oracles1 env1 true steady 0
    (VStruct [VText (TVBool false); VNone; st "Bo"; VNone; VVec []; VVec []; VSkipped]))) =
    Some [SStart "person" [("id", "false")]%string; SStart "name" []; SChars "Bo"; SEnd; SEnd].
Proof.
  split; [typing|]. split; [vm_compute; reflexivity|]. split; [typing|]. vm_compute; reflexivity.
Qed.
Print Assumptions C37_skipped_variant_refuted.
