(** Property theorems C38-C40: writing a value and reading it back.

    [meaning [] (emit pol [] (k_out k)) = Some (tree_events t)]: the document written has the tree [t]
    (C36).  [shows t n]: what the parser may deliver for the tree [t]; [survives o env ty v]: which
    values are read back unchanged (RTSpec.v). *)
From Verif Require Import Base Normalize Text TextSpec TextProofs Find FindProofs Types Ser SerSpec DeriveSer DSerSpec
  DSerProofs DSerProps Reader ReaderSpec DeSpec DeProps DeriveDe NsSpec RTSpec RTProofs RTProps RTInj PropDeriveSer.

(** ** C38: the round trip *)

(** Reading what was written gives the value back exactly for the values that survive. *)
Theorem C38_round_trip_iff : forall o env alg dbg w id v k pol,
  compiles env -> names_ok env ->
  legal_env env -> no_default env -> (pol = SkipIfAnywhere -> coherent_env env) ->
  serialize_root o env dbg w id v = inl (None, k) ->
  exists t, meaning [] (emit pol [] (k_out k)) = Some (tree_events t) /\ is_telem t = true /\
    forall t' d, indented t t' -> shows t' (d_root d) -> forall dbg' pe,
      read_as o alg env dbg' (ERef id) (doc_events d) (FEndDocument pe) = Ok v <->
      survives o env (ERef id) v.
Proof. exact round_trip. Qed.
Print Assumptions C38_round_trip_iff.

(** For lossless types all values survive, and nothing else can go wrong. *)
Theorem C38_lossless_types : forall o env alg dbg id v pol,
  compiles env -> names_ok env -> lossless_env o env -> typed o env (ERef id) v ->
  names_declared env -> legal_env env -> no_default env -> (pol = SkipIfAnywhere -> coherent_env env) ->
  exists k t, serialize_root o env dbg (fun _ => None) id v = inl (None, k) /\
    meaning [] (emit pol [] (k_out k)) = Some (tree_events t) /\
    shows t (render t) /\
    forall d, shows t (d_root d) -> forall dbg' pe,
      read_as o alg env dbg' (ERef id) (doc_events d) (FEndDocument pe) = Ok v.
Proof. exact write_then_read. Qed.
Print Assumptions C38_lossless_types.

(** Every tree can be shown (so the above is not vacuous). *)
Theorem C38_every_tree_shown : forall t, is_telem t = true -> shows t (render t).
Proof. exact render_shows. Qed.
Print Assumptions C38_every_tree_shown.

(** Booleans, integers and restriction enums with distinct collapsed texts are lossless, strings are
    lossless as attributes. *)
Theorem C38_lossless_text : forall o,
  lossless_elem o TBool /\ lossless_attr o TBool /\ lossless_attr o TString /\
  (forall k, lossless_elem o (TInt k) /\ lossless_attr o (TInt k)) /\
  (forall name vs, NoDup (restr_texts vs) -> (forall s, In (RKnown s) vs -> spec_norm Collapse s = s) ->
     ~ In RUnknown vs ->
     lossless_elem o (TRestr name Collapse vs) /\ lossless_attr o (TRestr name Collapse vs)).
Proof.
  exact (fun o => conj (safe_lossless o TBool eq_refl (bool_lossless o)) (conj (bool_lossless o)
    (conj (string_lossless_attr o) (conj
      (fun k => conj (safe_lossless o (TInt k) eq_refl (int_lossless o k)) (int_lossless o k))
      (fun name vs H1 H2 H3 =>
         conj (safe_lossless o (TRestr name Collapse vs) eq_refl (restr_lossless o name Collapse vs H1 H2 H3))
              (restr_lossless o name Collapse vs H1 H2 H3)))))).
Qed.
Print Assumptions C38_lossless_text.

(** Different values that survive are written differently: as trees that stay different however they are indented. *)
Theorem C38_injective : forall o env id pol, compiles env -> names_ok env -> legal_env env -> no_default env ->
  (pol = SkipIfAnywhere -> coherent_env env) ->
  forall dbg1 w1 v1 k1 t1 dbg2 w2 v2 k2 t2,
  serialize_root o env dbg1 w1 id v1 = inl (None, k1) -> serialize_root o env dbg2 w2 id v2 = inl (None, k2) ->
  meaning [] (emit pol [] (k_out k1)) = Some (tree_events t1) ->
  meaning [] (emit pol [] (k_out k2)) = Some (tree_events t2) ->
  survives o env (ERef id) v1 -> survives o env (ERef id) v2 -> v1 <> v2 ->
  forall t', ~ (indented t1 t' /\ indented t2 t').
Proof. exact written_apart. Qed.
Print Assumptions C38_injective.

(** A document with the given root element. *)
Definition doc_with (n : node) : doc :=
  match n with
  | NElem name attrs ns p kids pe => Doc (0, 0)%N [(Comment "written", (1, 0)%N)] name attrs ns p kids pe []
  | _ => Doc (0, 0)%N [] (OName None None "") [] [] (0, 0)%N [] (0, 0)%N []
  end.

Definition al_tree : wtree :=
  TElem (u_ "person") [(XName "" "id", "true"); (u_ "lang", "en")]%string
    [ leaf (u_ "name") "Al"; leaf (u_ "tag") "x"; leaf (u_ "tag") "y";
      TElem (u_ "friend") [(XName "" "id", "false")]%string
        [ leaf (u_ "name") "Bo"; leaf (u_ "nick") "B"; TElem (u_ "nothing") [] [] ];
      leaf (u_ "phone") "1"; leaf (u_ "phone") "2" ].

Ltac nodup := match goal with
  | |- NoDup [] => constructor
  | |- NoDup (_ :: _) => constructor; [cbn; intuition discriminate|nodup]
  end.
Ltac naming := first [ vm_compute; nodup | intros v Hv; vm_compute in Hv; intuition subst; discriminate ].

Lemma env1_compiles : compiles env1.
Proof.
  intros [|[|id]] d [= <-]; repeat constructor; cbn; try discriminate; do 5 eexists; reflexivity.
Qed.
Lemma env1_names : names_ok env1.
Proof.
  intros [|[|id]] d [= <-]; split; naming.
Qed.

Ltac surviving := lazymatch goal with
  | |- Forall2 _ [] [] => constructor
  | |- Forall2 _ _ _ => constructor; [surviving|surviving]
  | |- Forall _ [] => constructor
  | |- Forall _ _ => constructor; [surviving|surviving]
  | |- survives_field _ _ _ _ _ _ => first
      [ eapply sf_element; [reflexivity|constructor|surviving|try discriminate; intros _; first
          [eapply abs_opt; reflexivity|eapply abs_vec; reflexivity]]
      | apply sf_attribute with (opt := false) (t := TBool) (s := "true"%string); reflexivity
      | apply sf_attribute with (opt := false) (t := TBool) (s := "false"%string); reflexivity
      | eapply sf_attribute with (opt := true); reflexivity
      | eapply sf_no_attribute; [reflexivity|eapply abs_attr; reflexivity]
      | eapply sf_flatten; [reflexivity|surviving|
          intros n (ident & root & nss & ws & sk & i & p & w & E1 & E2 & E3 & E4) H;
          injection E1 as <- <- <- <- <-; injection E2 as <- <-; vm_compute in E3; injection E3 as <-;
          cbn in E4; subst n; cbn in H; repeat (destruct H as [H|H]; [discriminate|]); exact H] ]
  | |- survives _ _ _ _ => first
      [ eapply su_struct; [reflexivity|surviving|repeat constructor]
      | eapply su_unit; [reflexivity|reflexivity|reflexivity]
      | eapply su_payload; [reflexivity|reflexivity|reflexivity|constructor|discriminate|surviving]
      | eapply su_text; reflexivity ]
  end.

Lemma al_survives : survives oracles1 env1 (ERef 0) al.
Proof. surviving. Qed.

Example C38_example :
  compiles env1 /\ names_ok env1 /\ typed oracles1 env1 (ERef 0) al /\ legal_env env1 /\ no_default env1 /\
  coherent_env env1 /\
  option_map (fun out => meaning [] (emit SkipIfAnywhere [] out))
    (PropDeriveSer.written (serialize_root oracles1 env1 true steady 0 al)) = Some (Some (tree_events al_tree)) /\
  shows al_tree (d_root (doc_with (render al_tree))) /\
  survives oracles1 env1 (ERef 0) al /\
  read_as oracles1 Bisect env1 true (ERef 0) (doc_events (doc_with (render al_tree))) (FEndDocument (9, 9)%N) = Ok al.
Proof.
  split; [exact env1_compiles|]. split; [exact env1_names|]. split; [exact al_typed|].
  split; [exact env1_legal|]. split; [exact env1_no_default|]. split; [exact env1_coherent|].
  split; [vm_compute; reflexivity|]. split; [apply (render_shows al_tree eq_refl)|]. split; [exact al_survives|].
  vm_compute. reflexivity.
Qed.

Definition bo_tree : wtree :=
  TElem (u_ "person") [(XName "" "id", "false")]%string
    [ leaf (u_ "name") "Bo"; leaf (u_ "nick") "B"; TElem (u_ "nothing") [] [] ].

Example C38_injective_example :
  survives oracles1 env1 (ERef 0) al /\ survives oracles1 env1 (ERef 0) bo /\ al <> bo /\
  option_map (fun out => meaning [] (emit SkipIfAnywhere [] out))
    (PropDeriveSer.written (serialize_root oracles1 env1 true steady 0 al)) = Some (Some (tree_events al_tree)) /\
  option_map (fun out => meaning [] (emit SkipIfAnywhere [] out))
    (PropDeriveSer.written (serialize_root oracles1 env1 true steady 0 bo)) = Some (Some (tree_events bo_tree)).
Proof.
  split; [exact al_survives|]. split; [surviving|]. split; [discriminate|]. split; vm_compute; reflexivity.
Qed.

(** A lossless type: [struct Point { #[attribute] label: String, x: i32, y: i32, visible: Option<bool>,
    next: Vec<Point>, #[flatten] color: Color }], [enum Color { Gray(u8), Clear }]. *)
Definition env2 : tenv := fun id =>
  match id with
  | 0 => Some (TDStruct "Point" (ln "point") []
           [ Field (ln "label") (MAttribute false TString) None;
             Field (ln "x") (MElement KOne (EText (TInt I32))) None;
             Field (ln "y") (MElement KOne (EText (TInt I32))) None;
             Field (ln "visible") (MElement KOpt (EText TBool)) None;
             Field (ln "next") (MElement KVec (ERef 0)) None;
             Field (ln "color") (MFlatten 1) None ])
  | 1 => Some (TDEnum "Color" (ln "color") []
           [ Variant (ln "gray") (Some (KOne, EText (TInt U8))); Variant (ln "clear") None ] false)
  | _ => None
  end.

Example C38_lossless_example : forall o,
  compiles env2 /\ names_ok env2 /\ lossless_env o env2 /\ names_declared env2 /\ legal_env env2 /\
  no_default env2 /\ coherent_env env2 /\
  typed o env2 (ERef 0) (VStruct [st " l "; VText (TVInt 1); VText (TVInt (-2)); VNone;
    VVec [VStruct [st ""; VText (TVInt 3); VText (TVInt 4); VSome (VText (TVBool true)); VVec []; VEnum 0 None]];
    VEnum 1 (Some (VText (TVInt 255)))]).
Proof.
  intros o. destruct (C38_lossless_text o) as (Hb & _ & Hs & Hi & _).
  split. { intros [|[|id]] d [= <-]; repeat constructor; cbn; try discriminate; do 5 eexists; reflexivity. }
  split. { intros [|[|id]] d [= <-]; split; naming. }
  split.
  { intros [|[|id]] d [= <-]; (split; [|cbn; repeat constructor]).
    - constructor; [exact Hs|]. constructor; [apply Hi|]. constructor; [apply Hi|].
      constructor; [split; [exact Hb|now left]|]. constructor; [split; [exact I|now left]|].
      constructor; [|constructor]. intros ident root nss ws sk E. cbn in E. inversion E; subst.
      intros w [<-|[<-|[]]]; cbn; intuition discriminate.
    - constructor; [apply Hi|]. constructor; [exact I|constructor]. }
  split.
  { intros [|[|id]] d [= <-]; apply Forall_forall; cbn; intros ? H;
      repeat (destruct H as [<-|H]; [now left|]); destruct H. }
  split. { intros [|[|id]] d p u [= <-] []. }
  split. { left. intros [|[|id]] d u [= <-] []. }
  split. { exists (fun _ => ""%string). split; [intros [|[|id]] d p u [= <-] []|intros [|[|id]] d u id' d' n [= <-] []]. }
  typing.
Qed.

(** ** C39: what is lost *)

(** A string survives as an element iff it is empty or not blank. *)
Theorem C39_strings : forall o env s,
  survives o env (EText TString) (VText (TVStr s)) <-> (blank s = true -> s = ""%string).
Proof. exact string_survives. Qed.
Print Assumptions C39_strings.

Definition blank_value : value :=
  VStruct [VText (TVBool false); VNone; st "  "; VNone; VVec []; VVec []; VEnum 1 None].
Definition blank_tree : wtree :=
  TElem (u_ "person") [(XName "" "id", "false"%string)] [leaf (u_ "name") "  "; TElem (u_ "nothing") [] []].

Theorem C39_blank_string_refuted :
  typed oracles1 env1 (ERef 0) blank_value /\
  option_map (fun out => meaning [] (emit SkipIfAnywhere [] out))
    (PropDeriveSer.written (serialize_root oracles1 env1 true steady 0 blank_value)) =
    Some (Some (tree_events blank_tree)) /\
  forall alg d dbg pe, shows blank_tree (d_root d) ->
    read_as oracles1 alg env1 dbg (ERef 0) (doc_events d) (FEndDocument pe) =
    Ok (VStruct [VText (TVBool false); VNone; st ""; VNone; VVec []; VVec []; VEnum 1 None]).
Proof.
  split; [typing|]. split; [vm_compute; reflexivity|]. intros alg d dbg pe S.
  apply (same_tree_same_reading oracles1 env1 alg blank_tree blank_tree blank_tree d (doc_with (render blank_tree))
           env1_names (indented_refl _) S (indented_refl _) (render_shows blank_tree eq_refl) dbg (ERef 0) pe (9, 9)%N).
  destruct alg, dbg; vm_compute; reflexivity.
Qed.
Print Assumptions C39_blank_string_refuted.

(** [lost]: no document written for the value is read back as anything; then reading is an error. *)
Theorem C39_lost_is_error : forall o env alg dbg w id v k pol,
  compiles env -> names_ok env -> oracles_total o -> lost o env (ERef id) v ->
  legal_env env -> no_default env -> (pol = SkipIfAnywhere -> coherent_env env) ->
  serialize_root o env dbg w id v = inl (None, k) ->
  exists t, meaning [] (emit pol [] (k_out k)) = Some (tree_events t) /\ is_telem t = true /\
    forall t' d, indented t t' -> shows t' (d_root d) -> forall dbg' pe,
      exists e, read_as o alg env dbg' (ERef id) (doc_events d) (FEndDocument pe) = Err e.
Proof. exact lost_fails. Qed.
Print Assumptions C39_lost_is_error.

(** Every enum value that holds an empty [Vec] or [None] is lost, ... *)
Theorem C39_empty_payload_lost : forall o env id i x ident root nss ws sk w k t,
  env id = Some (TDEnum ident root nss ws sk) -> nth_error (sorted_variants ws) i = Some w ->
  v_ty w = Some (k, t) -> items k x [] -> lost o env (ERef id) (VEnum i (Some x)).
Proof. exact empty_payload_lost. Qed.
Print Assumptions C39_empty_payload_lost.

(** ... every skipped variant, ... *)
Theorem C39_skipped_lost : forall o env id, lost o env (ERef id) VSkipped.
Proof. exact skipped_lost. Qed.
Print Assumptions C39_skipped_lost.

(** ... and every value of a struct with two or more flattened fields. *)
Theorem C39_two_flattened_lost : forall o env id ident root nss fs v,
  compiles env -> env id = Some (TDStruct ident root nss fs) ->
  2 <= List.length (filter is_flatten fs) -> lost o env (ERef id) v.
Proof. exact two_flattened_lost. Qed.
Print Assumptions C39_two_flattened_lost.

Definition env3 : tenv := fun id =>
  match id with
  | 0 => Some (TDStruct "Two" (ln "two") [] [ Field (ln "a") (MFlatten 1) None; Field (ln "b") (MFlatten 2) None ])
  | 1 => Some (TDEnum "A" (ln "a") [] [ Variant (ln "x") None; Variant (ln "y") (Some (KVec, str_ty)) ] false)
  | 2 => Some (TDEnum "B" (ln "b") [] [ Variant (ln "z") None ] false)
  | _ => None
  end.
Definition two_tree : wtree := TElem (XName "" "two") []
  [ TElem (XName "" "x") [] []; TElem (XName "" "z") [] [] ].

Example C39_example :
  compiles env3 /\ names_ok env3 /\ legal_env env3 /\ no_default env3 /\ coherent_env env3 /\
  typed oracles1 env3 (ERef 0) (VStruct [VEnum 0 None; VEnum 0 None]) /\
  option_map (fun out => meaning [] (emit SkipIfAnywhere [] out))
    (PropDeriveSer.written (serialize_root oracles1 env3 true steady 0 (VStruct [VEnum 0 None; VEnum 0 None]))) =
    Some (Some (tree_events two_tree)) /\
  read_as oracles1 Bisect env3 true (ERef 0) (doc_events (doc_with (render two_tree))) (FEndDocument (9, 9)%N) =
    Err (Error (EDeserializer "B can't be empty") [SElem (OName None None "two") (0, 0)%N] (0, 0)%N) /\
  items KVec (VVec []) [] /\ typed oracles1 env3 (ERef 1) (VEnum 1 (Some (VVec []))).
Proof.
  split. { intros [|[|[|id]]] d [= <-]; repeat constructor; cbn; try discriminate; do 5 eexists; reflexivity. }
  split. { intros [|[|[|id]]] d [= <-]; split; naming. }
  split. { intros [|[|[|id]]] d p u [= <-] []. }
  split. { left. intros [|[|[|id]]] d u [= <-] []. }
  split. { exists (fun _ => ""%string). split; [intros [|[|[|id]]] d p u [= <-] []|intros [|[|[|id]]] d u id' d' n [= <-] []]. }
  split; [typing|]. split; [vm_compute; reflexivity|]. split; [vm_compute; reflexivity|].
  split; [constructor|]. typing.
Qed.

(** ** C40: indentation *)

(** For every document and type: documents that show the same tree, up to indentation, are read the
    same.  (They may also differ in prefixes, comments, how text is split, and positions; the XML
    declaration is not part of the root element.) *)
Theorem C40_indentation_invisible : forall o env alg t t1 t2 d1 d2, names_ok env ->
  indented t t1 -> shows t1 (d_root d1) -> indented t t2 -> shows t2 (d_root d2) ->
  forall dbg ty pe1 pe2 v,
  read_as o alg env dbg ty (doc_events d1) (FEndDocument pe1) = Ok v <->
  read_as o alg env dbg ty (doc_events d2) (FEndDocument pe2) = Ok v.
Proof. exact same_tree_same_reading. Qed.
Print Assumptions C40_indentation_invisible.

(** An element is shown for the indented tree only if it is also shown for the tree itself. *)
Theorem C40_indented_shows : forall t t' n, indented t t' -> shows t' n -> shows t n.
Proof. exact shows_indented. Qed.
Print Assumptions C40_indented_shows.

Definition nl : string := String "010" "  ".
Definition al_indented : wtree :=
  TElem (u_ "person") [(XName "" "id", "true"); (u_ "lang", "en")]%string
    [ TText nl; leaf (u_ "name") "Al"; TText nl; leaf (u_ "tag") "x"; TText nl; leaf (u_ "tag") "y"; TText nl;
      TElem (u_ "friend") [(XName "" "id", "false")]%string
        [ TText nl; leaf (u_ "name") "Bo"; TText nl; leaf (u_ "nick") "B"; TText nl; TElem (u_ "nothing") [] []; TText nl ];
      TText nl; leaf (u_ "phone") "1"; TText nl; leaf (u_ "phone") "2"; TText nl ].

Ltac indenting := lazymatch goal with
  | |- indented (TText _) _ => apply ind_text
  | |- indented (TElem _ _ [TText _]) _ => apply ind_same; repeat constructor
  | |- indented (TElem _ _ _) _ =>
      apply ind_more; [reflexivity|cbn [filter is_telem leaf]; indenting|cbn; repeat constructor]
  | |- Forall2 _ [] [] => constructor
  | |- Forall2 _ _ _ => constructor; [indenting|indenting]
  end.

Example C40_example : indented al_tree al_indented /\
  read_as oracles1 Bisect env1 true (ERef 0) (doc_events (doc_with (render al_indented))) (FEndDocument (9, 9)%N) = Ok al.
Proof.
  split; [|vm_compute; reflexivity]. unfold al_tree, al_indented, leaf. indenting.
Qed.
