(** Property theorems C47: a value that was read survives being written and read again.

    [settled_env]: printing what any leaf type parsed, and parsing it again, gives the same value; at
    most one flattened field; defaults survive.  [unblank]: no element's text is blank (CDATA).  Both
    are in RTStableSpec.v. *)
From Verif Require Import Base Normalize Text TextSpec TextProofs Find FindProofs Types Ser SerSpec DeriveSer DSerSpec
  DSerProofs DSerProps Reader ReaderSpec DeSpec DeProps DeriveDe NsSpec RTSpec RTProofs RTProps PropDeriveSer
  PropRoundTrip RTStableSpec RTStable.

(** Load, save, load: the second load gives what the first one gave. *)
Theorem C47_load_save_load : forall o env alg dbg id d pe v dbg1 pol,
  compiles env -> names_ok env -> settled_env o env -> names_declared env -> legal_env env -> no_default env ->
  (pol = SkipIfAnywhere -> coherent_env env) -> unblank (d_root d) ->
  read_as o alg env dbg (ERef id) (doc_events d) (FEndDocument pe) = Ok v ->
  exists k t, serialize_root o env dbg1 (fun _ => None) id v = inl (None, k) /\
    meaning [] (emit pol [] (k_out k)) = Some (tree_events t) /\
    shows t (render t) /\
    forall t' d', indented t t' -> shows t' (d_root d') -> forall dbg' pe',
      read_as o alg env dbg' (ERef id) (doc_events d') (FEndDocument pe') = Ok v.
Proof. exact load_save_load. Qed.
Print Assumptions C47_load_save_load.

(** Whatever is read is a value of the type and survives. *)
Theorem C47_read_survives : forall o env alg dbg id d pe v, names_ok env -> settled_env o env -> unblank (d_root d) ->
  read_as o alg env dbg (ERef id) (doc_events d) (FEndDocument pe) = Ok v ->
  typed o env (ERef id) v /\ survives o env (ERef id) v.
Proof.
  exact (fun o env alg dbg id d pe v Hok HS U R =>
    read_fine o env HS (d_root d) U (ERef id) v I (proj1 (read_as_iff o alg env dbg (ERef id) d pe v Hok) R)).
Qed.
Print Assumptions C47_read_survives.

(** Strings, booleans, integers and all restriction enums, whatever their texts, are settled, ... *)
Theorem C47_settled_text : forall o t,
  match t with TString | TBool | TInt _ | TRestr _ _ _ => settled_attr o t /\ settled_elem o t | _ => True end.
Proof.
  exact (fun o t => match t with
    | TString => conj (string_settled_attr o) (string_settled_elem o)
    | TBool => conj (bool_settled o) (safe_settled o TBool eq_refl (bool_settled o))
    | TInt k => conj (int_settled o k) (safe_settled o (TInt k) eq_refl (int_settled o k))
    | TRestr name ws vs => conj (restr_settled_attr o name ws vs) (restr_settled_elem o name ws vs)
    | _ => I
    end).
Qed.
Print Assumptions C47_settled_text.

(** ... so are floats and types with [mode = "std"] that parse what they print, ... *)
Theorem C47_settled_std : forall o,
  (forall w, (forall s n, o_float_parse o w s = Ok n -> o_float_parse o w (trim (o_float_show o w n)) = Ok n) ->
     settled_attr o (TFloat w) /\ settled_elem o (TFloat w)) /\
  (forall i ws, (forall s n, o_std_parse o i s = Ok n ->
       o_std_parse o i (spec_norm ws (o_std_show o i n)) = Ok n) ->
     settled_attr o (TStd i ws) /\ (ws = Collapse -> settled_elem o (TStd i ws))).
Proof.
  exact (fun o => conj
    (fun w H => conj (float_settled o w H) (safe_settled o (TFloat w) eq_refl (float_settled o w H)))
    (fun i ws H => conj (std_settled o i ws H) (std_settled_elem o i ws (std_settled o i ws H)))).
Qed.
Print Assumptions C47_settled_std.

(** ... and unions where what a variant prints is parsed by itself and by none before it. *)
Theorem C47_settled_union : forall o name ws vs,
  (forall i t s x, nth_error vs i = Some t -> parse_text o t s = Ok x -> exists s',
     to_text o t x = Some s' /\ parse_text o t (spec_norm ws s') = Ok x /\
     forall j t', j < i -> nth_error vs j = Some t' -> exists e, parse_text o t' (spec_norm ws s') = Err e) ->
  settled_attr o (TUnion name ws vs) /\ (ws = Collapse -> settled_elem o (TUnion name ws vs)).
Proof.
  exact (fun o name ws vs H => conj (union_settled o name ws vs H) 
    (union_settled_elem o name ws vs (union_settled o name ws vs H))).
Qed.
Print Assumptions C47_settled_union.

(** [struct Config { #[attribute] version: u8, name: String, #[default] level: Level, opt: Vec<bool>,
    #[flatten] source: Source }], [enum Level { Low, High }] (a restriction), [enum Source {
    File(Vec<String>), Empty, #[skip] Later }]. *)
Definition level : tty := TRestr "Level" Preserve [RKnown "low"; RKnown "high"; RKnown "low"].
Definition env4 : tenv := fun id =>
  match id with
  | 0 => Some (TDStruct "Config" (ln "config") []
           [ Field (ln "version") (MAttribute false (TInt U8)) None;
             Field (ln "name") (MElement KOne str_ty) None;
             Field (ln "level") (MElement KOne (EText level)) (Some (VText (TVKnown 0)));
             Field (ln "opt") (MElement KVec (EText TBool)) None;
             Field (ln "source") (MFlatten 1) None ])
  | 1 => Some (TDEnum "Source" (ln "source") []
           [ Variant (ln "file") (Some (KVec, str_ty)); Variant (ln "empty") None ] true)
  | _ => None
  end.

Definition el (s : string) (kids : list node) : node :=
  NElem (OName None None s) [] [] (1, 1)%N kids (2, 2)%N.
Definition config_doc : doc := doc_with
  (NElem (OName None None "config") [Attr (OName None None "version") " +007 "] [] (1, 1)%N
    [ el "file" [NText false "a" (1, 1)%N]; el "opt" [NText false "1" (1, 1)%N]; el "unknown" [];
      el "name" [NText false " N " (1, 1)%N]; el "file" [] ] (3, 3)%N).
Definition config_value : value :=
  VStruct [VText (TVInt 7); st " N "; VText (TVKnown 0); VVec [VText (TVBool true)];
           VEnum 1 (Some (VVec [st "a"; st ""]))].

Example C47_example :
  compiles env4 /\ names_ok env4 /\ settled_env oracles1 env4 /\ names_declared env4 /\ legal_env env4 /\
  no_default env4 /\ coherent_env env4 /\ unblank (d_root config_doc) /\
  read_as oracles1 Bisect env4 true (ERef 0) (doc_events config_doc) (FEndDocument (9, 9)%N) = Ok config_value.
Proof.
  split. { intros [|[|id]] d [= <-]; repeat constructor; cbn; try discriminate; do 5 eexists; reflexivity. }
  split. { intros [|[|id]] d [= <-]; split; naming. }
  split.
  { intros [|[|id]] d [= <-]; [split; [|split]|].
    - repeat (apply Forall_cons); try apply Forall_nil; try exact I.
      + apply (C47_settled_text oracles1 (TInt U8)).
      + apply (C47_settled_text oracles1 TString).
      + apply (C47_settled_text oracles1 level).
      + apply (C47_settled_text oracles1 TBool).
    - repeat constructor.
    - intros f v Hin E. cbn [In] in Hin.
      repeat (destruct Hin as [<-|Hin]; [try discriminate E|]); [|destruct Hin]. injection E as <-. split.
      + eapply tf_element; [reflexivity|constructor|]. repeat constructor. discriminate.
      + eapply sf_element; [reflexivity|constructor| |discriminate]. constructor; [|constructor].
        eapply su_text; reflexivity.
    - repeat (apply Forall_cons); try apply Forall_nil; try exact I. apply (C47_settled_text oracles1 TString). }
  split.
  { intros [|[|id]] d [= <-]; apply Forall_forall; cbn; intros ? H;
      repeat (destruct H as [<-|H]; [now left|]); destruct H. }
  split. { intros [|[|id]] d p u [= <-] []. }
  split. { left. intros [|[|id]] d u [= <-] []. }
  split. { exists (fun _ => ""%string). split; [intros [|[|id]] d p u [= <-] []|intros [|[|id]] d u id' d' n [= <-] []]. }
  split; [|vm_compute; reflexivity].
  repeat (apply ub_elem || apply Forall_cons || apply Forall_nil || (apply ub_other; reflexivity) ||
    (vm_compute; discriminate) || (vm_compute; reflexivity)).
Qed.

(** Unions need not be settled: [union U { On(On), Flag(bool) }], where [On] is the restriction [true].
    What was read as [Flag] is written such that it is read as [On]. *)
Definition switch : tty := TUnion "U" Preserve [TRestr "On" Preserve [RKnown "true"]; TBool].
Definition env5 : tenv := fun id =>
  match id with
  | 0 => Some (TDStruct "Switch" (ln "switch") [] [ Field (ln "state") (MElement KOne (EText switch)) None ])
  | _ => None
  end.
Definition switch_doc (s : string) : doc := doc_with (el "switch" [el "state" [NText false s (1, 1)%N]]).
Definition switch_tree : wtree := TElem (XName "" "switch") [] [leaf (XName "" "state") "true"].

Theorem C47_union_refuted :
  names_ok env5 /\ unblank (d_root (switch_doc " true ")) /\
  (forall alg dbg pe, read_as oracles1 alg env5 dbg (ERef 0) (doc_events (switch_doc " true ")) (FEndDocument pe) =
     Ok (VStruct [VText (TVUnion 1 (TVBool true))])) /\
  option_map (fun out => meaning [] (emit SkipIfAnywhere [] out))
    (PropDeriveSer.written (serialize_root oracles1 env5 true steady 0 (VStruct [VText (TVUnion 1 (TVBool true))]))) =
    Some (Some (tree_events switch_tree)) /\
  forall alg d dbg pe, shows switch_tree (d_root d) ->
    read_as oracles1 alg env5 dbg (ERef 0) (doc_events d) (FEndDocument pe) =
    Ok (VStruct [VText (TVUnion 0 (TVKnown 0))]).
Proof.
  assert (Hok : names_ok env5) by (intros [|id] d [= <-]; split; naming).
  split; [exact Hok|]. split.
  { repeat (apply ub_elem || apply Forall_cons || apply Forall_nil || (apply ub_other; reflexivity) ||
      (vm_compute; discriminate)). vm_compute. reflexivity. }
  split. { intros alg dbg pe. destruct alg, dbg; vm_compute; reflexivity. }
  split; [vm_compute; reflexivity|]. intros alg d dbg pe S.
  apply (same_tree_same_reading oracles1 env5 alg switch_tree switch_tree switch_tree d (doc_with (render switch_tree))
           Hok (indented_refl _) S (indented_refl _) (render_shows switch_tree eq_refl) dbg (ERef 0) pe (9, 9)%N).
  destruct alg, dbg; vm_compute; reflexivity.
Qed.
Print Assumptions C47_union_refuted.

(** With two flattened fields what was read and written may not even be readable: env3 of C39 reads
    [<two><z/><x/></two>], and writes [<two><x/><z/></two>]. *)
Definition zx_doc : doc := doc_with (el "two" [el "z" []; el "x" []]).

Theorem C47_two_flattened_refuted :
  names_ok env3 /\ unblank (d_root zx_doc) /\
  (forall alg dbg pe, read_as oracles1 alg env3 dbg (ERef 0) (doc_events zx_doc) (FEndDocument pe) =
     Ok (VStruct [VEnum 0 None; VEnum 0 None])) /\
  option_map (fun out => meaning [] (emit SkipIfAnywhere [] out))
    (PropDeriveSer.written (serialize_root oracles1 env3 true steady 0 (VStruct [VEnum 0 None; VEnum 0 None]))) =
    Some (Some (tree_events two_tree)) /\
  forall alg d dbg pe v, shows two_tree (d_root d) ->
    read_as oracles1 alg env3 dbg (ERef 0) (doc_events d) (FEndDocument pe) <> Ok v.
Proof.
  assert (Hok : names_ok env3) by (intros [|[|[|id]]] d [= <-]; split; naming).
  split; [exact Hok|]. split.
  { repeat (apply ub_elem || apply Forall_cons || apply Forall_nil || (apply ub_other; reflexivity) ||
      (vm_compute; discriminate) || (vm_compute; reflexivity)). }
  split. { intros alg dbg pe. destruct alg, dbg; vm_compute; reflexivity. }
  split; [vm_compute; reflexivity|]. intros alg d dbg pe v S R.
  apply (same_tree_same_reading oracles1 env3 alg two_tree two_tree two_tree d (doc_with (render two_tree))
           Hok (indented_refl _) S (indented_refl _) (render_shows two_tree eq_refl) dbg (ERef 0) pe (9, 9)%N) in R.
  destruct alg, dbg; vm_compute in R; discriminate.
Qed.
Print Assumptions C47_two_flattened_refuted.
