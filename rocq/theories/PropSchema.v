(** Property theorems C49: derived types and the XML Schema content model they stand for.

    [valid] (SchemaSpec.v) is the content model: a struct is a sequence of its fields in the order of
    their declaration, a flattened enum is a choice, occurrences are given by [T], [Option<T>], [Vec<T>]
    and [default]. *)
From Verif Require Import Base Normalize Text TextSpec TextProofs Find FindProofs Types Ser SerSpec DeriveSer DSerSpec
  DSerProofs DSerProps Reader ReaderSpec DeSpec DeProps DeriveDe NsSpec RTSpec RTProofs RTProps PropDeriveSer
  PropRoundTrip RTStableSpec PropStable SchemaSpec SchemaProofs SchemaStable.

(** What is written is valid, if flattened fields are declared last and every enum has something to
    write. The lexical space of a text type is what it prints. *)
Theorem C49_written_valid : forall o env dbg w id v k pol,
  compiles env -> names_ok env -> flattened_last env -> filled v = true ->
  legal_env env -> no_default env -> (pol = SkipIfAnywhere -> coherent_env env) ->
  serialize_root o env dbg w id v = inl (None, k) ->
  exists n attrs kids, root_name env id = Some n /\
    meaning [] (emit pol [] (k_out k)) = Some (tree_events (TElem n attrs kids)) /\
    valid env (fun t s => exists x, to_text o t x = Some s) (fun t s => exists x, to_text o t x = Some s)
      (ERef id) attrs kids.
Proof. exact written_valid. Qed.
Print Assumptions C49_written_valid.

(** Every valid document is read, whatever its root element is called, if no struct has two flattened
    fields. The lexical space of a text type is what it parses. *)
Theorem C49_valid_read : forall o env alg dbg t n attrs kids d pe,
  compiles env -> names_ok env -> one_choice env ->
  valid env (fun t s => exists x, parse_text o t (seen s) = Ok x) (fun t s => exists x, parse_text o t s = Ok x)
    t attrs kids ->
  shows (TElem n attrs kids) (d_root d) ->
  exists v, read_as o alg env dbg t (doc_events d) (FEndDocument pe) = Ok v.
Proof. exact valid_read. Qed.
Print Assumptions C49_valid_read.

(** Reading and writing again makes a valid document of every document that can be read: out of order, with unknown
    parts, without what has a default.  What it says is the same (see C47 for the conditions). *)
Theorem C49_made_valid : forall o env alg dbg id d pe v dbg1 pol,
  compiles env -> names_ok env -> settled_env o env ->
  filled_defaults env -> flattened_last env -> names_declared env -> legal_env env -> no_default env ->
  (pol = SkipIfAnywhere -> coherent_env env) -> unblank (d_root d) ->
  read_as o alg env dbg (ERef id) (doc_events d) (FEndDocument pe) = Ok v ->
  exists k n attrs kids, serialize_root o env dbg1 (fun _ => None) id v = inl (None, k) /\ root_name env id = Some n /\
    meaning [] (emit pol [] (k_out k)) = Some (tree_events (TElem n attrs kids)) /\
    valid env (fun t s => exists x, to_text o t x = Some s) (fun t s => exists x, to_text o t x = Some s)
      (ERef id) attrs kids /\
    forall t' d', indented (TElem n attrs kids) t' -> shows t' (d_root d') -> forall dbg' pe',
      read_as o alg env dbg' (ERef id) (doc_events d') (FEndDocument pe') = Ok v.
Proof. exact read_written_valid. Qed.
Print Assumptions C49_made_valid.

(** [Config] of PropStable.v; a valid document with space between the elements. *)
Definition spaced_attrs : list (xname * string) := [(XName "" "version", "8")]%string.
Definition spaced_kids : list wtree :=
  [ TText " "; leaf (XName "" "name") "n"; TText " "; leaf (XName "" "opt") "0"; leaf (XName "" "opt") "1";
    TElem (XName "" "file") [] []; TText " " ].

Lemma env4_flattened_last : flattened_last env4.
Proof.
  intros [|[|id]] ident root nss fs [= _ _ _ <-] fs1 f fs2 E Hf.
  do 5 (destruct fs1 as [|? fs1]; [injection E as <- E; first [discriminate Hf|subst fs2; constructor]|injection E as <- E]).
  now destruct fs1.
Qed.

Lemma env4_one_choice : one_choice env4.
Proof.
  intros [|[|id]] ident root nss fs [= _ _ _ <-]. split; [apply le_n|].
  intros f id' ident' root' nss' ws sk Hin M En w Hw.
  cbn [In] in Hin. repeat (destruct Hin as [<-|Hin]; [try discriminate M|]); [|destruct Hin].
  injection M as <-. injection En as <- <- <- <- <-.
  cbn [In] in Hw. repeat (destruct Hw as [<-|Hw]; [cbn; intuition discriminate|]). destruct Hw.
Qed.

Ltac valid_leaf := apply element_intro; eapply va_text; [reflexivity|eexists; reflexivity].

Lemma spaced_valid : valid env4 (fun t s => exists x, parse_text oracles1 t (seen s) = Ok x)
    (fun t s => exists x, parse_text oracles1 t s = Ok x) (ERef 0) spaced_attrs spaced_kids.
Proof.
  eapply va_struct; [reflexivity| | |].
  - split; [|split].
    + cbn; nodup.
    + intros n s [[= <- <-]|[]]. do 3 eexists. split; [now left|]. split; [reflexivity|]. split; [reflexivity|].
      eexists. vm_compute. reflexivity.
    + intros f t Hin M _. cbn [In] in Hin.
      repeat (destruct Hin as [<-|Hin]; [try discriminate M; now left|]). destruct Hin.
  - repeat constructor.
  - cbn [filter is_telem spaced_kids leaf]. apply sq_attribute; [reflexivity|].
    apply (sq_element _ _ _ _ KOne str_ty [_]); [reflexivity|now left|constructor; [valid_leaf|constructor]|].
    apply (sq_element _ _ _ _ KOne (EText level) []); [reflexivity|right; split; [reflexivity|discriminate]|constructor|].
    apply (sq_element _ _ _ _ KVec (EText TBool) [_; _]);
      [reflexivity|exact I|constructor; [valid_leaf|constructor; [valid_leaf|constructor]]|].
    eapply (sq_flatten _ _ _ _ _ _ _ _ _ _ [_] []); [reflexivity|reflexivity| |constructor].
    eapply oo_payload; [now left|reflexivity|apply le_n|constructor; [valid_leaf|constructor]].
Qed.

Example C49_example :
  flattened_last env4 /\ one_choice env4 /\ filled config_value = true /\
  (exists k, serialize_root oracles1 env4 true (fun _ => None) 0 config_value = inl (None, k)) /\
  valid env4 (fun t s => exists x, parse_text oracles1 t (seen s) = Ok x)
    (fun t s => exists x, parse_text oracles1 t s = Ok x) (ERef 0) spaced_attrs spaced_kids /\
  shows (TElem (XName "u" "any") spaced_attrs spaced_kids) (render (TElem (XName "u" "any") spaced_attrs spaced_kids)).
Proof.
  split; [exact env4_flattened_last|]. split; [exact env4_one_choice|]. split; [reflexivity|].
  split; [eexists; vm_compute; reflexivity|]. split; [exact spaced_valid|]. now apply render_shows.
Qed.

(** [config_doc] of PropStable.v is not valid: its elements are out of order, and one is unknown. *)
Example C49_made_valid_example :
  compiles env4 /\ names_ok env4 /\ settled_env oracles1 env4 /\ filled_defaults env4 /\ flattened_last env4 /\
  names_declared env4 /\ legal_env env4 /\ no_default env4 /\ coherent_env env4 /\ unblank (d_root config_doc) /\
  read_as oracles1 Bisect env4 true (ERef 0) (doc_events config_doc) (FEndDocument (9, 9)%N) = Ok config_value.
Proof.
  destruct C47_example as (H1 & H2 & H3 & H4 & H5 & H6 & H7 & H8 & H9). repeat (split; [assumption|]).
  split; [|split; [exact env4_flattened_last|repeat (split; [assumption|]); assumption]].
  intros [|[|id]] ident root nss fs f v [= _ _ _ <-] Hin E. cbn [In] in Hin.
  repeat (destruct Hin as [<-|Hin]; [try discriminate E; injection E as <-; reflexivity|]). destruct Hin.
Qed.

(** ** What does not hold

    [struct Early { #[flatten] choice: Choice, name: String }], [enum Choice { A, B(Vec<String>) }]:
    [name] is written first although it is declared last.
    [struct Two { #[flatten] first: Choice, #[flatten] second: Choice2 }], [enum Choice2 { C }]. *)
Definition env6 : tenv := fun id =>
  match id with
  | 0 => Some (TDStruct "Early" (ln "early") []
           [ Field (ln "choice") (MFlatten 1) None; Field (ln "name") (MElement KOne str_ty) None ])
  | 1 => Some (TDEnum "Choice" (ln "choice") [] [ Variant (ln "a") None; Variant (ln "b") (Some (KVec, str_ty)) ] false)
  | 2 => Some (TDStruct "Two" (ln "two") []
           [ Field (ln "first") (MFlatten 1) None; Field (ln "second") (MFlatten 3) None ])
  | 3 => Some (TDEnum "Choice2" (ln "choice2") [] [ Variant (ln "c") None ] false)
  | _ => None
  end.

Lemma env6_ok : compiles env6 /\ names_ok env6.
Proof.
  split.
  - intros [|[|[|[|id]]]] d [= <-]; repeat constructor; cbn; try discriminate; do 5 eexists; reflexivity.
  - intros [|[|[|[|id]]]] d [= <-]; split; naming.
Qed.

(** The order in which fields are written is not the order of the sequence. *)
Theorem C49_order_refuted :
  compiles env6 /\ names_ok env6 /\ filled (VStruct [VEnum 0 None; st "n"]) = true /\
  option_map (fun out => meaning [] (emit SkipIfAnywhere [] out))
    (PropDeriveSer.written (serialize_root oracles1 env6 true steady 0 (VStruct [VEnum 0 None; st "n"]))) =
    Some (Some (tree_events (TElem (XName "" "early") [] [leaf (XName "" "name") "n"; TElem (XName "" "a") [] []]))) /\
  forall lex_e lex_a, ~ valid env6 lex_e lex_a (ERef 0) [] [leaf (XName "" "name") "n"; TElem (XName "" "a") [] []].
Proof.
  split; [apply env6_ok|]. split; [apply env6_ok|]. split; [reflexivity|]. split; [vm_compute; reflexivity|].
  intros lex_e lex_a V. inversion V as [|? ? ? ? ? ? ? En _ _ S|? ? ? ? ? ? ? En]; subst; [|discriminate].
  injection En as <- <- <- <-. cbn [filter is_telem leaf] in S.
  inversion S as [|? ? ? ? ? ? M|? ? ? ? ? ? ? ? l l' M En Ho _ E1 E2|? ? ? M]; [discriminate| |discriminate].
  injection M as <-. injection En as <- <- <- <- <-.
  inversion Ho as [w Hw Hty E|w k t l0 Hw Hty Ha HF E].
  - subst l. destruct Hw as [<-|[<-|[]]]; discriminate.
  - destruct Hw as [<-|[<-|[]]]; [discriminate|]. injection Hty as <- <-. destruct HF as [|x l1 Hx]; [cbn in Ha; inversion Ha|].
    destruct Hx. cbn [app] in *. discriminate.
Qed.
Print Assumptions C49_order_refuted.

(** A variant holding an empty [Vec] writes nothing, which is no choice. *)
Theorem C49_empty_choice_refuted :
  compiles env6 /\ names_ok env6 /\ typed oracles1 env6 (ERef 1) (VEnum 1 (Some (VVec []))) /\
  option_map (fun out => meaning [] (emit SkipIfAnywhere [] out))
    (PropDeriveSer.written (serialize_root oracles1 env6 true steady 1 (VEnum 1 (Some (VVec []))))) =
    Some (Some (tree_events (TElem (XName "" "choice") [] []))) /\
  forall lex_e lex_a, ~ valid env6 lex_e lex_a (ERef 1) [] [].
Proof.
  split; [apply env6_ok|]. split; [apply env6_ok|].
  split. { eapply ty_payload; [reflexivity|reflexivity|reflexivity|constructor|constructor]. }
  split; [vm_compute; reflexivity|].
  intros lex_e lex_a V. inversion V as [|? ? ? ? ? ? ? En|? ? ? ? ? ? ? En _ Ho]; subst; [discriminate|].
  injection En as <- <- <- <- <-. cbn in Ho. inversion Ho as [|w k t l Hw Hty Ha HF E].
  destruct Hw as [<-|[<-|[]]]; [discriminate|]. injection Hty as <- <-. cbn in Ha. inversion Ha.
Qed.
Print Assumptions C49_empty_choice_refuted.

(** A struct with two flattened fields does not read every valid document. *)
Definition two_kids : list wtree := [TElem (XName "" "a") [] []; TElem (XName "" "c") [] []].

Theorem C49_two_choices_refuted :
  compiles env6 /\ names_ok env6 /\
  (forall lex_e lex_a, valid env6 lex_e lex_a (ERef 2) [] two_kids) /\
  shows (TElem (XName "" "two") [] two_kids) (d_root (doc_with (render (TElem (XName "" "two") [] two_kids)))) /\
  exists e, forall alg dbg pe, read_as oracles1 alg env6 dbg (ERef 2)
    (doc_events (doc_with (render (TElem (XName "" "two") [] two_kids)))) (FEndDocument pe) = Err e.
Proof.
  split; [apply env6_ok|]. split; [apply env6_ok|]. split; [|split].
  - intros lex_e lex_a. eapply va_struct; [reflexivity| |repeat constructor|].
    + split; [constructor|]. split; [intros n s []|]. intros f t Hin M. cbn [In] in Hin.
      repeat (destruct Hin as [<-|Hin]; [discriminate|]). destruct Hin.
    + cbn [filter is_telem two_kids].
      eapply (sq_flatten _ _ _ _ _ _ _ _ _ _ [_] [_]); [reflexivity|reflexivity| |].
      { apply (oo_unit _ _ (Variant (ln "a") None)); [now left|reflexivity]. }
      eapply (sq_flatten _ _ _ _ _ _ _ _ _ _ [_] []); [reflexivity|reflexivity| |constructor].
      apply (oo_unit _ _ (Variant (ln "c") None)); [now left|reflexivity].
  - apply (render_shows (TElem (XName "" "two") [] two_kids) eq_refl).
  - eexists. intros [] [] pe; vm_compute; reflexivity.
Qed.
Print Assumptions C49_two_choices_refuted.
