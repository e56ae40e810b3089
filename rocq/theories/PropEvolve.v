(** Property theorem C60: compatible changes of types.

    [evolves env env' new]: every type of [env] is a type of [env'], possibly with more fields that may be
    absent, more variants, and more occurrences allowed ([T] to [Option<T>] or [Vec<T>], [Option<T>] to
    [Vec<T>]); what is added has a name in [new], nothing else has.  [up t v v']: the value [v'] of the new
    type says what the value [v] of the old one does.  See EvolveSpec.v. *)
From Verif Require Import Base Normalize Text Find FindProofs Types Ser SerSpec Reader ReaderSpec DeSpec DeriveDe
  DeriveSer DSerSpec RTSpec RTProps EvolveSpec Evolve EvolveDoc PropReader PropDeriveSer PropRoundTrip.

(** ** C60: documents *)

(** What the old program read, the new one reads as the same value, new fields being absent, if the document has
    no element or attribute with a new name.  [defaults_kept]: whatever an absent field was, it still is. *)
Theorem C60_old_documents : forall o alg env env' new, evolves env env' new -> names_ok env -> names_ok env' ->
  defaults_kept env env' new absent -> forall dbg dbg' t d pe pe' v, free_of new (d_root d) ->
  read_as o alg env dbg t (doc_events d) (FEndDocument pe) = Ok v ->
  exists v', read_as o alg env' dbg' t (doc_events d) (FEndDocument pe') = Ok v' /\ up env env' new absent t v v'.
Proof.
  exact (fun o alg env env' new EV Hok Hok' HD dbg dbg' t d pe pe' v =>
    old_document o alg env env' new absent EV Hok Hok' dbg dbg' t d pe pe' v (fun _ _ H => H) HD).
Qed.
Print Assumptions C60_old_documents.

(** What the new program reads as a value that the old type can say, the old one reads as that value, whatever is in
    the new fields.  No condition on the document.  [defaults_old]: what an absent field is now, it was. *)
Theorem C60_new_documents : forall o alg env env' new fill, evolves env env' new -> names_ok env -> names_ok env' ->
  forall dbg dbg' t d pe pe' v v', defaults_old env env' new fill ->
  read_as o alg env' dbg' t (doc_events d) (FEndDocument pe') = Ok v' -> up env env' new fill t v v' ->
  read_as o alg env dbg t (doc_events d) (FEndDocument pe) = Ok v.
Proof. exact new_document. Qed.
Print Assumptions C60_new_documents.

(** ** Programs *)

(** What the old program wrote and would read back (C38: [survives]), the new program reads as the same value. *)
Theorem C60_old_writer : forall o alg env env' new, evolves env env' new -> names_ok env -> names_ok env' ->
  defaults_kept env env' new absent -> forall dbg w id v k pol,
  compiles env -> legal_env env -> no_default env -> (pol = NsSpec.SkipIfAnywhere -> coherent_env env) ->
  serialize_root o env dbg w id v = inl (None, k) -> survives o env (ERef id) v ->
  exists t, NsSpec.meaning [] (NsSpec.emit pol [] (k_out k)) = Some (NsSpec.tree_events t) /\ is_telem t = true /\
    forall t' d, indented t t' -> shows t' (d_root d) -> exists v', up env env' new absent (ERef id) v v' /\
      forall dbg' pe, read_as o alg env' dbg' (ERef id) (doc_events d) (FEndDocument pe) = Ok v'.
Proof.
  exact (fun o alg env env' new EV Hok Hok' HD dbg w id v k pol =>
    old_writer o alg env env' new absent EV Hok Hok' dbg w id v k pol (fun _ _ H => H) HD).
Qed.
Print Assumptions C60_old_writer.

(** What the new program writes, the old one reads, if the old type can say it. *)
Theorem C60_new_writer : forall o alg env env' new fill, evolves env env' new -> names_ok env -> names_ok env' ->
  forall dbg w id v v' k pol, defaults_old env env' new fill ->
  compiles env' -> legal_env env' -> no_default env' -> (pol = NsSpec.SkipIfAnywhere -> coherent_env env') ->
  serialize_root o env' dbg w id v' = inl (None, k) -> survives o env' (ERef id) v' -> up env env' new fill (ERef id) v v' ->
  exists t, NsSpec.meaning [] (NsSpec.emit pol [] (k_out k)) = Some (NsSpec.tree_events t) /\ is_telem t = true /\
    forall t' d, indented t t' -> shows t' (d_root d) ->
      forall dbg' pe, read_as o alg env dbg' (ERef id) (doc_events d) (FEndDocument pe) = Ok v.
Proof. exact new_writer. Qed.
Print Assumptions C60_new_writer.

(** If no kept field has a default, before or after, the conditions on defaults hold. *)
Theorem C60_no_defaults : forall env env' new fill, evolves env env' new ->
  for_kept env env' new (fun f f' => f_default f = None /\ f_default f' = None) ->
  defaults_kept env env' new fill /\ defaults_old env env' new fill.
Proof. exact no_defaults. Qed.
Print Assumptions C60_no_defaults.

(** ** Example *)

(** [Person] and [Contact] of PropDeriveSer.v, with [name: Option<String>], [nick: Vec<String>],
    [Email(Vec<String>)], and in addition [#[attribute] age: Option<u8>], [note: Vec<String>] and [Fax(String)]. *)
Definition person' : tdesc := TDStruct "Person" (un "person") [("u", "urn:u")]%string
  [ Field (ln "id") (MAttribute false TBool) None;
    Field (ln "age") (MAttribute true (TInt U8)) None;
    Field (un "lang") (MAttribute true TString) None;
    Field (un "name") (MElement KOpt str_ty) None;
    Field (un "nick") (MElement KVec str_ty) None;
    Field (un "tag") (MElement KVec str_ty) None;
    Field (un "friend") (MElement KVec (ERef 0)) None;
    Field (ln "contact") (MFlatten 1) None;
    Field (un "note") (MElement KVec str_ty) None ].
Definition contact' : tdesc := TDEnum "Contact" (ln "contact") [("u", "urn:u")]%string
  [ Variant (un "fax") (Some (KOne, str_ty));
    Variant (un "phone") (Some (KVec, str_ty));
    Variant (un "email") (Some (KVec, str_ty));
    Variant (un "nothing") None ] true.
Definition env1' : tenv := fun id =>
  match id with 0 => Some person' | 1 => Some contact' | _ => None end.
Definition new1 : list xname := [XName "" "age"; XName "urn:u" "note"; XName "urn:u" "fax"]%string.

Lemma env1_evolves : evolves env1 env1' new1.
Proof.
  intros [|[|id]] d [= <-]; (eexists; split; [reflexivity|]); cbn [desc_evolves person person' contact contact'].
  - apply fe_keep; [split; [reflexivity|split; [intros H; cbn in H; intuition discriminate|constructor; easy]]|].
    apply fe_new; [now left|reflexivity|eexists; eapply abs_attr; reflexivity|].
    do 6 (apply fe_keep; [split; [reflexivity|split; [intros H; cbn in H; intuition discriminate|repeat constructor]]|]).
    apply fe_new; [now (right; left)|reflexivity|eexists; eapply abs_vec; reflexivity|constructor].
  - split.
    + intros w [<-|[<-|[<-|[]]]]; (split; [intros H; cbn in H; intuition discriminate|]);
        [eexists; split; [now (right; left)|]|eexists; split; [now (right; right; left)|]|eexists; split; [now (right; right; right; left)|]];
        (split; [reflexivity|repeat constructor]).
    + intros w [<-|[<-|[<-|[<-|[]]]]]; [left; cbn; auto| | |]; right; cbn; auto.
Qed.

Lemma env1'_names : names_ok env1'.
Proof. intros [|[|id]] d [= <-]; split; naming. Qed.
Lemma env1'_compiles : compiles env1'.
Proof. intros [|[|id]] d [= <-]; repeat constructor; cbn; try discriminate; do 5 eexists; reflexivity. Qed.

Lemma env1_plain : for_kept env1 env1' new1 (fun f f' => f_default f = None /\ f_default f' = None).
Proof.
  intros [|[|id]] i r n fs i' r' n' fs' [= <- <- <- <-] [= <- <- <- <-] f f' K.
  assert (L : forall l l' g g', kept new1 l l' g g' -> In g l /\ In g' l') by (induction 1; cbn; intuition).
  apply L in K as [H H']. cbn in H, H'. split.
  - repeat (destruct H as [<-|H]; [reflexivity|]). destruct H.
  - repeat (destruct H' as [<-|H']; [reflexivity|]). destruct H'.
Qed.

(** The same people before and after; and with the new fields in use. *)
Definition bo' : value :=
  VStruct [VText (TVBool false); VNone; VNone; VSome (st "Bo"); VVec [st "B"]; VVec []; VVec []; VEnum 2 None; VVec []].
Definition al' : value :=
  VStruct [VText (TVBool true); VNone; VSome (st "en"); VSome (st "Al"); VVec []; VVec [st "x"; st "y"]; VVec [bo'];
           VEnum 3 (Some (VVec [st "1"; st "2"])); VVec []].
Definition al'' : value :=
  VStruct [VText (TVBool true); VSome (VText (TVInt 33)); VSome (st "en"); VSome (st "Al"); VVec []; VVec [st "x"; st "y"]; VVec [bo'];
           VEnum 3 (Some (VVec [st "1"; st "2"])); VVec [st "new"]].

Ltac upping := lazymatch goal with
  | |- Forall2 _ [] [] => constructor
  | |- Forall2 _ _ _ => constructor; [upping|upping]
  | |- fields_up _ _ _ [] [] _ _ => constructor
  | |- fields_up _ _ _ _ _ _ _ => first
      [ apply fsu_keep; [intros H; cbn in H; intuition discriminate|upping|upping]
      | apply fsu_new; [cbn; auto|first [exact I|eapply abs_attr; reflexivity|eapply abs_vec; reflexivity]|upping] ]
  | |- field_up _ _ _ _ _ => first
      [ eapply fu_element; [reflexivity|reflexivity|constructor|constructor|upping]
      | apply fu_attribute with (opt := false) (opt' := false) (t := TBool); reflexivity
      | apply fu_attribute with (opt := true) (opt' := true) (t := TString); reflexivity
      | eapply fu_no_attribute; reflexivity
      | eapply fu_flatten; [reflexivity|reflexivity|upping] ]
  | |- up _ _ _ _ _ _ _ => first
      [ eapply up_struct; [reflexivity|reflexivity|upping]
      | eapply up_unit; reflexivity
      | eapply up_payload; [reflexivity|reflexivity|reflexivity|reflexivity|reflexivity|reflexivity|reflexivity|constructor|constructor|upping]
      | apply up_text ]
  end.

Lemma al_up : up env1 env1' new1 absent (ERef 0) al al'.
Proof. upping. Qed.
Lemma al_up' : up env1 env1' new1 (fun _ _ => True) (ERef 0) al al''.
Proof. upping. Qed.

Definition al_tree' : wtree :=
  TElem (u_ "person") [(XName "" "id", "true"); (XName "" "age", "33"); (u_ "lang", "en")]%string
    [ leaf (u_ "name") "Al"; leaf (u_ "tag") "x"; leaf (u_ "tag") "y";
      TElem (u_ "friend") [(XName "" "id", "false")]%string
        [ leaf (u_ "name") "Bo"; leaf (u_ "nick") "B"; TElem (u_ "nothing") [] [] ];
      leaf (u_ "note") "new"; leaf (u_ "phone") "1"; leaf (u_ "phone") "2" ].

Lemma al_free : free_of new1 (d_root (doc_with (render al_tree))).
Proof.
  vm_compute. repeat lazymatch goal with
    | |- free_of _ _ => constructor
    | |- Forall _ [] => constructor
    | |- Forall _ (_ :: _) => constructor
    | |- ~ _ => intros H; repeat (destruct H as [H|H]; [discriminate H|]); destruct H
    | |- _ = _ => reflexivity
    end.
Qed.

Example C60_example :
  evolves env1 env1' new1 /\ names_ok env1 /\ names_ok env1' /\ compiles env1' /\
  defaults_kept env1 env1' new1 absent /\ defaults_old env1 env1' new1 (fun _ _ => True) /\
  (* the old document, read by both *)
  free_of new1 (d_root (doc_with (render al_tree))) /\
  read_as oracles1 Bisect env1 true (ERef 0) (doc_events (doc_with (render al_tree))) (FEndDocument (9, 9)%N) = Ok al /\
  read_as oracles1 Bisect env1' true (ERef 0) (doc_events (doc_with (render al_tree))) (FEndDocument (9, 9)%N) = Ok al' /\
  up env1 env1' new1 absent (ERef 0) al al' /\
  (* a document of the new program, read by both *)
  option_map (fun out => NsSpec.meaning [] (NsSpec.emit NsSpec.SkipIfAnywhere [] out))
    (PropDeriveSer.written (serialize_root oracles1 env1' true steady 0 al'')) = Some (Some (NsSpec.tree_events al_tree')) /\
  read_as oracles1 Bisect env1' true (ERef 0) (doc_events (doc_with (render al_tree'))) (FEndDocument (9, 9)%N) = Ok al'' /\
  up env1 env1' new1 (fun _ _ => True) (ERef 0) al al'' /\
  read_as oracles1 Bisect env1 true (ERef 0) (doc_events (doc_with (render al_tree'))) (FEndDocument (9, 9)%N) = Ok al.
Proof.
  split; [exact env1_evolves|]. split; [exact env1_names|]. split; [exact env1'_names|]. split; [exact env1'_compiles|].
  split; [apply (no_defaults _ _ _ absent env1_evolves env1_plain)|].
  split; [apply (no_defaults _ _ _ (fun _ _ => True) env1_evolves env1_plain)|].
  split; [exact al_free|]. split; [vm_compute; reflexivity|]. split; [vm_compute; reflexivity|]. split; [exact al_up|].
  split; [vm_compute; reflexivity|]. split; [vm_compute; reflexivity|]. split; [exact al_up'|]. vm_compute. reflexivity.
Qed.

(** ** The conditions are needed *)

Definition one_struct (fs : list field) : tenv := fun id =>
  match id with
  | 0 => Some (TDStruct "S" (ln "s") [] fs)
  | 1 => Some (TDEnum "E" (ln "e") [] [Variant (ln "a") (Some (KOne, str_ty))] false)
  | _ => None
  end.
Definition bare (s : string) (kids : list node) : node := NElem (OName None None s) [] [] (0, 0)%N kids (0, 0)%N.
Definition doc_s (kids : list node) : doc := doc_with (bare "s" kids).

(** An added optional field whose name is a variant's of a flattened enum takes the variant's elements: documents that
    the old program read are errors. *)
Theorem C60_variant_name_refuted : exists fs f d v, names_ok (one_struct fs) /\ names_ok (one_struct (fs ++ [f])) /\
  (exists u, absent f u) /\
  read_as oracles1 Bisect (one_struct fs) true (ERef 0) (doc_events d) (FEndDocument (9, 9)%N) = Ok v /\
  forall v', read_as oracles1 Bisect (one_struct (fs ++ [f])) true (ERef 0) (doc_events d) (FEndDocument (9, 9)%N) <> Ok v'.
Proof.
  exists [Field (ln "e") (MFlatten 1) None], (Field (ln "a") (MElement KOpt str_ty) None), (doc_s [bare "a" []]).
  eexists. split; [intros [|[|id]] d [= <-]; split; naming|]. split; [intros [|[|id]] d [= <-]; split; naming|].
  split; [eexists; eapply abs_opt; reflexivity|]. split; [vm_compute; reflexivity|]. intros v'. vm_compute. discriminate.
Qed.
Print Assumptions C60_variant_name_refuted.

(** What the old program ignored need not be readable: an element with the new field's name. *)
Theorem C60_ignored_before_refuted : exists f d v new, evolves (one_struct []) (one_struct [f]) new /\
  names_ok (one_struct []) /\ names_ok (one_struct [f]) /\
  read_as oracles1 Bisect (one_struct []) true (ERef 0) (doc_events d) (FEndDocument (9, 9)%N) = Ok v /\
  forall v', read_as oracles1 Bisect (one_struct [f]) true (ERef 0) (doc_events d) (FEndDocument (9, 9)%N) <> Ok v'.
Proof.
  exists (Field (ln "b") (MElement KOpt (EText TBool)) None), (doc_s [bare "b" []]).
  eexists. exists [expanded (ln "b")]. split; [|split; [intros [|[|id]] d [= <-]; split; naming|]].
  - intros [|[|id]] d [= <-]; (eexists; split; [reflexivity|]).
    + apply fe_new; [now left|reflexivity|eexists; eapply abs_opt; reflexivity|constructor].
    + split.
      * intros w [<-|[]]. split; [intros H; cbn in H; intuition discriminate|].
        eexists. split; [now left|]. split; [reflexivity|repeat constructor].
      * intros w [<-|[]]. right. now left.
  - split; [intros [|[|id]] d [= <-]; split; naming|]. split; [vm_compute; reflexivity|]. intros v'. vm_compute. discriminate.
Qed.
Print Assumptions C60_ignored_before_refuted.

(** A required field that gains a default: the new program reads documents without it, the old one does not. *)
Theorem C60_new_default_refuted : exists f f' env env' d v v', env = one_struct [f] /\ env' = one_struct [f'] /\
  evolves env env' [] /\ names_ok env /\ names_ok env' /\
  read_as oracles1 Bisect env' true (ERef 0) (doc_events d) (FEndDocument (9, 9)%N) = Ok v' /\
  up env env' [] absent (ERef 0) v v' /\
  forall u, read_as oracles1 Bisect env true (ERef 0) (doc_events d) (FEndDocument (9, 9)%N) <> Ok u.
Proof.
  exists (Field (ln "b") (MElement KOne str_ty) None), (Field (ln "b") (MElement KOne str_ty) (Some (st "x"))).
  do 2 eexists. exists (doc_s []), (VStruct [st "x"]), (VStruct [st "x"]).
  split; [reflexivity|]. split; [reflexivity|]. split; [|split; [intros [|[|id]] d [= <-]; split; naming|]].
  - intros [|[|id]] d [= <-]; (eexists; split; [reflexivity|]).
    + apply fe_keep; [|constructor]. split; [reflexivity|]. split; [intros []|repeat constructor].
    + split.
      * intros w [<-|[]]. split; [intros []|]. eexists. split; [now left|]. split; [reflexivity|repeat constructor].
      * intros w [<-|[]]. right. now left.
  - split; [intros [|[|id]] d [= <-]; split; naming|]. split; [vm_compute; reflexivity|]. split; [upping|].
    intros v'. vm_compute. discriminate.
Qed.
Print Assumptions C60_new_default_refuted.
