(** Property theorem C76: the order of declaration.

    [rearranged env env']: the types of [env'] are those of [env] with the fields of structs and the variants of enums
    declared in another order, except that flattened fields keep their order among themselves; Rust names, prefixes, root
    names and the presence of skipped variants may differ too.  [re env env' t v v']: the same value, of type [t] before
    and after.  See ReorderSpec.v. *)
From Verif Require Import Base Normalize Text Find FindProofs Types Ser SerSpec Reader ReaderSpec DeSpec DeriveDe
  DeriveSer DSerSpec RTSpec RTProps ReorderSpec Reorder ReorderSer PropReader PropDeriveSer PropRoundTrip.

(** ** C76: reading *)

(** Whatever was read is still read, as the same value. *)
Theorem C76_reads : forall o alg env env', rearranged env env' -> names_ok env -> names_ok env' ->
  forall dbg dbg' t d pe pe' v, read_as o alg env dbg t (doc_events d) (FEndDocument pe) = Ok v ->
  exists v', read_as o alg env' dbg' t (doc_events d) (FEndDocument pe') = Ok v' /\ re env env' t v v'.
Proof. exact rearranged_document. Qed.
Print Assumptions C76_reads.

(** And nothing else is. *)
Theorem C76_reads_iff : forall o alg env env', rearranged env env' -> names_ok env -> names_ok env' ->
  forall dbg dbg' t d pe pe' v v', re env env' t v v' ->
  read_as o alg env dbg t (doc_events d) (FEndDocument pe) = Ok v <->
  read_as o alg env' dbg' t (doc_events d) (FEndDocument pe') = Ok v'.
Proof. exact rearranged_iff. Qed.
Print Assumptions C76_reads_iff.

(** Being rearranged is symmetric, and the values correspond one to one. *)
Theorem C76_symmetric : forall env env', rearranged env env' ->
  rearranged env' env /\ (forall t v v', re env env' t v v' -> re env' env t v' v).
Proof. exact (fun env env' H => conj (rearranged_sym env env' H) (fun t v v' => re_flip env env' t v v')). Qed.
Print Assumptions C76_symmetric.

Theorem C76_unique : forall env env', names_ok env -> names_ok env' ->
  forall v t v1 v2, re env env' t v v1 -> re env env' t v v2 -> v1 = v2.
Proof. exact re_unique. Qed.
Print Assumptions C76_unique.

(** ** Writing *)

(** What can be written still can. *)
Theorem C76_writes : forall o env env' dbg w id v v', re env env' (ERef id) v v' -> typed o env (ERef id) v ->
  attrs_apart env' -> names_declared env' -> prefixes_ok env' -> no_default env' -> (forall i, w i = None) ->
  exists k, serialize_root o env' dbg w id v' = inl (None, k).
Proof. exact rearranged_writes. Qed.
Print Assumptions C76_writes.

(** The documents written are the same up to the order of attributes and the order of elements with different names. *)
Theorem C76_written : forall o env env', names_ok env ->
  forall dbg dbg' w w' id v v' k k' pol pol', re env env' (ERef id) v v' -> root_name env id = root_name env' id ->
  legal_env env -> no_default env -> (pol = NsSpec.SkipIfAnywhere -> coherent_env env) ->
  legal_env env' -> no_default env' -> (pol' = NsSpec.SkipIfAnywhere -> coherent_env env') ->
  serialize_root o env dbg w id v = inl (None, k) -> serialize_root o env' dbg' w' id v' = inl (None, k') ->
  exists t t', NsSpec.meaning [] (NsSpec.emit pol [] (k_out k)) = Some (NsSpec.tree_events t) /\
    NsSpec.meaning [] (NsSpec.emit pol' [] (k_out k')) = Some (NsSpec.tree_events t') /\ same_tree t t'.
Proof. exact rearranged_written. Qed.
Print Assumptions C76_written.

(** ** Programs *)

(** What one program wrote and would read back (C38: [survives]), the other reads as the same value. *)
Theorem C76_exchange : forall o alg env env', rearranged env env' -> names_ok env -> names_ok env' ->
  forall dbg w id v k pol, compiles env -> legal_env env -> no_default env ->
  (pol = NsSpec.SkipIfAnywhere -> coherent_env env) ->
  serialize_root o env dbg w id v = inl (None, k) -> survives o env (ERef id) v ->
  exists t, NsSpec.meaning [] (NsSpec.emit pol [] (k_out k)) = Some (NsSpec.tree_events t) /\ is_telem t = true /\
    forall t' d, indented t t' -> shows t' (d_root d) -> exists v', re env env' (ERef id) v v' /\
      forall dbg' pe, read_as o alg env' dbg' (ERef id) (doc_events d) (FEndDocument pe) = Ok v'.
Proof. exact rearranged_writer. Qed.
Print Assumptions C76_exchange.

(** ** Example *)

(** [Person] and [Contact] of PropDeriveSer.v in another order, with other Rust names and another prefix. *)
Definition person_re : tdesc := TDStruct "P" (un "person") [("v", "urn:u")]%string
  [ Field (ln "whom") (MFlatten 1) None;
    Field (un "friend") (MElement KVec (ERef 0)) None;
    Field (un "lang") (MAttribute true TString) None;
    Field (un "tag") (MElement KVec str_ty) None;
    Field (ln "id") (MAttribute false TBool) None;
    Field (un "name") (MElement KOne str_ty) None;
    Field (un "nick") (MElement KOpt str_ty) None ].
Definition contact_re : tdesc := TDEnum "C" (ln "contact") [("v", "urn:u")]%string
  [ Variant (un "nothing") None;
    Variant (un "phone") (Some (KVec, str_ty));
    Variant (un "email") (Some (KOne, str_ty)) ] false.
Definition env1_re : tenv := fun id =>
  match id with 0 => Some person_re | 1 => Some contact_re | _ => None end.

Lemma env1_rearranged : rearranged env1 env1_re.
Proof.
  intros [|[|id]]; cbn; [| |exact I].
  - eexists. split; [apply (take_all_shuffle _ [6; 5; 1; 3; 0; 0; 0]); reflexivity|].
    repeat constructor; try discriminate.
  - eexists. split; [|repeat (constructor; [split; reflexivity|]); constructor].
    eapply Permutation.perm_trans; [apply Permutation.perm_skip, Permutation.perm_swap|apply Permutation.perm_swap].
Qed.
Lemma env1_re_names : names_ok env1_re.
Proof. intros [|[|id]] d [= <-]; split; naming. Qed.

Definition bo_re : value :=
  VStruct [VEnum 1 None; VVec []; VNone; VVec []; VText (TVBool false); st "Bo"; VSome (st "B")].
Definition al_re : value :=
  VStruct [VEnum 2 (Some (VVec [st "1"; st "2"])); VVec [bo_re]; VSome (st "en"); VVec [st "x"; st "y"]; VText (TVBool true);
           st "Al"; VNone].

Ltac same_fields := lazymatch goal with
  | |- fields_re _ [] [] => constructor
  | |- fields_re _ _ _ => apply fsr_cons; [split; [reflexivity|try discriminate; reflexivity]|cbn [f_mode]; same_fields|same_fields]
  | |- field_re _ (MElement _ _) _ _ => eapply fre_element; [constructor|constructor|same_fields]
  | |- field_re _ (MAttribute _ _) _ _ => apply fre_attribute
  | |- field_re _ (MFlatten _) _ _ => apply fre_flatten; same_fields
  | |- Forall2 _ [] [] => constructor
  | |- Forall2 _ _ _ => constructor; [same_fields|same_fields]
  | |- re _ _ _ (VText _) _ => apply re_text
  | |- re _ _ _ (VStruct _) _ => eapply re_struct;
      [reflexivity|reflexivity|reflexivity|reflexivity|apply (take_all_shuffle _ [6; 5; 1; 3; 0; 0; 0]); reflexivity|cbn; same_fields]
  | |- re _ _ _ (VEnum _ None) _ => eapply re_unit; [reflexivity|reflexivity|reflexivity|reflexivity|split; reflexivity|reflexivity]
  | |- re _ _ _ (VEnum _ _) _ => eapply re_payload;
      [reflexivity|reflexivity|reflexivity|reflexivity|split; reflexivity|reflexivity|constructor|constructor|same_fields]
  end.

Lemma al_same : re env1 env1_re (ERef 0) al al_re.
Proof. unfold al, al_re, bo, bo_re, st. same_fields. Qed.

Definition al_tree_re : wtree :=
  TElem (u_ "person") [(u_ "lang", "en"); (XName "" "id", "true")]%string
    [ TElem (u_ "friend") [(XName "" "id", "false")]%string
        [ leaf (u_ "name") "Bo"; leaf (u_ "nick") "B"; TElem (u_ "nothing") [] [] ];
      leaf (u_ "tag") "x"; leaf (u_ "tag") "y"; leaf (u_ "name") "Al"; leaf (u_ "phone") "1"; leaf (u_ "phone") "2" ].

Example C76_example :
  rearranged env1 env1_re /\ names_ok env1 /\ names_ok env1_re /\ compiles env1 /\ re env1 env1_re (ERef 0) al al_re /\
  survives oracles1 env1 (ERef 0) al /\ root_name env1 0 = root_name env1_re 0 /\
  option_map (fun out => NsSpec.meaning [] (NsSpec.emit NsSpec.SkipIfAnywhere [] out))
    (PropDeriveSer.written (serialize_root oracles1 env1_re true steady 0 al_re)) = Some (Some (NsSpec.tree_events al_tree_re)) /\
  al_tree_re <> al_tree /\
  (* each reads what the other writes *)
  read_as oracles1 Bisect env1_re true (ERef 0) (doc_events (doc_with (render al_tree))) (FEndDocument (9, 9)%N) = Ok al_re /\
  read_as oracles1 Bisect env1 true (ERef 0) (doc_events (doc_with (render al_tree_re))) (FEndDocument (9, 9)%N) = Ok al.
Proof.
  split; [exact env1_rearranged|]. split; [exact env1_names|]. split; [exact env1_re_names|]. split; [exact env1_compiles|].
  split; [exact al_same|]. split; [exact al_survives|]. split; [reflexivity|]. split; [vm_compute; reflexivity|].
  split; [discriminate|]. split; vm_compute; reflexivity.
Qed.

(** ** The conditions are needed *)

Definition two_choices (fs : list field) : tenv := fun id =>
  match id with
  | 0 => Some (TDStruct "S" (ln "s") [] fs)
  | 1 => Some (TDEnum "E" (ln "e") [] [Variant (ln "b") (Some (KOne, str_ty))] false)
  | 2 => Some (TDEnum "F" (ln "f") [] [Variant (ln "a") (Some (KOne, str_ty))] false)
  | _ => None
  end.
Definition empty_elem (s : string) (kids : list node) : node := NElem (OName None None s) [] [] (0, 0)%N kids (0, 0)%N.

(** The order of two flattened fields matters, even if their enums have no name in common: the first one that has got an
    element takes what it does not know from those after it (C28). *)
Theorem C76_flattened_refuted : exists f g d v, names_ok (two_choices [f; g]) /\ names_ok (two_choices [g; f]) /\
  read_as oracles1 Bisect (two_choices [f; g]) true (ERef 0) (doc_events d) (FEndDocument (9, 9)%N) = Ok v /\
  forall v', read_as oracles1 Bisect (two_choices [g; f]) true (ERef 0) (doc_events d) (FEndDocument (9, 9)%N) <> Ok v'.
Proof.
  exists (Field (ln "f") (MFlatten 2) None), (Field (ln "e") (MFlatten 1) None),
    (doc_with (empty_elem "s" [empty_elem "b" []; empty_elem "a" []])).
  eexists. split; [intros [|[|[|id]]] d [= <-]; split; naming|]. split; [intros [|[|[|id]]] d [= <-]; split; naming|].
  split; [vm_compute; reflexivity|]. intros v'. vm_compute. discriminate.
Qed.
Print Assumptions C76_flattened_refuted.
