(** Property theorem C77: a value is read and written like its parts on their own. *)
From Verif Require Import Base Normalize Text Find FindProofs Types Ser SerSpec Reader ReaderSpec DeSpec DeriveDe
  DeriveSer DSerSpec RTSpec RTProps DeriveMixed MixedSpec MixedReads PartSpec PartProofs MixedPart PropReader PropDeriveSer
  PropRoundTrip.
From Verif Require PropDe PropMixed PropMixedReads.

(** ** C77: reading *)

(** What is around an element, in a document consisting of it, does not matter. *)
Theorem C77_alone : forall o alg env, names_ok env -> forall t d dbg pe v,
  read_alone o alg env t (d_root d) v <-> read_as o alg env dbg t (doc_events d) (FEndDocument pe) = Ok v.
Proof. exact alone_all. Qed.
Print Assumptions C77_alone.

(** A struct's fields are what its children are read as on their own. *)
Theorem C77_struct : forall o alg env, names_ok env -> forall dbg id i r n fs d pe vs, env id = Some (TDStruct i r n fs) ->
  read_as o alg env dbg (ERef id) (doc_events d) (FEndDocument pe) = Ok (VStruct vs) <->
  fields_hold o env (read_alone o alg env) (d_attrs d) (d_kids d) (unclaimed fs (d_kids d)) fs vs.
Proof. exact struct_parts. Qed.
Print Assumptions C77_struct.

Theorem C77_enum : forall o alg env, names_ok env -> forall dbg id i r n ws sk d pe v, env id = Some (TDEnum i r n ws sk) ->
  read_as o alg env dbg (ERef id) (doc_events d) (FEndDocument pe) = Ok v <->
  choice (read_alone o alg env) ws (d_kids d) v.
Proof. exact enum_parts. Qed.
Print Assumptions C77_enum.

(** The same if some types have hand-written [Deserialize] implementations [P], with [R] as in C51. *)
Theorem C77_mixed_alone : forall U o alg env (P : user U) R, names_ok env -> denotes o env P R -> hand_written_ok o alg env P R ->
  forall t d dbg pe v, (dbg = true -> strict P) ->
  mixed_alone o alg env P t (d_root d) v <-> read_mixed o alg env P dbg t (doc_events d) (FEndDocument pe) = Ok v.
Proof. exact (fun U => @mixed_alone_all U). Qed.
Print Assumptions C77_mixed_alone.

Theorem C77_mixed_struct : forall U o alg env (P : user U) R, names_ok env -> denotes o env P R -> hand_written_ok o alg env P R ->
  forall dbg id i r n fs d pe v, (dbg = true -> strict P) -> env id = Some (TDStruct i r n fs) ->
  read_mixed o alg env P dbg (ERef id) (doc_events d) (FEndDocument pe) = Ok v <->
  exists vs, v = VStruct vs /\
    fields_hold o env (mixed_alone o alg env P) (d_attrs d) (d_kids d) (unclaimed fs (d_kids d)) fs vs.
Proof. exact (fun U => @mixed_struct_parts U). Qed.
Print Assumptions C77_mixed_struct.

Theorem C77_mixed_enum : forall U o alg env (P : user U) R, names_ok env -> denotes o env P R -> hand_written_ok o alg env P R ->
  forall dbg id i r n ws sk d pe v, (dbg = true -> strict P) -> env id = Some (TDEnum i r n ws sk) ->
  read_mixed o alg env P dbg (ERef id) (doc_events d) (FEndDocument pe) = Ok v <->
  choice (mixed_alone o alg env P) ws (d_kids d) v.
Proof. exact (fun U => @mixed_enum_parts U). Qed.
Print Assumptions C77_mixed_enum.

(** ** Writing *)

(** A struct's children are what its fields' values are written as on their own, under the fields' names; a flattened
    field adds the attributes and children of the document its value is written as. *)
Theorem C77_struct_written : forall o env pol, legal_env env -> no_default env ->
  (pol = NsSpec.SkipIfAnywhere -> coherent_env env) -> forall dbg w id i r n fs vs k, env id = Some (TDStruct i r n fs) ->
  serialize_root o env dbg w id (VStruct vs) = inl (None, k) ->
  exists attrs own attrs' flat, attr_parts o fs vs attrs /\ own_parts o env pol fs vs own /\ flat_parts o env pol fs vs attrs' flat /\
    NsSpec.meaning [] (NsSpec.emit pol [] (k_out k)) =
      Some (NsSpec.tree_events (TElem (expanded r) (attrs ++ attrs') (own ++ flat))).
Proof. exact struct_written. Qed.
Print Assumptions C77_struct_written.

Theorem C77_enum_written : forall o env pol, legal_env env -> no_default env ->
  (pol = NsSpec.SkipIfAnywhere -> coherent_env env) -> forall dbg w id i r n ws sk j p k, env id = Some (TDEnum i r n ws sk) ->
  serialize_root o env dbg w id (VEnum j p) = inl (None, k) ->
  exists v l, nth_error (sorted_variants ws) j = Some v /\ variant_parts o env pol v p l /\
    NsSpec.meaning [] (NsSpec.emit pol [] (k_out k)) = Some (NsSpec.tree_events (TElem (expanded r) [] l)).
Proof. exact enum_written. Qed.
Print Assumptions C77_enum_written.

(** ** Example *)

(** The document [al_tree] has a [friend]: on its own it is read as [bo], and [bo] is written as it; and the contact is
    written as the [phone] elements. *)
Definition bo_tree : wtree :=
  TElem (u_ "friend") [(XName "" "id", "false")]%string [ leaf (u_ "name") "Bo"; leaf (u_ "nick") "B"; TElem (u_ "nothing") [] [] ].

Example C77_example :
  names_ok env1 /\ legal_env env1 /\ no_default env1 /\
  match al_tree with TElem _ _ kids => In bo_tree kids | _ => False end /\
  read_as oracles1 Bisect env1 true (ERef 0) (doc_events (doc_with (render al_tree))) (FEndDocument (9, 9)%N) = Ok al /\
  read_alone oracles1 Bisect env1 (ERef 0) (render bo_tree) bo /\
  option_map (fun out => NsSpec.meaning [] (NsSpec.emit NsSpec.SkipIfAnywhere [] out))
    (PropDeriveSer.written (serialize_with_name oracles1 env1 true steady (ERef 0) bo (u_ "friend"))) =
    Some (Some (NsSpec.tree_events bo_tree)) /\
  option_map (fun out => NsSpec.meaning [] (NsSpec.emit NsSpec.SkipIfAnywhere [] out))
    (PropDeriveSer.written (serialize_root oracles1 env1 true steady 1 (VEnum 2 (Some (VVec [st "1"; st "2"]))))) =
    Some (Some (NsSpec.tree_events (TElem (XName "" "contact") [] [leaf (u_ "phone") "1"; leaf (u_ "phone") "2"]))).
Proof.
  split; [exact env1_names|]. split; [exact env1_legal|]. split; [exact env1_no_default|].
  split; [cbn; auto 10|]. split; [vm_compute; reflexivity|]. split; [|split; vm_compute; reflexivity].
  exists (doc_with (render bo_tree)), true, (9, 9)%N. split; [reflexivity|vm_compute; reflexivity].
Qed.

(** A [Club] (C51) has a name and [members], each read by the hand-written [Bag]: the first on its own is the bag of two persons. *)
Example C77_mixed_example : names_ok PropMixedReads.env2 /\ strict PropMixedReads.bag2 /\
  denotes PropDe.oracles0 PropMixedReads.env2 PropMixedReads.bag2 PropMixedReads.club_reads /\
  hand_written_ok PropDe.oracles0 Bisect PropMixedReads.env2 PropMixedReads.bag2 PropMixedReads.club_reads /\
  read_mixed PropDe.oracles0 Bisect PropMixedReads.env2 PropMixedReads.bag2 true (ERef 6) (doc_events PropMixedReads.club_doc)
    (FEndDocument (9, 9)%N) = Ok PropMixedReads.club_value /\
  exists c cs, d_kids PropMixedReads.club_doc = c :: cs /\
    mixed_alone PropDe.oracles0 Bisect PropMixedReads.env2 PropMixedReads.bag2 (ERef 7) c (VVec [PropMixed.bo; PropMixed.bo]).
Proof.
  destruct PropMixedReads.C51_example as (H1 & H2 & H3 & H4 & _ & _). repeat (split; [assumption|]).
  split; [vm_compute; reflexivity|]. eexists. eexists. split; [reflexivity|].
  unfold PropDe.uel.
  match goal with |- mixed_alone _ _ _ _ _ (NElem ?n ?a ?s ?p ?k ?e) _ => exists (Doc (0, 0)%N [] n a s p k e []), true, (9, 9)%N end.
  split; [reflexivity|]. split; [intros _; exact H2|]. vm_compute. reflexivity.
Qed.
