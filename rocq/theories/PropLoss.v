(** Property theorem C78: what a value keeps of the document it was read from.

    [equal_for o env t n n']: the elements [n] and [n'] agree in everything that a value of type [t] holds: the children of
    the name of each element field (in order, and again [equal_for] its type), what the attributes of the name of each
    attribute field parse as, and the children of the name of each variant.  See LossSpec.v. *)
From Verif Require Import Base Normalize Text Find FindProofs Types Ser SerSpec Reader ReaderSpec DeSpec DeriveDe
  DeriveSer DSerSpec DSerProps NsSpec RTSpec RTProofs RTProps RTStableSpec RTStable LossSpec LossProofs LossSaved
  DeriveMixed MixedSpec MixedReads MixedDe MixedLoss PropReader PropDeriveSer
  PropRoundTrip PropStable PropReorder.
From Verif Require PropDe PropMixed PropMixedReads.

(** ** C78: documents are read as the same value exactly if they agree in what it holds *)

Theorem C78_exact : forall o env, names_ok env -> defaultless env -> one_flattened env ->
  forall alg dbg dbg' t d d' pe pe' v, read_as o alg env dbg t (doc_events d) (FEndDocument pe) = Ok v ->
  (read_as o alg env dbg' t (doc_events d') (FEndDocument pe') = Ok v <-> equal_for o env t (d_root d) (d_root d')).
Proof. exact read_exact. Qed.
Print Assumptions C78_exact.

(** So a document that was loaded and saved again agrees with the original in everything the value holds. *)
Theorem C78_saved : forall o env alg dbg id d pe v dbg1 pol,
  compiles env -> names_ok env -> defaultless env -> one_flattened env -> settled_env o env -> names_declared env ->
  legal_env env -> no_default env -> (pol = SkipIfAnywhere -> coherent_env env) -> unblank (d_root d) ->
  read_as o alg env dbg (ERef id) (doc_events d) (FEndDocument pe) = Ok v ->
  exists k t, serialize_root o env dbg1 (fun _ => None) id v = inl (None, k) /\
    meaning [] (emit pol [] (k_out k)) = Some (tree_events t) /\
    forall t' d', indented t t' -> shows t' (d_root d') -> equal_for o env (ERef id) (d_root d) (d_root d').
Proof. exact saved_equal. Qed.
Print Assumptions C78_saved.

(** With hand-written implementations in it, whatever they do: documents are read as the same value exactly if they agree in
    the same way, and the elements that hand-written code reads are each read as the same value.  ([R]: see C51.) *)
Theorem C78_mixed : forall U o alg env (P : user U) R, names_ok env -> defaultless env -> one_flattened env ->
  denotes o env P R -> hand_written_ok o alg env P R ->
  forall dbg dbg' t d d' pe pe' v, (dbg = true -> strict P) -> (dbg' = true -> strict P) ->
  read_mixed o alg env P dbg t (doc_events d) (FEndDocument pe) = Ok v ->
  (read_mixed o alg env P dbg' t (doc_events d') (FEndDocument pe') = Ok v <->
   mixed_equal o env (alike R) t (d_root d) (d_root d')).
Proof. exact (fun U => @mixed_read_exact U). Qed.
Print Assumptions C78_mixed.

(** ** An example *)

(** The same with attributes and children in another order. *)
Definition al_doc : node := render al_tree.
Definition al_doc' : node := render al_tree_re.

Example C78_example : names_ok env1 /\ defaultless env1 /\ one_flattened env1 /\
  read_as oracles1 Bisect env1 true (ERef 0) (doc_events (doc_with al_doc)) (FEndDocument (9, 9)%N) = Ok al /\
  al_doc <> al_doc' /\ equal_for oracles1 env1 (ERef 0) al_doc al_doc' /\
  ~ equal_for oracles1 env1 (ERef 0) al_doc (empty_elem "person" []).
Proof.
  assert (D : defaultless env1).
  { intros [|[|[|id]]] i r n fs f [= <- <- <- <-] I; cbn in I; repeat destruct I as [<-|I]; try reflexivity; contradiction. }
  assert (F : one_flattened env1).
  { intros [|[|[|id]]] i r n fs [= <- <- <- <-]; vm_compute; repeat constructor. }
  assert (R : read_as oracles1 Bisect env1 true (ERef 0) (doc_events (doc_with al_doc)) (FEndDocument (9, 9)%N) = Ok al)
    by (vm_compute; reflexivity).
  split; [exact env1_names|]. split; [exact D|]. split; [exact F|]. split; [exact R|]. split; [vm_compute; discriminate|].
  pose proof (fun d' => C78_exact oracles1 env1 env1_names D F Bisect true true (ERef 0) _ d' _ (9, 9)%N al R) as X.
  split.
  - apply (X (doc_with al_doc')). vm_compute. reflexivity.
  - intros E. apply (X (doc_with (empty_elem "person" []))) in E. vm_compute in E. discriminate.
Qed.

(** ... and one of load and save: [struct Config { #[attribute] version: u8, name: String, opt: Vec<bool>,
    #[flatten] source: Source }]. *)
Definition no_level : tenv := fun id =>
  match id with
  | 0 => Some (TDStruct "Config" (ln "config") []
           [ Field (ln "version") (MAttribute false (TInt U8)) None;
             Field (ln "name") (MElement KOne str_ty) None;
             Field (ln "opt") (MElement KVec (EText TBool)) None;
             Field (ln "source") (MFlatten 1) None ])
  | 1 => Some (TDEnum "Source" (ln "source") []
           [ Variant (ln "file") (Some (KVec, str_ty)); Variant (ln "empty") None ] true)
  | _ => None
  end.

Example C78_saved_example :
  compiles no_level /\ names_ok no_level /\ defaultless no_level /\ one_flattened no_level /\ settled_env oracles1 no_level /\
  names_declared no_level /\ legal_env no_level /\ no_default no_level /\ coherent_env no_level /\
  unblank (d_root config_doc) /\
  read_as oracles1 Bisect no_level true (ERef 0) (doc_events config_doc) (FEndDocument (9, 9)%N) =
    Ok (VStruct [VText (TVInt 7); st " N "; VVec [VText (TVBool true)]; VEnum 1 (Some (VVec [st "a"; st ""]))]).
Proof.
  split. { intros [|[|id]] d [= <-]; repeat constructor; cbn; try discriminate; do 5 eexists; reflexivity. }
  split. { intros [|[|id]] d [= <-]; split; naming. }
  split. { intros [|[|id]] i r n fs f [= <- <- <- <-] I; cbn in I; repeat destruct I as [<-|I]; try reflexivity; contradiction. }
  split. { intros [|[|id]] i r n fs [= <- <- <- <-]; vm_compute; repeat constructor. }
  split.
  { intros [|[|id]] d [= <-]; [split; [|split]|].
    - repeat (apply Forall_cons); try apply Forall_nil; try exact I.
      + apply (C47_settled_text oracles1 (TInt U8)).
      + apply (C47_settled_text oracles1 TString).
      + apply (C47_settled_text oracles1 TBool).
    - repeat constructor.
    - intros f v Hin E. cbn [In] in Hin.
      repeat (destruct Hin as [<-|Hin]; [discriminate E|]). destruct Hin.
    - repeat (apply Forall_cons); try apply Forall_nil; try exact I. apply (C47_settled_text oracles1 TString). }
  split.
  { intros [|[|id]] d [= <-]; apply Forall_forall; cbn; intros ? H;
      repeat (destruct H as [<-|H]; [now left|]); destruct H. }
  split. { intros [|[|id]] d p u [= <-] []. }
  split. { left. intros [|[|id]] d u [= <-] []. }
  split. { exists (fun _ => ""%string). split; [intros [|[|id]] d p u [= <-] []|intros [|[|id]] d u id' d' n [= <-] []]. }
  split; [|vm_compute; reflexivity].
  repeat (apply ub_elem || apply Forall_cons || apply Forall_nil || (apply ub_other; reflexivity) ||
    (vm_compute; discriminate) || (vm_compute; reflexivity)).
Qed.

(** [struct Club { name: String, members: Vec<Bag> }] with a hand-written [Bag] (C51): of its members only the persons matter,
    not the text between them. *)
Definition club_doc' : doc := PropReader.doc_of []
  [ PropDe.uel "p" "members" [] [PropDe.friend "q"; PropDe.friend "p"; PropDe.tx "+"]; PropDe.uel "p" "members" [] [PropDe.tx "-"];
    PropDe.uel "p" "name" [] [PropDe.tx "A"] ].

Example C78_mixed_example : names_ok PropMixedReads.env2 /\ defaultless PropMixedReads.env2 /\ one_flattened PropMixedReads.env2 /\
  denotes PropDe.oracles0 PropMixedReads.env2 PropMixedReads.bag2 PropMixedReads.club_reads /\
  hand_written_ok PropDe.oracles0 Bisect PropMixedReads.env2 PropMixedReads.bag2 PropMixedReads.club_reads /\
  strict PropMixedReads.bag2 /\
  read_mixed PropDe.oracles0 Bisect PropMixedReads.env2 PropMixedReads.bag2 true (ERef 6) (doc_events PropMixedReads.club_doc) (FEndDocument (9, 9)%N) =
    Ok PropMixedReads.club_value /\
  mixed_equal PropDe.oracles0 PropMixedReads.env2 (alike PropMixedReads.club_reads) (ERef 6) (d_root PropMixedReads.club_doc) (d_root club_doc').
Proof.
  destruct PropMixedReads.C51_example as (H1 & H2 & H3 & H4 & _ & _).
  assert (D : defaultless PropMixedReads.env2).
  { intros [|[|[|[|[|[|[|id]]]]]]] i r n fs f En I; cbn in En; try discriminate En; injection En as <- <- <- <-; cbn in I;
      repeat destruct I as [<-|I]; try reflexivity; contradiction. }
  assert (F : one_flattened PropMixedReads.env2).
  { intros [|[|[|[|[|[|[|id]]]]]]] i r n fs En; cbn in En; try discriminate En; injection En as <- <- <- <-; vm_compute; repeat constructor. }
  assert (R : read_mixed PropDe.oracles0 Bisect PropMixedReads.env2 PropMixedReads.bag2 true (ERef 6) (doc_events PropMixedReads.club_doc)
    (FEndDocument (9, 9)%N) = Ok PropMixedReads.club_value) by (vm_compute; reflexivity).
  repeat (split; [assumption|]).
  apply (C78_mixed _ _ _ _ _ _ H1 D F H3 H4 true true (ERef 6) _ club_doc' _ (9, 9)%N _ (fun _ => H2) (fun _ => H2) R).
  vm_compute. reflexivity.
Qed.

(** ** The conditions are needed *)

(** A default given explicitly is not told from one that is not given. *)
Definition with_default : tenv := fun id =>
  match id with
  | 0 => Some (TDStruct "S" (ln "s") [] [Field (ln "a") (MElement KOne str_ty) (Some (VText (TVStr "")))])
  | _ => None
  end.

Theorem C78_default_refuted : exists env d d' v, names_ok env /\ one_flattened env /\
  read_as oracles1 Bisect env true (ERef 0) (doc_events d) (FEndDocument (9, 9)%N) = Ok v /\
  read_as oracles1 Bisect env true (ERef 0) (doc_events d') (FEndDocument (9, 9)%N) = Ok v /\
  ~ equal_for oracles1 env (ERef 0) (d_root d) (d_root d').
Proof.
  exists with_default, (doc_with (empty_elem "s" [empty_elem "a" []])), (doc_with (empty_elem "s" [])). eexists.
  split; [intros [|id] d [= <-]; split; naming|].
  split; [intros [|id] i r n fs [= <- <- <- <-]; vm_compute; repeat constructor|].
  split; [vm_compute; reflexivity|]. split; [vm_compute; reflexivity|].
  intros E. inversion E as [|? ? ? ? ? ? ? ? ? ? ? ? ? ? ? ? ? En F _|]; subst; [|discriminate]. injection En as <- <- <- <-.
  destruct (F _ (or_introl eq_refl)) as [X _]. specialize (X _ _ eq_refl). inversion X.
Qed.
Print Assumptions C78_default_refuted.

(** With several flattened fields elements can be lost, and the order of elements with different names matters. *)
Theorem C78_flattened_refuted : exists env d d1 d2 v, names_ok env /\ defaultless env /\
  read_as oracles1 Bisect env true (ERef 0) (doc_events d) (FEndDocument (9, 9)%N) = Ok v /\
  (read_as oracles1 Bisect env true (ERef 0) (doc_events d1) (FEndDocument (9, 9)%N) = Ok v /\
   ~ equal_for oracles1 env (ERef 0) (d_root d) (d_root d1)) /\
  (equal_for oracles1 env (ERef 0) (d_root d) (d_root d2) /\
   forall v', read_as oracles1 Bisect env true (ERef 0) (doc_events d2) (FEndDocument (9, 9)%N) <> Ok v').
Proof.
  exists (two_choices [Field (ln "f") (MFlatten 2) None; Field (ln "e") (MFlatten 1) None]),
    (doc_with (empty_elem "s" [empty_elem "b" []; empty_elem "a" []])),
    (doc_with (empty_elem "s" [empty_elem "b" []; empty_elem "a" []; empty_elem "b" []])),
    (doc_with (empty_elem "s" [empty_elem "a" []; empty_elem "b" []])). eexists.
  split; [intros [|[|[|id]]] d [= <-]; split; naming|].
  split; [intros [|[|[|id]]] i r n fs f [= <- <- <- <-] I; cbn in I; repeat destruct I as [<-|I]; try reflexivity; contradiction|].
  split; [vm_compute; reflexivity|].
  assert (S : forall s, equal_for oracles1 (two_choices [Field (ln "f") (MFlatten 2) None; Field (ln "e") (MFlatten 1) None])
                str_ty (empty_elem s []) (empty_elem s [])).
  { intros s. apply eq_text; try reflexivity. eexists; split; reflexivity. }
  split; [split; [vm_compute; reflexivity|]|split].
  - intros E. inversion E as [|? ? ? ? ? ? ? ? ? ? ? ? ? ? ? ? ? En _ F|]; subst; [|discriminate]. injection En as <- <- <- <-.
    specialize (F _ _ _ _ _ _ _ (or_intror (or_introl eq_refl)) eq_refl eq_refl _ (or_introl eq_refl)).
    destruct F as [_ X]. specialize (X _ _ eq_refl). inversion X as [|? ? ? ? _ Y]; subst. inversion Y.
  - eapply eq_struct; [reflexivity| |].
    + intros f I. cbn in I. repeat destruct I as [<-|I]; try contradiction; split; discriminate.
    + intros f i i' r' n' ws sk I M En. cbn in I. repeat destruct I as [<-|I]; try contradiction; injection M as <-;
        injection En as <- <- <- <- <-; intros w [<-|[]]; (split; [discriminate|]); intros k t [= <- <-]; cbn;
        (apply Forall2_cons; [apply S|apply Forall2_nil]).
  - intros v'. vm_compute. discriminate.
Qed.
Print Assumptions C78_flattened_refuted.
