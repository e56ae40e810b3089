(** A value with hand-written parts is read like its parts on their own: proofs. *)
From Verif Require Import Base Normalize Text Find FindProofs Types Reader ReaderSpec ReaderMore DeSpec DeriveDe
  DeriveMixed MixedSpec MixedReads MixedDe PartSpec PartProofs.

Section Mixed.
  Context {U : Type} (o : oracles) (alg : bs_alg) (env : tenv) (P : user U) (R : ety -> node -> value -> Prop).
  Hypothesis Hok : names_ok env.
  Hypothesis HD : denotes o env P R.
  Hypothesis HH : hand_written_ok o alg env P R.
  Notation A := (mixed_alone o alg env P).

  Lemma mixed_alone_iff t c v : is_elem c = true -> A t c v <-> R t c v.
  Proof.
    intros He. split.
    - intros (d & dbg & pe & <- & Hs & H). now apply (mixed_iff o alg env P R Hok HD HH) in H.
    - intros H. destruct c as [name attrs ns p kids pe| | |]; try discriminate.
      exists (Doc (0, 0)%N [] name attrs ns p kids pe []), false, (0, 0)%N. split; [reflexivity|]. split; [discriminate|].
      apply (mixed_iff o alg env P R Hok HD HH); [discriminate|exact H].
  Qed.

  Theorem mixed_alone_all t d dbg pe v : (dbg = true -> strict P) ->
    A t (d_root d) v <-> read_mixed o alg env P dbg t (doc_events d) (FEndDocument pe) = Ok v.
  Proof. intros Hs. rewrite mixed_alone_iff by reflexivity. symmetry. now apply mixed_iff. Qed.

  Theorem mixed_struct_parts dbg id i r n fs d pe v : (dbg = true -> strict P) -> env id = Some (TDStruct i r n fs) ->
    read_mixed o alg env P dbg (ERef id) (doc_events d) (FEndDocument pe) = Ok v <->
    exists vs, v = VStruct vs /\ fields_hold o env A (d_attrs d) (d_kids d) (unclaimed fs (d_kids d)) fs vs.
  Proof.
    intros Hs E. rewrite (mixed_iff o alg env P R Hok HD HH dbg (ERef id) d pe v Hs). unfold d_root.
    rewrite (d_struct _ _ _ _ HD _ _ _ _ _ _ _ _ _ _ _ _ E).
    split; intros (vs & -> & H); exists vs; (split; [reflexivity|]); (eapply fields_iff; [|exact H]); intros t c x He;
      now apply mixed_alone_iff.
  Qed.

  Theorem mixed_enum_parts dbg id i r n ws sk d pe v : (dbg = true -> strict P) -> env id = Some (TDEnum i r n ws sk) ->
    read_mixed o alg env P dbg (ERef id) (doc_events d) (FEndDocument pe) = Ok v <-> choice A ws (d_kids d) v.
  Proof.
    intros Hs E. rewrite (mixed_iff o alg env P R Hok HD HH dbg (ERef id) d pe v Hs). unfold d_root.
    rewrite (d_enum _ _ _ _ HD _ _ _ _ _ _ _ _ _ _ _ _ _ E).
    split; intros H; (eapply choice_iff; [|exact H]); intros t c x He; now apply mixed_alone_iff.
  Qed.
End Mixed.
