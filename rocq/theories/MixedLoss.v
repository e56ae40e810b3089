(** What a value with hand-written parts keeps of the document it was read from: proofs. *)
From Verif Require Import Base Normalize Text Find FindProofs Types Reader ReaderSpec ReaderMore DeSpec DeriveDe DSerProofs
  DeriveMixed MixedSpec MixedReads MixedDe LossSpec LossProofs.

Section Mixed.
  Context {U : Type} (o : oracles) (alg : bs_alg) (env : tenv) (P : user U) (R : ety -> node -> value -> Prop).
  Hypothesis Hok : names_ok env.
  Hypothesis Hdf : defaultless env.
  Hypothesis Hfl : one_flattened env.
  Hypothesis HD : denotes o env P R.
  Hypothesis HH : hand_written_ok o alg env P R.

  Notation E := (mixed_equal o env (alike R)).

  Lemma one_value t n v v' : R t n v -> R t n v' -> v = v'.
  Proof.
    intros H H'. assert (Hn := d_elem _ _ _ _ HD _ _ _ H). pose proof (all_implement o alg env P R Hok HD HH n t Hn []) as A.
    apply A in H. apply A in H'. congruence.
  Qed.

  Lemma m_enum_equal id ident root nss ws sk name attrs ns p kids pe name' attrs' ns' p' kids' pe' : env id = Some (TDEnum ident root nss ws sk) ->
    E (ERef id) (NElem name attrs ns p kids pe) (NElem name' attrs' ns' p' kids' pe') <-> choice_equal E ws kids kids'.
  Proof.
    intros En. split; [|now apply me_enum with (1 := En)].
    intros Y. inversion Y; subst; match goal with G : env id = _ |- _ => rewrite En in G end; try discriminate.
    match goal with G : Some _ = Some _ |- _ => injection G as <- <- <- <- <- end. assumption.
  Qed.

  Lemma equal_elem t n n' : E t n n' -> is_elem n = true -> is_elem n' = true.
  Proof.
    intros H. inversion H as [| | |? ? ? _ (v & _ & G)]; subst; try reflexivity. intros _.
    exact (d_elem _ _ _ _ HD _ _ _ G).
  Qed.

  (** Types without a derived implementation, and text. *)
  Lemma hand_exact id v n n' : env id = None -> R (ERef id) n v -> (R (ERef id) n' v <-> E (ERef id) n n').
  Proof.
    intros En Hr. split.
    - intros X. apply me_hand; [exact En|]. now exists v.
    - intros X. inversion X as [|? ? ? ? ? ? ? ? ? ? ? ? ? ? ? ? ? G|? ? ? ? ? ? ? ? ? ? ? ? ? ? ? ? ? ? G|? ? ? _ (w & H1 & H2)]; subst;
        try congruence. now rewrite (one_value _ _ _ _ Hr H1).
  Qed.

  Lemma text_exact t v n n' : R (EText t) n v -> (R (EText t) n' v <-> E (EText t) n n').
  Proof.
    intros Hr. assert (Hn := d_elem _ _ _ _ HD _ _ _ Hr). destruct n as [name attrs ns p kids pe| | |]; try discriminate.
    apply (d_text _ _ _ _ HD) in Hr as (x & -> & H1 & H2). split.
    - intros X. assert (Hn' := d_elem _ _ _ _ HD _ _ _ X). destruct n' as [name' attrs' ns' p' kids' pe'| | |]; try discriminate.
      apply (d_text _ _ _ _ HD) in X as (x' & [= <-] & H1' & H2'). constructor; auto. now exists x.
    - intros X. inversion X as [? ? ? ? ? ? ? ? ? ? ? ? ? K1 K2 (y & P1 & P2)| | |]; subst. rewrite H2 in P1. injection P1 as <-.
      apply (d_text _ _ _ _ HD). now exists x.
  Qed.

  Theorem mixed_exact v : exact R E v.
  Proof.
    assert (G : forall v, (forall t n, R t n v -> match t with ERef id => exists ident root nss fs, env id = Some (TDStruct ident root nss fs) | _ => False end ->
                   forall n', R t n' v <-> E t n n') ->
                 (forall t n, R t n v -> match t with ERef id => exists ident root nss ws sk, env id = Some (TDEnum ident root nss ws sk) | _ => False end ->
                   forall n', R t n' v <-> E t n n') -> exact R E v).
    { clear v. intros v H1 H2 [t|id] n n' Hr; [now apply text_exact|].
      destruct (env id) as [[ident root nss fs|ident root nss ws sk]|] eqn:En; [|apply (H2 (ERef id) n Hr); eauto 6|now apply hand_exact].
      apply (H1 (ERef id) n Hr). eauto 6. }
    assert (NS : forall v t n, (forall vs, v <> VStruct vs) -> R t n v ->
                   match t with ERef id => exists ident root nss fs, env id = Some (TDStruct ident root nss fs) | _ => False end -> False).
    { clear v G. intros v [t|id] n N Hr; [contradiction|]. intros (ident & root & nss & fs & En).
      assert (Hn := d_elem _ _ _ _ HD _ _ _ Hr). destruct n as [name attrs ns p kids pe| | |]; try discriminate.
      apply (d_struct _ _ _ _ HD _ _ _ _ _ _ _ _ _ _ _ _ En) in Hr as (vs & -> & _). now apply (N vs). }
    assert (NE : forall v t n, (forall i p, v <> VEnum i p) -> R t n v ->
                   match t with ERef id => exists ident root nss ws sk, env id = Some (TDEnum ident root nss ws sk) | _ => False end -> False).
    { clear v G NS. intros v [t|id] n N Hr; [contradiction|]. intros (ident & root & nss & ws & sk & En).
      assert (Hn := d_elem _ _ _ _ HD _ _ _ Hr). destruct n as [name attrs ns p kids pe| | |]; try discriminate.
      apply (d_enum _ _ _ _ HD _ _ _ _ _ _ _ _ _ _ _ _ _ En) in Hr. inversion Hr; subst; eapply N; reflexivity. }
    induction v using value_ind''; apply G; clear G; intros t n Hr Ht n';
      try (exfalso; (eapply NS; [|exact Hr|exact Ht]; discriminate) || (eapply NE; [|exact Hr|exact Ht]; discriminate)).
    - destruct t as [t|id]; [contradiction|]. destruct Ht as (ident & root & nss & fs & En).
      assert (Hn := d_elem _ _ _ _ HD _ _ _ Hr). destruct n as [name attrs ns p kids pe| | |]; try discriminate.
      apply (d_struct _ _ _ _ HD _ _ _ _ _ _ _ _ _ _ _ _ En) in Hr as (vs' & [= <-] & F0).
      destruct (is_elem n') eqn:Hn'.
      2: { split; intros X; exfalso; [apply (d_elem _ _ _ _ HD) in X|apply equal_elem in X; [|reflexivity]]; congruence. }
      destruct n' as [name' attrs' ns' p' kids' pe'| | |]; try discriminate.
      pose proof (fields_exact o env R E (fun a b c d e f g h i j k l m => d_enum _ _ _ _ HD a b c d e f g h i j k l m) m_enum_equal attrs attrs' kids kids' fs
        (fun f I => Hdf _ _ _ _ _ f En I) _ (unclaimed fs kids') vs H F0 (Hfl _ _ _ _ _ En)) as X.
      rewrite (d_struct _ _ _ _ HD _ _ _ _ _ _ _ _ _ _ _ _ En). split.
      + intros (vs' & [= <-] & F1). apply X in F1. destruct F1. eapply me_struct; eauto.
      + intros Y. exists vs. split; [reflexivity|]. apply X. inversion Y; subst; try congruence.
        match goal with G : env id = Some (TDStruct _ _ _ _) |- _ => rewrite En in G; injection G as <- <- <- <- end. auto.
    - destruct t as [t|id]; [contradiction|]. destruct Ht as (ident & root & nss & ws & sk & En).
      assert (Hn := d_elem _ _ _ _ HD _ _ _ Hr). destruct n as [name attrs ns p0 kids pe| | |]; try discriminate.
      apply (d_enum _ _ _ _ HD _ _ _ _ _ _ _ _ _ _ _ _ _ En) in Hr.
      destruct (is_elem n') eqn:Hn'.
      2: { split; intros X; exfalso; [apply (d_elem _ _ _ _ HD) in X|apply equal_elem in X; [|reflexivity]]; congruence. }
      destruct n' as [name' attrs' ns' p' kids' pe'| | |]; try discriminate.
      pose proof (Hok _ _ En) as [_ Nd].
      rewrite (d_enum _ _ _ _ HD _ _ _ _ _ _ _ _ _ _ _ _ _ En), (m_enum_equal _ _ _ _ _ _ _ _ _ _ _ _ _ _ _ _ _ _ En).
      now apply choice_exact.
  Qed.

  Theorem mixed_read_exact dbg dbg' t d d' pe pe' v : (dbg = true -> strict P) -> (dbg' = true -> strict P) ->
    read_mixed o alg env P dbg t (doc_events d) (FEndDocument pe) = Ok v ->
    (read_mixed o alg env P dbg' t (doc_events d') (FEndDocument pe') = Ok v <-> E t (d_root d) (d_root d')).
  Proof.
    intros S S' H. apply (mixed_iff o alg env P R Hok HD HH dbg t d pe v S) in H.
    rewrite (mixed_iff o alg env P R Hok HD HH dbg' t d' pe' v S'). now apply mixed_exact.
  Qed.
End Mixed.
