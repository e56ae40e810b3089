(** What a value keeps of the document it was read from. *)
From Verif Require Import Base Normalize Text Find FindProofs Types Reader ReaderSpec ReaderProofs DeSpec DeProofs DeDet DeriveDe DeProps
  DeriveSer DSerSpec DSerProofs LossSpec.
From Coq Require Import Lia Permutation.

Section Gen.
  Context (o : oracles) (env : tenv).
  Context (R : ety -> node -> value -> Prop) (E : ety -> node -> node -> Prop).
  Hypothesis enum_reads : forall id ident root nss ws sk name attrs ns p kids pe v, env id = Some (TDEnum ident root nss ws sk) ->
    R (ERef id) (NElem name attrs ns p kids pe) v <-> choice R ws kids v.
  Hypothesis enum_equal : forall id ident root nss ws sk name attrs ns p kids pe name' attrs' ns' p' kids' pe',
    env id = Some (TDEnum ident root nss ws sk) ->
    E (ERef id) (NElem name attrs ns p kids pe) (NElem name' attrs' ns' p' kids' pe') <-> choice_equal E ws kids kids'.

  Definition exact (v : value) : Prop := forall t x x', R t x v -> (R t x' v <-> E t x x').

  Lemma Forall2_exact t cs vs : Forall exact vs -> Forall2 (R t) cs vs ->
    forall cs', Forall2 (R t) cs' vs <-> Forall2 (E t) cs cs'.
  Proof.
    intros H F. induction F as [|c v cs vs Hc F IH]; intros cs'.
    - split; intros X; inversion X; constructor.
    - inversion H as [|? ? Hv H']; subst. split; intros X; inversion X; subst; constructor;
        try (apply IH; assumption); eapply Hv; eauto.
  Qed.

  Lemma occurs_exact t k cs v : below exact v -> occurs (R t) k cs v ->
    forall cs', occurs (R t) k cs' v <-> Forall2 (E t) cs cs'.
  Proof.
    intros [H1 H2] O cs'. destruct O as [c v Hc|c v Hc|cs vs N F].
    - split.
      + intros X. inversion X; subst. constructor; [|constructor]. now apply (H1 t c c0 Hc).
      + intros X. inversion X as [|? y ? l Hy Hl]; subst. inversion Hl; subst. constructor. now apply (H1 t c y Hc).
    - split.
      + intros X. inversion X; subst. constructor; [|constructor]. now apply (H2 t c c0 Hc).
      + intros X. inversion X as [|? y ? l Hy Hl]; subst. inversion Hl; subst. constructor. now apply (H2 t c y Hc).
    - split.
      + intros X. inversion X; subst. now apply (Forall2_exact t cs vs H2 F).
      + intros X. constructor; [|now apply (Forall2_exact t cs vs H2 F)]. intros ->. inversion X; subst. now apply N.
  Qed.

  Lemma element_equal attrs attrs' kids kids' f k t : f_mode f = MElement k t ->
    field_equal o E attrs attrs' kids kids' f <->
    Forall2 (E t) (named (expanded (f_name f)) kids) (named (expanded (f_name f)) kids').
  Proof.
    intros M. split; [intros [H _]; eauto|]. intros H. split; intros x y M'; rewrite M in M'; [|discriminate].
    now injection M' as <- <-.
  Qed.

  Lemma attribute_equal attrs attrs' kids kids' f opt t : f_mode f = MAttribute opt t ->
    field_equal o E attrs attrs' kids kids' f <->
    Forall2 (same_parse o t) (attr_values (expanded (f_name f)) attrs) (attr_values (expanded (f_name f)) attrs').
  Proof.
    intros M. split; [intros [_ H]; eauto|]. intros H. split; intros x y M'; rewrite M in M'; [discriminate|].
    now injection M' as <- <-.
  Qed.

  Lemma field_exact attrs attrs' kids kids' f v : below exact v -> f_default f = None ->
    field_holds o R attrs kids f v -> (field_holds o R attrs' kids' f v <-> field_equal o E attrs attrs' kids kids' f).
  Proof.
    intros Hv Hd H. destruct H as [k t v M O|k t v M N A|opt t s x M V P|opt t v M V A];
      (rewrite (element_equal _ _ _ _ f _ _ M) || rewrite (attribute_equal _ _ _ _ f _ _ M)).
    - split.
      + intros X. apply (occurs_exact t k _ v Hv O).
        inversion X as [k0 t0 v0 M0 O0|k0 t0 v0 M0 N0 A0|? ? ? ? M0|? ? ? M0]; subst; rewrite M in M0; try discriminate.
        * injection M0 as <- <-. exact O0.
        * injection M0 as <- <-. exfalso. inversion A0 as [d D|t1 D M1|t1 D M1|t1 D M1]; subst; try congruence.
          -- rewrite M in M1. injection M1 as -> ->. inversion O.
          -- rewrite M in M1. injection M1 as -> ->. inversion O as [| |cs vs N1 F]; subst. inversion F; subst. congruence.
      + intros X. eapply fh_element; [exact M|]. now apply (occurs_exact t k _ v Hv O).
    - rewrite N. split.
      + intros X. inversion X as [k0 t0 v0 M0 O0|k0 t0 v0 M0 N0 A0|? ? ? ? M0|? ? ? M0]; subst; rewrite M in M0; try discriminate.
        * injection M0 as <- <-. exfalso. inversion A as [d D|t1 D M1|t1 D M1|t1 D M1]; subst; try congruence.
          -- rewrite M in M1. injection M1 as -> ->. inversion O0.
          -- rewrite M in M1. injection M1 as -> ->. inversion O0 as [| |cs vs N1 F]; subst. inversion F; subst. congruence.
        * rewrite N0. constructor.
      + intros X. inversion X as [Y|]; subst. eapply fh_no_element; eauto.
    - rewrite V. split.
      + intros X. inversion X as [? ? ? M0|? ? ? M0|opt0 t0 s0 x0 M0 V0 P0 E0|opt0 t0 v0 M0 V0 A0]; subst; rewrite M in M0; try discriminate.
        * injection M0 as <- <-. rewrite V0. constructor; [|constructor]. exists x. split; [exact P|].
          destruct opt; injection E0 as <-; exact P0.
        * injection M0 as <- <-. exfalso. inversion A0 as [d D|t1 D M1|t1 D M1|t1 D M1]; subst; try congruence.
          rewrite M in M1. injection M1 as -> ->. discriminate.
      + intros X. inversion X as [|? s' ? l (x' & P1 & P2) Y Z W]; subst. inversion Y; subst. rewrite P in P1. injection P1 as <-.
        eapply fh_attribute; eauto.
    - rewrite V. split.
      + intros X. inversion X as [? ? ? M0|? ? ? M0|opt0 t0 s0 x0 M0 V0 P0 E0|opt0 t0 v0 M0 V0 A0]; subst; rewrite M in M0; try discriminate.
        * injection M0 as <- <-. exfalso. inversion A as [d D|t1 D M1|t1 D M1|t1 D M1 E1]; subst; try congruence.
          rewrite M in M1. injection M1 as -> ->. discriminate.
        * rewrite V0. constructor.
      + intros X. inversion X as [Y|]; subst. eapply fh_no_attribute; eauto.
  Qed.

  (** ** Enums *)

  Lemma named_other n n' l : n <> n' -> named n (named n' l) = [].
  Proof.
    intros N. induction l as [|c l IH]; [reflexivity|]. unfold named in *. cbn. destruct (has_name n' c) eqn:H; [|exact IH].
    cbn. destruct (has_name n c) eqn:H'; [|exact IH]. destruct N. eapply has_name_inj; eauto.
  Qed.

  Lemma named_filter n ns l : In n ns -> named n (filter (name_in ns) l) = named n l.
  Proof.
    intros I. induction l as [|c l IH]; [reflexivity|]. unfold named in *. cbn. destruct (name_in ns c) eqn:N; cbn.
    - now rewrite IH.
    - destruct (has_name n c) eqn:H; [|exact IH]. exfalso. assert (name_in ns c = true) by (apply name_in_spec; eauto). congruence.
  Qed.

  Lemma only_one n ns l : In n ns -> filter (name_in ns) l = named n l <-> forall m, In m ns -> m <> n -> named m l = [].
  Proof.
    intros I. split.
    - intros H m Im N. rewrite <- (named_filter m ns l Im), H. now apply named_other.
    - intros H. induction l as [|c l IH]; [reflexivity|]. cbn. unfold named in *. cbn.
      assert (H' : forall m, In m ns -> m <> n -> filter (has_name m) l = []).
      { intros m Im N. specialize (H m Im N). cbn in H. destruct (has_name m c); [discriminate|exact H]. }
      destruct (has_name n c) eqn:Hn.
      + rewrite (proj2 (name_in_spec ns c)) by eauto. f_equal. auto.
      + destruct (name_in ns c) eqn:X; [|auto]. apply name_in_spec in X. destruct X as (m & Im & Hm). exfalso.
        destruct (xn_eqb m n) eqn:Q.
        * apply xn_eqb_eq in Q. subst. congruence.
        * assert (N : m <> n) by (intros ->; rewrite (proj2 (xn_eqb_eq n n) eq_refl) in Q; discriminate).
          specialize (H m Im N). cbn in H. rewrite Hm in H. discriminate.
  Qed.

  Lemma sorted_in ws i w : nth_error (sorted_variants ws) i = Some w -> In w ws.
  Proof. intros N. eapply Permutation_in; [apply sort_perm|]. eapply nth_error_In; eauto. Qed.

  Lemma same_variant_name ws w w' : NoDup (variant_names ws) -> In w ws -> In w' ws ->
    expanded (v_name w) = expanded (v_name w') -> w = w'.
  Proof.
    unfold variant_names. induction ws as [|u ws IH]; cbn; intros N I I' Q; [contradiction|].
    inversion N as [|? ? N1 N2]; subst. destruct I as [<-|I], I' as [<-|I']; auto.
    - exfalso. apply N1. rewrite Q. now apply (in_map (fun v => expanded (v_name v))).
    - exfalso. apply N1. rewrite <- Q. now apply (in_map (fun v => expanded (v_name v))).
  Qed.

  Lemma choice_exact ws l i p : NoDup (variant_names ws) -> (forall x, p = Some x -> below exact x) ->
    choice R ws l (VEnum i p) -> forall l', choice R ws l' (VEnum i p) <-> choice_equal E ws l l'.
  Proof.
    intros Nd Hp C l'.
    assert (NI : forall w, In w ws -> In (expanded (v_name w)) (variant_names ws))
      by (intros w I; unfold variant_names; now apply (in_map (fun v => expanded (v_name v)))).
    assert (IN : forall m, In m (variant_names ws) -> exists w, In w ws /\ m = expanded (v_name w)).
    { intros m I. unfold variant_names in I. apply in_map_iff in I. destruct I as (w & <- & I). eauto. }
    inversion C as [i0 w N T F1 F2|i0 w k t x N T F O]; subst.
    - pose proof (sorted_in _ _ _ N) as I. pose proof (proj1 (only_one _ _ l (NI w I)) F2) as F3. rewrite F2 in F1. split.
      + intros C'. inversion C' as [? w' N' T' F1' F2'|]; subst. rewrite N in N'. injection N' as <-.
        pose proof (proj1 (only_one _ _ l' (NI w I)) F2') as F3'. rewrite F2' in F1'.
        intros u Iu. destruct (xn_eqb (expanded (v_name u)) (expanded (v_name w))) eqn:Q.
        * apply xn_eqb_eq in Q. rewrite (same_variant_name ws u w Nd Iu I Q), T. split; [tauto|discriminate].
        * assert (Q' : expanded (v_name u) <> expanded (v_name w)) by (intros X; rewrite (proj2 (xn_eqb_eq _ _) X) in Q; discriminate).
          rewrite (F3 _ (NI u Iu) Q'), (F3' _ (NI u Iu) Q'). split; [tauto|constructor].
      + intros H. assert (G : filter (name_in (variant_names ws)) l' = named (expanded (v_name w)) l').
        { apply only_one; [auto|]. intros m Im Nm. destruct (IN m Im) as (u & Iu & ->). specialize (H u Iu).
          rewrite (F3 _ Im Nm) in H. destruct H as [H H']. destruct (v_ty u) as [[k0 t0]|]; [|now apply H].
          specialize (H' _ _ eq_refl). now inversion H'. }
        eapply choice_unit; eauto. rewrite G. destruct (H w I) as [H' _]. specialize (H' T). tauto.
    - pose proof (sorted_in _ _ _ N) as I. pose proof (proj1 (only_one _ _ l (NI w I)) F) as F3. specialize (Hp x eq_refl). split.
      + intros C'. inversion C' as [|? w' k' t' x' N' T' F' O']; subst. rewrite N in N'. injection N' as <-.
        rewrite T in T'. injection T' as <- <-.
        pose proof (proj1 (only_one _ _ l' (NI w I)) F') as F3'.
        intros u Iu. destruct (xn_eqb (expanded (v_name u)) (expanded (v_name w))) eqn:Q.
        * apply xn_eqb_eq in Q. rewrite (same_variant_name ws u w Nd Iu I Q), T.
          split; [discriminate|]. intros k0 t0 [= <- <-]. now apply (occurs_exact t k _ x Hp O).
        * assert (Q' : expanded (v_name u) <> expanded (v_name w)) by (intros X; rewrite (proj2 (xn_eqb_eq _ _) X) in Q; discriminate).
          rewrite (F3 _ (NI u Iu) Q'), (F3' _ (NI u Iu) Q'). split; [tauto|constructor].
      + intros H. assert (G : filter (name_in (variant_names ws)) l' = named (expanded (v_name w)) l').
        { apply only_one; [auto|]. intros m Im Nm. destruct (IN m Im) as (u & Iu & ->). specialize (H u Iu).
          rewrite (F3 _ Im Nm) in H. destruct H as [H H']. destruct (v_ty u) as [[k0 t0]|]; [|now apply H].
          specialize (H' _ _ eq_refl). now inversion H'. }
        eapply choice_field; eauto. destruct (H w I) as [_ H']. apply (occurs_exact t k _ x Hp O). now apply (H' k).
  Qed.

  (** ** Structs *)

  Lemma fields_exact attrs attrs' kids kids' fs : (forall f, In f fs -> f_default f = None) ->
    forall l l' vs, Forall (below exact) vs -> fields_hold o env R attrs kids l fs vs -> List.length (filter is_flatten fs) <= 1 ->
    (fields_hold o env R attrs' kids' l' fs vs <->
     (forall f, In f fs -> field_equal o E attrs attrs' kids kids' f) /\
     (forall f i ident' root' nss' ws sk, In f fs -> f_mode f = MFlatten i -> env i = Some (TDEnum ident' root' nss' ws sk) ->
         choice_equal E ws l l')).
  Proof.
    intros D l l' vs H F. revert l' D H. induction F as [l|l f fs v vs Fl Fh F IH|l f fs id ident root nss ws sk v vs M En C F IH];
      intros l' D H L.
    - split; [intros _; split; contradiction|]. intros _. constructor.
    - inversion H as [|? ? Hv H']; subst. cbn in L. rewrite Fl in L.
      assert (D' : forall g, In g fs -> f_default g = None) by (intros g I; apply D; now right).
      pose proof (field_exact attrs attrs' kids kids' f v Hv (D f (or_introl eq_refl)) Fh) as X.
      specialize (IH l' D' H' L). split.
      + intros Y. inversion Y as [|? ? ? ? ? Fl' Fh' F'|? ? ? ? ? ? ? ? ? ? ? M' ? ? ?]; subst.
        * destruct (proj1 IH F') as [A B]. split.
          -- intros g [<-|I]; [now apply X|auto].
          -- intros g i i1 r1 n1 ws sk [<-|I] Mg Eg; [unfold is_flatten in Fl; rewrite Mg in Fl; discriminate|eauto].
        * unfold is_flatten in Fl. rewrite M' in Fl. discriminate.
      + intros [A B]. apply fhs_own; [exact Fl|apply X, A; now left|]. apply IH. split.
        * intros g I. apply A. now right.
        * intros g i i1 r1 n1 ws sk I Mg Eg. eapply B; eauto. now right.
    - inversion H as [|? ? Hv H']; subst. cbn in L. assert (Fl : is_flatten f = true) by (unfold is_flatten; now rewrite M).
      rewrite Fl in L. cbn in L.
      assert (D' : forall g, In g fs -> f_default g = None) by (intros g I; apply D; now right).
      assert (NF : forall g, In g fs -> is_flatten g = false).
      { intros g I. destruct (is_flatten g) eqn:G; [|reflexivity]. exfalso.
        assert (In g (filter is_flatten fs)) by (apply filter_In; auto). destruct (filter is_flatten fs); [contradiction|cbn in L; lia]. }
      specialize (IH (before_first (variant_names ws) l') D' H' ltac:(lia)).
      assert (X : choice R ws l' v <-> choice_equal E ws l l').
      { destruct Hv as [Hv _]. set (nm := OName None None "").
        rewrite <- (enum_reads _ _ _ _ _ _ nm [] [] (0, 0)%N l' (0, 0)%N v En),
          <- (enum_equal _ _ _ _ _ _ nm [] [] (0, 0)%N l (0, 0)%N nm [] [] (0, 0)%N l' (0, 0)%N En).
        apply Hv. now apply (enum_reads _ _ _ _ _ _ _ _ _ _ _ _ _ En). }
      split.
      + intros Y. inversion Y as [|? ? ? ? ? Fl' Fh' F'|? ? ? ? ? ? ? ws' ? ? ? M' En' C' F']; subst; [congruence|].
        rewrite M in M'. injection M' as <-. rewrite En in En'. injection En' as <- <- <- <- <-.
        destruct (proj1 IH F') as [A _]. split.
        * intros g [<-|I]; [|auto]. split; intros ? ? M2; congruence.
        * intros g i i1 r1 n1 ws2 sk2 [<-|I] Mg Eg.
          -- rewrite M in Mg. injection Mg as <-. rewrite En in Eg. injection Eg as <- <- <- <- <-. now apply X.
          -- apply NF in I. unfold is_flatten in I. rewrite Mg in I. discriminate.
      + intros [A B]. eapply fhs_flatten; [exact M|exact En| |].
        * apply X. eapply B; eauto. now left.
        * apply IH. split; [intros g I; apply A; now right|].
          intros g i i1 r1 n1 ws2 sk2 I Mg Eg. apply NF in I. unfold is_flatten in I. rewrite Mg in I. discriminate.
  Qed.

End Gen.

Section Loss.
  Context (o : oracles) (env : tenv).
  Hypothesis Hok : names_ok env.
  Hypothesis Hdf : defaultless env.
  Hypothesis Hfl : one_flattened env.
  Notation R := (reads o env).
  Notation E := (equal_for o env).

  Lemma enum_reads id ident root nss ws sk name attrs ns p kids pe v : env id = Some (TDEnum ident root nss ws sk) ->
    R (ERef id) (NElem name attrs ns p kids pe) v <-> choice R ws kids v.
  Proof.
    intros En. split; [|now apply reads_enum with (1 := En)]. intros X. inversion X as [|? ? ? ? ? ? ? ? ? ? ? ? G|? ? ? ? ? ? ? ? ? ? ? ? ? G C]; subst;
      rewrite En in G; [discriminate|]. injection G as <- <- <- <- <-. exact C.
  Qed.

  Lemma enum_equal id ident root nss ws sk name attrs ns p kids pe name' attrs' ns' p' kids' pe' : env id = Some (TDEnum ident root nss ws sk) ->
    E (ERef id) (NElem name attrs ns p kids pe) (NElem name' attrs' ns' p' kids' pe') <-> choice_equal E ws kids kids'.
  Proof.
    intros En. split; [|now apply eq_enum with (1 := En)].
    intros Y. inversion Y; subst; match goal with G : env id = Some _ |- _ => rewrite En in G end; [discriminate|].
    match goal with G : Some _ = Some _ |- _ => injection G as <- <- <- <- <- end. assumption.
  Qed.

  Theorem reads_exact v : exact R E v.
  Proof.
    induction v using value_ind''; intros t e e' Hr; inversion Hr; subst;
      try (match goal with C : choice _ _ _ _ |- _ => inversion C; fail end).
    - split.
      + intros X. inversion X; subst. constructor; auto. eexists; eauto.
      + intros X. inversion X as [? ? ? ? ? ? ? ? ? ? ? ? ? ? ? (y & P1 & P2)| |]; subst.
        match goal with P : parse_text _ _ _ = Ok x |- _ => rewrite P in P1 end. injection P1 as <-. now constructor.
    - match goal with En : env id = Some _, F : fields_hold _ _ _ _ _ _ _ _ |- _ => rename En into En0, F into F0 end.
      destruct e' as [name' attrs' ns' p' kids' pe'| | |].
      2-4: split; intros X; inversion X.
      pose proof (fields_exact o env R E enum_reads enum_equal attrs attrs' kids kids' fs (fun f I => Hdf _ _ _ _ _ f En0 I) _ (unclaimed fs kids') vs H F0 (Hfl _ _ _ _ _ En0)) as X.
      split.
      + intros Y. inversion Y; subst.
        * match goal with G : env id = Some (TDStruct _ _ _ _) |- _ => rewrite En0 in G; injection G as <- <- <- <- end.
          destruct X as [X _]. destruct X as [X1 X2]; [assumption|]. eapply eq_struct; eauto.
        * congruence.
      + intros Y. inversion Y; subst; [|congruence].
        match goal with G : env id = Some (TDStruct _ _ _ _) |- _ => rewrite En0 in G; injection G as <- <- <- <- end.
        eapply reads_struct; [exact En0|]. apply X. auto.
    - match goal with En : env id = Some _, C : choice _ _ _ _ |- _ => rename En into En0, C into C0 end.
      pose proof (Hok _ _ En0) as [_ Nd].
      destruct e' as [name' attrs' ns' p' kids' pe'| | |].
      2-4: split; intros X; inversion X.
      pose proof (choice_exact R E variants kids i p Nd H C0 kids') as X.
      split.
      + intros Y. inversion Y; subst. match goal with G : env id = Some _ |- _ => rewrite En0 in G; injection G as <- <- <- <- <- end.
        eapply eq_enum; [exact En0|]. now apply X.
      + intros Y. inversion Y; subst; [congruence|].
        match goal with G : env id = Some _ |- _ => rewrite En0 in G; injection G as <- <- <- <- <- end.
        eapply reads_enum; [exact En0|]. now apply X.
  Qed.

  Theorem read_exact alg dbg dbg' t d d' pe pe' v :
    read_as o alg env dbg t (doc_events d) (FEndDocument pe) = Ok v ->
    (read_as o alg env dbg' t (doc_events d') (FEndDocument pe') = Ok v <-> E t (d_root d) (d_root d')).
  Proof.
    intros H. apply read_as_iff in H; [|exact Hok]. rewrite read_as_iff by exact Hok. now apply reads_exact.
  Qed.
End Loss.
