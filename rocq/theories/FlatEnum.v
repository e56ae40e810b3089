(** What a flattened derived enum leaves to the flattened fields after it. *)
From Verif Require Import Base Normalize Text Find FindProofs Types Reader ReaderSpec DeriveDe DeSpec DeriveMixed DeriveFlat
  FlatSpec FlatProofs.

Section Enum.
  Context (o : oracles) (alg : bs_alg) (P : fuser estate).
  Hypothesis HE : derived_enum alg P.
  Notation V := (flat_visitors o alg P).

  Lemma act_result {A B} (rd : fstate estate -> (res error endinfo * fstate estate) * place) path p kids pe (f : A -> B) (act : action (fstate estate) A) b :
    fst (sem_act rd path p kids pe (amap f act)) = inl b -> exists a, b = f a.
  Proof. rewrite sem_amap. cbn. destruct (fst (sem_act rd path p kids pe act)); [|discriminate]. intros [= <-]. eauto. Qed.

  Lemma init_after e i act (rd : fstate estate -> (res error endinfo * fstate estate) * place) path p kids pe e' l :
    genum_element alg (fu_deserialize P) e i = Some act ->
    fst (sem_act rd path p kids pe act) = inl (Ok tt, e', l) -> e_init e' = true /\ e_variants e' = e_variants e.
  Proof.
    unfold genum_element. destruct (e_init e) eqn:Ei.
    - intros [= <-]. destruct (e_mem e) as [m|]; [|discriminate]. destruct m; try discriminate. rename i0 into j, p0 into pl.
      destruct (nth_error _ j) as [v|]; [|discriminate]. destruct (find _ _ _) as [j'|].
      + destruct (Nat.eqb j' j); [|discriminate]. destruct (v_ty v) as [[k t]|].
        * destruct pl as [f|]; [|discriminate]. intros H. apply act_result in H as ([[]] & H); injection H as -> _ || discriminate. now split.
        * intros [= -> _]. now split.
      + intros [= -> _]. now split.
    - destruct (find _ _ _) as [j|]; [|discriminate]. intros [= <-]. destruct (nth_error _ j) as [v|]; [|discriminate].
      destruct (v_ty v) as [[k t]|].
      + intros H. apply act_result in H as ([[]] & H); try discriminate. destruct (e_mem e); [discriminate|]. injection H as -> _. now split.
      + cbn. destruct (e_mem e); [discriminate|]. intros [= <- <-]. now split.
  Qed.

  Lemma after_first path : forall ps e e' rest, e_init e = true -> fed V P path e ps e' rest ->
    rest = filter (fun x => match x with PElem _ => false | _ => true end) ps.
  Proof.
    destruct HE as (Ha & Hc & Hk & _). induction ps as [|x ps IH]; intros e e' rest Hi F; inversion F; subst; cbn [filter].
    - reflexivity.
    - rewrite Ha in *. discriminate.
    - rewrite Ha in *. match goal with H : _ = _ |- _ => injection H as <- <- end. f_equal. eauto.
    - rewrite Hc in *. discriminate.
    - rewrite Hc in *. match goal with H : _ = _ |- _ => injection H as <- <- end. f_equal. eauto.
    - match goal with H : fu_element _ _ _ = _ |- _ => rewrite Hk in H end.
      destruct (genum_element _ _ _ _) as [act0|] eqn:G; [|discriminate]. match goal with H : Take _ = Take _ |- _ => injection H as <- end.
      match goal with H : fst (sem_act _ _ _ _ _ (amap _ _)) = _ |- _ => rewrite sem_amap in H; cbn [fst] in H; destruct (fst (sem_act _ _ _ _ _ act0)) as [[[r e1] l]|] eqn:S; [|discriminate]; injection H as -> -> end.
      eapply init_after in S as [S _]; [|exact G]. eauto.
    - match goal with H : fu_element _ _ _ = _ |- _ => rewrite Hk in H; unfold genum_element in H; rewrite Hi in H; discriminate end.
  Qed.

  Theorem enum_leaves path : forall ps e e' rest, e_init e = false -> no_empty_ns (e_variants e) -> NoDup (variant_names (e_variants e)) ->
    fed V P path e ps e' rest -> rest = left_by (variant_names (e_variants e)) ps.
  Proof.
    pose proof HE as (Ha & Hc & Hk & _). induction ps as [|x ps IH]; intros e e' rest Hi Hn Hd F; inversion F; subst; cbn [left_by].
    - reflexivity.
    - rewrite Ha in *. discriminate.
    - rewrite Ha in *. match goal with H : _ = _ |- _ => injection H as <- <- end. f_equal. eauto.
    - rewrite Hc in *. discriminate.
    - rewrite Hc in *. match goal with H : _ = _ |- _ => injection H as <- <- end. f_equal. eauto.
    - match goal with H : fu_element _ _ _ = _ |- _ => rewrite Hk in H end.
      destruct (genum_element _ _ _ _) as [act0|] eqn:G; [|discriminate]. match goal with H : Take _ = Take _ |- _ => injection H as <- end.
      match goal with H : fst (sem_act _ _ _ _ _ (amap _ _)) = _ |- _ => rewrite sem_amap in H; cbn [fst] in H; destruct (fst (sem_act _ _ _ _ _ act0)) as [[[r e1] l]|] eqn:S; [|discriminate]; injection H as -> -> end.
      pose proof S as S0. eapply init_after in S0 as [S0 _]; [|exact G].
      assert (Hin : In (from_xml_name name) (variant_names (e_variants e))).
      { unfold genum_element in G. rewrite Hi in G. cbn [ei_name] in G. destruct (find alg (from_xml_name name) _) as [j|] eqn:L; [|discriminate].
        change (vlookup alg (e_variants e) (from_xml_name name) = Some j) in L. apply vlookup_spec in L as (v & Hv & <-); auto.
        unfold variant_names. apply in_map_iff. exists v. split; [reflexivity|].
        eapply Permutation.Permutation_in; [apply sort_perm|]. eapply nth_error_In; eauto. }
      assert (Hx : name_in (variant_names (e_variants e)) c = true).
      { unfold name_in. apply existsb_exists. eexists. split; [exact Hin|]. cbn. now apply xn_eqb_eq. }
      rewrite Hx. eapply after_first; eauto.
    - match goal with H : fu_element _ _ _ = _ |- _ => rewrite Hk in H end.
      destruct (genum_element _ _ _ _) as [act0|] eqn:G; [discriminate|]. match goal with H : Pass _ = Pass _ |- _ => injection H as <- end.
      assert (Hx : name_in (variant_names (e_variants e)) c = false).
      { unfold genum_element in G. rewrite Hi in G. cbn [ei_name] in G. destruct (find alg (from_xml_name name) _) as [j|] eqn:L; [discriminate|].
        change (vlookup alg (e_variants e) (from_xml_name name) = None) in L. apply vlookup_none in L; auto.
        unfold name_in. destruct (existsb _ _) eqn:X; [|reflexivity]. exfalso. apply existsb_exists in X as (m & Hm & Em). cbn in Em.
        apply xn_eqb_eq in Em as <-. contradiction. }
      rewrite Hx. f_equal. eauto.
  Qed.
End Enum.
