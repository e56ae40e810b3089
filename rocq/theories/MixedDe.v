(** What derived types read when some of their fields have hand-written implementations: as [reads]
    (DeSpec.v), with the hand-written types as black boxes.  The proofs follow DeProofs.v and DeMain.v. *)
From Coq Require Import Lia.
From Verif Require Import Base Normalize Text Find FindProofs Types Reader ReaderSpec ReaderProofs ReaderMore DeriveDe
  DeSpec DeProofs DeMain DeDet DeriveMixed MixedSpec MixedReads
  ReaderRel MixedProofs.

Section GFields.
  Context (o : oracles) (alg : bs_alg) (env : tenv).
  Context {St : Type} (deser : ety -> einfo -> action St (res verr value * list value)).
  Context (rd : St -> (res error endinfo * St) * place) (path : list selem)
    (p : position) (kids : list node) (pe : position).
  Context (R : ety -> node -> value -> Prop).
  (** The child at hand. *)
  Context (c : node) (i : einfo).
  Notation name := (from_xml_name (ei_name i)).
  Notation field_after := (field_after R).
  Notation estate_after := (estate_after R).
  Notation attr_after := (attr_after o).
  Notation slots_after := (slots_after o env R).
  Notation run := (run rd path p kids pe).

  Hypothesis Hc : forall n, has_name n c = xn_eqb name n.

  (** An action succeeds exactly if some value satisfies [P], and then returns such a value. *)
  Definition computes {A B} (act : action St A) (get : A -> option B) (P : B -> Prop) : Prop :=
    (forall a b, run act = inl a -> get a = Some b -> P b) /\
    ((exists b, P b) -> exists a b, run act = inl a /\ get a = Some b).

  Lemma computes_amap {A B C D} (act : action St A) (get : A -> option B) (P : B -> Prop)
    (f : A -> C) (get' : C -> option D) (Q : D -> Prop) :
    computes act get P ->
    (forall a d, get' (f a) = Some d -> exists b, get a = Some b /\ (P b -> Q d)) ->
    (forall a b, get a = Some b -> P b -> exists d, get' (f a) = Some d) ->
    ((exists d, Q d) -> exists b, P b) ->
    computes (amap f act) get' Q.
  Proof.
    intros [H1 H2] H3 H4 H5. split.
    - intros c' d. rewrite run_amap. destruct (run act) as [a|] eqn:E; [|discriminate].
      cbn. intros [= <-] Hd. apply H3 in Hd as (b & Hb & Hq). eauto.
    - intros Hq. destruct (H2 (H5 Hq)) as (a & b & Hr & Hb). rewrite run_amap, Hr. cbn.
      destruct (H4 a b Hb) as (d & Hd); eauto.
  Qed.

  Lemma computes_err {A B} (a : A) (get : A -> option B) P :
    get a = None -> (forall b, ~ P b) -> computes (ANoRead a) get P.
  Proof.
    intros Hg HP. split.
    - intros a' b [= <-]. rewrite Hg. discriminate.
    - intros (b & Hb). now apply HP in Hb.
  Qed.

  Lemma computes_ok {A B} (a : A) (get : A -> option B) (P : B -> Prop) b :
    get a = Some b -> P b -> computes (ANoRead a) get P.
  Proof.
    intros Hg HP. split.
    - intros a' b' [= <-]. rewrite Hg. now intros [= <-].
    - intros _. exists a, b. auto.
  Qed.

  Hypothesis HR : forall t, computes (deser t i) get_ok (R t c).

  Lemma init_step k t : computes (gfield_init deser k t i) get_ok (occurs (R t) k [c]).
  Proof.
    eapply computes_amap; [apply HR|..].
    - intros [[x| |] l] d; cbn; try discriminate. intros [= <-]. exists x. split; auto.
      intro Hx. destruct k; constructor; auto; discriminate.
    - intros [[x| |] l] b; cbn; try discriminate. eauto.
    - intros (d & Hd). inversion Hd; subst; try congruence; eauto.
      inversion H0; subst. eauto.
  Qed.

  Lemma update_step k t occ old : occurs (R t) k occ old ->
    computes (gfield_update deser k t old i) get_ok (occurs (R t) k (occ ++ [c])).
  Proof.
    intros Ho. inversion Ho; subst; cbn [gfield_update].
    - apply computes_err; [reflexivity|]. intros b Hb. inversion Hb.
    - apply computes_err; [reflexivity|]. intros b Hb. inversion Hb.
    - eapply computes_amap; [apply HR|..].
      + intros [[x| |] l] d; cbn; try discriminate. intros [= <-]. exists x. split; auto.
        intro Hx. constructor; [apply snoc_not_nil|]. now apply Forall2_snoc.
      + intros [[x| |] l] b; cbn; try discriminate. eauto.
      + intros (d & Hd). inversion Hd as [| |cs' vs' Hn HF]; subst.
        apply Forall2_snoc_inv in HF as (? & x & _ & _ & Hx). eauto.
  Qed.

  Lemma element_field_step k t occ present mem : field_after k t occ present mem ->
    computes (gelement_field deser k t present mem i) get_ok2
      (slot_is (field_after k t (occ ++ [c]))).
  Proof.
    intros [(-> & -> & ->)|(-> & v & -> & Ho)]; cbn [gelement_field].
    - eapply computes_amap; [apply (init_step k t)|..].
      + intros [[x| |] l] d; cbn; try discriminate. intros [= <-]. exists x. split; auto.
        intro Hx. right. split; auto. eauto.
      + intros [[x| |] l] b; cbn; try discriminate. eauto.
      + intros ([pr m|e] & Hd); [|contradiction]. destruct Hd as [(Hn & _)|(_ & v & _ & Hv)]; [discriminate|eauto].
    - eapply computes_amap; [apply (update_step k t occ v Ho)|..].
      + intros [[x| |] l] d; cbn; try discriminate. intros [= <-]. exists x. split; auto.
        intro Hx. right. split; auto. eauto.
      + intros [[x| |] l] b; cbn; try discriminate. eauto.
      + intros ([pr m|e] & Hd); [|contradiction].
        destruct Hd as [(Hn & _)|(_ & w & _ & Hv)]; [now apply snoc_not_nil in Hn|eauto].
  Qed.

  (** ** Enums *)

  (** Every enum has a state after every list that its choice rules accept or that says nothing. *)
  Lemma estate_possible vs l e : estate_after vs l e ->
    filter (name_in (variant_names vs)) l = [] \/ exists v, choice R vs l v.
  Proof. intros [_ [(H & _)|(_ & v & _ & H)]]; eauto. Qed.

  Section Enum.
    Context (vs : list variant) (Hns : no_empty_ns vs) (Hnd : NoDup (variant_names vs)).

    Lemma c_name_in ns : name_in ns c = true <-> In name ns.
    Proof.
      rewrite name_in_spec. split.
      - intros (n & H & E). rewrite Hc in E. apply xn_eqb_eq in E. now subst.
      - intro H. exists name. split; auto. rewrite Hc. now apply xn_eqb_eq.
    Qed.

    Lemma find_variant j : find alg name (variant_table vs) = Some j <->
      exists v, nth_error (sorted_variants vs) j = Some v /\ expanded (v_name v) = name.
    Proof. apply (vlookup_spec alg vs name j Hns Hnd). Qed.

    Lemma find_no_variant : find alg name (variant_table vs) = None <-> name_in (variant_names vs) c = false.
    Proof.
      pose proof (vlookup_none alg vs name Hns Hnd) as H. unfold vlookup in H. rewrite H.
      pose proof (c_name_in (variant_names vs)) as Hn.
      destruct (name_in (variant_names vs) c); split; intro K.
      - exfalso. apply K, Hn. reflexivity.
      - discriminate.
      - reflexivity.
      - intro K'. apply Hn in K'. discriminate.
    Qed.

    Lemma variant_in j v : nth_error (sorted_variants vs) j = Some v -> In (expanded (v_name v)) (variant_names vs).
    Proof.
      intro H. apply nth_error_In in H. unfold variant_names. apply in_map_iff. exists v. split; auto.
      eapply Permutation.Permutation_in; [|exact H]. apply sort_perm.
    Qed.

    Lemma variant_name_inj j j' v v' : nth_error (sorted_variants vs) j = Some v ->
      nth_error (sorted_variants vs) j' = Some v' -> expanded (v_name v) = expanded (v_name v') -> j = j'.
    Proof.
      intros H H' E.
      assert (N : NoDup (variant_table vs)).
      { eapply Permutation.Permutation_NoDup; [symmetry; apply variant_table_perm|exact Hnd]. }
      unfold variant_table in N. rewrite NoDup_nth_error in N. apply N.
      - rewrite map_length. apply nth_error_Some. rewrite H. discriminate.
      - rewrite !nth_error_map, H, H'. cbn. now rewrite E.
    Qed.

    Lemma recognized_snoc l : name_in (variant_names vs) c = true ->
      filter (name_in (variant_names vs)) (l ++ [c]) = filter (name_in (variant_names vs)) l ++ [c].
    Proof. intro H. now rewrite filter_app_one, H. Qed.

    Lemma recognized_same l : name_in (variant_names vs) c = false ->
      filter (name_in (variant_names vs)) (l ++ [c]) = filter (name_in (variant_names vs)) l.
    Proof. intro H. now rewrite filter_app_one, H, app_nil_r. Qed.

    Lemma named_snoc n l : name = n -> named n (l ++ [c]) = named n l ++ [c].
    Proof. intros <-. unfold named. rewrite filter_app_one, Hc. now rewrite (proj2 (xn_eqb_eq name name) eq_refl). Qed.

    Lemma named_same n l : name <> n -> named n (l ++ [c]) = named n l.
    Proof.
      intro H. unfold named. rewrite filter_app_one, Hc.
      destruct (xn_eqb name n) eqn:E; [apply xn_eqb_eq in E; contradiction|apply app_nil_r].
    Qed.

    Lemma unrecognized_name j v : name_in (variant_names vs) c = false ->
      nth_error (sorted_variants vs) j = Some v -> name <> expanded (v_name v).
    Proof.
      intros Hn Hj E. apply variant_in in Hj. rewrite <- E in Hj. apply c_name_in in Hj. congruence.
    Qed.

    Lemma choice_same l x : name_in (variant_names vs) c = false -> choice R vs (l ++ [c]) x <-> choice R vs l x.
    Proof.
      intro Hn. split; intro H; inversion H; subst.
      - pose proof (unrecognized_name _ _ Hn H0) as Hd. rewrite recognized_same in * by auto.
        rewrite named_same in * by auto. now apply choice_unit with v.
      - pose proof (unrecognized_name _ _ Hn H0) as Hd. rewrite recognized_same in * by auto.
        rewrite named_same in * by auto. now apply choice_field with v k t.
      - pose proof (unrecognized_name _ _ Hn H0) as Hd.
        apply choice_unit with v; rewrite ?recognized_same, ?named_same by auto; auto.
      - pose proof (unrecognized_name _ _ Hn H0) as Hd.
        apply choice_field with v k t; rewrite ?recognized_same, ?named_same by auto; auto.
    Qed.

    (** All recognised children carry the name of the chosen variant. *)
    Lemma choice_name l x : choice R vs (l ++ [c]) x -> name_in (variant_names vs) c = true ->
      exists j v, find alg name (variant_table vs) = Some j /\ nth_error (sorted_variants vs) j = Some v /\
        expanded (v_name v) = name /\
        filter (name_in (variant_names vs)) l = named name l /\
        match v_ty v with
        | None => x = VEnum j None
        | Some (k, t) => exists y, x = VEnum j (Some y) /\ occurs (R t) k (named name l ++ [c]) y
        end.
    Proof.
      intros H Hn.
      assert (G : forall j v, nth_error (sorted_variants vs) j = Some v ->
        filter (name_in (variant_names vs)) (l ++ [c]) = named (expanded (v_name v)) (l ++ [c]) ->
        expanded (v_name v) = name /\ filter (name_in (variant_names vs)) l = named name l).
      { intros j v Hj E.
        assert (Hh : has_name (expanded (v_name v)) c = true).
        { assert (Hin : In c (named (expanded (v_name v)) (l ++ [c]))).
          { rewrite <- E. apply filter_In. split; auto. apply in_or_app. right. now left. }
          unfold named in Hin. apply filter_In in Hin. tauto. }
        rewrite Hc in Hh. apply xn_eqb_eq in Hh. split; auto. rewrite Hh.
        rewrite recognized_snoc, named_snoc in E by auto. apply app_inj_tail in E. tauto. }
      inversion H as [j v Hj Hty Hne E|j v k t y Hj Hty E Ho]; subst; destruct (G j v Hj E) as [Hname Hp].
      - exists j, v. repeat split; auto; [apply find_variant; eauto|]. rewrite Hty. reflexivity.
      - exists j, v. repeat split; auto; [apply find_variant; eauto|]. rewrite Hty.
        exists y. split; auto. rewrite Hname, named_snoc in Ho by auto. exact Ho.
    Qed.

      Lemma enum_pass l e : estate_after vs l e -> genum_element alg deser e i = None <->
      filter (name_in (variant_names vs)) l = [] /\ name_in (variant_names vs) c = false.
    Proof.
      intros [Hv He]. unfold genum_element. rewrite Hv. destruct He as [(Hf & -> & Hm)|(-> & v & Hm & Hch)].
      - destruct (find alg name (variant_table vs)) as [j|] eqn:E.
        + split; [discriminate|]. intros [_ Hn]. apply find_no_variant in Hn. congruence.
        + split; auto. intros _. split; auto. now apply find_no_variant.
      - split; [discriminate|]. intros [Hf _]. exfalso. inversion Hch; subst; auto.
        rewrite Hf in H1. rewrite <- H1 in H2. inversion H2. congruence.
    Qed.

    Lemma estate_after_pass l e : estate_after vs l e -> genum_element alg deser e i = None ->
      estate_after vs (l ++ [c]) e.
    Proof.
      intros He Hp. pose proof He as He'. apply (enum_pass l e He) in Hp as [Hf Hn].
      split; [apply He'|]. destruct He' as [_ [(_ & Hi & Hm)|(Hi & v & Hm & Hch)]].
      - left. rewrite recognized_same by auto. auto.
      - right. split; auto. exists v. split; auto. now apply choice_same.
    Qed.

    Lemma enum_step l e act : estate_after vs l e -> genum_element alg deser e i = Some act ->
      computes act get_ok2 (estate_after vs (l ++ [c])).
    Proof.
      intros [Hv He]. unfold genum_element. rewrite Hv.
      destruct He as [(Hf & Hi & Hm)|(Hi & x & Hm & Hch)]; rewrite Hi.
      - (* nothing recognised so far *)
        destruct (find alg name (variant_table vs)) as [j|] eqn:E; [|discriminate].
        assert (Hrec : name_in (variant_names vs) c = true).
        { destruct (name_in (variant_names vs) c) eqn:En; auto. apply find_no_variant in En. congruence. }
        pose proof E as E'. apply find_variant in E' as (v & Hj & Hname). rewrite Hj, Hm.
        assert (Hnl : named name l = []).
        { destruct (named name l) as [|k l'] eqn:En; auto. exfalso.
          assert (Hin : In k (named name l)) by (rewrite En; now left).
          unfold named in Hin. apply filter_In in Hin as [Hin Hk].
          assert (In k (filter (name_in (variant_names vs)) l)); [|rewrite Hf in H; contradiction].
          apply filter_In. split; auto. apply name_in_spec. exists name. split; auto. now apply c_name_in. }
        assert (Hall : filter (name_in (variant_names vs)) (l ++ [c]) = named (expanded (v_name v)) (l ++ [c])).
        { rewrite recognized_snoc by auto. rewrite Hname, named_snoc by auto. now rewrite Hf, Hnl. }
        destruct (v_ty v) as [[k t]|] eqn:Hty; intros [= <-].
        + eapply computes_amap; [apply (init_step k t)|..].
          * intros [[y| |] l'] d; cbn; try discriminate. intros [= <-]. exists y. split; auto.
            intro Hy. split; [exact Hv|]. right. split; auto. eexists. split; [reflexivity|].
            apply choice_field with v k t; auto. rewrite Hname, named_snoc by auto. now rewrite Hnl.
          * intros [[y| |] l'] b; cbn; try discriminate. eauto.
          * intros (d & Hd). apply estate_possible in Hd as [Hd|(y & Hd)].
            { rewrite recognized_snoc in Hd by auto. now apply snoc_not_nil in Hd. }
            apply choice_name in Hd as (j' & v' & Hj' & Hv' & Hn' & _ & Hd); auto.
            rewrite E in Hj'. inversion Hj'; subst j'. rewrite Hj in Hv'. inversion Hv'; subst v'.
            rewrite Hty, Hnl in Hd. destruct Hd as (z & _ & Hz). eauto.
        + eapply computes_ok; [reflexivity|]. split; [exact Hv|]. right. split; auto.
          eexists. split; [reflexivity|]. apply choice_unit with v; auto.
          rewrite recognized_snoc by auto. apply snoc_not_nil.
      - (* initialized *)
        assert (Hx : exists j v q, x = VEnum j q /\ nth_error (sorted_variants vs) j = Some v /\
          filter (name_in (variant_names vs)) l <> [] /\
          filter (name_in (variant_names vs)) l = named (expanded (v_name v)) l /\
          match v_ty v with
          | None => q = None
          | Some (k, t) => exists y, q = Some y /\ occurs (R t) k (named (expanded (v_name v)) l) y
          end).
        { inversion Hch as [j v Hj Hty Hne E|j v k t y Hj Hty E Ho]; subst.
          - exists j, v, None. rewrite Hty. auto.
          - exists j, v, (Some y). rewrite Hty. repeat split; auto; [|eauto].
            rewrite E. intro K. rewrite K in Ho. inversion Ho. congruence. }
        destruct Hx as (j & v & q & -> & Hj & Hne & Hall & Hq). rewrite Hm, Hj. intros [= <-].
        destruct (find alg name (variant_table vs)) as [j'|] eqn:E.
        + assert (Hrec : name_in (variant_names vs) c = true).
          { destruct (name_in (variant_names vs) c) eqn:En; auto. apply find_no_variant in En. congruence. }
          pose proof E as E'. apply find_variant in E' as (v' & Hj' & Hname').
          destruct (Nat.eqb j' j) eqn:Ej.
          * apply Nat.eqb_eq in Ej. subst j'. rewrite Hj in Hj'. inversion Hj'; subst v'.
            assert (Hall' : filter (name_in (variant_names vs)) (l ++ [c]) = named (expanded (v_name v)) (l ++ [c])).
            { rewrite recognized_snoc by auto. rewrite named_snoc by auto. now rewrite Hall. }
            destruct (v_ty v) as [[k t]|] eqn:Hty.
            -- destruct Hq as (y & -> & Hy). cbn iota beta.
               eapply computes_amap; [apply (update_step k t _ y Hy)|..].
               ++ intros [[z| |] l'] d; cbn; try discriminate. intros [= <-]. exists z. split; auto.
                  intro Hz. split; [exact Hv|]. right. split; auto. eexists. split; [reflexivity|].
                  apply choice_field with v k t; auto. rewrite named_snoc by auto. exact Hz.
               ++ intros [[z| |] l'] b; cbn; try discriminate. eauto.
               ++ intros (d & Hd). apply estate_possible in Hd as [Hd|(z & Hd)].
                  { rewrite recognized_snoc in Hd by auto. now apply snoc_not_nil in Hd. }
                  apply choice_name in Hd as (j' & v' & Hj'' & Hv' & Hn' & _ & Hd); auto.
                  rewrite E in Hj''. inversion Hj''; subst j'. rewrite Hj in Hv'. inversion Hv'; subst v'.
                  rewrite Hty in Hd. destruct Hd as (w & _ & Hw). rewrite Hname'. eauto.
            -- subst q. eapply computes_ok; [reflexivity|].
               split; [exact Hv|]. right. split; auto. eexists. split; [exact Hm|].
               apply choice_unit with v; auto. rewrite recognized_snoc by auto. apply snoc_not_nil.
          * apply computes_err; [reflexivity|]. intros d Hd.
            apply estate_possible in Hd as [Hd|(z & Hd)].
            { rewrite recognized_snoc in Hd by auto. now apply snoc_not_nil in Hd. }
            apply choice_name in Hd as (j'' & v'' & Hj'' & Hv'' & Hn'' & Hp & _); auto.
            rewrite E in Hj''. inversion Hj''; subst j''. rewrite Hj' in Hv''. inversion Hv''; subst v''.
            (* the children so far name [v], the new one names [v'] *)
            assert (Hk : exists k, In k (filter (name_in (variant_names vs)) l)).
            { destruct (filter (name_in (variant_names vs)) l) as [|k l']; [congruence|]. exists k. now left. }
            destruct Hk as (k & Hk). pose proof Hk as Hk'. rewrite Hall in Hk. rewrite Hp in Hk'.
            unfold named in Hk, Hk'. apply filter_In in Hk as [_ Hk]. apply filter_In in Hk' as [_ Hk'].
            assert (expanded (v_name v) = expanded (v_name v')).
            { rewrite Hn''. eapply has_name_inj; eauto. }
            assert (j = j') by (eapply variant_name_inj; eauto). subst.
            rewrite Nat.eqb_refl in Ej. discriminate.
        + assert (Hn : name_in (variant_names vs) c = false) by now apply find_no_variant.
          eapply computes_ok; [reflexivity|]. split; [exact Hv|]. right. split; auto.
          exists (VEnum j q). split; auto. now apply choice_same.
    Qed.
  End Enum.

  (** ** Structs *)

  Lemma slots_after_length attrs ks l fs ss : slots_after attrs ks l fs ss -> List.length ss = List.length fs.
  Proof. induction 1; cbn; auto. Qed.

  (** Only the occurrences of the fields' own names matter. *)
  Lemma slots_after_kids attrs ks1 ks2 l fs ss :
    (forall f, In f fs -> is_element f = true -> named (expanded (f_name f)) ks1 = named (expanded (f_name f)) ks2) ->
    slots_after attrs ks1 l fs ss -> slots_after attrs ks2 l fs ss.
  Proof.
    intros Hn H. induction H.
    - constructor.
    - apply sa_element with k t; auto.
      + rewrite <- Hn; auto; [now left|]. unfold is_element. now rewrite H.
      + apply IHslots_after. intros f' Hf'. apply Hn. now right.
    - apply sa_attribute with opt t; auto. apply IHslots_after. intros f' Hf'. apply Hn. now right.
    - eapply sa_flatten; eauto. apply IHslots_after. intros f' Hf'. apply Hn. now right.
  Qed.

  (** A child for the element field at position [q]. *)
  Lemma slots_element attrs ks l fs ss q f k t :
    NoDup (field_names is_element fs) ->
    nth_error fs q = Some f -> f_mode f = MElement k t -> expanded (f_name f) = name ->
    slots_after attrs ks l fs ss ->
    exists pr mem, nth_error ss q = Some (SField pr mem) /\
      field_after k t (named name ks) pr mem /\
      (forall sl, slot_is (field_after k t (named name ks ++ [c])) sl ->
         slots_after attrs (ks ++ [c]) l fs (set_nth q sl ss)) /\
      (forall ss', slots_after attrs (ks ++ [c]) l fs ss' ->
         exists sl, slot_is (field_after k t (named name ks ++ [c])) sl).
  Proof.
    intros Hnd Hq Hm Hname Hs. revert q Hq. induction Hs; intros q Hq.
    - destruct q; discriminate.
    - assert (Hnd' : NoDup (field_names is_element fs)).
      { unfold field_names in *. cbn in Hnd. unfold is_element at 1 in Hnd. rewrite H in Hnd. now inversion Hnd. }
      destruct q as [|q]; cbn in Hq.
      + inversion Hq; subst f0. rewrite H in Hm. inversion Hm; subst k0 t0. rewrite Hname in *.
        exists pr, mem. cbn. repeat split; auto.
        * intros [pr' mem'|] Hsl; [|contradiction]. cbn in Hsl. apply sa_element with k t; auto.
          { rewrite Hname, named_snoc by auto. exact Hsl. }
          eapply slots_after_kids; [|exact Hs]. intros f' Hf' He'. symmetry. apply named_same.
          unfold field_names in Hnd. cbn in Hnd. unfold is_element at 1 in Hnd. rewrite H in Hnd. cbn in Hnd.
          inversion Hnd as [|? ? Hni _]. subst. intro E. apply Hni. rewrite Hname, E.
          apply in_map_iff. exists f'. split; auto. now apply filter_In.
        * intros ss' Hss'. inversion Hss' as [|? ? ? k' t' pr' mem' ss0 Hm' Hf'|? ? ? opt' t' pr' mem' ss0 Hm'|? ? ? id' ident' root' nss' vs' sk' e' ss0 Hm']; subst; try congruence.
          rewrite H in Hm'. inversion Hm'; subst.
          rewrite Hname, named_snoc in Hf' by auto. exists (SField pr' mem'). exact Hf'.
      + destruct (IHHs Hnd' q Hq) as (pr' & mem' & G1 & G2 & G3 & G4).
        exists pr', mem'. cbn. repeat split; auto.
        * intros sl Hsl. apply sa_element with k0 t0; auto. rewrite named_same; auto.
          intro E. unfold field_names in Hnd. cbn in Hnd. unfold is_element at 1 in Hnd. rewrite H in Hnd. cbn in Hnd.
          inversion Hnd as [|? ? Hni _]. subst. apply Hni. rewrite <- E.
          apply in_map_iff. exists f. split; auto. apply filter_In. split; [eapply nth_error_In; eauto|].
          unfold is_element. now rewrite Hm.
        * intros ss' Hss'. inversion Hss'; subst; try congruence; eauto.
    - assert (Hnd' : NoDup (field_names is_element fs)).
      { unfold field_names in *. cbn in Hnd. unfold is_element at 1 in Hnd. rewrite H in Hnd. exact Hnd. }
      destruct q as [|q]; cbn in Hq.
      + inversion Hq; subst. congruence.
      + destruct (IHHs Hnd' q Hq) as (pr' & mem' & G1 & G2 & G3 & G4).
        exists pr', mem'. cbn. repeat split; auto.
        * intros sl Hsl. apply sa_attribute with opt t0; auto.
        * intros ss' Hss'. inversion Hss'; subst; try congruence; eauto.
    - assert (Hnd' : NoDup (field_names is_element fs)).
      { unfold field_names in *. cbn in Hnd. unfold is_element at 1 in Hnd. rewrite H in Hnd. exact Hnd. }
      destruct q as [|q]; cbn in Hq.
      + inversion Hq; subst. congruence.
      + destruct (IHHs Hnd' q Hq) as (pr' & mem' & G1 & G2 & G3 & G4).
        exists pr', mem'. cbn. repeat split; auto.
        * intros sl Hsl. eapply sa_flatten; eauto.
        * intros ss' Hss'. inversion Hss'; subst; try congruence; eauto.
          assert (vs0 = vs) by congruence. subst. eauto.
  Qed.

  (** A child no own field claims. *)
  Lemma slots_delegate attrs ks l fs ss :
    names_ok env ->
    (forall f, In f fs -> is_element f = true -> name <> expanded (f_name f)) ->
    slots_after attrs ks l fs ss ->
    match gdelegate_element alg deser ss i with
    | None => slots_after attrs (ks ++ [c]) (l ++ [c]) fs ss
    | Some act => computes act get_ok2 (slots_after attrs (ks ++ [c]) (l ++ [c]) fs)
    end.
  Proof.
    intros Hok Hn Hs. induction Hs.
    - constructor.
    - assert (E : named (expanded (f_name f)) (ks ++ [c]) = named (expanded (f_name f)) ks).
      { apply named_same. apply Hn; [now left|]. unfold is_element. now rewrite H. }
      assert (IH : match gdelegate_element alg deser ss i with
        | None => slots_after attrs (ks ++ [c]) (l ++ [c]) fs ss
        | Some act => computes act get_ok2 (slots_after attrs (ks ++ [c]) (l ++ [c]) fs) end).
      { apply IHHs. intros f' Hf'. apply Hn. now right. }
      cbn. destruct (gdelegate_element alg deser ss i) as [act|]; cbn.
      + eapply computes_amap; [exact IH|..].
        * intros [[[[]| |] ss''] l'] d; cbn; try discriminate. intros [= <-]. exists ss''. split; auto.
          intro G. apply sa_element with k t; auto. now rewrite E.
        * intros [[[[]| |] ss''] l'] b; cbn; try discriminate. intros _ _. eauto.
        * intros (d & Hd). inversion Hd; subst; try congruence; eauto.
      + apply sa_element with k t; auto. now rewrite E.
    - assert (IH : match gdelegate_element alg deser ss i with
        | None => slots_after attrs (ks ++ [c]) (l ++ [c]) fs ss
        | Some act => computes act get_ok2 (slots_after attrs (ks ++ [c]) (l ++ [c]) fs) end).
      { apply IHHs. intros f' Hf'. apply Hn. now right. }
      cbn. destruct (gdelegate_element alg deser ss i) as [act|]; cbn.
      + eapply computes_amap; [exact IH|..].
        * intros [[[[]| |] ss''] l'] d; cbn; try discriminate. intros [= <-]. exists ss''. split; auto.
          intro G. apply sa_attribute with opt t; auto.
        * intros [[[[]| |] ss''] l'] b; cbn; try discriminate. intros _ _. eauto.
        * intros (d & Hd). inversion Hd; subst; try congruence; eauto.
      + apply sa_attribute with opt t; auto.
    - destruct (Hok id _ H0) as [Hns Hnd].
      assert (Hrest : slots_after attrs (ks ++ [c]) (before_first (variant_names vs) l) fs ss).
      { eapply slots_after_kids; [|exact Hs]. intros f' Hf' He'. symmetry. apply named_same. apply Hn; auto. now right. }
      cbn. destruct (genum_element alg deser e i) as [act|] eqn:Ee.
      + assert (Hb : before_first (variant_names vs) (l ++ [c]) = before_first (variant_names vs) l).
        { pose proof H1 as [Hv [(Hf & Hi & Hm)|(Hi & x & Hm & Hch)]].
          - destruct (name_in (variant_names vs) c) eqn:En.
            + rewrite before_first_new by auto. now rewrite before_first_miss.
            + exfalso. assert (Ep : genum_element alg deser e i = None) by (apply (enum_pass vs Hns Hnd l e H1); auto). congruence.
          - apply before_first_hit. apply filter_not_nil. inversion Hch as [? ? ? ? Hne ?|? ? ? ? ? ? ? Hall Ho]; subst; auto.
            rewrite Hall. intro K. rewrite K in Ho. inversion Ho. congruence. }
        eapply computes_amap; [apply (enum_step vs Hns Hnd l e act H1 Ee)|..].
        * intros [[[[]| |] e'] l'] d; cbn; try discriminate. intros [= <-]. exists e'. split; auto.
          intro G. eapply sa_flatten; eauto. now rewrite Hb.
        * intros [[[[]| |] e'] l'] b; cbn; try discriminate. eauto.
        * intros (d & Hd). inversion Hd; subst; try congruence. exists e0.
          assert (vs0 = vs) by congruence. now subst.
      + apply (enum_pass vs Hns Hnd l e H1) in Ee as Hp. destruct Hp as [Hf Hnm].
        assert (IH : match gdelegate_element alg deser ss i with
          | None => slots_after attrs (ks ++ [c]) (before_first (variant_names vs) l ++ [c]) fs ss
          | Some act => computes act get_ok2 (slots_after attrs (ks ++ [c]) (before_first (variant_names vs) l ++ [c]) fs) end).
        { apply IHHs. intros f' Hf'. apply Hn. now right. }
        assert (Hb : before_first (variant_names vs) (l ++ [c]) = before_first (variant_names vs) l ++ [c]).
        { rewrite !before_first_miss; auto. rewrite recognized_same; auto. }
        assert (He' : estate_after vs (l ++ [c]) e) by (apply estate_after_pass; auto).
        rewrite <- Hb in IH.
        destruct (gdelegate_element alg deser ss i) as [act|]; cbn.
        * eapply computes_amap; [exact IH|..].
          -- intros [[[[]| |] ss''] l'] d; cbn; try discriminate. intros [= <-]. exists ss''. split; auto.
             intro G. eapply sa_flatten; eauto.
          -- intros [[[[]| |] ss''] l'] b; cbn; try discriminate. intros _ _. eauto.
          -- intros (d & Hd). inversion Hd; subst; try congruence.
             assert (vs0 = vs) by congruence. subst. eauto.
        * eapply sa_flatten; eauto.
  Qed.
End GFields.

(** ** Children *)

Section Kids.
  Context {U : Type} (o : oracles) (alg : bs_alg) (env : tenv) (P : user U).
  Context (R : ety -> node -> value -> Prop).
  Notation V := (everything o alg env P).
  Notation deser := (mdeserialize (fun _ => Abort ill_typed) o env P).
  Notation slots_after := (slots_after o env R).
  Hypothesis Hok : names_ok env.

  Definition get_st {A} (x : res verr A * vstate) : option vstate :=
    match x with (Ok _, s) => Some s | _ => None end.

  Definition struct_at (fs : list field) (attrs : list attr) (ks : list node) (s : vstate) : Prop :=
    exists ss lk, s = VState (VkStruct fs ss) lk /\ slots_after attrs ks (unclaimed fs ks) fs ss.

  Definition enum_at (vs : list variant) (ks : list node) (s : vstate) : Prop :=
    exists e lk, s = VState (VkEnum e) lk /\ estate_after R vs ks e.

  Lemma not_in_names fs n : ~ In n (field_names is_element fs) ->
    forall f, In f fs -> is_element f = true -> n <> expanded (f_name f).
  Proof.
    intros H f Hf He ->. apply H. unfold field_names. apply in_map_iff. exists f. split; auto. now apply filter_In.
  Qed.

  Section Child.
    Context (name : oname) (cattrs : list attr) (cns : nsmap) (cp : position) (ck : list node) (cpe : position).
    Notation c := (NElem name cattrs cns cp ck cpe).
    Context (parents : list selem) (i : einfo) (Hi : ei_name i = name).
    Notation path := (parents ++ [SElem name cp]).
    Notation computes := (computes (sem_read V c parents) path cp ck cpe).
    Hypothesis IH : forall t, computes (deser t i) get_ok (R t c).

    Let Hc : forall n, has_name n c = xn_eqb (from_xml_name (ei_name i)) n.
    Proof. intro n. rewrite Hi. reflexivity. Qed.

    Lemma step_struct fs attrs ks s : NoDup (field_names is_element fs) ->
      struct_at fs attrs ks s -> computes (gelement alg deser s i) get_st (struct_at fs attrs (ks ++ [c])).
    Proof.
      intros Hnd (ss & lk & -> & Hs). unfold gelement. cbn [vs_kind]. unfold gstruct_element.
      rewrite find_field_lookup.
      destruct (lookup alg is_element fs (from_xml_name (ei_name i))) as [q|] eqn:El.
      - apply lookup_spec in El as (f & Hq & Hsel & Hname); auto.
        unfold is_element in Hsel. destruct (f_mode f) as [k t| | |] eqn:Hm; try discriminate.
        assert (Hu : unclaimed fs (ks ++ [c]) = unclaimed fs ks).
        { unfold unclaimed. rewrite filter_app_one.
          assert (E : name_in (field_names is_element fs) c = true).
          { apply (c_name_in c i Hc). rewrite <- Hname. unfold field_names. apply in_map_iff. exists f. split; auto.
            apply filter_In. split; [eapply nth_error_In; eauto|]. unfold is_element. now rewrite Hm. }
          rewrite E. cbn. apply app_nil_r. }
        destruct (slots_element o env R c i Hc attrs ks (unclaimed fs ks) fs ss q f k t Hnd Hq Hm Hname Hs)
          as (pr & mem & G1 & G2 & G3 & G4).
        rewrite Hq, G1. destruct f as [fn fm fd]. cbn in Hm. subst fm.
        eapply computes_amap; [apply (element_field_step deser _ _ _ _ _ R c i IH k t _ pr mem G2)|..].
        + intros [[[[]|e|x] sl] l'] d; cbn; try discriminate. intros [= <-]. exists sl. split; auto.
          intro Hsl. exists (set_nth q sl ss), (l' ++ lk). split; auto. rewrite Hu. auto.
        + intros [[[[]|e|x] sl] l'] b; cbn; try discriminate. eauto.
        + intros (s' & ss' & lk' & -> & Hss'). rewrite Hu in Hss'. eauto.
      - assert (Hn : ~ In (from_xml_name (ei_name i)) (field_names is_element fs)) by (apply lookup_none in El; auto).
        assert (Hu : unclaimed fs (ks ++ [c]) = unclaimed fs ks ++ [c]).
        { unfold unclaimed. rewrite filter_app_one.
          destruct (name_in (field_names is_element fs) c) eqn:E; auto.
          exfalso. apply Hn. now apply (c_name_in c i Hc). }
        pose proof (slots_delegate o alg env deser _ _ _ _ _ R c i Hc IH attrs ks (unclaimed fs ks) fs ss Hok
          (not_in_names fs _ Hn) Hs) as Hd.
        destruct (gdelegate_element alg deser ss i) as [act|].
        + eapply computes_amap; [exact Hd|..].
          * intros [[[[]|e|x] ss'] l'] d; cbn; try discriminate. intros [= <-]. exists ss'. split; auto.
            intro G. exists ss', (l' ++ lk). split; auto. now rewrite Hu.
          * intros [[[[]|e|x] ss'] l'] b; cbn; try discriminate. eauto.
          * intros (s' & ss' & lk' & -> & Hss'). rewrite Hu in Hss'. eauto.
        + eapply computes_ok; [reflexivity|]. exists ss, lk. split; auto. now rewrite Hu.
    Qed.

    Lemma step_enum vs ks s : no_empty_ns vs -> NoDup (variant_names vs) ->
      enum_at vs ks s -> computes (gelement alg deser s i) get_st (enum_at vs (ks ++ [c])).
    Proof.
      intros Hns Hnd (e & lk & -> & He). unfold gelement. cbn [vs_kind].
      destruct (genum_element alg deser e i) as [act|] eqn:Ee.
      - pose proof (enum_step alg deser _ _ _ _ _ R c i Hc IH vs Hns Hnd ks e act He Ee) as Hst.
        eapply computes_amap; [exact Hst|..].
        + intros [[[[]|er|x] e'] l'] d; cbn; try discriminate. intros [= <-]. exists e'. split; auto.
          intro G. exists e', (l' ++ lk). split; auto.
        + intros [[[[]|er|x] e'] l'] b; cbn; try discriminate. eauto.
        + intros (s' & e' & lk' & -> & G). eauto.
      - eapply computes_ok; [reflexivity|]. exists e, lk. split; auto.
        apply (estate_after_pass alg deser R c i Hc vs Hns Hnd ks e He Ee).
    Qed.
  End Child.

  Definition reads_ok (n : node) : Prop :=
    match n with
    | NElem name attrs ns p kids pe => forall parents t,
        computes (sem_read V n parents) (parents ++ [SElem name p]) p kids pe
          (deser t (EInfo name ns (List.length (parents ++ [SElem name p])))) get_ok (R t n)
    | _ => True
    end.

  Definition get_mst {A} (x : res verr A * mstate U) : option (mstate U) :=
    match x with (Ok _, s) => Some s | _ => None end.

  (** The loop over children, for states described by [At]. *)
  Lemma kids_loop (At : list node -> mstate U -> Prop) :
    (forall ks s name cattrs cns cp ck cpe parents i, ei_name i = name ->
       let c := NElem name cattrs cns cp ck cpe in
       (forall t, computes (sem_read V c parents) (parents ++ [SElem name cp]) cp ck cpe
          (deser t i) get_ok (R t c)) ->
       At ks s ->
       computes (sem_read V c parents) (parents ++ [SElem name cp]) cp ck cpe
         (v_element V s i) get_mst (At (ks ++ [c]))) ->
    (forall ks s k, is_elem k = false -> At (ks ++ [k]) s <-> At ks s) ->
    (forall ks s str p, At ks s -> exists x s', v_characters V s str p = (Ok x, s') /\ At ks s') ->
    (forall k1 k2 s, At (k1 ++ k2) s -> exists s', At k1 s') ->
    forall kids, Forall reads_ok kids ->
    forall ks path fin s, At ks s ->
    (forall x s' pl, sem_kids V (sem_read V) path fin kids s = ((Ok x, s'), pl) -> At (ks ++ kids) s') /\
    ((exists s', At (ks ++ kids) s') ->
     exists x s' pl, sem_kids V (sem_read V) path fin kids s = ((Ok x, s'), pl)).
  Proof.
    intros Hel Hne Hch Hpre kids Hk. induction Hk as [|k kids Hk _ IH]; intros ks path fin s Hs.
    - rewrite app_nil_r. cbn. split.
      + intros x s' pl [= _ <- _]. exact Hs.
      + eauto.
    - assert (Happ : ks ++ k :: kids = (ks ++ [k]) ++ kids) by now rewrite <- app_assoc.
      rewrite Happ.
      assert (Hskip : is_elem k = false -> forall s, At ks s -> At (ks ++ [k]) s) by (intros E s1 H1; now apply Hne).
      destruct k as [name cattrs cns cp ck cpe|cd str p|m p|b p]; cbn [sem_kids].
      + set (c := NElem name cattrs cns cp ck cpe) in *.
        set (i := EInfo name cns (List.length (path ++ [SElem name cp]))).
        destruct (Hel ks s name cattrs cns cp ck cpe path i eq_refl (fun t => Hk path t) Hs) as [G1 G2].
        fold c in G1, G2. unfold run in G1, G2.
        destruct (sem_act (sem_read V c path) (path ++ [SElem name cp]) cp ck cpe (v_element V s i)) as [[[r s']|x] pl] eqn:Ea; cbn [fst] in G1, G2.
        * destruct r as [b|e|x].
          -- assert (Hs' : At (ks ++ [c]) s') by (apply (G1 (Ok b, s')); reflexivity). apply IH. exact Hs'.
          -- split; [discriminate|]. intros (s1 & H1). apply Hpre in H1. apply G2 in H1 as (a & b & [= <-] & H1). discriminate.
          -- split; [discriminate|]. intros (s1 & H1). apply Hpre in H1. apply G2 in H1 as (a & b & [= <-] & H1). discriminate.
        * split; [discriminate|]. intros (s1 & H1). apply Hpre in H1. apply G2 in H1 as (a & b & H1 & _). discriminate.
      + destruct (Hch ks s str p Hs) as (x & s' & -> & Hs'). apply IH. apply Hskip; auto.
      + apply IH. apply Hskip; auto.
      + apply IH. apply Hskip; auto.
  Qed.

  Lemma named_skip n ks k : is_elem k = false -> named n (ks ++ [k]) = named n ks.
  Proof. intro H. unfold named. rewrite filter_app_one. destruct k; try discriminate; apply app_nil_r. Qed.

  Lemma unclaimed_skip fs ks k : is_elem k = false -> unclaimed fs (ks ++ [k]) = unclaimed fs ks.
  Proof. intro H. unfold unclaimed. rewrite filter_app_one, H. apply app_nil_r. Qed.

  Lemma recognized_skip ns ks k : is_elem k = false -> filter (name_in ns) (ks ++ [k]) = filter (name_in ns) ks.
  Proof.
    intro H. rewrite filter_app_one. destruct (name_in ns k) eqn:E; [|apply app_nil_r].
    apply name_in_is_elem in E. congruence.
  Qed.

  Lemma choice_skip vs ks k v : is_elem k = false -> choice R vs (ks ++ [k]) v <-> choice R vs ks v.
  Proof.
    intro H. split; intro Hch; inversion Hch; subst.
    - rewrite recognized_skip, ?named_skip in * by auto. eapply choice_unit; eauto.
    - rewrite recognized_skip, ?named_skip in * by auto. eapply choice_field; eauto.
    - eapply choice_unit; rewrite ?recognized_skip, ?named_skip; eauto.
    - eapply choice_field; rewrite ?recognized_skip, ?named_skip; eauto.
  Qed.

  Lemma struct_at_skip fs attrs ks s k : is_elem k = false ->
    struct_at fs attrs (ks ++ [k]) s <-> struct_at fs attrs ks s.
  Proof.
    intro H. unfold struct_at. rewrite unclaimed_skip by auto.
    split; intros (ss & lk & -> & Hs); exists ss, lk; (split; [reflexivity|]);
      (eapply slots_after_kids; [|exact Hs]); intros f _ _; rewrite named_skip; auto.
  Qed.

  Lemma enum_at_skip vs ks s k : is_elem k = false -> enum_at vs (ks ++ [k]) s <-> enum_at vs ks s.
  Proof.
    intro H. unfold enum_at, estate_after. rewrite recognized_skip by auto.
    split; intros (e & lk & -> & Hv & Hs); exists e, lk; (split; [reflexivity|]); (split; [exact Hv|]);
      (destruct Hs as [Hs|(Hi & v & Hm & Hs)]; [now left|right; split; auto; exists v; split; auto; eapply choice_skip; eauto]).
  Qed.

  Lemma struct_prefix fs attrs k1 k2 s : struct_at fs attrs (k1 ++ k2) s -> exists s', struct_at fs attrs k1 s'.
  Proof.
    intros (ss & lk & -> & Hs). unfold unclaimed in Hs. rewrite filter_app in Hs.
    rewrite <- (app_nil_r attrs) in Hs. apply slots_prefix in Hs as (ss' & Hs').
    exists (VState (VkStruct fs ss') []). exists ss', []. split; auto.
  Qed.

  Lemma enum_prefix vs k1 k2 s : enum_at vs (k1 ++ k2) s -> exists s', enum_at vs k1 s'.
  Proof.
    intros (e & lk & -> & He).
    (* as a flattened field of a struct *)
    pose (envx := fun n : nat => match n with O => Some (TDEnum "" (DName None "") [] vs false) | _ => env n end).
    pose (f := Field (DName None "") (MFlatten 0) None).
    assert (Hs : DeProofs.slots_after o envx R ([] ++ []) ([] ++ []) (k1 ++ k2) [f] [SFlat e]).
    { eapply sa_flatten; [reflexivity|reflexivity|exact He|constructor]. }
    apply slots_prefix in Hs as (ss' & Hs'). inversion Hs' as [|? ? ? ? ? ? ? ? Hm|? ? ? ? ? ? ? ? Hm|? ? ? id ident root nss vs' sk e' ss0 Hm Hid He' Hr]; subst; try discriminate.
    cbn in Hm. inversion Hm; subst id. cbn in Hid. inversion Hid; subst.
    exists (VState (VkEnum e') []). exists e', []. split; auto.
  Qed.


  (** ** The main result *)

  Definition on_derived (At : list node -> vstate -> Prop) (ks : list node) (s : mstate U) : Prop :=
    exists s', s = MDerived s' /\ At ks s'.

  Lemma sem_attrs_derived path p attrs s :
    sem_attrs V path p attrs (MDerived s) =
    (fst (sem_attrs (derived o alg env) path p attrs s), MDerived (snd (sem_attrs (derived o alg env) path p attrs s))).
  Proof.
    revert s. induction attrs as [|a attrs IH]; intro s; [reflexivity|]. cbn [sem_attrs everything mixed v_attribute].
    destruct (v_attribute (derived o alg env) s (from_xml_name (a_name a)) (a_value a)) as [[x|e|x] s'].
    - apply IH.
    - reflexivity.
    - reflexivity.
  Qed.

  Lemma lift_step (At : list node -> vstate -> Prop) : (forall ks s name cattrs cns cp ck cpe parents i, ei_name i = name ->
       let c := NElem name cattrs cns cp ck cpe in
       (forall t, computes (sem_read V c parents) (parents ++ [SElem name cp]) cp ck cpe
          (deser t i) get_ok (R t c)) ->
       At ks s ->
       computes (sem_read V c parents) (parents ++ [SElem name cp]) cp ck cpe
         (gelement alg deser s i) get_st (At (ks ++ [c]))) ->
    forall ks s name cattrs cns cp ck cpe parents i, ei_name i = name ->
       let c := NElem name cattrs cns cp ck cpe in
       (forall t, computes (sem_read V c parents) (parents ++ [SElem name cp]) cp ck cpe
          (deser t i) get_ok (R t c)) ->
       on_derived At ks s ->
       computes (sem_read V c parents) (parents ++ [SElem name cp]) cp ck cpe
         (v_element V s i) get_mst (on_derived At (ks ++ [c])).
  Proof.
    intros H ks s name cattrs cns cp ck cpe parents i Hi c IH (s' & -> & Hs). cbn [everything mixed v_element].
    eapply computes_amap; [apply (H ks s' name cattrs cns cp ck cpe parents i Hi IH Hs)|..].
    - intros [[b|e|x] s1] d; cbn; try discriminate. intros [= <-]. exists s1. split; [reflexivity|]. intro G. now exists s1.
    - intros [[b|e|x] s1] b0; cbn; try discriminate. eauto.
    - intros (d & s1 & -> & Hd). eauto.
  Qed.

  Hypothesis HD : denotes o env P R.

  Lemma known_computes name attrs ns p kids pe parents t : known_ty env t -> Forall reads_ok kids ->
    computes (sem_read V (NElem name attrs ns p kids pe) parents) (parents ++ [SElem name p]) p kids pe
      (known_deserialize (U := U) (fun _ => Abort ill_typed) o env t (EInfo name ns (List.length (parents ++ [SElem name p]))))
      get_ok (R t (NElem name attrs ns p kids pe)).
  Proof.
    intros Hk IH. set (n := NElem name attrs ns p kids pe). set (i := EInfo name ns _).
    destruct t as [t|id].
    - (* text *)
      unfold known_deserialize. eapply (computes_amap (sem_read V n parents) (parents ++ [SElem name p]) p kids pe
        _ (fun r => match r with Ok v => Some v | _ => None end)
        (fun x => existsb is_elem kids = false /\ parse_text o t (text_of kids) = Ok x)).
      + unfold deserialize_text. split; unfold run; cbn [sem_act].
        * intros a b. destruct (existsb is_elem kids) eqn:Ee.
          -- apply sem_string_elem with (path := parents ++ [SElem name p]) (acc := ""%string) (pe := pe) in Ee as (k1 & nm & at_ & nss & pp & kk & pk & k2 & _ & _ & ->).
             cbn. intros [= <-]. discriminate.
          -- rewrite sem_string_text by auto. cbn. intros [= <-].
             destruct (parse_text o t (text_of kids)) as [x| |] eqn:E; cbn; try discriminate. intros [= <-]. auto.
        * intros (x & Hn & Hx). rewrite sem_string_text by auto. cbn. rewrite Hx. cbn. eauto.
      + intros [x| |] d; cbn; try discriminate. intros [= <-]. exists x. split; auto. intros [H1 H2].
        apply (d_text _ _ _ _ HD). eauto.
      + intros [x| |] b; cbn; try discriminate. eauto.
      + intros (v & Hv). apply (d_text _ _ _ _ HD) in Hv as (x & -> & H1 & H2). eauto.
    - unfold known_deserialize, new_visitor. destruct (env id) as [[ident root nss fs|ident root nss vs sk]|] eqn:Hid.
      + (* struct *)
        destruct (Hok id _ Hid) as [Hnde Hnda].
        assert (HRv : forall v, R (ERef id) n v <->
          exists vs, v = VStruct vs /\ fields_hold o env R attrs kids (unclaimed fs kids) fs vs)
          by (intro v; apply (d_struct _ _ _ _ HD _ _ _ _ _ _ _ _ _ _ _ _ Hid)).
        destruct (new_slots env fs) as [ss0|] eqn:Hnew; cbn [option_map].
        2:{ apply computes_err; [reflexivity|]. intros v Hv. apply HRv in Hv as (vs & -> & HF).
            apply new_slots_some in HF. congruence. }
        pose proof (new_slots_after o env R fs ss0 Hnew) as H0.
        destruct (attrs_struct o alg env R fs (parents ++ [SElem name p]) p Hnda attrs [] ss0 [] H0) as [A1 A2].
        cbn [app] in A1, A2. set (s0 := VState (VkStruct fs ss0) []) in *.
        assert (K : forall s1, struct_at fs attrs [] s1 -> forall fin,
          (forall x s' pl, sem_kids V (sem_read V) (parents ++ [SElem name p]) fin kids (MDerived s1) = ((Ok x, s'), pl) ->
             on_derived (struct_at fs attrs) kids s') /\
          ((exists s', on_derived (struct_at fs attrs) kids s') ->
           exists x s' pl, sem_kids V (sem_read V) (parents ++ [SElem name p]) fin kids (MDerived s1) = ((Ok x, s'), pl))).
        { intros s1 Hs1 fin. apply (kids_loop (on_derived (struct_at fs attrs))) with (ks := []); auto.
          - apply lift_step. intros. now apply step_struct.
          - intros ks s k Hke. split; intros (s' & -> & Hs); exists s'; (split; [reflexivity|]); eapply struct_at_skip; eauto.
          - intros ks s str q (s' & -> & ss & lk & -> & Hs). cbn. unfold struct_characters. rewrite delegate_pass by reflexivity.
            rewrite put_struct. do 2 eexists. split; [reflexivity|]. eexists. split; [reflexivity|]. exists ss, ([] ++ lk). auto.
          - intros k1 k2 s (s' & -> & Hs). apply struct_prefix in Hs as (s2 & Hs2). exists (MDerived s2). now exists s2.
          - now exists s1. }
        split.
        * intros a v. unfold run; cbn [sem_act]. unfold n. cbn [sem_read]. rewrite sem_attrs_derived.
          destruct (sem_attrs (derived o alg env) (parents ++ [SElem name p]) p attrs s0) as [[[]|e|x] s1] eqn:Ea; cbn [fst snd].
          -- destruct (A1 s1 eq_refl) as (ss1 & lk1 & -> & Hs1).
             assert (Hat : struct_at fs attrs [] (VState (VkStruct fs ss1) lk1)) by (exists ss1, lk1; auto).
             destruct (K _ Hat (name, ns, pe)) as [K1 _].
             destruct (sem_kids V (sem_read V) (parents ++ [SElem name p]) (name, ns, pe) kids _) as [[[x|e|x] s2] pl] eqn:Ek.
             ++ destruct (K1 x s2 pl eq_refl) as (s2' & -> & ss2 & lk2 & -> & Hs2). cbn. intros [= <-].
                destruct (finalize_slots fs ss2) as [[[]|e|y] ss3] eqn:Ef; cbn; try discriminate.
                destruct (finalize_sound o env R attrs kids _ fs ss2 Hs2 ss3 Ef) as (vs & Ha & Hv). rewrite Ha. cbn.
                intros [= <-]. apply HRv. eauto.
             ++ cbn. intros [= <-]. destruct s2; discriminate.
             ++ discriminate.
          -- cbn. intros [= <-]. discriminate.
          -- discriminate.
        * intros (v & Hv). apply HRv in Hv as (vs & -> & HF).
          destruct (holds_possible o env R _ _ _ _ _ HF) as (ssf & Hsf).
          assert (P0 : exists ss', slots_after attrs [] [] fs ss').
          { rewrite <- (app_nil_r attrs) in Hsf.
            apply (slots_prefix o env R attrs [] [] kids fs [] (unclaimed fs kids)) in Hsf. exact Hsf. }
          destruct (A2 P0) as (s1 & Ea). destruct (A1 s1 Ea) as (ss1 & lk1 & -> & Hs1).
          assert (Hat : struct_at fs attrs [] (VState (VkStruct fs ss1) lk1)) by (exists ss1, lk1; auto).
          destruct (K _ Hat (name, ns, pe)) as [K1 K2].
          destruct K2 as (x & s2 & pl & Ek).
          { exists (MDerived (VState (VkStruct fs ssf) [])). eexists. split; [reflexivity|]. exists ssf, []. auto. }
          destruct (K1 x s2 pl Ek) as (s2' & -> & ss2 & lk2 & -> & Hs2).
          destruct (finalize_complete o env R _ _ _ _ _ Hs2 _ HF) as (ss3 & Ef).
          destruct (finalize_sound o env R attrs kids _ fs ss2 Hs2 ss3 Ef) as (vs' & Ha & _).
          unfold run; cbn [sem_act]. unfold n. cbn [sem_read]. rewrite sem_attrs_derived, Ea. cbn [fst snd]. rewrite Ek.
          cbn. rewrite Ef, Ha. cbn. do 2 eexists. split; reflexivity.
      + (* enum *)
        destruct (Hok id _ Hid) as [Hns Hnd].
        assert (HRv : forall v, R (ERef id) n v <-> choice R vs kids v)
          by (intro v; apply (d_enum _ _ _ _ HD _ _ _ _ _ _ _ _ _ _ _ _ _ Hid)).
        set (s0 := VState (VkEnum (new_enum ident vs)) []).
        assert (A0 : forall attrs path q, sem_attrs (derived o alg env) path q attrs s0 = (Ok tt, s0)).
        { intros attrs' path q. induction attrs' as [|a attrs' IHa]; cbn; auto. }
        assert (K : forall fin,
          (forall x s' pl, sem_kids V (sem_read V) (parents ++ [SElem name p]) fin kids (MDerived s0) = ((Ok x, s'), pl) ->
             on_derived (enum_at vs) kids s') /\
          ((exists s', on_derived (enum_at vs) kids s') ->
           exists x s' pl, sem_kids V (sem_read V) (parents ++ [SElem name p]) fin kids (MDerived s0) = ((Ok x, s'), pl))).
        { intros fin. apply (kids_loop (on_derived (enum_at vs))) with (ks := []); auto.
          - apply lift_step. intros. now apply step_enum.
          - intros ks s k Hke. split; intros (s' & -> & Hs); exists s'; (split; [reflexivity|]); eapply enum_at_skip; eauto.
          - intros ks s str q (s' & -> & e & lk & -> & Hs). cbn. do 2 eexists. split; [reflexivity|].
            eexists. split; [reflexivity|]. exists e, lk. auto.
          - intros k1 k2 s (s' & -> & Hs). apply enum_prefix in Hs as (s2 & Hs2). exists (MDerived s2). now exists s2.
          - exists s0. split; [reflexivity|]. exists (new_enum ident vs), []. split; auto. split; auto. }
        split.
        * intros a v. unfold run; cbn [sem_act]. unfold n. cbn [sem_read]. rewrite sem_attrs_derived, A0. cbn [fst snd].
          destruct (K (name, ns, pe)) as [K1 _].
          destruct (sem_kids V (sem_read V) (parents ++ [SElem name p]) (name, ns, pe) kids _) as [[[x|e|x] s2] pl] eqn:Ek.
          -- destruct (K1 x s2 pl eq_refl) as (s2' & -> & e & lk & -> & He). cbn. intros [= <-].
             unfold enum_finalize. destruct He as [Hv [(Ef & Hini & Hm)|(Hini & w & Hm & Hch)]]; rewrite Hini, Hm; cbn; [discriminate|].
             intros [= <-]. now apply HRv.
          -- cbn. intros [= <-]. destruct s2; discriminate.
          -- discriminate.
        * intros (v & Hv). apply HRv in Hv as Hch.
          destruct (K (name, ns, pe)) as [K1 K2].
          destruct K2 as (x & s2 & pl & Ek).
          { exists (MDerived (VState (VkEnum (EState ident vs true (Some v))) [])). eexists. split; [reflexivity|].
            eexists _, []. split; [reflexivity|]. split; auto. right. split; auto. exists v. auto. }
          destruct (K1 x s2 pl Ek) as (s2' & -> & e & lk & -> & He).
          unfold run; cbn [sem_act]. unfold n. cbn [sem_read]. rewrite sem_attrs_derived, A0. cbn [fst snd]. rewrite Ek. cbn.
          unfold enum_finalize. destruct He as [Hvv [(Ef & Hini & Hm)|(Hini & w & Hm & _)]]; rewrite Hini, Hm; cbn; [|do 2 eexists; split; reflexivity].
          exfalso. inversion Hch; subst; auto. rewrite Ef in H1. rewrite <- H1 in H2. inversion H2. congruence.
      + now destruct Hk.
  Qed.

  Lemma run_result n name attrs ns p kids pe parents t : n = NElem name attrs ns p kids pe ->
    forall v, result_of o alg env P t n parents = Some (Ok v) <->
    exists a, run (sem_read V n parents) (parents ++ [SElem name p]) p kids pe
      (deser t (EInfo name ns (List.length (parents ++ [SElem name p])))) = inl a /\ get_ok a = Some v.
  Proof.
    intros -> v. unfold result_of, run. destruct (sem_act _ _ _ _ _ _) as [[[r l]|x] pl]; cbn [fst].
    - split.
      + intros [= ->]. exists (Ok v, l). split; reflexivity.
      + intros (a & [= <-] & E). unfold get_ok in E. cbn in E. destruct r; congruence.
    - split; [discriminate|]. intros (a & E & _). discriminate.
  Qed.

  Lemma implements_computes n : is_elem n = true -> (forall t, implements o alg env P R t n) -> reads_ok n.
  Proof.
    destruct n as [name attrs ns p kids pe| | |]; try discriminate. intros _ H parents t. split.
    - intros a b Hr Hg. apply (H t eq_refl parents). eapply run_result; [reflexivity|]. eauto.
    - intros (v & Hv). apply (H t eq_refl parents) in Hv. eapply run_result in Hv as (a & Hr & Hg); [|reflexivity]. eauto.
  Qed.

  Lemma implements_det n : is_elem n = true -> (forall t, implements o alg env P R t n) -> det R n.
  Proof.
    intros Hn H t v1 v2 H1 H2. apply (H t Hn []) in H1. apply (H t Hn []) in H2. congruence.
  Qed.

  Lemma known_implements name attrs ns p kids pe t : known_ty env t ->
    (forall c t, In c kids -> implements o alg env P R t c) ->
    implements o alg env P R t (NElem name attrs ns p kids pe).
  Proof.
    intros Hk IH _ parents v. set (n := NElem name attrs ns p kids pe).
    assert (Hr : Forall reads_ok kids).
    { apply Forall_forall. intros c Hc. destruct (is_elem c) eqn:E; [|now destruct c].
      apply implements_computes; auto. }
    assert (Hd : Forall (det R) kids).
    { apply Forall_forall. intros c Hc. destruct (is_elem c) eqn:E; [apply implements_det; auto|].
      intros t' v1 v2 H1. apply (d_elem _ _ _ _ HD) in H1. congruence. }
    pose proof (known_computes name attrs ns p kids pe parents t Hk Hr) as [C1 C2].
    assert (Hsame : deser t (EInfo name ns (List.length (parents ++ [SElem name p]))) =
      known_deserialize (fun _ => Abort ill_typed) o env t (EInfo name ns (List.length (parents ++ [SElem name p])))).
    { destruct t as [t|id]; [reflexivity|]. cbn [mdeserialize]. cbn in Hk. destruct (env id); [reflexivity|congruence]. }
    rewrite (run_result n name attrs ns p kids pe parents t eq_refl v), Hsame. split.
    - intros (a & Ha & Hg). eauto.
    - intro Hv. destruct (C2 (ex_intro _ v Hv)) as (a & b & Ha & Hg). exists a. split; [exact Ha|].
      rewrite Hg. f_equal. specialize (C1 a b Ha Hg). fold n in C1.
      destruct t as [t|id].
      + apply (d_text _ _ _ _ HD) in C1 as (x & -> & _ & E1). apply (d_text _ _ _ _ HD) in Hv as (y & -> & _ & E2). congruence.
      + cbn in Hk. destruct (env id) as [[ident root nss fs|ident root nss vs sk]|] eqn:Hid; [..|congruence].
        * apply (d_struct _ _ _ _ HD _ _ _ _ _ _ _ _ _ _ _ _ Hid) in C1 as (vs1 & -> & F1).
          apply (d_struct _ _ _ _ HD _ _ _ _ _ _ _ _ _ _ _ _ Hid) in Hv as (vs2 & -> & F2).
          f_equal. eapply (fields_hold_det o env R); [exact Hok|exact Hd| |exact F1|exact F2]. now apply Forall_filter.
        * apply (d_enum _ _ _ _ HD _ _ _ _ _ _ _ _ _ _ _ _ _ Hid) in C1.
          apply (d_enum _ _ _ _ HD _ _ _ _ _ _ _ _ _ _ _ _ _ Hid) in Hv.
          destruct (Hok id _ Hid). eapply choice_det; eauto.
  Qed.

  Hypothesis Hhand : hand_written_ok o alg env P R.

  Theorem all_implement n : forall t, implements o alg env P R t n.
  Proof.
    assert (G : (forall m t, below m n -> implements o alg env P R t m) /\ forall t, implements o alg env P R t n).
    { induction n as [name attrs ns p kids pe IH| | |] using node_ind'.
      2-4: split; [intros m0 t H; inversion H|intros t H; discriminate].
      assert (Hb : forall m t, below m (NElem name attrs ns p kids pe) -> implements o alg env P R t m).
      { intros m1 t H. inversion H as [c ? ? ? ? ? ? Hin|m' c ? ? ? ? ? ? Hin Hbel]; subst;
          rewrite Forall_forall in IH; destruct (IH _ Hin); auto. }
      split; [exact Hb|].
      assert (Hkn : forall t, known_ty env t -> implements o alg env P R t (NElem name attrs ns p kids pe)).
      { intros t Hk. apply known_implements; auto. intros c t' Hin. apply Hb. now constructor. }
      intros [t|id]; [now apply Hkn|].
      destruct (env id) eqn:Ee; [apply Hkn; cbn; congruence|].
      destruct (u_type P id) eqn:Eu; [apply Hhand; auto; congruence|].
      intros _ parents v. split.
      - unfold result_of. cbn [mdeserialize]. rewrite Ee, Eu. unfold known_deserialize, new_visitor. rewrite Ee.
        cbn. discriminate.
      - intro Hv. now apply (d_none _ _ _ _ HD) in Hv. }
    apply G.
  Qed.

  Theorem mixed_iff dbg t d pe v : (dbg = true -> strict P) ->
    read_mixed o alg env P dbg t (doc_events d) (FEndDocument pe) = Ok v <-> R t (d_root d) v.
  Proof.
    intro HS. unfold read_mixed, read_with. rewrite read_sem.
    2:{ intro Hd. assert (Hf : forall A, fails (Abort ill_typed : res verr A)) by (intros A a; discriminate). split.
        - apply (mixed_propagating o alg env P (fun _ => Abort ill_typed)); auto.
        - intro i. eapply propagating_amap; [apply mdeser_propagating; [exact Hf|exact (HS Hd)]|]. now intros [r l]. }
    rewrite <- (all_implement (d_root d) t eq_refl [] v). unfold sem_doc, mixed_root, result_of, d_root.
    cbn [app List.length]. fold V.
    pose proof (run_amap (sem_read V (d_root d) []) [SElem (d_name d) (d_pos d)] (d_pos d) (d_kids d) (d_pe d)
      fst (deser t (EInfo (d_name d) (d_ns d) 1))) as Hr. unfold run, d_root in Hr.
    destruct (sem_act _ _ _ _ _ (amap fst _)) as [r pl]. cbn [fst] in Hr.
    destruct (sem_act _ _ _ _ _ (deser _ _)) as [[[r' l]|x] pl']; cbn [fst inl_map] in *; subst r.
    - destruct r'; (split; intro E; inversion E; auto).
    - split; discriminate.
  Qed.
End Kids.

(** There is at most one such [R]. *)
Theorem denotes_unique {U} o alg env (P : user U) R1 R2 : names_ok env ->
  denotes o env P R1 -> hand_written_ok o alg env P R1 -> denotes o env P R2 -> hand_written_ok o alg env P R2 ->
  forall t n v, R1 t n v <-> R2 t n v.
Proof.
  intros Hok D1 H1 D2 H2 t n v. destruct (is_elem n) eqn:E.
  - rewrite <- (all_implement o alg env P R1 Hok D1 H1 n t E [] v).
    apply (all_implement o alg env P R2 Hok D2 H2 n t E [] v).
  - split; intro G; [apply (d_elem _ _ _ _ D1) in G|apply (d_elem _ _ _ _ D2) in G]; congruence.
Qed.
