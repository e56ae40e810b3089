(** Derived structs next to arbitrary visitors of flattened fields: their own code does not misuse memory. *)
From Verif Require Import Base Normalize Text TextProofs Find FindProofs Types Reader ReaderSpec ReaderRel DeriveDe DeSpec DeTotal
  DeriveMixed MixedSpec MixedProofs DeriveFlat FlatSpec FlatProofs.

Section Safe.
  Context {St : Type} (o : oracles) (alg : bs_alg) (P : fuser St) (known : ety -> Prop) (Q : abort -> Prop).
  Hypothesis HP : flat_program P known Q.
  Hypothesis Ho : oracles_total o.
  Notation slot_inv := (MixedProofs.slot_inv known).

  (** Kinds: a struct with its own fields and the number of its flattened ones, or hand-written. *)
  Definition knd (k : option (list field * nat)) (s : fstate St) : Prop :=
    match k, s with
    | Some (fs, n), FStruct fs' ss l fl => fs' = fs /\ Forall2 slot_inv fs ss /\ List.length fl = n
    | None, FOther _ => True
    | _, _ => False
    end.
  Definition R (k : option (list field * nat)) (s1 s2 : fstate St) : Prop := s1 = s2 /\ knd k s1.
  Notation act_ok good := (act_rel R (same good)).
  Notation within := (MixedProofs.within Q).

  Lemma act_ok_amap {A B} (G : A -> Prop) (G' : B -> Prop) (f : A -> B) (act : action (fstate St) A) :
    act_ok G act act -> (forall x, G x -> G' (f x)) -> act_ok G' (amap f act) (amap f act).
  Proof. intros H HG. eapply act_rel_amap; [exact H|]. intros x y [<- Hx]. split; auto. Qed.

  Lemma act_ok_weaken {A} (G G' : A -> Prop) (act : action (fstate St) A) : act_ok G act act -> (forall x, G x -> G' x) -> act_ok G' act act.
  Proof.
    intros H HG. destruct act as [a|k|s k]; cbn in *.
    - destruct H as [_ H]. split; auto.
    - intros x. destruct (H x) as [_ H']. split; auto.
    - destruct H as (k' & HR & H). exists k'. split; [exact HR|]. intros x s1 s2 H'. destruct (H x s1 s2 H'). split; auto.
  Qed.

  Lemma finalize_safe fs fl0 : flat_compiles P known fs -> new_flats P fs = Some fl0 -> forall ss fl,
    Forall2 slot_inv (own fs) ss -> List.length fl = List.length fl0 -> within (flat_finalize P fs ss fl).
  Proof.
    revert fl0. induction fs as [|f fs IH]; intros fl0 HC Hn ss fl HI Hl; [intros x; discriminate|].
    inversion HC as [|? ? Hf HC']; subst. cbn [new_flats] in Hn. destruct (new_flats P fs) as [fl1|]; [|discriminate].
    unfold own in HI. cbn [filter] in HI. fold (own fs) in HI. cbn [flat_finalize]. unfold is_flatten in *.
    destruct (f_mode f) as [k t|opt t|id|t] eqn:Em; cbn [negb] in HI; [| | |contradiction].
    - inversion HI as [|? s ? ss' Hs HI']; subst. injection Hn as <-. specialize (IH _ HC' eq_refl ss' fl HI' Hl).
      unfold MixedProofs.slot_inv in Hs. rewrite Em in Hs. destruct s as [pr m|]; [|tauto]. destruct Hs as [_ Hs].
      unfold finalize_slot. destruct Hs as [[-> ->]|(-> & v & -> & Hv)].
      + unfold missing, write_mem. rewrite Em. destruct (f_default f); cbn; [now apply within_map|].
        destruct k; cbn; [intros x; discriminate|now apply within_map|now apply within_map].
      + cbn. now apply within_map.
    - inversion HI as [|? s ? ss' Hs HI']; subst. injection Hn as <-. specialize (IH _ HC' eq_refl ss' fl HI' Hl).
      unfold MixedProofs.slot_inv in Hs. rewrite Em in Hs. destruct s as [pr m|]; [|tauto].
      unfold finalize_slot. destruct Hs as [[-> ->]|[-> Hm]].
      + unfold missing, write_mem. rewrite Em. destruct (f_default f); cbn; [now apply within_map|].
        destruct opt; cbn; [now apply within_map|intros x; discriminate].
      + destruct m as [v|]; [|congruence]. cbn. now apply within_map.
    - destruct (fu_new P id) as [s0|]; [|discriminate]. cbn in Hn. injection Hn as <-. destruct fl as [|s fl]; [discriminate|].
      cbn in Hl. injection Hl as Hl. specialize (IH _ HC' eq_refl ss fl HI Hl). pose proof (fp_finalize _ _ _ HP s) as Hz.
      destruct (fu_finalize P s) as [v|e|x]; cbn; [now apply within_map|intros x; discriminate|].
      intros y [= <-]. now apply Hz.
  Qed.

  Lemma struct_ok fs i : flat_compiles P known fs -> act_ok within (flat_deserialize P fs i) (flat_deserialize P fs i).
  Proof.
    intros HC. unfold flat_deserialize. destruct (new_flats P fs) as [fl|] eqn:Hn.
    - cbn [act_rel]. exists (Some (own fs, List.length fl)). split.
      + split; [reflexivity|]. cbn. split; [reflexivity|]. split; [|reflexivity].
        assert (H : Forall (fun f => match f_mode f with MElement _ t => known t | MAttribute _ _ => True | _ => False end) (own fs)).
        { unfold own. clear Hn. induction HC as [|f fs Hf HC IH]; [constructor|]. cbn. unfold is_flatten.
          destruct (f_mode f) eqn:E; cbn; try assumption; constructor; try assumption; now rewrite E. }
        induction H as [|f fs' Hf H IH]; constructor; [|exact IH]. unfold MixedProofs.slot_inv.
        destruct (f_mode f); try contradiction; auto.
      + intros x s1 s2 [<- Hk]. split; [reflexivity|]. destruct x; [|intros x; discriminate].
        destruct s1 as [fs' ss l fl'|]; [|contradiction]. destruct Hk as (-> & HI & Hl). apply within_map. eapply finalize_safe; eauto.
    - exfalso. revert Hn. clear -HC. induction HC as [|f fs Hf HC IH]; [discriminate|]. cbn.
      destruct (new_flats P fs); [|tauto]. destruct (f_mode f); try discriminate. destruct (fu_new P id); [discriminate|congruence].
  Qed.

  Lemma user_ok {A} (good : A -> Prop) i act : by_user P known Q good i act -> act_ok good act act.
  Proof.
    intros H. destruct H as [a Ha|k Hk|s k Hk|fs f HC Hf].
    - now split.
    - intros x. now split.
    - exists None. split; [now split|]. intros x s1 s2 [<- Hs]. destruct s1; [contradiction|]. now split.
    - eapply act_ok_amap; [apply struct_ok, HC|]. auto.
  Qed.

  Lemma deser_ok t i : known t -> act_ok (fun a => within (fst a)) (fu_deserialize P t i) (fu_deserialize P t i).
  Proof. intros Hk. eapply user_ok. exact (fp_deserialize _ _ _ HP t i Hk). Qed.

  Lemma delegate_safe {E} (f : St -> string -> res E (option string) * St) : (forall s v, within (fst (f s v))) ->
    forall fl v, within (fst (delegate_flats f fl v)) /\ List.length (snd (delegate_flats f fl v)) = List.length fl.
  Proof.
    intros Hf. induction fl as [|s fl IH]; intros v; cbn; [split; [intros x; discriminate|reflexivity]|].
    pose proof (Hf s v) as H. destruct (f s v) as [[[v1|]|e|x] s1]; cbn in *; try (split; [exact H|reflexivity]).
    destruct (IH v1) as [H1 H2]. destruct (delegate_flats f fl v1). cbn in *. split; [exact H1|now f_equal].
  Qed.

  Lemma offer_safe fl i :
    match offer_flats P fl i with
    | inl fl' => List.length fl' = List.length fl
    | inr act => act_ok (fun a => within (fst a) /\ List.length (snd a) = List.length fl) act act
    end.
  Proof.
    induction fl as [|s fl IH]; cbn; [reflexivity|]. destruct (fu_element P s i) as [s1|act] eqn:E.
    - destruct (offer_flats P fl i) as [fl1|act]; [cbn; now f_equal|]. eapply act_ok_amap; [exact IH|].
      intros [r fl'] [H1 H2]. cbn in *. split; [exact H1|now f_equal].
    - eapply act_ok_amap; [eapply user_ok; exact (fp_element _ _ _ HP _ _ _ E)|]. intros [r s'] H. cbn in *. now split.
  Qed.

  Lemma flat_rel : vis_rel R Q (flat_visitors o alg P) (flat_visitors o alg P).
  Proof.
    constructor.
    - intros k s1 s2 n v [<- Hk]. destruct s1 as [fs ss l fl|s]; cbn [flat_visitors v_attribute].
      + destruct k as [[fs' n']|]; [|contradiction]. destruct Hk as (-> & HI & Hl). unfold fstruct_attribute.
        destruct (find_field alg is_attribute fs' n) as [q|] eqn:Ef.
        * unfold struct_attribute. rewrite Ef. destruct (find_field_nth _ _ _ _ _ Ef) as (f & Hf & Hsel). rewrite Hf.
          destruct (Forall2_nth _ _ _ _ _ HI Hf) as (s0 & Hs0 & Hi). rewrite Hs0.
          unfold is_attribute in Hsel. destruct f as [nm md d]; cbn in Hsel. destruct md as [|opt t| |]; try discriminate.
          pose proof Hi as Hi'. unfold MixedProofs.slot_inv in Hi'. cbn in Hi'. destruct s0 as [pr m|]; [|tauto].
          unfold attribute_field. destruct Hi' as [[-> ->]|[-> Hm]].
          -- unfold attr_init. destruct (parse_text o t v) as [x|e|x] eqn:Ep; cbn.
             ++ split; [split; [reflexivity|discriminate]|]. split; [reflexivity|]. cbn. split; [reflexivity|]. split; [|exact Hl].
                eapply Forall2_set; eauto. unfold MixedProofs.slot_inv. cbn. right. split; auto. discriminate.
             ++ split; [split; [reflexivity|discriminate]|]. split; [reflexivity|]. cbn. split; [reflexivity|]. split; [|exact Hl].
                eapply Forall2_set; eauto.
             ++ exfalso. eapply parse_text_total; eauto.
          -- cbn. split; [split; [reflexivity|discriminate]|]. split; [reflexivity|]. cbn. split; [reflexivity|]. split; [|exact Hl].
             eapply Forall2_set; eauto.
        * destruct (delegate_safe (fun s v => fu_attribute P s n v) (fun s v => fp_attribute _ _ _ HP s n v) fl v) as [G1 G2].
          destruct (delegate_flats _ fl v) as [r fl']. cbn in *. split; [split; [reflexivity|exact G1]|]. split; [reflexivity|]. cbn.
          repeat split; [exact HI|congruence].
      + pose proof (fp_attribute _ _ _ HP s n v) as G. destruct (fu_attribute P s n v) as [r s']. cbn in *. split; [split; [reflexivity|exact G]|].
        split; [reflexivity|]. destruct k as [[]|]; [contradiction|exact I].
    - intros k s1 s2 str p [<- Hk]. destruct s1 as [fs ss l fl|s]; cbn [flat_visitors v_characters].
      + destruct k as [[fs' n']|]; [|contradiction]. destruct Hk as (-> & HI & Hl). unfold fstruct_characters.
        destruct (delegate_safe (fun s v => fu_characters P s v p) (fun s v => fp_characters _ _ _ HP s v p) fl str) as [G1 G2].
        destruct (delegate_flats _ fl str) as [r fl']. cbn in *. split; [split; [reflexivity|exact G1]|]. split; [reflexivity|]. cbn.
        repeat split; [exact HI|congruence].
      + pose proof (fp_characters _ _ _ HP s str p) as G. destruct (fu_characters P s str p) as [r s']. cbn in *. split; [split; [reflexivity|exact G]|].
        split; [reflexivity|]. destruct k as [[]|]; [contradiction|exact I].
    - intros k s1 s2 i [<- Hk].
      enough (H : act_ok (fun a => within (fst a) /\ knd k (snd a)) (v_element (flat_visitors o alg P) s1 i) (v_element (flat_visitors o alg P) s1 i)).
      { destruct (v_element (flat_visitors o alg P) s1 i) as [a|g|s g]; cbn in *.
        - destruct H as [_ [H1 H2]]. split; split; auto.
        - intros x. destruct (H x) as [_ [H1 H2]]. split; split; auto.
        - destruct H as (k' & HR & H). exists k'. split; [exact HR|]. intros x t1 t2 [<- HR']. destruct (H x t1 t1) as [_ [H1 H2]]; [now split|].
          split; split; auto. }
      destruct s1 as [fs ss l fl|s]; cbn [flat_visitors v_element].
      + destruct k as [[fs' n']|]; [|contradiction]. destruct Hk as (-> & HI & Hl). unfold fstruct_element.
        destruct (find_field alg is_element fs' (from_xml_name (ei_name i))) as [q|] eqn:Ef.
        * unfold gstruct_element. rewrite Ef. destruct (find_field_nth _ _ _ _ _ Ef) as (f & Hf & Hsel). rewrite Hf.
          destruct (Forall2_nth _ _ _ _ _ HI Hf) as (s0 & Hs1 & Hi). rewrite Hs1.
          unfold is_element in Hsel. destruct f as [nm md d]; cbn in Hsel. destruct md as [k t| | |]; try discriminate.
          pose proof Hi as Hi'. unfold MixedProofs.slot_inv in Hi'. cbn in Hi'. destruct s0 as [pr m|]; [|tauto].
          apply (act_ok_amap (fun a => within (fst a) /\ exists ss', vs_kind (snd a) = VkStruct fs' ss' /\ Forall2 slot_inv fs' ss')).
          -- eapply act_ok_amap; [apply (field_rel R Q known _ _ deser_ok (Field nm (MElement k t) d)); [reflexivity|exact Hi]|].
             intros [[r sl] l'] [H1 H2]. cbn in *. split; [now apply within_map|]. eexists. split; [reflexivity|].
             exact (Forall2_set _ _ _ _ _ _ HI Hf H2).
          -- intros [r s] (H1 & ss' & H2 & H3). cbn in *. rewrite H2. repeat split; assumption.
        * pose proof (offer_safe fl i) as G. destruct (offer_flats P fl i) as [fl'|act].
          -- cbn. split; [reflexivity|]. split; [intros x; discriminate|]. repeat split; [exact HI|congruence].
          -- eapply act_ok_amap; [exact G|]. intros [r fl'] [G1 G2]. cbn in *. split; [now apply within_map|]. repeat split; [exact HI|congruence].
      + destruct k as [[]|]; [contradiction|]. destruct (fu_element P s i) as [s1|act] eqn:E.
        * cbn. split; [reflexivity|]. split; [intros x; discriminate|exact I].
        * eapply act_ok_amap; [eapply user_ok; exact (fp_element _ _ _ HP _ _ _ E)|]. intros [r s'] H. cbn in *. split; [now apply within_map|exact I].
  Qed.

  Theorem flat_safe dbg fs src fin x : (forall x, reader_abort x -> Q x) -> flat_compiles P known fs ->
    read_flat o alg P dbg fs src fin = Abort x -> Q x.
  Proof.
    intros HQ HC. unfold read_flat.
    refine (proj2 (read_rel R Q HQ dbg _ _ flat_rel (flat_deserialize P fs) (flat_deserialize P fs) _ _) x).
    intros i. exact (struct_ok fs i HC).
  Qed.
End Safe.
