(** What structs with flattened fields that have hand-written visitors leak: proofs. *)
From Verif Require Import Base Normalize Text Find FindProofs Types Reader ReaderSpec ReaderProofs DeSpec DeriveDe DeriveMixed
  MixedProofs ReaderRel MixedUser DeriveFlat FlatSpec FlatProofs MixedLeak FlatLeak FlatLeakSpec.
From Coq Require Import Lia.

Lemma Forall2_step {A B} (R R' : A -> B -> Prop) l ss : Forall2 R l ss -> forall q f sl, nth_error l q = Some f -> R' f sl ->
  (forall p f' s', p <> q -> nth_error l p = Some f' -> R f' s' -> R' f' s') -> Forall2 R' l (set_nth q sl ss).
Proof.
  induction 1 as [|a b l ss Hab HF IH]; intros q f sl Hq Hf Ho; [destruct q; discriminate|].
  destruct q as [|q]; cbn in *.
  - injection Hq as ->. constructor; [assumption|]. clear -HF Ho.
    assert (G : forall p f' s', nth_error l p = Some f' -> R f' s' -> R' f' s') by (intros p f' s' Hp; apply (Ho (S p) f' s'); [discriminate|exact Hp]).
    clear Ho. induction HF as [|a' b' l ss H HF IH]; [constructor|]. constructor; [exact (G 0 _ _ eq_refl H)|]. apply IH. intros p. exact (G (S p)).
  - constructor; [exact (Ho 0 a b ltac:(discriminate) eq_refl Hab)|]. apply (IH _ _ _ Hq Hf). intros p f' s' Hp. apply (Ho (S p)). congruence.
Qed.

Lemma Forall2_at {A B} (R : A -> B -> Prop) l ss : Forall2 R l ss -> forall q f, nth_error l q = Some f ->
  exists s, nth_error ss q = Some s /\ R f s.
Proof. induction 1; intros [|q] f'; cbn; try discriminate; eauto. intros [= ->]. eauto. Qed.

Lemma Forall2_all {A B} (R R' : A -> B -> Prop) l ss : Forall2 R l ss -> (forall f s, In f l -> R f s -> R' f s) -> Forall2 R' l ss.
Proof. induction 1; intros Hi; [constructor|]. constructor; [apply Hi; [now left|assumption]|]. apply IHForall2. intros f s Hf. apply Hi. now right. Qed.

Section Leak.
  Context {St : Type} (o : oracles) (alg : bs_alg) (P : fuser St) (L : losses St).
  Notation V := (flat_visitors o alg P).
  Context (fs : list field) (fl0 : list St).
  Hypothesis N : fine_names fs.
  Hypothesis Hn : new_flats P fs = Some fl0.
  Hypothesis Ht : no_text fs.
  Notation tidy_at := (tidy_at V P).
  Notation got := (got o V P).
  Notation all_got := (all_got o V P L).
  Notation got_until := (got_until o V P L).
  Notation stopped := (stopped V P).
  Notation reach := (reach V P).
  Notation flat_leaks := (flat_leaks o V P L).
  Notation gone := (gone L).

  (** ** The fields of the struct's own *)

  Definition slot_holds (path : list selem) (attrs : list attr) (kids : list node) (f : field) (s : slot) : Prop :=
    (exists v, s = SField true (Some v) /\ got path attrs kids f [v]) \/ (s = SField false None /\ got path attrs kids f []).

  Lemma in_own f : In f (own fs) <-> In f fs /\ is_flatten f = false.
  Proof. unfold own. rewrite filter_In. destruct (is_flatten f); cbn; intuition discriminate. Qed.

  Lemma start path : Forall2 (slot_holds path [] []) (own fs) (map (fun _ => SField false None) (own fs)).
  Proof.
    assert (H : forall f, In f (own fs) -> got path [] [] f []).
    { intros f Hf. apply in_own in Hf as [Hf He]. pose proof (proj1 (Forall_forall _ _) Ht f Hf) as Hm. cbv beta in Hm. unfold is_flatten in He.
      destruct (f_mode f) eqn:E; try discriminate; [eapply got_no_element; eauto|eapply got_no_attribute; eauto|contradiction]. }
    induction (own fs) as [|f l IH]; [constructor|]. constructor; [right; split; [reflexivity|apply H; now left]|]. apply IH. intros g Hg. apply H. now right.
  Qed.

  Lemma got_attr path attrs a kids f v : ~ (is_attribute f = true /\ from_xml_name (a_name a) = expanded (f_name f)) ->
    got path attrs kids f v -> got path (attrs ++ [a]) kids f v.
  Proof.
    intros Hx H. assert (E : is_attribute f = true -> attr_values (expanded (f_name f)) (attrs ++ [a]) = attr_values (expanded (f_name f)) attrs).
    { intros Hi. unfold attr_values. rewrite filter_app, map_app. cbn [filter]. destruct (xn_eqb _ _) eqn:E; [|apply app_nil_r].
      apply xn_eqb_eq in E. tauto. }
    inversion H; subst; [eapply got_element; eauto|eapply got_no_element; eauto|eapply got_attribute|eapply got_no_attribute]; eauto;
      rewrite E; unfold is_attribute; eauto; match goal with M : f_mode f = _ |- _ => now rewrite M end.
  Qed.

  Lemma got_kid path attrs c kids f v : ~ (is_element f = true /\ has_name (expanded (f_name f)) c = true) ->
    got path attrs kids f v -> got path attrs (kids ++ [c]) f v.
  Proof.
    intros Hx H. assert (E : is_element f = true -> named (expanded (f_name f)) (kids ++ [c]) = named (expanded (f_name f)) kids).
    { intros Hi. unfold named. rewrite filter_app. cbn [filter]. destruct (has_name _ _) eqn:E; [tauto|apply app_nil_r]. }
    inversion H; subst; [eapply got_element|eapply got_no_element|eapply got_attribute|eapply got_no_attribute]; eauto;
      rewrite E; unfold is_element; eauto; match goal with M : f_mode f = _ |- _ => now rewrite M end.
  Qed.

  (** ** What is dropped *)

  Lemma flats_length_cons f l fl1 : new_flats P (f :: l) = Some fl1 ->
    exists fl2, new_flats P l = Some fl2 /\ List.length fl1 = (if is_flatten f then S (List.length fl2) else List.length fl2).
  Proof.
    cbn. destruct (new_flats P l) as [fl2|]; [|discriminate]. unfold is_flatten. intros H. exists fl2. split; [reflexivity|].
    destruct (f_mode f); try congruence. destruct (fu_new P id); [|discriminate]. now injection H as <-.
  Qed.

  Lemma own_cons f l : own (f :: l) = if is_flatten f then own l else f :: own l.
  Proof. unfold own. cbn. now destruct (is_flatten f). Qed.

  Lemma all_dropped path attrs kids : forall l fl1, new_flats P l = Some fl1 -> forall ss fl, List.length fl = List.length fl1 ->
    Forall2 (slot_holds path attrs kids) (own l) ss -> all_got path attrs kids l fl (dropped L l ss fl).
  Proof.
    induction l as [|f l IH]; intros fl1 H1 ss fl Hl HF.
    - injection H1 as <-. destruct fl; [|discriminate]. constructor.
    - apply flats_length_cons in H1 as (fl2 & H2 & Hl2). rewrite Hl2 in Hl. rewrite own_cons in HF. cbn [dropped].
      destruct (is_flatten f) eqn:E.
      + destruct fl as [|s fl]; [discriminate|]. injection Hl as Hl. apply ag_flat; [assumption|]. now apply IH with fl2.
      + inversion HF as [|? s ? ss' Hs HF']; subst. apply ag_own; [assumption| |now apply IH with fl2].
        destruct Hs as [(v & -> & Hg)|(-> & Hg)]; exact Hg.
  Qed.

  Lemma until_unfinished path attrs kids : forall l fl1, new_flats P l = Some fl1 -> (forall f, In f l -> In f fs) -> forall ss fl e, List.length fl = List.length fl1 ->
    Forall2 (slot_holds path attrs kids) (own l) ss -> flat_finalize P l ss fl = Err e ->
    got_until path attrs kids l fl (unfinished P L l ss fl).
  Proof.
    induction l as [|f l IH]; intros fl1 H1 Hi ss fl e Hl HF; [discriminate|].
    apply flats_length_cons in H1 as (fl2 & H2 & Hl2). rewrite Hl2 in Hl. rewrite own_cons in HF. cbn [flat_finalize unfinished].
    assert (Hi' : forall f, In f l -> In f fs) by (intros g Hg; apply Hi; now right).
    destruct (is_flatten f) eqn:E.
    - destruct fl as [|s fl]; [discriminate|]. injection Hl as Hl. destruct (fu_finalize P s) as [v|e'|x] eqn:F; cbn [bind]; [| |discriminate].
      + intros H. apply gu_flat; [assumption..|]. apply IH with fl2 e; try assumption.
        destruct (flat_finalize P l ss fl); try discriminate. exact H.
      + intros _. eapply gu_failed; eauto. now apply all_dropped with fl2.
    - inversion HF as [|? s ? ss' Hs HF']; subst. destruct Hs as [(v & -> & Hg)|(-> & Hg)].
      + cbn. intros H. apply gu_own; [assumption|now left|]. apply IH with fl2 e; try assumption.
        destruct (flat_finalize P l ss' fl); try discriminate. exact H.
      + pose proof (proj1 (Forall_forall _ _) Ht f (Hi f (or_introl eq_refl))) as Hm. cbn [finalize_slot].
        destruct (match f_default f with Some v => Ok v | None => missing f end) as [v|e'|x] eqn:D; cbn [bind write_mem map_ok slot_mem opt_list app].
        * intros H. apply gu_own; [assumption| |].
          -- right. split; [assumption|]. destruct (f_default f) as [d|] eqn:Ed; [injection D as ->; now constructor|].
             unfold missing in D. destruct (f_mode f) as [[]|[]|?|?] eqn:Em; try discriminate; injection D as <-;
               [eapply abs_opt|eapply abs_vec|eapply abs_attr]; eauto.
          -- apply IH with fl2 e; try assumption. destruct (flat_finalize P l ss' fl); try discriminate. exact H.
        * intros _. cbn [dropped]. rewrite E. cbn [slot_mem opt_list app]. apply gu_missing; [assumption..| |].
          -- destruct (f_default f) as [d|] eqn:Ed; [discriminate|]. intros v Hv. unfold missing in D.
             inversion Hv as [? A|? A B|? A B|? A B]; subst; rewrite ?Ed in A; try discriminate; rewrite B in D; discriminate.
          -- now apply all_dropped with fl2.
        * discriminate.
  Qed.

  (** ** The visitors of the flattened fields *)

  Lemma reach_length path attrs kids fl : reach path fs fl0 attrs kids fl -> List.length fl = List.length fl0.
  Proof. intros (rest & F). exact (fed_all_length _ _ _ _ _ _ _ _ F). Qed.

  Lemma stopped_length path fl x fl' : stopped path fl x fl' -> List.length fl' = List.length fl.
  Proof. induction 1; cbn; congruence. Qed.

  Lemma stop_attr path n fl : forall v e fl', delegate_flats (fun s v => fu_attribute P s n v) fl v = (Err e, fl') -> stopped path fl (PAttr n v) fl'.
  Proof.
    induction fl as [|s fl IH]; intros v e fl'; cbn [delegate_flats]; [discriminate|].
    destruct (fu_attribute P s n v) as [[[v1|]|e1|x] s1] eqn:E; try discriminate.
    - destruct (delegate_flats _ fl v1) as [r2 fl2] eqn:D. intros [= -> <-]. eapply st_attr_pass; eauto.
    - intros [= <- <-]. eapply st_attr; eauto.
  Qed.

  Lemma stop_text path p fl : forall v e fl', delegate_flats (fun s v => fu_characters P s v p) fl v = (Err e, fl') -> stopped path fl (PText v p) fl'.
  Proof.
    induction fl as [|s fl IH]; intros v e fl'; cbn [delegate_flats]; [discriminate|].
    destruct (fu_characters P s v p) as [[[v1|]|e1|x] s1] eqn:E; try discriminate.
    - destruct (delegate_flats _ fl v1) as [r2 fl2] eqn:D. intros [= -> <-]. eapply st_text_pass; eauto.
    - intros [= <- <-]. eapply st_text; eauto.
  Qed.

  Lemma stop_elem path name attrs ns p kids pe fl : let c := NElem name attrs ns p kids pe in let path' := path ++ [SElem name p] in
    forall act e fl', offer_flats P fl (EInfo name ns (List.length path')) = inr act ->
    fst (sem_act (sem_read V c path) path' p kids pe act) = inl (Err e, fl') -> stopped path fl (PElem c) fl'.
  Proof.
    intros c path'. induction fl as [|s fl IH]; intros act e fl'; cbn [offer_flats]; [discriminate|].
    destruct (fu_element P s _) as [s1|act1] eqn:E.
    - destruct (offer_flats P fl _) as [fl1|act1] eqn:D; [discriminate|]. intros [= <-]. rewrite sem_amap. cbn [fst].
      destruct (fst (sem_act (sem_read V c path) path' p kids pe act1)) as [[r fl2]|x] eqn:R; [|discriminate].
      intros [= -> <-]. eapply st_elem_pass; eauto.
    - intros [= <-]. rewrite sem_amap. cbn [fst].
      destruct (fst (sem_act (sem_read V c path) path' p kids pe act1)) as [[r s1]|x] eqn:R; [|discriminate].
      intros [= -> <-]. eapply st_elem; eauto.
  Qed.

  Lemma spare_attrs_own attrs : spare_attrs (own fs) attrs = spare_attrs fs attrs.
  Proof. unfold spare_attrs. now rewrite own_attributes. Qed.
  Lemma spare_kids_own kids : spare_kids (own fs) kids = spare_kids fs kids.
  Proof. unfold spare_kids. now rewrite own_elements. Qed.

  Lemma reach_attr path attrs a fl fl' rest : reach path fs fl0 attrs [] fl ->
    fed_all V P path fl (map attr_piece (spare_attrs fs [a])) fl' rest -> reach path fs fl0 (attrs ++ [a]) [] fl'.
  Proof.
    intros (r1 & F) F'. exists (r1 ++ rest). unfold pieces, spare_attrs, spare_kids in *. cbn [filter flat_map] in *. rewrite app_nil_r in *.
    rewrite filter_app, map_app. apply fed_all_app. eauto 8.
  Qed.

  Lemma reach_kid path attrs kids c fl fl' rest : reach path fs fl0 attrs kids fl ->
    fed_all V P path fl (flat_map kid_piece (spare_kids fs [c])) fl' rest -> reach path fs fl0 attrs (kids ++ [c]) fl'.
  Proof.
    intros (r1 & F) F'. exists (r1 ++ rest). unfold pieces, spare_kids in *. rewrite filter_app, flat_map_app, app_assoc.
    apply fed_all_app. eauto 8.
  Qed.

  Lemma fine_own : fine_names (own fs).
  Proof. unfold fine_names. now rewrite own_elements, own_attributes. Qed.

  (** ** Attributes *)

  Definition leaks_at path attrs kids (s : fstate St) : Prop :=
    exists ss l fl, s = FStruct (own fs) ss l fl /\ flat_leaks path fs fl0 attrs kids (dropped L fs ss fl ++ l ++ gone fl).

  Lemma attrs_leak path p : forall attrs a0 ss fl, Forall2 (slot_holds path a0 []) (own fs) ss -> reach path fs fl0 a0 [] fl ->
    match sem_attrs V path p attrs (FStruct (own fs) ss [] fl) with
    | (Ok _, s') => exists ss' fl', s' = FStruct (own fs) ss' [] fl' /\
        Forall2 (slot_holds path (a0 ++ attrs) []) (own fs) ss' /\ reach path fs fl0 (a0 ++ attrs) [] fl'
    | (Err _, s') => forall kids, leaks_at path (a0 ++ attrs) kids s'
    | (Abort _, _) => True
    end.
  Proof.
    induction attrs as [|a attrs IH]; intros a0 ss fl HF HR.
    - cbn. rewrite app_nil_r. eauto.
    - cbn [sem_attrs]. pose proof (find_spare_attr alg (own fs) a fine_own) as HS. rewrite spare_attrs_own in HS.
      change (a0 ++ a :: attrs) with (a0 ++ [a] ++ attrs). rewrite app_assoc.
      cbn [flat_visitors v_attribute]. unfold fstruct_attribute.
      destruct (find_field alg is_attribute (own fs) (from_xml_name (a_name a))) as [q|] eqn:Hq.
      + unfold struct_attribute. rewrite Hq.
        pose proof Hq as Hq'. change (lookup alg is_attribute (own fs) (from_xml_name (a_name a)) = Some q) in Hq'.
        apply lookup_spec in Hq' as (f & Hf & Hsel & Hname); [|apply fine_own]. rewrite Hf.
        destruct (Forall2_at _ _ _ HF _ _ Hf) as (s & Hs & Hh). rewrite Hs.
        assert (Hin : In f fs) by (apply nth_error_In in Hf; apply in_own in Hf; tauto).
        assert (Hm : exists opt t, f_mode f = MAttribute opt t) by (unfold is_attribute in Hsel; destruct (f_mode f); try discriminate; eauto).
        destruct Hm as (opt & t & Hm). destruct f as [nm md df]. cbn [f_mode f_name] in *. subst md.
        destruct Hh as [(v & -> & Hg)|(-> & Hg)].
        * cbn [attribute_field map_ok put vs_kind vs_leaked app]. intros kids. do 3 eexists. split; [reflexivity|].
          rewrite <- app_assoc. cbn [app]. eapply fl_own_attribute; [exact HR|exact Hin|reflexivity|exact Hname| |].
          -- left. inversion Hg; subst; cbn [f_mode f_name] in *; try discriminate.
             match goal with X : attr_values _ _ = [_] |- _ => rewrite X end. discriminate.
          -- eapply all_dropped; [exact Hn|exact (reach_length _ _ _ _ HR)|].
             eapply Forall2_step; [exact HF|exact Hf|left; eauto|auto].
        * cbn [attribute_field]. unfold attr_init. destruct (parse_text o t (a_value a)) as [x|m|x] eqn:Px; cbn.
          -- apply IH; [|eapply reach_attr; [exact HR|]; rewrite HS; now apply fed_all_nil].
             eapply Forall2_step; [exact HF|exact Hf| |].
             ++ left. eexists. split; [reflexivity|]. eapply got_attribute; [reflexivity| |exact Px]. cbn [f_name].
                inversion Hg; subst; cbn [f_mode f_name] in *; try discriminate.
                match goal with X : attr_values _ _ = [] |- _ => unfold attr_values in *; rewrite filter_app, map_app, X end. cbn.
                now rewrite Hname, (proj2 (xn_eqb_eq _ _) eq_refl).
             ++ intros p' f' s' Hp' Hf' [(v & -> & Hg')|(-> & Hg')]; [left; eexists; split; [reflexivity|]|right; split; [reflexivity|]];
                (apply got_attr; [|exact Hg']; intros [Hs' Hn']; apply Hp';
                 assert (X : lookup alg is_attribute (own fs) (from_xml_name (a_name a)) = Some p') by (apply lookup_spec; [apply fine_own|]; exists f'; eauto);
                 change (lookup alg is_attribute (own fs) (from_xml_name (a_name a)) = Some q) in Hq; congruence).
          -- intros kids. do 3 eexists. split; [reflexivity|].
             rewrite <- app_assoc. cbn [app]. eapply fl_own_attribute; [exact HR|exact Hin|reflexivity|exact Hname| |].
             ++ right. eauto.
             ++ eapply all_dropped; [exact Hn|exact (reach_length _ _ _ _ HR)|].
                eapply Forall2_step; [exact HF|exact Hf|right; eauto|auto].
          -- exact I.
      + destruct (delegate_flats (fun s v => fu_attribute P s (from_xml_name (a_name a)) v) fl (a_value a)) as [r fl1] eqn:D.
        destruct r as [r|e|x].
        * apply (attr_step o alg P path) in D. apply IH.
          -- eapply Forall2_all; [exact HF|]. intros f s Hf [(v & -> & Hg)|(-> & Hg)]; [left; eexists; split; [reflexivity|]|right; split; [reflexivity|]];
             (apply got_attr; [|exact Hg]; intros [Hs' Hn']; apply In_nth_error in Hf as (p' & Hp');
              assert (X : lookup alg is_attribute (own fs) (from_xml_name (a_name a)) = Some p') by (apply lookup_spec; [apply fine_own|]; exists f; eauto);
              change (lookup alg is_attribute (own fs) (from_xml_name (a_name a)) = None) in Hq; congruence).
          -- eapply reach_attr; [exact HR|]. rewrite HS. exact D.
        * apply (stop_attr path) in D. intros kids. do 3 eexists. split; [reflexivity|]. rewrite <- app_assoc. cbn [app].
          eapply fl_flat_attribute; [exact HR| |exact D|].
          -- change (lookup alg is_attribute (own fs) (from_xml_name (a_name a)) = None) in Hq. apply lookup_none in Hq; [|apply fine_own].
             now rewrite own_attributes in Hq.
          -- eapply all_dropped; [exact Hn| |exact HF]. rewrite (stopped_length _ _ _ _ D). exact (reach_length _ _ _ _ HR).
        * exact I.
  Qed.

  (** ** Children *)

  Lemma occurs_more path t k cs c old v : occurs (gives V P path t) KVec cs (VVec old) -> gives V P path t c v -> k = KVec ->
    occurs (gives V P path t) k (cs ++ [c]) (VVec (old ++ [v])).
  Proof.
    intros H Hv ->. inversion H; subst. constructor; [now destruct cs|]. apply Forall2_app; auto.
  Qed.

  Lemma kids_leak path fin attrs : forall kids k0 ss fl, (forall c, In c kids -> tidy_at path c) ->
    Forall2 (slot_holds path attrs k0) (own fs) ss -> reach path fs fl0 attrs k0 fl ->
    match fst (sem_kids V (sem_read V) path fin kids (FStruct (own fs) ss [] fl)) with
    | (Ok _, s') => exists ss' fl', s' = FStruct (own fs) ss' [] fl' /\
        Forall2 (slot_holds path attrs (k0 ++ kids)) (own fs) ss' /\ reach path fs fl0 attrs (k0 ++ kids) fl'
    | (Err _, s') => leaks_at path attrs (k0 ++ kids) s'
    | (Abort _, _) => True
    end.
  Proof.
    induction kids as [|c kids IH]; intros k0 ss fl Htidy HF HR.
    - cbn. rewrite app_nil_r. eauto.
    - pose proof (Htidy c (or_introl eq_refl)) as Hc0. specialize (fun k0 ss fl => IH k0 ss fl (fun c H => Htidy c (or_intror H))). clear Htidy.
      assert (Skip : (forall n, has_name n c = false) -> Forall2 (slot_holds path attrs (k0 ++ [c])) (own fs) ss).
      { intros Hno. eapply Forall2_all; [exact HF|]. intros f s Hf [(v & -> & Hg)|(-> & Hg)]; [left; eexists; split; [reflexivity|]|right; split; [reflexivity|]];
          (apply got_kid; [|exact Hg]; intros [_ Hx]; rewrite Hno in Hx; discriminate). }
      cbn [sem_kids]. change (k0 ++ c :: kids) with (k0 ++ [c] ++ kids). rewrite app_assoc.
      destruct c as [name cattrs ns p kids1 pe|e str p|m1 m2|b1 b2].
      + clear Skip. set (path' := path ++ [SElem name p]). pose proof (find_spare_kid alg (own fs) name cattrs ns p kids1 pe fine_own) as HS. cbv zeta in HS.
        set (c := NElem name cattrs ns p kids1 pe) in *. rewrite spare_kids_own in HS.
        cbn [flat_visitors v_element]. unfold fstruct_element. cbn [ei_name].
        destruct (find_field alg is_element (own fs) (from_xml_name name)) as [q|] eqn:Hq.
        * rewrite sem_amap. unfold gstruct_element. cbn [ei_name]. rewrite Hq.
          pose proof Hq as Hq'. change (lookup alg is_element (own fs) (from_xml_name name) = Some q) in Hq'.
          apply lookup_spec in Hq' as (f & Hf & Hsel & Hname); [|apply fine_own]. rewrite Hf.
          destruct (Forall2_at _ _ _ HF _ _ Hf) as (s & Hs & Hh). rewrite Hs.
          assert (Hin : In f fs) by (apply nth_error_In in Hf; apply in_own in Hf; tauto).
          assert (Hm : exists k t, f_mode f = MElement k t) by (unfold is_element in Hsel; destruct (f_mode f); try discriminate; eauto).
          destruct Hm as (k & t & Hm). destruct f as [nm md df]. cbn [f_mode f_name] in *. subst md.
          assert (Hhas : has_name (expanded nm) c = true) by (cbn; rewrite Hname; now apply xn_eqb_eq).
          assert (Hother : forall sl, slot_holds path attrs (k0 ++ [c]) (Field nm (MElement k t) df) sl ->
            Forall2 (slot_holds path attrs (k0 ++ [c])) (own fs) (set_nth q sl ss)).
          { intros sl Hsl. eapply Forall2_step; [exact HF|exact Hf|exact Hsl|].
            intros p' f' s' Hp' Hf' [(v & -> & Hg')|(-> & Hg')]; [left; eexists; split; [reflexivity|]|right; split; [reflexivity|]];
              (apply got_kid; [|exact Hg']; intros [Hs' Hn']; apply Hp'; cbn in Hn'; apply xn_eqb_eq in Hn';
               assert (X : lookup alg is_element (own fs) (from_xml_name name) = Some p') by (apply lookup_spec; [apply fine_own|]; exists f'; eauto);
               change (lookup alg is_element (own fs) (from_xml_name name) = Some q) in Hq; congruence). }
          assert (Hnamed : named (expanded nm) (k0 ++ [c]) = named (expanded nm) k0 ++ [c]).
          { unfold named. rewrite filter_app. cbn [filter]. now rewrite Hhas. }
          assert (HR' : reach path fs fl0 attrs (k0 ++ [c]) fl).
          { eapply reach_kid; [exact HR|]. rewrite HS. now apply fed_all_nil. }
          assert (Hsame : forall sl, nth_error ss q = Some sl -> set_nth q sl ss = ss).
          { clear. intros sl. revert q. induction ss as [|y l IH]; intros [|q]; cbn; try congruence. intro. f_equal. auto. }
          destruct (sem_act (sem_read V c path) path' p kids1 pe (fu_deserialize P t (EInfo name ns (List.length path')))) as [R pl] eqn:ER.
          assert (Hct : forall r l, R = inl (r, l) -> comes_to V P path t c (r, l)) by (intros r l ->; exact (f_equal fst ER)).
          destruct Hh as [(old & -> & Hg)|(-> & Hg)].
          -- assert (Hocc : occurs (gives V P path t) k (named (expanded nm) k0) old) by (inversion Hg; subst; cbn [f_mode f_name] in *; try discriminate; congruence).
             cbn [gelement_field].
             assert (Hdup : k <> KVec -> leaks_at path attrs ((k0 ++ [c]) ++ kids) (FStruct (own fs) (set_nth q (SField true (Some old)) ss) [] fl)).
             { intros Hk. do 3 eexists. split; [reflexivity|]. rewrite <- app_assoc. cbn [app].
               eapply fl_duplicate; [exact HR|exact Hin|reflexivity|exact Hk|exact Hhas| |].
               - cbn [f_name]. inversion Hocc; subst; [discriminate|discriminate|]. congruence.
               - rewrite Hsame by exact Hs. eapply all_dropped; [exact Hn|exact (reach_length _ _ _ _ HR)|exact HF]. }
             destruct k; cbn [gfield_update].
             ++ apply Hdup. discriminate.
             ++ apply Hdup. discriminate.
             ++ rewrite !sem_amap, ER. destruct R as [[[v|e|x] l]|x]; cbn [fst snd bind map_ok].
                ** pose proof (Hct _ _ eq_refl) as Hv. pose proof (Hc0 _ _ _ Hv) as ->. inversion Hocc as [| |cs vs Hcs Hvs]; subst. cbn.
                   apply IH; [|exact HR']. apply Hother. left. eexists. split; [reflexivity|]. eapply got_element; [reflexivity|]. cbn [f_name].
                   rewrite Hnamed. apply (occurs_more path t KVec _ c vs v); auto.
                ** cbn. rewrite Hsame by exact Hs. do 3 eexists. split; [reflexivity|]. rewrite app_nil_r, <- app_assoc. cbn [app].
                   eapply fl_own_child; [exact HR|exact Hin|reflexivity|exact Hhas|now left|exact (Hct _ _ eq_refl)|].
                   eapply all_dropped; [exact Hn|exact (reach_length _ _ _ _ HR)|exact HF].
                ** exact I.
                ** exact I.
          -- assert (Hnone : named (expanded nm) k0 = []) by (inversion Hg; subst; cbn [f_mode f_name] in *; try discriminate; congruence).
             cbn [gelement_field]. unfold gfield_init. rewrite !sem_amap, ER. destruct R as [[[v|e|x] l]|x]; cbn [fst snd bind map_ok].
             ++ pose proof (Hct _ _ eq_refl) as Hv. pose proof (Hc0 _ _ _ Hv) as ->. cbn.
                apply IH; [|exact HR']. apply Hother. left. eexists. split; [reflexivity|]. eapply got_element; [reflexivity|]. cbn [f_name].
                rewrite Hnamed, Hnone. cbn [app]. destruct k; cbn; constructor; try exact Hv; [discriminate|]. constructor; [exact Hv|constructor].
             ++ cbn. rewrite Hsame by exact Hs. do 3 eexists. split; [reflexivity|]. rewrite app_nil_r, <- app_assoc. cbn [app].
                eapply fl_own_child; [exact HR|exact Hin|reflexivity|exact Hhas|now right|exact (Hct _ _ eq_refl)|].
                eapply all_dropped; [exact Hn|exact (reach_length _ _ _ _ HR)|exact HF].
             ++ exact I.
             ++ exact I.
        * assert (Hno : name_in (field_names is_element fs) c = false).
          { change (lookup alg is_element (own fs) (from_xml_name name) = None) in Hq. apply lookup_none in Hq; [|apply fine_own].
            rewrite own_elements in Hq. destruct (name_in _ c) eqn:E; [|reflexivity]. exfalso. apply Hq. unfold name_in in E.
            apply existsb_exists in E as (n & Hi & He). cbn in He. apply xn_eqb_eq in He as <-. exact Hi. }
          assert (Hkeep : Forall2 (slot_holds path attrs (k0 ++ [c])) (own fs) ss).
          { eapply Forall2_all; [exact HF|]. intros f s Hf [(v & -> & Hg)|(-> & Hg)]; [left; eexists; split; [reflexivity|]|right; split; [reflexivity|]];
             (apply got_kid; [|exact Hg]; intros [Hs' Hn']; apply In_nth_error in Hf as (p' & Hp'); cbn in Hn'; apply xn_eqb_eq in Hn';
              assert (X : lookup alg is_element (own fs) (from_xml_name name) = Some p') by (apply lookup_spec; [apply fine_own|]; exists f; eauto);
              change (lookup alg is_element (own fs) (from_xml_name name) = None) in Hq; congruence). }
          pose proof (elem_step o alg P path name cattrs ns p kids1 pe fl) as G. cbv zeta in G. fold path' c in G.
          pose proof (stop_elem path name cattrs ns p kids1 pe fl) as G2. cbv zeta in G2. fold path' c in G2.
          destruct (offer_flats P fl (EInfo name ns (List.length path'))) as [fl1|act].
          -- cbn [sem_act]. apply IH; [exact Hkeep|]. eapply reach_kid; [exact HR|]. rewrite HS. cbn [flat_map kid_piece app].
             exact (proj1 (G true fl1) eq_refl).
          -- rewrite sem_amap. specialize (G2 act). destruct (sem_act (sem_read V c path) path' p kids1 pe act) as [[[[[]|e|x] fl1]|x] pl]; cbn [fst snd map_ok] in *.
             ++ apply IH; [exact Hkeep|]. eapply reach_kid; [exact HR|]. rewrite HS. cbn [flat_map kid_piece app]. exact (proj1 (G false fl1) eq_refl).
             ++ pose proof (G2 _ _ eq_refl eq_refl) as D. do 3 eexists. split; [reflexivity|]. rewrite <- app_assoc. cbn [app].
                eapply fl_flat_child; [exact HR|exact Hno|reflexivity|exact D|].
                eapply all_dropped; [exact Hn| |exact HF]. rewrite (stopped_length _ _ _ _ D). exact (reach_length _ _ _ _ HR).
             ++ exact I.
             ++ exact I.
      + specialize (Skip (fun _ => eq_refl)).
        assert (Hno : name_in (field_names is_element fs) (NText e str p) = false) by (unfold name_in; cbn [has_name]; now induction (field_names is_element fs)).
        assert (HS : spare_kids fs [NText e str p] = [NText e str p]) by (unfold spare_kids; cbn [filter]; now rewrite Hno).
        cbn [flat_visitors v_characters]. unfold fstruct_characters.
        destruct (delegate_flats (fun s v => fu_characters P s v p) fl str) as [r fl1] eqn:D. destruct r as [r|er|x].
        * apply IH; [exact Skip|]. apply (text_step o alg P path) in D. eapply reach_kid; [exact HR|]. rewrite HS. exact D.
        * apply (stop_text path) in D. do 3 eexists. split; [reflexivity|]. rewrite <- app_assoc. cbn [app].
          eapply fl_flat_child; [exact HR|exact Hno|reflexivity|exact D|].
          eapply all_dropped; [exact Hn| |exact HF]. rewrite (stopped_length _ _ _ _ D). exact (reach_length _ _ _ _ HR).
        * exact I.
      + apply IH; [exact (Skip (fun _ => eq_refl))|]. eapply reach_kid; [exact HR|].
        assert (HS : flat_map kid_piece (spare_kids fs [NMisc m1 m2]) = []) by (unfold spare_kids; cbn [filter]; destruct (negb _); reflexivity).
        rewrite HS. now apply fed_all_nil.
      + apply IH; [exact (Skip (fun _ => eq_refl))|]. eapply reach_kid; [exact HR|].
        assert (HS : flat_map kid_piece (spare_kids fs [NBlank b1 b2]) = []) by (unfold spare_kids; cbn [filter]; destruct (negb _); reflexivity).
        rewrite HS. now apply fed_all_nil.
  Qed.

  (** ** The struct *)

  Definition fresh : fstate St := FStruct (own fs) (map (fun _ => SField false None) (own fs)) [] fl0.

  Lemma read_leak name attrs ns p kids pe parents :
    let path := parents ++ [SElem name p] in
    (forall c, In c kids -> tidy_at path c) ->
    match fst (sem_read V (NElem name attrs ns p kids pe) parents fresh) with
    | (Ok _, s') => exists ss' fl', s' = FStruct (own fs) ss' [] fl' /\
        Forall2 (slot_holds path attrs kids) (own fs) ss' /\ reach path fs fl0 attrs kids fl'
    | (Err _, s') => leaks_at path attrs kids s'
    | (Abort _, _) => True
    end.
  Proof.
    intros path Htidy. cbn [sem_read]. fold path.
    assert (HR : reach path fs fl0 [] [] fl0) by (exists []; now apply fed_all_nil).
    pose proof (attrs_leak path p attrs [] _ fl0 (start path) HR) as HA. cbn [app] in HA. fold fresh in HA.
    destruct (sem_attrs V path p attrs fresh) as [[[]|e|x] s1].
    - destruct HA as (ss1 & fl1 & -> & HF & HR1). exact (kids_leak path (name, ns, pe) attrs kids [] ss1 fl1 Htidy HF HR1).
    - apply HA.
    - exact I.
  Qed.

  Lemma leaked_sem dbg {A} (D : einfo -> action (fstate St) (res verr A * list value)) d pe :
    (dbg = true -> propagating V) -> (forall i, propagating_act (fun a => forall v, fst a <> Ok v) (D i)) ->
    leaked dbg V D (doc_events d) (FEndDocument pe) =
    match fst (sem_act (sem_read V (d_root d) []) [SElem (d_name d) (d_pos d)] (d_pos d) (d_kids d) (d_pe d) (D (EInfo (d_name d) (d_ns d) 1))) with
    | inl (_, l) => l
    | inr _ => []
    end.
  Proof.
    intros Hp HD. unfold leaked. destruct (root_doc dbg d pe) as (rest & _ & ->).
    set (r1 := at_elem _ _ _ _ _ _ _). unfold r1 at 1. cbn [at_elem r_stack app nth_error se_name].
    set (act := D _).
    assert (HA : agrees_act dbg (fun x => is_ok (fst x)) (FEndDocument pe) [] rest
      (run_action dbg V (read_loop dbg V (S (List.length (r_src r1)))) 0 (d_attrs d) (d_ns d) act r1)
      (sem_act (sem_read V (d_root d) []) [SElem (d_name d) (d_pos d)] (d_pos d) (d_kids d) (d_pe d) act)).
    { apply (run_action_sem dbg V).
      - apply read_loop_sem. exact Hp.
      - unfold r1. cbn [at_elem r_src]. rewrite app_length. lia.
      - intros _. specialize (HD (EInfo (d_name d) (d_ns d) 1)). fold act in HD.
        destruct act as [a|k|s0 k]; cbn in *; auto; intros.
        + specialize (HD e). destruct (fst _); cbn; auto. now destruct (HD a).
        + specialize (HD e s). destruct (fst _); cbn; auto. now destruct (HD a). }
    unfold agrees_act in HA. destruct (sem_act _ _ _ _ _ act) as [[[x l]|x] pl]; cbn [fst snd] in HA |- *.
    - destruct HA as (r' & -> & _). reflexivity.
    - destruct (run_action _ _ _ _ _ _ _ _) as [? ?]. cbn in HA. subst. reflexivity.
  Qed.

  Lemma lflat_propagating i : propagating_act (fun a => forall v, fst a <> Ok v) (lflat_deserialize P L fs i).
  Proof. unfold lflat_deserialize. rewrite Hn. intros e [fs' ss l fl|s] v; discriminate. Qed.

  Theorem leak_when_read dbg d pe v : tidy V P -> (dbg = true -> flat_strict P) ->
    read_flat o alg P dbg fs (doc_events d) (FEndDocument pe) = Ok v ->
    exists fl, reach [SElem (d_name d) (d_pos d)] fs fl0 (d_attrs d) (d_kids d) fl /\
      leaked_flat o alg P L dbg fs (doc_events d) (FEndDocument pe) = gone fl.
  Proof.
    intros Htidy Hp. assert (HV : dbg = true -> propagating V) by (intros D; exact (strict_propagating o alg P (Hp D))).
    unfold read_flat, leaked_flat. rewrite read_sem by (intros D; split; [exact (HV D)|apply flat_propagating]).
    rewrite leaked_sem by (exact HV || exact lflat_propagating).
    unfold sem_doc, flat_deserialize, lflat_deserialize. rewrite Hn. cbn [sem_act].
    pose proof (read_leak (d_name d) (d_attrs d) (d_ns d) (d_pos d) (d_kids d) (d_pe d) [] (fun c _ => Htidy _ c)) as H. cbv zeta in H. cbn [app] in H.
    fold (d_root d) fresh in H |- *. destruct (sem_read V (d_root d) [] fresh) as [[[x|e|x] s] pl]; cbn [fst] in *; try discriminate.
    destruct H as (ss & fl & -> & HF & HR). destruct (flat_finalize P fs ss fl) as [vs|e|y]; try discriminate. intros _.
    exists fl. split; [exact HR|reflexivity].
  Qed.

  Theorem leak_when_not dbg d pe e : tidy V P -> (dbg = true -> flat_strict P) ->
    read_flat o alg P dbg fs (doc_events d) (FEndDocument pe) = Err e ->
    flat_leaks [SElem (d_name d) (d_pos d)] fs fl0 (d_attrs d) (d_kids d)
      (leaked_flat o alg P L dbg fs (doc_events d) (FEndDocument pe)).
  Proof.
    intros Htidy Hp. assert (HV : dbg = true -> propagating V) by (intros D; exact (strict_propagating o alg P (Hp D))).
    unfold read_flat, leaked_flat. rewrite read_sem by (intros D; split; [exact (HV D)|apply flat_propagating]).
    rewrite leaked_sem by (exact HV || exact lflat_propagating).
    unfold sem_doc, flat_deserialize, lflat_deserialize. rewrite Hn. cbn [sem_act].
    pose proof (read_leak (d_name d) (d_attrs d) (d_ns d) (d_pos d) (d_kids d) (d_pe d) [] (fun c _ => Htidy _ c)) as H. cbv zeta in H. cbn [app] in H.
    fold (d_root d) fresh in H |- *. destruct (sem_read V (d_root d) [] fresh) as [[[x|e'|x] s] pl]; cbn [fst] in *; try discriminate.
    - destruct H as (ss & fl & -> & HF & HR). destruct (flat_finalize P fs ss fl) as [vs|e'|y] eqn:F; try discriminate. intros _.
      cbn [fst map_ok app]. apply fl_incomplete; [exact HR|].
      eapply until_unfinished; [exact Hn|auto|exact (reach_length _ _ _ _ HR)|exact HF|exact F].
    - destruct H as (ss & l & fl & -> & H). intros _. exact H.
  Qed.
End Leak.

(** ** Recording does not change what is read *)

Section Recording.
  Context {St : Type} (o : oracles) (alg : bs_alg) (P : fuser St) (L : losses St).

  Definition alike (_ : unit) (s1 s2 : fstate St) : Prop := s1 = s2.

  Theorem flat_recorded dbg fs src fin :
    read dbg (flat_visitors o alg P) (fun i => amap fst (lflat_deserialize P L fs i)) (reader_new src fin) = read_flat o alg P dbg fs src fin.
  Proof.
    unfold read_flat. refine (proj1 (read_rel alike anyhow (fun _ _ => I) dbg _ _ _ _ _ _ _)).
    - constructor.
      + intros k s1 s2 n v ->. split; [apply just_agree|reflexivity].
      + intros k s1 s2 str p ->. split; [apply just_agree|reflexivity].
      + intros k s1 s2 i ->. destruct (v_element _ s2 i) as [a|k'|s0 k']; cbn.
        * split; [apply just_agree|reflexivity].
        * intros x. split; [apply just_agree|reflexivity].
        * exists tt. split; [reflexivity|]. intros x s1' s2' ->. split; [apply just_agree|reflexivity].
    - intros i. unfold lflat_deserialize, flat_deserialize. destruct (new_flats P fs) as [fl|]; cbn; [|apply just_agree].
      exists tt. split; [reflexivity|]. intros [x|e] s1 s2 ->; destruct s2; apply just_agree.
  Qed.
End Recording.

(** ** Nested structs *)

Section Nested.
  Context {St : Type} (o : oracles) (alg : bs_alg) (P : fuser St) (L : losses St).
  Notation V := (flat_visitors o alg P).

  Lemma gone_nil fl : (forall s, lo_gone L s = []) -> gone L fl = [].
  Proof. intros Hg. unfold gone. induction fl as [|s fl IH]; [reflexivity|]. cbn. now rewrite Hg, IH. Qed.

  Theorem nested_tidy : nested_structs P L -> tidy V P.
  Proof.
    intros [Hg Hd]. intros path c. revert path.
    induction c as [name attrs ns p kids pe IH| | |] using node_ind'; intros path t v l; try contradiction.
    { unfold comes_to. set (path' := path ++ [SElem name p]). set (c := NElem name attrs ns p kids pe) in *. intros H.
      destruct (Hd t) as [(fs & fl & N1 & N2 & Hf & Hm & Hs)|Hl].
      - rewrite Hs in H. unfold lflat_deserialize in H. rewrite Hf in H. cbn [sem_act] in H.
        pose proof (read_leak o alg P L fs fl (conj N1 N2) Hf Hm name attrs ns p kids pe path) as R. cbv zeta in R. fold path' c in R.
        assert (Hk : forall c0, In c0 kids -> tidy_at V P path' c0).
        { intros c0 Hc. exact (proj1 (Forall_forall _ _) IH c0 Hc path'). }
        specialize (R Hk). unfold fresh in R.
        destruct (sem_read V c path _) as [[[x|e|x] s] pl]; cbn [fst] in *; try discriminate.
        + destruct R as (ss & fl' & -> & _ & _). destruct (flat_finalize P fs ss fl'); cbn in H; injection H as H1 H2; try discriminate.
          subst l. apply (gone_nil fl' Hg).
        + destruct R as (ss & l' & fl' & -> & _). injection H as H1 H2. discriminate.
      - specialize (Hl (EInfo name ns (List.length path'))). destruct (fu_deserialize P t _) as [a|k|s0 k]; cbn [sem_act leaks_none] in *.
        + cbn in H. injection H as ->. exact (Hl v eq_refl).
        + destruct (sem_string _ _ _ _) as [[str|e|x] pl]; cbn in H; try discriminate; injection H as H;
            [specialize (Hl (inl str) v)|specialize (Hl (inr (Propagate e)) v)]; rewrite H in Hl; now apply Hl.
        + destruct (sem_read V c path s0) as [[[x|e|x] s] pl]; cbn in H; try discriminate; injection H as H;
            [specialize (Hl (inl x) s v)|specialize (Hl (inr (Propagate e)) s v)]; rewrite H in Hl; now apply Hl. }
  Qed.
End Nested.
