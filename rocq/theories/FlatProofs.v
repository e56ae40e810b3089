(** Flattened fields with hand-written visitors: a struct reads its fields as if there were no flattened ones, and these
    get the rest. *)
From Verif Require Import Base Normalize Text Find FindProofs Types Reader ReaderSpec ReaderProofs DeSpec DeriveDe DeriveMixed
  MixedProofs DeriveFlat FlatSpec.
From Coq Require Import Lia.

Section Proofs.
  Context {St : Type} (o : oracles) (alg : bs_alg) (P : fuser St).
  Notation V := (flat_visitors o alg P).
  Notation fed := (fed V P).
  Notation fed_all := (fed_all V P).

  (** ** Feeding *)

  Lemma fed_app path s a : forall b s' rest, fed path s (a ++ b) s' rest <->
    exists s1 r1 r2, fed path s a s1 r1 /\ fed path s1 b s' r2 /\ rest = r1 ++ r2.
  Proof.
    revert s. induction a as [|x a IH]; intros s b s' rest; cbn [app].
    - split.
      + intros H. exists s, [], rest. repeat split; [constructor|assumption].
      + intros (s1 & r1 & r2 & H1 & H2 & ->). inversion H1; subst. assumption.
    - split.
      + intros H. inversion H; subst;
          match goal with X : FlatSpec.fed _ _ _ _ (a ++ b) _ _ |- _ => apply IH in X as (s2 & q1 & q2 & X1 & X2 & ->) end.
        * exists s2, q1, q2. split; [eapply fed_attr_take; eauto|auto].
        * exists s2, (PAttr n v1 :: q1), q2. split; [eapply fed_attr_pass; eauto|auto].
        * exists s2, q1, q2. split; [eapply fed_text_take; eauto|auto].
        * exists s2, (PText str1 p :: q1), q2. split; [eapply fed_text_pass; eauto|auto].
        * exists s2, q1, q2. split; [eapply fed_elem_take; eauto|auto].
        * exists s2, (PElem c :: q1), q2. split; [eapply fed_elem_pass; eauto|auto].
      + intros (s1 & r1 & r2 & H1 & H2 & ->). inversion H1; subst; cbn [app];
          try (eapply fed_attr_take; eauto; apply IH; eauto 8; fail); try (eapply fed_attr_pass; eauto; apply IH; eauto 8; fail);
          try (eapply fed_text_take; eauto; apply IH; eauto 8; fail); try (eapply fed_text_pass; eauto; apply IH; eauto 8; fail);
          try (eapply fed_elem_take; eauto; apply IH; eauto 8; fail); try (eapply fed_elem_pass; eauto; apply IH; eauto 8; fail).
  Qed.

  Lemma fed_all_app path fl : forall a b fl' rest, fed_all path fl (a ++ b) fl' rest <->
    exists fl1 r1 r2, fed_all path fl a fl1 r1 /\ fed_all path fl1 b fl' r2 /\ rest = r1 ++ r2.
  Proof.
    induction fl as [|s fl IH]; intros a b fl' rest.
    - split.
      + intros H. inversion H; subst. exists [], a, b. repeat split; constructor.
      + intros (fl1 & r1 & r2 & H1 & H2 & ->). inversion H1; subst. inversion H2; subst. constructor.
    - split.
      + intros H. inversion H as [|? ? ? s' rest1 fl1 ? HF HA]; subst. apply fed_app in HF as (s1 & q1 & q2 & X1 & X2 & ->).
        apply IH in HA as (fl2 & u1 & u2 & Y1 & Y2 & ->). exists (s1 :: fl2), u1, u2.
        split; [econstructor; eauto|]. split; [econstructor; eauto|reflexivity].
      + intros (fl1 & r1 & r2 & H1 & H2 & ->). inversion H1 as [|? ? ? s1 q1 fl2 ? F1 A1]; subst. inversion H2 as [|? ? ? s2 q2 fl3 ? F2 A2]; subst.
        apply fa_cons with (rest := q1 ++ q2); [apply fed_app; eauto 8|apply IH; eauto 8].
  Qed.

  Lemma fed_all_nil path fl : forall fl' rest, fed_all path fl [] fl' rest <-> fl' = fl /\ rest = [].
  Proof.
    induction fl as [|s fl IH]; intros fl' rest; split.
    - intros H; inversion H; auto.
    - intros [-> ->]. constructor.
    - intros H. inversion H as [|? ? ? s' r1 fl1 ? HF HA]; subst. inversion HF; subst. apply IH in HA as [-> ->]. auto.
    - intros [-> ->]. econstructor; [constructor|]. now apply IH.
  Qed.

  (** Nothing is left by a visitor that takes everything. *)
  Lemma fed_greedy path : (forall s n v v1, fst (fu_attribute P s n v) <> Ok (Some v1)) ->
    (forall s str p str1, fst (fu_characters P s str p) <> Ok (Some str1)) -> (forall s i s1, fu_element P s i <> Pass s1) ->
    forall ps s s' rest, fed path s ps s' rest -> rest = [].
  Proof.
    intros Ha Hc He. induction 1; try reflexivity; try assumption.
    - exfalso. eapply Ha. match goal with H : _ = _ |- _ => now rewrite H end.
    - exfalso. eapply Hc. match goal with H : _ = _ |- _ => now rewrite H end.
    - exfalso. eapply He. eassumption.
  Qed.

  Theorem greedy path s fl ps s' fl' rest : (forall s n v v1, fst (fu_attribute P s n v) <> Ok (Some v1)) ->
    (forall s str p str1, fst (fu_characters P s str p) <> Ok (Some str1)) -> (forall s i s1, fu_element P s i <> Pass s1) ->
    fed_all path (s :: fl) ps (s' :: fl') rest -> fl' = fl /\ rest = [].
  Proof.
    intros Ha Hc He H. inversion H as [|? ? ? ? r1 ? ? F A]; subst. apply fed_greedy in F as ->; try assumption.
    now apply fed_all_nil in A.
  Qed.

  (** ** One part *)

  Lemma attr_step path n fl : forall v r fl', delegate_flats (fun s v => fu_attribute P s n v) fl v = (Ok r, fl') <->
    fed_all path fl [PAttr n v] fl' (match r with Some v1 => [PAttr n v1] | None => [] end).
  Proof.
    induction fl as [|s fl IH]; intros v r fl'; cbn [delegate_flats].
    - split.
      + intros [= <- <-]. constructor.
      + intros H. inversion H; subst. destruct r; [|discriminate]. congruence.
    - destruct (fu_attribute P s n v) as [[[v1|]|e|x] s1] eqn:E.
      + destruct (delegate_flats _ fl v1) as [r2 fl2] eqn:D. split.
        * intros [= -> <-]. apply fa_cons with (rest := [PAttr n v1]); [eapply fed_attr_pass; eauto; constructor|]. now apply IH.
        * intros H. inversion H as [|? ? ? s2 q fl3 ? F A]; subst. inversion F as [|? ? ? ? ? ? ? E' F'|? ? ? ? ? ? ? ? E' F'| | | |]; subst; [congruence|].
          rewrite E in E'. injection E' as <- <-. inversion F'; subst. apply IH in A. congruence.
      + split.
        * intros [= <- <-]. apply fa_cons with (rest := []); [eapply fed_attr_take; eauto; constructor|]. now apply fed_all_nil.
        * intros H. inversion H as [|? ? ? s2 q fl3 ? F A]; subst. inversion F as [|? ? ? ? ? ? ? E' F'|? ? ? ? ? ? ? ? E' F'| | | |]; subst; [|congruence].
          rewrite E in E'. injection E' as <-. inversion F'; subst. apply fed_all_nil in A as [-> Hr]. destruct r; [discriminate|reflexivity].
      + split; [discriminate|]. intros H. inversion H as [|? ? ? s2 q fl3 ? F A]; subst. inversion F; subst; congruence.
      + split; [discriminate|]. intros H. inversion H as [|? ? ? s2 q fl3 ? F A]; subst. inversion F; subst; congruence.
  Qed.

  Lemma text_step path p fl : forall v r fl', delegate_flats (fun s v => fu_characters P s v p) fl v = (Ok r, fl') <->
    fed_all path fl [PText v p] fl' (match r with Some v1 => [PText v1 p] | None => [] end).
  Proof.
    induction fl as [|s fl IH]; intros v r fl'; cbn [delegate_flats].
    - split.
      + intros [= <- <-]. constructor.
      + intros H. inversion H; subst. destruct r; [|discriminate]. congruence.
    - destruct (fu_characters P s v p) as [[[v1|]|e|x] s1] eqn:E.
      + destruct (delegate_flats _ fl v1) as [r2 fl2] eqn:D. split.
        * intros [= -> <-]. apply fa_cons with (rest := [PText v1 p]); [eapply fed_text_pass; eauto; constructor|]. now apply IH.
        * intros H. inversion H as [|? ? ? s2 q fl3 ? F A]; subst. inversion F as [| | |? ? ? ? ? ? ? E' F'|? ? ? ? ? ? ? ? E' F'| |]; subst; [congruence|].
          rewrite E in E'. injection E' as <- <-. inversion F'; subst. apply IH in A. congruence.
      + split.
        * intros [= <- <-]. apply fa_cons with (rest := []); [eapply fed_text_take; eauto; constructor|]. now apply fed_all_nil.
        * intros H. inversion H as [|? ? ? s2 q fl3 ? F A]; subst. inversion F as [| | |? ? ? ? ? ? ? E' F'|? ? ? ? ? ? ? ? E' F'| |]; subst; [|congruence].
          rewrite E in E'. injection E' as <-. inversion F'; subst. apply fed_all_nil in A as [-> Hr]. destruct r; [discriminate|reflexivity].
      + split; [discriminate|]. intros H. inversion H as [|? ? ? s2 q fl3 ? F A]; subst. inversion F; subst; congruence.
      + split; [discriminate|]. intros H. inversion H as [|? ? ? s2 q fl3 ? F A]; subst. inversion F; subst; congruence.
  Qed.

  Lemma attr_run path n fl : forall v fl' rest, fed_all path fl [PAttr n v] fl' rest ->
    exists r, delegate_flats (fun s v => fu_attribute P s n v) fl v = (Ok r, fl').
  Proof.
    induction fl as [|s fl IH]; intros v fl' rest H; inversion H as [|? ? ? s2 q fl3 ? F A]; subst; cbn [delegate_flats]; [eauto|].
    inversion F as [|? ? ? ? ? ? ? E' F'|? ? ? ? ? ? ? ? E' F'| | | |]; subst; inversion F'; subst; rewrite E'.
    - apply fed_all_nil in A as [-> ->]. eauto.
    - destruct (IH _ _ _ A) as (r & ->). eauto.
  Qed.

  Lemma text_run path p fl : forall v fl' rest, fed_all path fl [PText v p] fl' rest ->
    exists r, delegate_flats (fun s v => fu_characters P s v p) fl v = (Ok r, fl').
  Proof.
    induction fl as [|s fl IH]; intros v fl' rest H; inversion H as [|? ? ? s2 q fl3 ? F A]; subst; cbn [delegate_flats]; [eauto|].
    inversion F as [| | |? ? ? ? ? ? ? E' F'|? ? ? ? ? ? ? ? E' F'| |]; subst; inversion F'; subst; rewrite E'.
    - apply fed_all_nil in A as [-> ->]. eauto.
    - destruct (IH _ _ _ A) as (r & ->). eauto.
  Qed.

  Lemma elem_shape path c fl : forall fl' rest, fed_all path fl [PElem c] fl' rest ->
    exists b : bool, rest = if b then [PElem c] else [].
  Proof.
    induction fl as [|s fl IH]; intros fl' rest H; inversion H as [|? ? ? s2 q fl3 ? F A]; subst; [now exists true|].
    inversion F as [| | | | |? ? ? ? ? ? ? ? ? ? ? ? c' path'' E' R' F'|? ? ? ? ? ? ? ? ? ? ? c' path'' E' F']; subst; inversion F'; subst.
    - apply fed_all_nil in A as [-> ->]. now exists false.
    - exact (IH _ _ A).
  Qed.

  Lemma sem_amap {S A B} (rd : S -> (res error endinfo * S) * place) path p kids pe (f : A -> B) (act : action S A) :
    sem_act rd path p kids pe (amap f act) =
    (match fst (sem_act rd path p kids pe act) with inl a => inl (f a) | inr x => inr x end, snd (sem_act rd path p kids pe act)).
  Proof.
    destruct act as [a|k|s0 k]; cbn; [reflexivity| |].
    - destruct (sem_string path "" kids pe) as [[]]; reflexivity.
    - destruct (rd s0) as [[[]]]; reflexivity.
  Qed.

  Lemma elem_step path name attrs ns p kids pe fl : let c := NElem name attrs ns p kids pe in let path' := path ++ [SElem name p] in
    let run := match offer_flats P fl (EInfo name ns (List.length path')) with
      | inl fl' => inl (Ok true, fl')
      | inr act => match fst (sem_act (sem_read V c path) path' p kids pe act) with
                   | inl (r, fl') => inl (map_ok (fun _ => false) r, fl')
                   | inr x => inr x
                   end
      end in
    forall (b : bool) fl', run = inl (Ok b, fl') <-> fed_all path fl [PElem c] fl' (if b then [PElem c] else []).
  Proof.
    intros c path'. induction fl as [|s fl IH]; intros run b fl'; subst run; cbn [offer_flats].
    - split.
      + intros [= <- <-]. constructor.
      + intros H. inversion H; subst. destruct b; [reflexivity|discriminate].
    - destruct (fu_element P s (EInfo name ns (List.length path'))) as [s1|act] eqn:E.
      + assert (G : forall b fl2, (match offer_flats P fl (EInfo name ns (List.length path')) with
            | inl fl' => inl (Ok true, fl')
            | inr act => match fst (sem_act (sem_read V c path) path' p kids pe act) with
                   | inl (r, fl') => inl (map_ok (fun _ => false) r, fl')
                   | inr x => inr x
                   end end = inl (Ok b, fl2)) <-> fed_all path (s :: fl) [PElem c] (s1 :: fl2) (if b then [PElem c] else [])).
        { intros b0 fl2. rewrite IH. split.
          - intros H. apply fa_cons with (rest := [PElem c]); [eapply fed_elem_pass; eauto; constructor|assumption].
          - intros H. inversion H as [|? ? ? s2 q fl3 ? F A]; subst.
            inversion F as [| | | | |? ? ? ? ? ? ? ? ? ? ? ? c' path'' E'|? ? ? ? ? ? ? ? ? ? ? c' path'' E' F']; subst; subst path''; [fold path' in E'; congruence|].
            fold path' in E'. inversion F'; subst. assumption. }
        assert (G2 : forall fl2 b, fed_all path (s :: fl) [PElem c] fl2 (if b : bool then [PElem c] else []) -> exists fl3, fl2 = s1 :: fl3).
        { intros fl2 b0 H. inversion H as [|? ? ? s2 q fl3 ? F A]; subst.
          inversion F as [| | | | |? ? ? ? ? ? ? ? ? ? ? ? c' path'' E'|? ? ? ? ? ? ? ? ? ? ? c' path'' E' F']; subst; subst path''; fold path' in E'; [congruence|].
          inversion F'; subst. rewrite E in E'. injection E' as <-. eauto. }
        destruct (offer_flats P fl (EInfo name ns (List.length path'))) as [fl1|act].
        * split; [intros [= <- <-]; now apply (proj1 (G true fl1))|]. intros H. destruct (G2 _ _ H) as (fl3 & ->). apply G in H. congruence.
        * rewrite sem_amap. cbn [fst]. destruct (fst (sem_act (sem_read V c path) path' p kids pe act)) as [[r fl1]|x].
          -- split; [intros [= R <-]; apply (proj1 (G b fl1)); now rewrite R|]. intros H. destruct (G2 _ _ H) as (fl3 & ->). apply G in H. congruence.
          -- split; [discriminate|]. intros H. destruct (G2 _ _ H) as (fl3 & ->). apply G in H. congruence.
      + rewrite sem_amap. cbn [fst]. destruct (fst (sem_act (sem_read V c path) path' p kids pe act)) as [[r s1]|x] eqn:R.
        * split.
          -- destruct r as [[]| |]; cbn [map_ok]; intros [= <- <-]. apply fa_cons with (rest := []); [|now apply fed_all_nil].
             eapply fed_elem_take; eauto. constructor.
          -- intros H. inversion H as [|? ? ? s2 q fl3 ? F A]; subst.
             inversion F as [| | | | |? ? ? ? ? ? ? act' ? ? ? ? c' path'' E' R' F'|? ? ? ? ? ? ? ? ? ? ? c' path'' E' F']; subst; subst path'' c';
               fold path' in E'; [|congruence]. fold path' in R'. fold c in R'. rewrite E in E'. injection E' as <-. rewrite R in R'.
             injection R' as -> ->. inversion F'; subst. apply fed_all_nil in A as [-> Hr]. destruct b; [discriminate|reflexivity].
        * split; [discriminate|]. intros H. inversion H as [|? ? ? s2 q fl3 ? F A]; subst.
          inversion F as [| | | | |? ? ? ? ? ? ? act' ? ? ? ? c' path'' E' R' F'|? ? ? ? ? ? ? ? ? ? ? c' path'' E' F']; subst; subst path'' c';
            fold path' in E'; [|congruence]. fold path' in R'. fold c in R'. rewrite E in E'. injection E' as <-. congruence.
  Qed.

  (** ** A struct reads its fields apart from the flattened ones *)

  Definition fine_names (fs : list field) : Prop := NoDup (field_names is_attribute fs) /\ NoDup (field_names is_element fs).

  Lemma find_spare_attr fs a : fine_names fs ->
    match find_field alg is_attribute fs (from_xml_name (a_name a)) with
    | Some _ => spare_attrs fs [a] = []
    | None => spare_attrs fs [a] = [a]
    end.
  Proof.
    intros [N _]. change (find_field alg is_attribute fs) with (lookup alg is_attribute fs). unfold spare_attrs. cbn [filter].
    destruct (existsb _ _) eqn:E; cbn [negb].
    - apply existsb_exists in E as (n & Hin & He). apply xn_eqb_eq in He as <-. destruct (lookup _ _ _ _) eqn:L; [reflexivity|].
      apply lookup_none in L; tauto.
    - destruct (lookup _ _ _ _) eqn:L; [|reflexivity]. exfalso. assert (Hin : In (from_xml_name (a_name a)) (field_names is_attribute fs)).
      { destruct (in_dec (fun a b => reflect_dec _ _ (iff_reflect _ _ (iff_sym (xn_eqb_eq a b)))) (from_xml_name (a_name a)) (field_names is_attribute fs)); [assumption|].
        apply (lookup_none alg) in n0; [congruence|assumption]. }
      enough (existsb (xn_eqb (from_xml_name (a_name a))) (field_names is_attribute fs) = true) by congruence.
      apply existsb_exists. eexists. split; [exact Hin|now apply xn_eqb_eq].
  Qed.

  Lemma find_spare_kid fs name attrs ns p kids pe : fine_names fs -> let c := NElem name attrs ns p kids pe in
    match find_field alg is_element fs (from_xml_name name) with
    | Some _ => spare_kids fs [c] = []
    | None => spare_kids fs [c] = [c]
    end.
  Proof.
    intros [_ N] c. change (find_field alg is_element fs) with (lookup alg is_element fs). unfold spare_kids. cbn [filter].
    unfold name_in. subst c. cbn [has_name].
    destruct (existsb _ _) eqn:E; cbn [negb].
    - apply existsb_exists in E as (n & Hin & He). apply xn_eqb_eq in He as <-. destruct (lookup _ _ _ _) eqn:L; [reflexivity|].
      apply lookup_none in L; tauto.
    - destruct (lookup _ _ _ _) eqn:L; [|reflexivity]. exfalso. assert (Hin : In (from_xml_name name) (field_names is_element fs)).
      { destruct (in_dec (fun a b => reflect_dec _ _ (iff_reflect _ _ (iff_sym (xn_eqb_eq a b)))) (from_xml_name name) (field_names is_element fs)); [assumption|].
        apply (lookup_none alg) in n0; [congruence|assumption]. }
      enough (existsb (fun n => xn_eqb (from_xml_name name) n) (field_names is_element fs) = true) by congruence.
      apply existsb_exists. eexists. split; [exact Hin|now apply xn_eqb_eq].
  Qed.

  Lemma spare_attrs_cons fs a attrs : spare_attrs fs (a :: attrs) = spare_attrs fs [a] ++ spare_attrs fs attrs.
  Proof. unfold spare_attrs. cbn [filter]. destruct (negb _); reflexivity. Qed.

  Lemma spare_kids_cons fs k kids : spare_kids fs (k :: kids) = spare_kids fs [k] ++ spare_kids fs kids.
  Proof. unfold spare_kids. cbn [filter]. destruct (negb _); reflexivity. Qed.

  (** The state of the own fields after one attribute or child, or the failure. *)
  Lemma attrs_split fs path0 path p : fine_names fs -> forall attrs ss l fl s',
    sem_attrs V path p attrs (FStruct fs ss l fl) = (Ok tt, s') <->
    exists ss' l' fl' rest, s' = FStruct fs ss' l' fl' /\
      sem_attrs V path p attrs (FStruct fs ss l []) = (Ok tt, FStruct fs ss' l' []) /\
      fed_all path0 fl (map attr_piece (spare_attrs fs attrs)) fl' rest.
  Proof.
    intros N. induction attrs as [|a attrs IH]; intros ss l fl s'.
    - cbn [sem_attrs spare_attrs filter map]. split.
      + intros [= <-]. exists ss, l, fl, []. repeat split. now apply fed_all_nil.
      + intros (ss' & l' & fl' & rest & -> & [= <- <-] & F). apply fed_all_nil in F as [-> ->]. reflexivity.
    - cbn [sem_attrs]. rewrite spare_attrs_cons, map_app. pose proof (find_spare_attr fs a N) as HF.
      cbn [flat_visitors v_attribute]. unfold fstruct_attribute.
      destruct (find_field alg is_attribute fs (from_xml_name (a_name a))) as [q|].
      + rewrite HF. cbn [map app]. destruct (struct_attribute _ _ _ _ _ _ _) as [[r|e|x] s].
        * destruct (vs_kind s); apply IH.
        * split; [discriminate|]. intros (ss' & l' & fl' & rest & -> & [=] & F).
        * split; [discriminate|]. intros (ss' & l' & fl' & rest & -> & [=] & F).
      + rewrite HF. cbn [map delegate_flats attr_piece].
        destruct (delegate_flats (fun s v => fu_attribute P s (from_xml_name (a_name a)) v) fl (a_value a)) as [r fl1] eqn:D.
        destruct r as [r|e|x].
        * rewrite IH. split.
          -- intros (ss' & l' & fl' & rest & -> & H & F). apply (attr_step path0) in D. do 3 eexists. eexists.
             repeat split; [eassumption|]. apply fed_all_app. eauto 8.
          -- intros (ss' & l' & fl' & rest & -> & H & F). apply fed_all_app in F as (fl2 & r1 & r2 & F1 & F2 & ->).
             apply attr_run in F1 as (r' & F1). rewrite D in F1. injection F1 as <- <-. eauto 8.
        * split; [discriminate|]. intros (ss' & l' & fl' & rest & -> & H & F). apply fed_all_app in F as (fl2 & r1 & r2 & F1 & F2 & ->).
          apply attr_run in F1 as (r' & F1). congruence.
        * split; [discriminate|]. intros (ss' & l' & fl' & rest & -> & H & F). apply fed_all_app in F as (fl2 & r1 & r2 & F1 & F2 & ->).
          apply attr_run in F1 as (r' & F1). congruence.
  Qed.

  Lemma kids_split fs path fin : fine_names fs -> forall kids ss l fl fin' s',
    fst (sem_kids V (sem_read V) path fin kids (FStruct fs ss l fl)) = (Ok fin', s') <->
    exists ss' l' fl' rest, s' = FStruct fs ss' l' fl' /\
      fst (sem_kids V (sem_read V) path fin kids (FStruct fs ss l [])) = (Ok fin', FStruct fs ss' l' []) /\
      fed_all path fl (flat_map kid_piece (spare_kids fs kids)) fl' rest.
  Proof.
    intros N. induction kids as [|c kids IH]; intros ss l fl fin' s'.
    - cbn. split.
      + intros [= <- <-]. exists ss, l, fl, []. repeat split. now apply fed_all_nil.
      + intros (ss' & l' & fl' & rest & -> & [= <- <- <-] & F). apply fed_all_nil in F as [-> ->]. reflexivity.
    - rewrite spare_kids_cons, flat_map_app. cbn [sem_kids]. destruct c as [name attrs ns p kids1 pe|e str p|m1 m2|b1 b2].
      + set (path' := path ++ [SElem name p]). pose proof (find_spare_kid fs name attrs ns p kids1 pe N) as HF. cbv zeta in HF.
        set (c := NElem name attrs ns p kids1 pe) in *.
        cbn [flat_visitors v_element]. unfold fstruct_element. cbn [ei_name].
        destruct (find_field alg is_element fs (from_xml_name name)) as [q|].
        * rewrite HF. cbn [flat_map app]. rewrite !sem_amap.
          destruct (sem_act (sem_read V c path) path' p kids1 pe _) as [[[[b|e|x] s]|x] pl]; cbn [fst snd].
          -- destruct (vs_kind s); apply IH.
          -- split; [discriminate|]. intros (ss' & l' & fl' & rest & -> & [=] & F).
          -- split; [discriminate|]. intros (ss' & l' & fl' & rest & -> & [=] & F).
          -- split; [discriminate|]. intros (ss' & l' & fl' & rest & -> & [=] & F).
        * rewrite HF. cbn [flat_map app offer_flats].
          pose proof (elem_step path name attrs ns p kids1 pe fl) as G. cbv zeta in G. fold path' c in G.
          assert (X : forall b fl1, match offer_flats P fl (EInfo name ns (List.length path')) with
              | inl fl' => inl (Ok true, fl')
              | inr act => match fst (sem_act (sem_read V c path) path' p kids1 pe act) with
                           | inl (r, fl') => inl (map_ok (fun _ => false) r, fl')
                           | inr x => inr x
                           end
              end = inl (Ok b, fl1) ->
            fst (sem_kids V (sem_read V) path fin kids (FStruct fs ss l fl1)) = (Ok fin', s') <->
            exists ss' l' fl' rest, s' = FStruct fs ss' l' fl' /\
              fst (sem_kids V (sem_read V) path fin kids (FStruct fs ss l [])) = (Ok fin', FStruct fs ss' l' []) /\
              fed_all path fl ([PElem c] ++ flat_map kid_piece (spare_kids fs kids)) fl' rest).
          { intros b fl1 D. rewrite IH. split.
            - intros (ss' & l' & fl' & rest & -> & H & F). apply G in D. do 3 eexists. eexists. repeat split; [eassumption|].
              apply fed_all_app. eauto 8.
            - intros (ss' & l' & fl' & rest & -> & H & F). apply fed_all_app in F as (fl2 & r1 & r2 & F1 & F2 & ->).
              destruct (elem_shape _ _ _ _ _ F1) as (b' & ->). apply G in F1. rewrite D in F1. injection F1 as <- <-. eauto 8. }
          assert (Y : (forall b fl1, match offer_flats P fl (EInfo name ns (List.length path')) with
              | inl fl' => inl (Ok true, fl')
              | inr act => match fst (sem_act (sem_read V c path) path' p kids1 pe act) with
                           | inl (r, fl') => inl (map_ok (fun _ => false) r, fl')
                           | inr x => inr x
                           end
              end <> inl (Ok b, fl1)) ->
            ~ exists ss' l' fl' rest, s' = FStruct fs ss' l' fl' /\
              fst (sem_kids V (sem_read V) path fin kids (FStruct fs ss l [])) = (Ok fin', FStruct fs ss' l' []) /\
              fed_all path fl ([PElem c] ++ flat_map kid_piece (spare_kids fs kids)) fl' rest).
          { intros D (ss' & l' & fl' & rest & -> & H & F). apply fed_all_app in F as (fl2 & r1 & r2 & F1 & F2 & ->).
            destruct (elem_shape _ _ _ _ _ F1) as (b' & ->). apply G in F1. exact (D _ _ F1). }
          clear G. cbn [sem_act]. destruct (offer_flats P fl (EInfo name ns (List.length path'))) as [fl1|act].
          -- exact (X _ _ eq_refl).
          -- rewrite sem_amap. destruct (sem_act (sem_read V c path) path' p kids1 pe act) as [[[[[]|e|x] fl1]|x] pl]; cbn [fst snd map_ok] in *.
             ++ exact (X _ _ eq_refl).
             ++ split; [discriminate|]. intros H. exfalso. revert H. apply Y. discriminate.
             ++ split; [discriminate|]. intros H. exfalso. revert H. apply Y. discriminate.
             ++ split; [discriminate|]. intros H. exfalso. revert H. apply Y. discriminate.
      + assert (HF : spare_kids fs [NText e str p] = [NText e str p]).
        { unfold spare_kids. cbn [filter]. unfold name_in. cbn [has_name]. now induction (field_names is_element fs). }
        rewrite HF. cbn [flat_map kid_piece app]. cbn [flat_visitors v_characters]. unfold fstruct_characters. cbn [delegate_flats].
        change (PText str p :: flat_map kid_piece (spare_kids fs kids)) with ([PText str p] ++ flat_map kid_piece (spare_kids fs kids)).
        destruct (delegate_flats (fun s v => fu_characters P s v p) fl str) as [r fl1] eqn:D.
        destruct r as [r|er|x].
        * rewrite IH. split.
          -- intros (ss' & l' & fl' & rest & -> & H & F). apply (text_step path) in D. do 3 eexists. eexists.
             repeat split; [eassumption|]. apply fed_all_app. eauto 8.
          -- intros (ss' & l' & fl' & rest & -> & H & F). apply fed_all_app in F as (fl2 & r1 & r2 & F1 & F2 & ->).
             apply text_run in F1 as (r' & F1). rewrite D in F1. injection F1 as <- <-. eauto 8.
        * split; [discriminate|]. intros (ss' & l' & fl' & rest & -> & H & F). apply fed_all_app in F as (fl2 & r1 & r2 & F1 & F2 & ->).
          apply text_run in F1 as (r' & F1). congruence.
        * split; [discriminate|]. intros (ss' & l' & fl' & rest & -> & H & F). apply fed_all_app in F as (fl2 & r1 & r2 & F1 & F2 & ->).
          apply text_run in F1 as (r' & F1). congruence.
      + assert (HF : flat_map kid_piece (spare_kids fs [NMisc m1 m2]) = []).
        { unfold spare_kids. cbn [filter]. destruct (negb _); reflexivity. }
        rewrite HF. apply IH.
      + assert (HF : flat_map kid_piece (spare_kids fs [NBlank b1 b2]) = []).
        { unfold spare_kids. cbn [filter]. destruct (negb _); reflexivity. }
        rewrite HF. apply IH.
  Qed.

  Theorem read_split fs name attrs ns p kids pe parents ss l fl fin s' : fine_names fs ->
    let n := NElem name attrs ns p kids pe in
    fst (sem_read V n parents (FStruct fs ss l fl)) = (Ok fin, s') <->
    exists ss' l' fl' rest, s' = FStruct fs ss' l' fl' /\
      fst (sem_read V n parents (FStruct fs ss l [])) = (Ok fin, FStruct fs ss' l' []) /\
      fed_all (parents ++ [SElem name p]) fl (pieces (spare_attrs fs attrs) (spare_kids fs kids)) fl' rest.
  Proof.
    intros N n. subst n. cbn [sem_read]. set (path := parents ++ [SElem name p]). unfold pieces.
    destruct (sem_attrs V path p attrs (FStruct fs ss l fl)) as [r s1] eqn:A. destruct r as [[]|e|x].
    - apply (attrs_split fs path) in A as (ss1 & l1 & fl1 & r1 & -> & A & F); [|assumption]. rewrite A, kids_split by assumption. split.
      + intros (ss' & l' & fl' & rest & -> & H & F'). do 4 eexists. repeat split; [eassumption|]. apply fed_all_app. eauto 8.
      + intros (ss' & l' & fl' & rest & -> & H & F'). apply fed_all_app in F' as (fl2 & q1 & q2 & F1 & F2 & ->).
        assert (B : sem_attrs V path p attrs (FStruct fs ss l fl) = (Ok tt, FStruct fs ss1 l1 fl1)) by (apply (attrs_split fs path); eauto 8).
        assert (C : sem_attrs V path p attrs (FStruct fs ss l fl) = (Ok tt, FStruct fs ss1 l1 fl2)) by (apply (attrs_split fs path); eauto 8).
        rewrite B in C. injection C as <-. eauto 8.
    - split; [discriminate|]. intros (ss' & l' & fl' & rest & -> & H & F'). apply fed_all_app in F' as (fl2 & q1 & q2 & F1 & F2 & ->).
      destruct (sem_attrs V path p attrs (FStruct fs ss l [])) as [r s2] eqn:B. destruct r as [[]| |]; [|discriminate|discriminate].
      pose proof B as B0. apply (attrs_split fs path) in B0 as (ss1 & l1 & fl1 & r1 & -> & _ & Hf); [|assumption]. inversion Hf; subst.
      assert (C : sem_attrs V path p attrs (FStruct fs ss l fl) = (Ok tt, FStruct fs ss1 l1 fl2)) by (apply (attrs_split fs path); eauto 8).
      congruence.
    - split; [discriminate|]. intros (ss' & l' & fl' & rest & -> & H & F'). apply fed_all_app in F' as (fl2 & q1 & q2 & F1 & F2 & ->).
      destruct (sem_attrs V path p attrs (FStruct fs ss l [])) as [r s2] eqn:B. destruct r as [[]| |]; [|discriminate|discriminate].
      pose proof B as B0. apply (attrs_split fs path) in B0 as (ss1 & l1 & fl1 & r1 & -> & _ & Hf); [|assumption]. inversion Hf; subst.
      assert (C : sem_attrs V path p attrs (FStruct fs ss l fl) = (Ok tt, FStruct fs ss1 l1 fl2)) by (apply (attrs_split fs path); eauto 8).
      congruence.
  Qed.

  (** ** A hand-written visitor alone *)

  Lemma other_attrs path0 path p : forall attrs s s2, sem_attrs V path p attrs (FOther s) = (Ok tt, s2) <->
    exists s' rest, s2 = FOther s' /\ fed path0 s (map attr_piece attrs) s' rest.
  Proof.
    induction attrs as [|a attrs IH]; intros s s2; cbn [sem_attrs map].
    - split; [intros [= <-]; exists s, []; split; [reflexivity|constructor]|]. intros (s' & rest & -> & F). now inversion F; subst.
    - cbn [flat_visitors v_attribute]. unfold attr_piece at 1. destruct (fu_attribute P s (from_xml_name (a_name a)) (a_value a)) as [[[v1|]|e|x] s1] eqn:E.
      + rewrite IH. split.
        * intros (s' & rest & -> & F). do 2 eexists. split; [reflexivity|]. eapply fed_attr_pass; eauto.
        * intros (s' & rest & -> & F). inversion F; subst; [congruence|]. match goal with H : fu_attribute _ _ _ _ = (Ok (Some _), _) |- _ => rewrite E in H; injection H as <- <- end. eauto.
      + rewrite IH. split.
        * intros (s' & rest & -> & F). do 2 eexists. split; [reflexivity|]. eapply fed_attr_take; eauto.
        * intros (s' & rest & -> & F). inversion F; subst; [|congruence]. match goal with H : fu_attribute _ _ _ _ = (Ok None, _) |- _ => rewrite E in H; injection H as <- end. eauto.
      + split; [discriminate|]. intros (s' & rest & -> & F). inversion F; subst; congruence.
      + split; [discriminate|]. intros (s' & rest & -> & F). inversion F; subst; congruence.
  Qed.

  Lemma other_kids path fin : forall kids s fin' s2, fst (sem_kids V (sem_read V) path fin kids (FOther s)) = (Ok fin', s2) <->
    fin' = fin /\ exists s' rest, s2 = FOther s' /\ fed path s (flat_map kid_piece kids) s' rest.
  Proof.
    induction kids as [|c kids IH]; intros s fin' s2; cbn [sem_kids flat_map].
    - cbn [fst]. split; [intros [= <- <-]; split; [reflexivity|]; exists s, []; split; [reflexivity|constructor]|]. intros (-> & s' & rest & -> & F). now inversion F; subst.
    - destruct c as [name attrs ns p kids1 pe|e str p|? ?|? ?].
      + set (path' := path ++ [SElem name p]). set (c := NElem name attrs ns p kids1 pe).
        cbn [flat_visitors v_element kid_piece app]. destruct (fu_element P s (EInfo name ns (List.length path'))) as [s1|act] eqn:E.
        * cbn [sem_act]. rewrite IH. split.
          -- intros (-> & s' & rest & -> & F). split; [reflexivity|]. do 2 eexists. split; [reflexivity|]. eapply fed_elem_pass; eauto.
          -- intros (-> & s' & rest & -> & F). split; [reflexivity|].
             inversion F as [| | | | |? ? ? ? ? ? ? ? ? ? ? ? c' path'' E'|? ? ? ? ? ? ? ? ? ? ? c' path'' E' F']; subst; subst path''; fold path' in E'; [congruence|].
             rewrite E in E'. injection E' as <-. eauto.
        * rewrite sem_amap. destruct (sem_act (sem_read V c path) path' p kids1 pe act) as [q pl] eqn:R.
          assert (X : forall s' rest, fed path s (PElem c :: flat_map kid_piece kids) s' rest -> exists s1, q = inl (Ok tt, s1) /\ fed path s1 (flat_map kid_piece kids) s' rest).
          { intros s' rest F. inversion F as [| | | | |? ? ? ? ? ? ? act' ? ? ? ? c' path'' E' R' F'|? ? ? ? ? ? ? ? ? ? ? c' path'' E' F']; subst; subst path'' c';
              fold path' in E'; [|congruence]. fold path' in R'. fold c in R'. rewrite E in E'. injection E' as <-. rewrite R in R'. cbn [fst] in R'. eauto. }
          destruct q as [[[[]|e|x] s1]|x]; cbn [fst snd map_ok].
          -- rewrite IH. split.
             ++ intros (-> & s' & rest & -> & F). split; [reflexivity|]. do 2 eexists. split; [reflexivity|]. eapply fed_elem_take; eauto.
                fold path' c. now rewrite R.
             ++ intros (-> & s' & rest & -> & F). split; [reflexivity|]. destruct (X _ _ F) as (s3 & [= <-] & F'). eauto.
          -- split; [discriminate|]. intros (-> & s' & rest & -> & F). destruct (X _ _ F) as (s3 & [=] & _).
          -- split; [discriminate|]. intros (-> & s' & rest & -> & F). destruct (X _ _ F) as (s3 & [=] & _).
          -- split; [discriminate|]. intros (-> & s' & rest & -> & F). destruct (X _ _ F) as (s3 & [=] & _).
      + cbn [flat_visitors v_characters kid_piece app]. destruct (fu_characters P s str p) as [[[v1|]|er|x] s1] eqn:E.
        * rewrite IH. split.
          -- intros (-> & s' & rest & -> & F). split; [reflexivity|]. do 2 eexists. split; [reflexivity|]. eapply fed_text_pass; eauto.
          -- intros (-> & s' & rest & -> & F). split; [reflexivity|]. inversion F; subst; [congruence|]. match goal with H : fu_characters _ _ _ _ = (Ok (Some _), _) |- _ => rewrite E in H; injection H as <- <- end. eauto.
        * rewrite IH. split.
          -- intros (-> & s' & rest & -> & F). split; [reflexivity|]. do 2 eexists. split; [reflexivity|]. eapply fed_text_take; eauto.
          -- intros (-> & s' & rest & -> & F). split; [reflexivity|]. inversion F; subst; [|congruence]. match goal with H : fu_characters _ _ _ _ = (Ok None, _) |- _ => rewrite E in H; injection H as <- end. eauto.
        * split; [discriminate|]. intros (-> & s' & rest & -> & F). inversion F; subst; congruence.
        * split; [discriminate|]. intros (-> & s' & rest & -> & F). inversion F; subst; congruence.
      + apply IH.
      + apply IH.
  Qed.

  Theorem other_read name attrs ns p kids pe parents s fin s2 :
    fst (sem_read V (NElem name attrs ns p kids pe) parents (FOther s)) = (Ok fin, s2) <->
    fin = (name, ns, pe) /\ exists s' rest, s2 = FOther s' /\ fed (parents ++ [SElem name p]) s (pieces attrs kids) s' rest.
  Proof.
    cbn [sem_read]. set (path := parents ++ [SElem name p]). unfold pieces.
    destruct (sem_attrs V path p attrs (FOther s)) as [r s1] eqn:A.
    assert (X : forall s' rest, fed path s (map attr_piece attrs ++ flat_map kid_piece kids) s' rest ->
      exists s3 rest', r = Ok tt /\ s1 = FOther s3 /\ fed path s3 (flat_map kid_piece kids) s' rest').
    { intros s' rest F. apply fed_app in F as (s3 & q1 & q2 & F1 & F2 & ->).
      assert (B : sem_attrs V path p attrs (FOther s) = (Ok tt, FOther s3)) by (apply (other_attrs path); eauto).
      rewrite A in B. injection B as -> ->. eauto. }
    destruct r as [[]|e|x].
    - apply (other_attrs path) in A as (s3 & r1 & -> & F). rewrite other_kids. split.
      + intros (-> & s' & rest & -> & F'). split; [reflexivity|]. do 2 eexists. split; [reflexivity|]. apply fed_app. eauto 8.
      + intros (-> & s' & rest & -> & F'). split; [reflexivity|]. destruct (X _ _ F') as (s4 & q & _ & [= <-] & G). eauto.
    - split; [discriminate|]. intros (-> & s' & rest & -> & F). destruct (X _ _ F) as (s3 & q & [=] & _).
    - split; [discriminate|]. intros (-> & s' & rest & -> & F). destruct (X _ _ F) as (s3 & q & [=] & _).
  Qed.

  (** ** Documents *)

  Lemma own_own fs : own (own fs) = own fs.
  Proof. unfold own. induction fs as [|f fs IH]; [reflexivity|]. cbn. destruct (is_flatten f) eqn:E; cbn; [assumption|]. rewrite E. cbn. now f_equal. Qed.

  Lemma own_names sel fs : (forall f, is_flatten f = true -> sel f = false) -> field_names sel (own fs) = field_names sel fs.
  Proof.
    intros H. unfold field_names, own. f_equal. induction fs as [|f fs IH]; [reflexivity|]. cbn. destruct (is_flatten f) eqn:E; cbn.
    - now rewrite (H _ E).
    - destruct (sel f); [f_equal|]; assumption.
  Qed.

  Lemma own_elements fs : field_names is_element (own fs) = field_names is_element fs.
  Proof. apply own_names. intros f. unfold is_flatten, is_element. now destruct (f_mode f). Qed.
  Lemma own_attributes fs : field_names is_attribute (own fs) = field_names is_attribute fs.
  Proof. apply own_names. intros f. unfold is_flatten, is_attribute. now destruct (f_mode f). Qed.

  Lemma new_flats_own fs : new_flats P (own fs) = Some [].
  Proof.
    unfold own. induction fs as [|f fs IH]; [reflexivity|]. cbn. destruct (is_flatten f) eqn:E; cbn; [assumption|]. rewrite IH.
    unfold is_flatten in E. now destruct (f_mode f).
  Qed.

  Lemma fed_all_length path fl : forall ps fl' rest, fed_all path fl ps fl' rest -> List.length fl' = List.length fl.
  Proof. induction fl; intros ps fl' rest H; inversion H; subst; cbn; eauto. Qed.

  Lemma finalize_merge fs : forall fl0, new_flats P fs = Some fl0 -> forall ss fl vs, List.length fl = List.length fl0 ->
    flat_finalize P fs ss fl = Ok vs <->
    exists ovs fvs, flat_finalize P (own fs) ss [] = Ok ovs /\ Forall2 (fun s v => fu_finalize P s = Ok v) fl fvs /\ merge fs ovs fvs vs.
  Proof.
    induction fs as [|f fs IH]; intros fl0 Hn ss fl vs Hl.
    - injection Hn as <-. destruct fl; [|discriminate]. cbn. split.
      + intros [= <-]. exists [], []. repeat split; constructor.
      + intros (ovs & fvs & [= <-] & F & M). inversion F; subst. inversion M; subst. reflexivity.
    - cbn [new_flats] in Hn. destruct (new_flats P fs) as [fl1|]; [|discriminate]. specialize (IH _ eq_refl).
      unfold own. cbn [filter flat_finalize]. fold (own fs). destruct (is_flatten f) eqn:E; cbn [negb].
      + destruct fl as [|s fl].
        { unfold is_flatten in E. destruct (f_mode f); try discriminate. destruct (fu_new P _); [|discriminate]. cbn in Hn.
          injection Hn as <-. discriminate. }
        assert (Hl' : List.length fl = List.length fl1).
        { unfold is_flatten in E. destruct (f_mode f); try discriminate. destruct (fu_new P _); [|discriminate]. cbn in Hn.
          injection Hn as <-. cbn in Hl. now injection Hl. }
        destruct (fu_finalize P s) as [v|e|x] eqn:FZ; cbn [bind].
        * destruct (flat_finalize P fs ss fl) as [vs'| |] eqn:D; cbn [map_ok].
          -- split.
             ++ intros [= <-]. apply IH in D as (ovs & fvs & D & F & M); [|assumption]. exists ovs, (v :: fvs).
                repeat split; [assumption|now constructor|now constructor].
             ++ intros (ovs & fvs & D' & F & M). inversion F as [|? v' ? fvs' Hv F']; subst. rewrite FZ in Hv. injection Hv as <-.
                inversion M; subst; [congruence|]. assert (X : Ok vs' = Ok vs0 :> res verr _) by (rewrite <- D; apply IH; eauto). now injection X as <-.
          -- split; [discriminate|]. intros (ovs & fvs & D' & F & M). inversion F as [|? v' ? fvs' Hv F']; subst. inversion M; subst; [congruence|].
             assert (X : flat_finalize P fs ss fl = Ok vs0) by (apply IH; eauto). congruence.
          -- split; [discriminate|]. intros (ovs & fvs & D' & F & M). inversion F as [|? v' ? fvs' Hv F']; subst. inversion M; subst; [congruence|].
             assert (X : flat_finalize P fs ss fl = Ok vs0) by (apply IH; eauto). congruence.
        * split; [discriminate|]. intros (ovs & fvs & D' & F & M). inversion F; subst. congruence.
        * split; [discriminate|]. intros (ovs & fvs & D' & F & M). inversion F; subst. congruence.
      + cbn [flat_finalize]. rewrite ?E. assert (Hl' : List.length fl = List.length fl1).
        { unfold is_flatten in E. destruct (f_mode f); try discriminate; injection Hn as <-; assumption. }
        destruct ss as [|s ss].
        { split; [discriminate|]. now intros (ovs & fvs & D' & F & M). }
        destruct (finalize_slot f s) as [s'|e|x]; cbn [bind];
          [|split; [discriminate|now intros (ovs & fvs & D' & F & M)] ..].
        destruct (slot_mem s') as [v|]; [|split; [discriminate|now intros (ovs & fvs & D' & F & M)]].
        specialize (IH ss fl). split.
        * intros H. destruct (flat_finalize P fs ss fl) as [vs'| |] eqn:D; [|discriminate|discriminate]. injection H as <-.
          destruct (proj1 (IH vs' Hl') eq_refl) as (ovs & fvs & D' & F & M). exists (v :: ovs), fvs. rewrite D'.
          repeat split; [assumption|now constructor].
        * intros (ovs & fvs & D' & F & M). destruct (flat_finalize P (own fs) ss []) as [ovs'| |] eqn:D; [|discriminate|discriminate].
          injection D' as <-. inversion M; subst; [|congruence]. rewrite (proj2 (IH _ Hl') (ex_intro _ _ (ex_intro _ _ (conj eq_refl (conj F ltac:(eassumption)))))). reflexivity.
  Qed.

  Lemma flat_propagating fs : propagating_root (flat_deserialize P fs).
  Proof.
    intros i. unfold flat_deserialize. destruct (new_flats P fs); cbn; [|exact I]. discriminate.
  Qed.

  Lemma strict_propagating : flat_strict P -> propagating V.
  Proof.
    intros [He Hd] s i. destruct s as [fs ss l fl|s]; cbn [flat_visitors v_element].
    - unfold fstruct_element. destruct (find_field alg is_element fs _).
      + eapply propagating_amap; [apply (gelement_propagating alg (fu_deserialize P) Hd (VState (VkStruct fs ss) l) i)|].
        intros [r s'] H. exact H.
      + assert (G : forall act, offer_flats P fl i = inr act -> propagating_act (fun a => forall b, fst a <> Ok b) act).
        { clear -He. induction fl as [|s fl IH]; intros act; cbn; [discriminate|]. destruct (fu_element P s i) as [s1|act1] eqn:E.
          - destruct (offer_flats P fl i) as [fl1|act1]; [discriminate|]. intros [= <-]. eapply propagating_amap; [apply IH; reflexivity|].
            intros [r s'] H. exact H.
          - intros [= <-]. eapply propagating_amap; [exact (He _ _ _ E)|]. intros [r s'] H. exact H. }
        destruct (offer_flats P fl i) as [fl1|act1]; [exact I|]. eapply propagating_amap; [apply G; reflexivity|].
        intros [r s'] H b. cbn in *. destruct r as [[]| |]; try discriminate. now destruct (H tt).
    - destruct (fu_element P s i) as [s1|act1] eqn:E; [exact I|]. eapply propagating_amap; [exact (He _ _ _ E)|].
      intros [r s'] H b. cbn in *. destruct r as [[]| |]; try discriminate. now destruct (H tt).
  Qed.

  (** The value a struct reads, from a tree. *)
  Lemma sem_doc_flat fs fl d v : new_flats P fs = Some fl ->
    sem_doc V (flat_deserialize P fs) d = Ok v <->
    exists fin fs' ss' l' fl' vs, fst (sem_read V (d_root d) [] (FStruct (own fs) (map (fun _ => SField false None) (own fs)) [] fl)) = (Ok fin, FStruct fs' ss' l' fl') /\
      flat_finalize P fs ss' fl' = Ok vs /\ v = VStruct vs.
  Proof.
    intros Hn. unfold sem_doc, flat_deserialize. rewrite Hn. cbn [sem_act].
    destruct (sem_read V (d_root d) [] _) as [[[fin|e|x] s] pl]; cbn [fst].
    - destruct s as [fs' ss' l' fl'|s]; cbn.
      + destruct (flat_finalize P fs ss' fl') as [vs| |] eqn:D; cbn [map_ok]; split; try discriminate.
        * intros [= <-]. eauto 10.
        * intros (? & ? & ? & ? & ? & ? & [= -> -> -> -> ->] & D' & ->). congruence.
        * intros (? & ? & ? & ? & ? & ? & [= -> -> -> -> ->] & D' & ->). congruence.
        * intros (? & ? & ? & ? & ? & ? & [= -> -> -> -> ->] & D' & ->). congruence.
      + split; [discriminate|]. now intros (? & ? & ? & ? & ? & ? & [=] & _).
    - split; [discriminate|]. now intros (? & ? & ? & ? & ? & ? & [=] & _).
    - split; [discriminate|]. now intros (? & ? & ? & ? & ? & ? & [=] & _).
  Qed.

  Theorem flat_value dbg fs fl d pe v : fine_names fs -> new_flats P fs = Some fl -> (dbg = true -> flat_strict P) ->
    read_flat o alg P dbg fs (doc_events d) (FEndDocument pe) = Ok v <->
    exists ovs fl' rest fvs vs, read_flat o alg P dbg (own fs) (doc_events d) (FEndDocument pe) = Ok (VStruct ovs) /\
      fed_all [SElem (d_name d) (d_pos d)] fl (pieces (spare_attrs fs (d_attrs d)) (spare_kids fs (d_kids d))) fl' rest /\
      Forall2 (fun s v => fu_finalize P s = Ok v) fl' fvs /\ merge fs ovs fvs vs /\ v = VStruct vs.
  Proof.
    intros N Hn Hp. unfold read_flat. rewrite !read_sem by (intros D; split; [exact (strict_propagating (Hp D))|apply flat_propagating]).
    rewrite (sem_doc_flat fs fl) by assumption.
    assert (N' : fine_names (own fs)) by (unfold fine_names; now rewrite own_elements, own_attributes).
    assert (Y : forall ovs, sem_doc V (flat_deserialize P (own fs)) d = Ok (VStruct ovs) <->
      exists fin ss' l', fst (sem_read V (d_root d) [] (FStruct (own fs) (map (fun _ => SField false None) (own fs)) [] [])) = (Ok fin, FStruct (own fs) ss' l' []) /\
        flat_finalize P (own fs) ss' [] = Ok ovs).
    { intros ovs. rewrite (sem_doc_flat (own fs) []) by apply new_flats_own. rewrite own_own. split.
      - intros (fin & fs' & ss' & l' & fl' & vs & R & F & [= <-]). pose proof R as R0. apply read_split in R0 as (ss1 & l1 & fl1 & r1 & [= -> -> -> ->] & R1 & F1); [|assumption].
        inversion F1; subst. eauto 8.
      - intros (fin & ss' & l' & R & F). eauto 12. }
    split.
    - intros (fin & fs' & ss' & l' & fl' & vs & R & F & ->). apply read_split in R as (ss1 & l1 & fl1 & r1 & [= -> -> -> ->] & R1 & F1); [|assumption].
      unfold spare_attrs, spare_kids in F1. rewrite own_elements, own_attributes in F1. fold (spare_attrs fs (d_attrs d)) (spare_kids fs (d_kids d)) in F1.
      pose proof (fed_all_length _ _ _ _ _ F1) as Hl. apply (finalize_merge fs fl Hn) in F as (ovs & fvs & F & F2 & M); [|assumption].
      exists ovs, fl1, r1, fvs, vs. rewrite Y. repeat split; eauto.
    - intros (ovs & fl' & rest & fvs & vs & R & F1 & F2 & M & ->). apply Y in R as (fin & ss' & l' & R & F).
      pose proof (fed_all_length _ _ _ _ _ F1) as Hl.
      exists fin, (own fs), ss', l', fl', vs. repeat split.
      + apply read_split; [assumption|]. exists ss', l', fl', rest. repeat split; [exact R|].
        unfold spare_attrs, spare_kids. rewrite own_elements, own_attributes. exact F1.
      + apply (finalize_merge fs fl Hn); eauto.
  Qed.
End Proofs.
