(** Consequences of the tree semantics: invisible content, error paths, ignored children, text. *)
From Verif Require Import Base Reader ReaderSpec ReaderProofs.
From Coq Require Import Lia.

(** ** Comments, processing instructions, blank text, CDATA and positions *)

Lemma error_sim_refl : forall e, error_sim e e.
Proof. now split. Qed.

Lemma wrap_sim : forall e1 e2 st1 st2 p1 p2, verr_sim e1 e2 -> map se_name st1 = map se_name st2 ->
  error_sim (wrap e1 st1 p1) (wrap e2 st2 p2).
Proof.
  intros [] [] ? ? ? ? H Hs; cbn in *; try contradiction; auto. subst. split; auto.
Qed.

Definition place_sim (x y : place) : Prop := map se_name (fst x) = map se_name (fst y).

Definition read_sim {St} (x y : (res error endinfo * St) * place) : Prop :=
  match fst (fst x), fst (fst y) with
  | Ok (n1, ns1, _), Ok (n2, ns2, _) => n1 = n2 /\ ns1 = ns2
  | Err e1, Err e2 => error_sim e1 e2
  | Abort a, Abort b => a = b
  | _, _ => False
  end /\ snd (fst x) = snd (fst y) /\ place_sim (snd x) (snd y).

Lemma sem_string_sim : forall k1 k2, same_content k1 k2 -> forall path1 path2 acc pe1 pe2,
  map se_name path1 = map se_name path2 ->
  res_sim error_sim (fst (sem_string path1 acc k1 pe1)) (fst (sem_string path2 acc k2 pe2)) /\
  place_sim (snd (sem_string path1 acc k1 pe1)) (snd (sem_string path2 acc k2 pe2)).
Proof.
  induction 1; intros path1 path2 acc qe1 qe2 Hp; cbn [sem_string]; auto.
  - cbn. auto.
  - cbn. unfold error_sim, place_sim; cbn. rewrite !map_app, Hp. auto.
Qed.

Lemma sem_attrs_sim : forall St (V : visitors St) attrs path1 path2 p1 p2 s,
  map se_name path1 = map se_name path2 ->
  res_sim error_sim (fst (sem_attrs V path1 p1 attrs s)) (fst (sem_attrs V path2 p2 attrs s)) /\
  snd (sem_attrs V path1 p1 attrs s) = snd (sem_attrs V path2 p2 attrs s).
Proof.
  induction attrs; intros; cbn; auto.
  destruct (v_attribute V s (from_xml_name (a_name a)) (a_value a)) as [[|e|x] s']; cbn; auto.
  split; [|reflexivity]. apply wrap_sim; [|assumption]. destruct e; cbn; auto using error_sim_refl.
Qed.

Lemma sem_act_sim : forall St A (R : A -> A -> Prop) (act : action St A) rd1 rd2 path1 path2 p1 p2 k1 k2 pe1 pe2,
  (forall a, R a a) ->
  blind_act R act -> same_content k1 k2 -> map se_name path1 = map se_name path2 ->
  (forall s, read_sim (rd1 s) (rd2 s)) ->
  match fst (sem_act rd1 path1 p1 k1 pe1 act), fst (sem_act rd2 path2 p2 k2 pe2 act) with
  | inl a, inl b => R a b
  | inr x, inr y => x = y
  | _, _ => False
  end /\ place_sim (snd (sem_act rd1 path1 p1 k1 pe1 act)) (snd (sem_act rd2 path2 p2 k2 pe2 act)).
Proof.
  intros St A R act rd1 rd2 path1 path2 p1 p2 k1 k2 pe1 pe2 HR Hb Hc Hp Hrd.
  destruct act as [a|k|s0 k]; cbn [sem_act blind_act] in *.
  - cbn. auto.
  - destruct (sem_string_sim k1 k2 Hc path1 path2 "" pe1 pe2 Hp) as [H1 H2].
    destruct (sem_string path1 "" k1 pe1) as [[] pl1], (sem_string path2 "" k2 pe2) as [[] pl2];
      cbn in *; try contradiction; subst; auto.
  - destruct Hb as [Hb1 Hb2]. specialize (Hrd s0).
    destruct (rd1 s0) as [[[[[? ?] ?]| |] s1] pl1], (rd2 s0) as [[[[[? ?] ?]| |] s2] pl2];
      destruct Hrd as (H1 & H2 & H3); cbn in *; try contradiction; subst; auto.
    destruct H1; subst. auto.
Qed.

Section Blind.
  Context {St : Type} (V : visitors St).
  Hypothesis HB : blind V.

  Lemma outcome_sim_refl : forall A (x : res verr A * St), outcome_sim x x.
  Proof.
    intros A [[|e|] ?]; split; cbn; auto. destruct e; cbn; auto using error_sim_refl.
  Qed.

  Lemma sem_kids_sim : forall k1 k2, same_content k1 k2 -> forall path1 path2 n ns pe1 pe2 s,
    map se_name path1 = map se_name path2 ->
    read_sim (sem_kids V (sem_read V) path1 (n, ns, pe1) k1 s)
             (sem_kids V (sem_read V) path2 (n, ns, pe2) k2 s).
  Proof.
    destruct HB as [HB1 HB2].
    induction 1 as [|m p k1 k2 H IH|m p k1 k2 H IH|s p k1 k2 H IH|s p k1 k2 H IH
                   |c1 c2 str p1 p2 k1 k2 H IH
                   |name attrs ns p1 p2 kk1 kk2 pk1 pk2 k1 k2 Hk IHk H IH];
      intros path1 path2 n0 ns0 qe1 qe2 s0 Hp; cbn [sem_kids]; auto.
    - repeat split; auto.
    - rewrite (HB1 s0 str p1 p2). destruct (v_characters V s0 str p2) as [[] s']; auto.
      + repeat split; auto.
      + repeat split; auto.
    - pose proof (sem_act_sim St _ outcome_sim
        (v_element V s0 (EInfo name ns (List.length (path1 ++ [SElem name p1]))))
        (sem_read V (NElem name attrs ns p1 kk1 pk1) path1)
        (sem_read V (NElem name attrs ns p2 kk2 pk2) path2)
        (path1 ++ [SElem name p1]) (path2 ++ [SElem name p2]) p1 p2 kk1 kk2 pk1 pk2
        (outcome_sim_refl _) (HB2 _ _) Hk) as HA.
      assert (Hp' : map se_name (path1 ++ [SElem name p1]) = map se_name (path2 ++ [SElem name p2])).
      { rewrite !map_app, Hp. reflexivity. }
      specialize (HA Hp').
      assert (Hrd : forall s, read_sim (sem_read V (NElem name attrs ns p1 kk1 pk1) path1 s)
                                       (sem_read V (NElem name attrs ns p2 kk2 pk2) path2 s)).
      { intros s. cbn [sem_read].
        destruct (sem_attrs_sim St V attrs _ _ p1 p2 s Hp') as [HS1 HS2].
        destruct (sem_attrs V (path1 ++ [SElem name p1]) p1 attrs s) as [[] s1],
                 (sem_attrs V (path2 ++ [SElem name p2]) p2 attrs s) as [[] s2];
          cbn in HS1, HS2; try contradiction; subst; auto.
        - repeat split; auto; apply HS1.
        - repeat split; auto. }
      specialize (HA Hrd).
      replace (List.length (path2 ++ [SElem name p2])) with (List.length (path1 ++ [SElem name p1])).
      2:{ rewrite <- (map_length se_name), Hp'. apply map_length. }
      destruct (sem_act _ (path1 ++ _) _ _ _ _) as [[[o1 s1]|x1] pl1],
               (sem_act _ (path2 ++ _) _ _ _ _) as [[[o2 s2]|x2] pl2];
        cbn [fst snd] in HA; destruct HA as [HA1 HA2]; try contradiction.
      + destruct HA1 as [HA1 HA3]. cbn [fst snd] in *. subst s2.
        destruct o1, o2; cbn in HA1; try contradiction.
        * auto.
        * repeat split; auto; try apply wrap_sim; auto.
        * repeat split; auto.
      + repeat split; auto.
  Qed.

  Lemma sem_read_sim : forall name attrs ns p1 p2 kk1 kk2 pk1 pk2 path1 path2 s,
    same_content kk1 kk2 -> map se_name path1 = map se_name path2 ->
    read_sim (sem_read V (NElem name attrs ns p1 kk1 pk1) path1 s)
             (sem_read V (NElem name attrs ns p2 kk2 pk2) path2 s).
  Proof.
    intros. cbn [sem_read].
    assert (Hp' : map se_name (path1 ++ [SElem name p1]) = map se_name (path2 ++ [SElem name p2])).
    { rewrite !map_app, H0. reflexivity. }
    destruct (sem_attrs_sim St V attrs _ _ p1 p2 s Hp') as [HS1 HS2].
    destruct (sem_attrs V (path1 ++ [SElem name p1]) p1 attrs s) as [[] s1],
             (sem_attrs V (path2 ++ [SElem name p2]) p2 attrs s) as [[] s2];
      cbn in HS1, HS2; try contradiction; subst.
    - now apply sem_kids_sim.
    - repeat split; auto; apply HS1.
    - repeat split; auto.
  Qed.

  Theorem sem_doc_sim : forall T (D : einfo -> action St (res verr T)) d1 d2,
    blind_root D ->
    d_name d1 = d_name d2 -> d_attrs d1 = d_attrs d2 -> d_ns d1 = d_ns d2 ->
    same_content (d_kids d1) (d_kids d2) ->
    res_sim error_sim (sem_doc V D d1) (sem_doc V D d2).
  Proof.
    intros T D d1 d2 HD H1 H2 H3 H4. unfold sem_doc, d_root. rewrite H1, H2, H3.
    set (i := EInfo _ _ _).
    pose proof (sem_act_sim St _ (res_sim verr_sim) (D i)
      (sem_read V (NElem (d_name d2) (d_attrs d2) (d_ns d2) (d_pos d1) (d_kids d1) (d_pe d1)) [])
      (sem_read V (NElem (d_name d2) (d_attrs d2) (d_ns d2) (d_pos d2) (d_kids d2) (d_pe d2)) [])
      [SElem (d_name d2) (d_pos d1)] [SElem (d_name d2) (d_pos d2)]
      (d_pos d1) (d_pos d2) (d_kids d1) (d_kids d2) (d_pe d1) (d_pe d2)) as HA.
    destruct HA as [HA1 HA2]; auto.
    { intros [|e|]; cbn; auto. destruct e; cbn; auto using error_sim_refl. }
    { intros s. now apply sem_read_sim. }
    destruct (sem_act _ [SElem _ (d_pos d1)] _ _ _ _) as [[o1|x1] pl1],
             (sem_act _ [SElem _ (d_pos d2)] _ _ _ _) as [[o2|x2] pl2];
      cbn [fst snd] in *; try contradiction.
    - destruct o1, o2; cbn in HA1; try contradiction; cbn [res_sim]; auto.
      apply wrap_sim; assumption.
    - cbn. assumption.
  Qed.
End Blind.

(** ** Error paths *)

Section Blame.
  Context {St : Type} (V : visitors St).
  Hypothesis HT : transparent V.

  Lemma sem_string_blame : forall kids path acc pe e pl,
    sem_string path acc kids pe = (Err e, pl) ->
    exists name attrs ns p kk pk,
      In (NElem name attrs ns p kk pk) kids /\
      e = Error (EMsg (MUnexpectedElement name)) (path ++ [SElem name p]) p.
  Proof.
    induction kids as [|[] kids IH]; intros path acc pe' e pl H; cbn in H; try discriminate.
    - injection H as <- <-. do 6 eexists. split; [now left|reflexivity].
    - destruct (IH _ _ _ _ _ H) as (? & ? & ? & ? & ? & ? & ? & ?). do 6 eexists; split; [right; eassumption|eassumption].
    - destruct (IH _ _ _ _ _ H) as (? & ? & ? & ? & ? & ? & ? & ?). do 6 eexists; split; [right; eassumption|eassumption].
    - destruct (IH _ _ _ _ _ H) as (? & ? & ? & ? & ? & ? & ? & ?). do 6 eexists; split; [right; eassumption|eassumption].
  Qed.

  Lemma sem_string_place : forall kids path acc pe s pl,
    sem_string path acc kids pe = (Ok s, pl) -> pl = (path, pe).
  Proof.
    induction kids as [|[] kids IH]; intros path acc pe' s' pl H; cbn in H; try discriminate; eauto.
    now injection H as _ <-.
  Qed.

  Lemma sem_kids_place : forall rd path fin kids s i s' pl,
    sem_kids V rd path fin kids s = (Ok i, s', pl) -> pl = (path, snd fin) /\ i = fin.
  Proof.
    induction kids as [|c kids IH]; intros s i s' pl H; cbn [sem_kids] in H.
    - injection H as <- _ <-. auto.
    - destruct c.
      + destruct (sem_act _ _ _ _ _ _) as [[[[]]|] ?]; try discriminate. eauto.
      + destruct (v_characters _ _ _ _) as [[] ?]; try discriminate. eauto.
      + eauto.
      + eauto.
  Qed.

  Lemma sem_attrs_blame : forall attrs path p s e s',
    sem_attrs V path p attrs s = (Err e, s') ->
    exists a s0 s1 m, In a attrs /\ v_attribute V s0 (from_xml_name (a_name a)) (a_value a) = (Err (Wrap m), s1) /\
      e = Error (EDeserializer m) path p.
  Proof.
    destruct HT as [HT1 _].
    induction attrs; intros path p s e s' H; cbn in H; [discriminate|].
    specialize (HT1 s (from_xml_name (a_name a)) (a_value a)).
    destruct (v_attribute V s (from_xml_name (a_name a)) (a_value a)) as [[|e1|x] s1] eqn:E; try discriminate.
    - destruct (IHattrs _ _ _ _ _ H) as (a' & s0 & s2 & m & ? & ? & ?).
      exists a', s0, s2, m. split; [now right|auto].
    - injection H as <- <-. destruct (HT1 _ eq_refl) as (m & ->).
      exists a, s, s1, m. split; [now left|auto].
  Qed.

  (** What can be wrong when an action on an element fails. *)
  Lemma sem_act_blame : forall A B (get : A -> res verr B) (act : action St A)
    name attrs ns p kids pe parents a e pl,
    transparent_act get act ->
    sem_act (sem_read V (NElem name attrs ns p kids pe) parents) (parents ++ [SElem name p]) p kids pe act
      = (inl a, pl) ->
    get a = Err e ->
    (forall s e s' pl, sem_read V (NElem name attrs ns p kids pe) parents s = (Err e, s', pl) ->
       exists path n, on_path parents (NElem name attrs ns p kids pe) path n /\ blames V path n e) ->
    (exists m, e = Wrap m /\ outcome act a /\ fst pl = parents ++ [SElem name p] /\ (snd pl = p \/ snd pl = pe)) \/
    (exists e' path n, e = Propagate e' /\ on_path parents (NElem name attrs ns p kids pe) path n /\ blames V path n e').
  Proof.
    intros A B get act name attrs ns p kids pe parents a e pl Ht H Hg Hrd.
    destruct act as [a'|k|s0 k]; cbn [sem_act transparent_act outcome] in *.
    - injection H as <- <-. destruct (Ht _ Hg) as (m & ->). left. exists m. cbn. auto.
    - destruct Ht as [Ht1 Ht2].
      destruct (sem_string (parents ++ [SElem name p]) "" kids pe) as [[s|e1|x] pl'] eqn:E; try discriminate.
      + injection H as <- <-. apply sem_string_place in E. subst pl'.
        destruct (Ht1 _ _ Hg) as (m & ->). left. exists m. cbn. eauto 6.
      + injection H as <- <-. rewrite Ht2 in Hg. injection Hg as <-. right.
        apply sem_string_blame in E. destruct E as (cn & ca & cns & cp & ck & cpe & HI & ->).
        exists (Error (EMsg (MUnexpectedElement cn)) ((parents ++ [SElem name p]) ++ [SElem cn cp]) cp).
        exists ((parents ++ [SElem name p]) ++ [SElem cn cp]), (NElem cn ca cns cp ck cpe).
        split; [reflexivity|]. split; [|constructor].
        eapply on_path_below; [eassumption|]. constructor.
    - destruct Ht as [Ht1 Ht2].
      destruct (sem_read V (NElem name attrs ns p kids pe) parents s0) as [[[i|e1|x] s1] pl'] eqn:E; try discriminate.
      + injection H as <- <-. destruct (Ht1 _ _ _ Hg) as (m & ->). left. exists m.
        assert (Hpl : pl' = (parents ++ [SElem name p], pe)).
        { cbn [sem_read] in E. destruct (sem_attrs _ _ _ _ _) as [[] ?]; try discriminate.
          apply sem_kids_place in E. apply E. }
        subst pl'. cbn. eauto 7.
      + injection H as <- <-. rewrite Ht2 in Hg. injection Hg as <-. right.
        destruct (Hrd _ _ _ _ E) as (path & n & H1 & H2). eauto 7.
  Qed.

  Lemma sem_read_blame : forall n parents s e s' pl,
    sem_read V n parents s = (Err e, s', pl) ->
    exists path t, on_path parents n path t /\ blames V path t e.
  Proof.
    destruct HT as [HT1 HT2].
    induction n as [name attrs ns p kids pe IHk| | |] using node_ind'; intros parents s0 e s' pl H;
      try discriminate.
    cbn [sem_read] in H.
    destruct (sem_attrs V (parents ++ [SElem name p]) p attrs s0) as [[u|e1|x] s1] eqn:E; try discriminate.
    2:{ injection H as <- <- <-.
        apply sem_attrs_blame in E. destruct E as (a & s2 & s3 & m & Ha & Hv & ->).
        exists (parents ++ [SElem name p]), (NElem name attrs ns p kids pe).
        split; [constructor|]. eapply blame_attribute; eassumption. }
    clear E s0. set (path := parents ++ [SElem name p]) in *.
    (* generalize over the children still to be read *)
    assert (Hgen : forall kids', incl kids' kids ->
      forall s1 e s' pl, sem_kids V (sem_read V) path (name, ns, pe) kids' s1 = (Err e, s', pl) ->
      exists path t, on_path parents (NElem name attrs ns p kids pe) path t /\ blames V path t e).
    { clear H s1 e s' pl. induction kids' as [|c kids' IH]; intros Hin s1 e s' pl H; cbn [sem_kids] in H; [discriminate|].
      assert (Hc : In c kids) by (apply Hin; now left).
      assert (Hin' : incl kids' kids) by (intros y Hy; apply Hin; now right).
      destruct c as [cn ca cns cp ck cpe|cd str cp|m cp|str cp]; [| |eauto|eauto].
      - rewrite Forall_forall in IHk.
        destruct (sem_act (sem_read V (NElem cn ca cns cp ck cpe) path) (path ++ [SElem cn cp]) cp ck cpe
                    (v_element V s1 (EInfo cn cns (List.length (path ++ [SElem cn cp]))))) as [[[[b|e1|x] s2]|x] pl'] eqn:E;
          try discriminate; [eauto|].
        injection H as <- <- <-.
        pose proof (sem_act_blame _ _ fst _ _ _ _ _ _ _ _ _ e1 _ (HT2 _ _) E eq_refl (IHk _ Hc path)) as
          [(m & -> & Ho & Hpl & _)|(e' & path' & n' & -> & Hon & Hbl)].
        + exists (path ++ [SElem cn cp]), (NElem cn ca cns cp ck cpe). split.
          * eapply on_path_below; [eassumption|]. constructor.
          * cbn [wrap]. rewrite Hpl. eapply blame_element; eassumption.
        + exists path', n'. split; [|assumption]. eapply on_path_below; eassumption.
      - destruct (v_characters V s1 str cp) as [[o|m|x] s2] eqn:E; try discriminate; [eauto|].
        injection H as <- <- <-. exists path, (NElem name attrs ns p kids pe). split; [constructor|].
        eapply blame_text; eassumption. }
    eapply Hgen; [apply incl_refl|eassumption].
  Qed.

  Theorem sem_doc_blame : forall T (D : einfo -> action St (res verr T)) d e,
    transparent_root D -> sem_doc V D d = Err e ->
    (exists path n, on_path [] (d_root d) path n /\ blames V path n e) \/
    (exists m p, e = Error (EDeserializer m) [SElem (d_name d) (d_pos d)] p /\
       (p = d_pos d \/ p = d_pe d) /\
       outcome (D (EInfo (d_name d) (d_ns d) 1)) (Err (Wrap m))).
  Proof.
    intros T D d e HD H. unfold sem_doc in H.
    set (i := EInfo _ _ _) in *.
    destruct (sem_act _ _ _ _ _ _) as [[[v|e1|x]|x] pl] eqn:E; try discriminate.
    injection H as <-.
    pose proof (sem_act_blame _ _ (fun x => x) (D i) (d_name d) (d_attrs d) (d_ns d) (d_pos d) (d_kids d) (d_pe d)
      [] _ e1 pl (HD i) E eq_refl) as HA.
    destruct HA as [(m & -> & Ho & Hpl & Hpos)|(e' & path & n & -> & H1 & H2)].
    - intros. eapply sem_read_blame; eassumption.
    - right. exists m, (snd pl). cbn [wrap]. rewrite Hpl. auto.
    - left. exists path, n. auto.
  Qed.
End Blame.

(** ** Ignored children *)

Definition ignores {St} (V : visitors St) (i : einfo) : Prop :=
  forall s, exists a, v_element V s i = ANoRead a.

(** Documents that differ only inside children no visitor looks into. *)
Inductive same_seen {St} (V : visitors St) : nat -> list node -> list node -> Prop :=
| ss_nil : forall depth, same_seen V depth [] []
| ss_same : forall depth n k1 k2, is_elem n = false -> same_seen V depth k1 k2 ->
    same_seen V depth (n :: k1) (n :: k2)
| ss_ignored : forall depth name attrs1 attrs2 ns p kk1 kk2 pe1 pe2 k1 k2,
    ignores V (EInfo name ns (S depth)) -> same_seen V depth k1 k2 ->
    same_seen V depth (NElem name attrs1 ns p kk1 pe1 :: k1) (NElem name attrs2 ns p kk2 pe2 :: k2)
| ss_elem : forall depth name attrs ns p kk1 kk2 pe k1 k2,
    same_seen V (S depth) kk1 kk2 -> same_seen V depth k1 k2 ->
    same_seen V depth (NElem name attrs ns p kk1 pe :: k1) (NElem name attrs ns p kk2 pe :: k2).

Lemma same_seen_string : forall St (V : visitors St) depth k1 k2, same_seen V depth k1 k2 ->
  forall path acc pe, sem_string path acc k1 pe = sem_string path acc k2 pe.
Proof.
  induction 1; intros; cbn [sem_string]; auto.
  destruct n; try discriminate; auto.
Qed.

Lemma sem_act_ext : forall St A (act : action St A) rd1 rd2 path p k1 k2 pe,
  (forall s, rd1 s = rd2 s) -> (forall acc, sem_string path acc k1 pe = sem_string path acc k2 pe) ->
  sem_act rd1 path p k1 pe act = sem_act rd2 path p k2 pe act.
Proof.
  intros. destruct act; cbn [sem_act]; auto.
  - now rewrite H0.
  - now rewrite H.
Qed.

Lemma same_seen_kids : forall St (V : visitors St) depth k1 k2, same_seen V depth k1 k2 ->
  forall path fin s, List.length path = depth ->
  sem_kids V (sem_read V) path fin k1 s = sem_kids V (sem_read V) path fin k2 s.
Proof.
  induction 1 as [|depth n k1 k2 Hn H IH|depth name a1 a2 ns p kk1 kk2 pe1 pe2 k1 k2 Hi H IH
                 |depth name attrs ns p kk1 kk2 pe k1 k2 Hk IHk H IH];
    intros path fin s Hd; cbn [sem_kids].
  - reflexivity.
  - destruct n; try discriminate; auto.
    destruct (v_characters _ _ _ _) as [[] ?]; auto.
  - assert (Hl : List.length (path ++ [SElem name p]) = S depth) by (rewrite app_length; cbn; lia).
    rewrite Hl. destruct (Hi s) as ([[] ?] & ->); cbn [sem_act]; auto.
  - assert (Hl : List.length (path ++ [SElem name p]) = S depth) by (rewrite app_length; cbn; lia).
    rewrite (sem_act_ext _ _ _ (sem_read V (NElem name attrs ns p kk1 pe) path)
               (sem_read V (NElem name attrs ns p kk2 pe) path) _ _ kk1 kk2 pe).
    + destruct (sem_act _ _ _ _ _ _) as [[[[]]|] ?]; auto.
    + intros s0. cbn [sem_read]. destruct (sem_attrs _ _ _ _ _) as [[] ?]; auto.
    + intros. eapply same_seen_string; eassumption.
Qed.

Theorem same_seen_doc : forall St T (V : visitors St) (D : einfo -> action St (res verr T)) d k2,
  same_seen V 1 (d_kids d) k2 ->
  sem_doc V D d =
  sem_doc V D (Doc (d_start d) (d_prolog d) (d_name d) (d_attrs d) (d_ns d) (d_pos d) k2 (d_pe d) (d_epilogue d)).
Proof.
  intros. unfold sem_doc, d_root. cbn [d_name d_attrs d_ns d_pos d_kids d_pe].
  rewrite (sem_act_ext _ _ _ (sem_read V (NElem (d_name d) (d_attrs d) (d_ns d) (d_pos d) (d_kids d) (d_pe d)) [])
             (sem_read V (NElem (d_name d) (d_attrs d) (d_ns d) (d_pos d) k2 (d_pe d)) []) _ _ (d_kids d) k2 (d_pe d)).
  - reflexivity.
  - intros s. cbn [sem_read app]. destruct (sem_attrs _ _ _ _ _) as [[] ?]; auto.
    eapply same_seen_kids; [eassumption|reflexivity].
  - intros. eapply same_seen_string; eassumption.
Qed.

(** Reading stops at the first error: later siblings do not matter. *)
Lemma sem_kids_abandon : forall St (V : visitors St) rd path fin k1 k2 s e s' pl,
  sem_kids V rd path fin k1 s = (Err e, s', pl) ->
  sem_kids V rd path fin (k1 ++ k2) s = (Err e, s', pl).
Proof.
  induction k1 as [|c k1 IH]; intros k2 s e s' pl H; cbn [sem_kids app] in *; [discriminate|].
  destruct c.
  - destruct (sem_act _ _ _ _ _ _) as [[[[]]|] ?]; auto; discriminate.
  - destruct (v_characters _ _ _ _) as [[] ?]; auto; discriminate.
  - auto.
  - auto.
Qed.

(** ** Text *)

Lemma concat_empty_cons : forall s l, String.concat "" (s :: l) = (s ++ String.concat "" l)%string.
Proof.
  intros s [|t l]; cbn; [|reflexivity]. induction s; cbn; [reflexivity|]. now rewrite <- IHs.
Qed.

Lemma str_app_assoc : forall a b c : string, ((a ++ b) ++ c)%string = (a ++ (b ++ c))%string.
Proof. induction a; intros; cbn; [reflexivity|]. now rewrite IHa. Qed.

Lemma str_app_nil : forall a : string, (a ++ "")%string = a.
Proof. induction a; cbn; [reflexivity|]. now rewrite IHa. Qed.

Lemma sem_string_text : forall kids path acc pe, existsb is_elem kids = false ->
  sem_string path acc kids pe = (Ok (acc ++ text_of kids)%string, (path, pe)).
Proof.
  unfold text_of. induction kids as [|k kids IH]; intros path acc pe H.
  - cbn. now rewrite str_app_nil.
  - cbn [existsb] in H. apply orb_false_iff in H. destruct H as [Hk H].
    cbn [map]. rewrite concat_empty_cons.
    destruct k; try discriminate; cbn [sem_string]; rewrite IH by assumption.
    + now rewrite str_app_assoc.
    + reflexivity.
    + reflexivity.
Qed.

Lemma sem_string_elem : forall kids path acc pe, existsb is_elem kids = true ->
  exists k1 name attrs ns p kk pk k2, kids = k1 ++ NElem name attrs ns p kk pk :: k2 /\
    existsb is_elem k1 = false /\
    sem_string path acc kids pe =
      (Err (Error (EMsg (MUnexpectedElement name)) (path ++ [SElem name p]) p), (path ++ [SElem name p], p)).
Proof.
  induction kids as [|k kids IH]; intros path acc pe H; [discriminate|].
  destruct k; cbn [existsb is_elem orb sem_string] in *.
  - exists []. do 7 eexists. split; [reflexivity|]. split; reflexivity.
  - destruct (IH path (acc ++ s)%string pe H) as (k1 & n & a & ns & p' & kk & pk & k2 & -> & H1 & H2).
    exists (NText cdata s p :: k1). do 7 eexists. split; [reflexivity|]. split; auto.
  - destruct (IH path acc pe H) as (k1 & n & a & ns & p' & kk & pk & k2 & -> & H1 & H2).
    exists (NMisc m p :: k1). do 7 eexists. split; [reflexivity|]. split; auto.
  - destruct (IH path acc pe H) as (k1 & n & a & ns & p' & kk & pk & k2 & -> & H1 & H2).
    exists (NBlank s p :: k1). do 7 eexists. split; [reflexivity|]. split; auto.
Qed.

Lemma deserialize_text_propagating : forall St T (parse : string -> res string T),
  propagating_root (St := St) (deserialize_text parse).
Proof. intros. intros i e v. cbn. discriminate. Qed.
