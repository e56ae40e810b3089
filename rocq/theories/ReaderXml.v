(** Errors of the XML parser, and agreement of debug and release builds. *)
From Verif Require Import Base Reader ReaderSpec ReaderProofs ReaderOk.
From Coq Require Import Lia.

(** ** The element path of XML errors *)

Lemma opened_app : forall e1 e2 st, opened st (e1 ++ e2) = opened (opened st e1) e2.
Proof.
  induction e1 as [|[e p] e1 IH]; intros; cbn; [reflexivity|]. destruct e; apply IH.
Qed.

Lemma opened_noise : forall nz st, Forall (fun ep => noise_event (fst ep) = true) nz -> opened st nz = st.
Proof.
  intros nz st H. revert st. induction H as [|[e p] nz He Hnz IH]; intros; cbn; [reflexivity|].
  destruct e; try discriminate; apply IH.
Qed.

Lemma opened_misc : forall l st, Forall (fun ep => misc_event_b (fst ep) = true) l -> opened st l = st.
Proof.
  intros nz st H. revert st. induction H as [|[e p] nz He Hnz IH]; intros; cbn; [reflexivity|].
  destruct e; try discriminate; apply IH.
Qed.

Lemma firstn_removelast_len : forall A (l : list A) n, List.length l = S n -> firstn n l = removelast l.
Proof. intros. rewrite removelast_firstn_len. now rewrite H. Qed.

Section Path.
  Context (src0 : list (xevent * position)) (fin0 : final).

  Definition good (e : error) : Prop :=
    forall x, er_kind e = EXml x ->
      fin0 = FError x /\ er_pos e = xe_pos x /\ er_stack e = opened [] src0.

  Definition synced (r : rstate) : Prop :=
    r_fin r = fin0 /\ r_depth r = List.length (r_stack r) /\
    exists pre, src0 = pre ++ r_src r /\ r_stack r = opened [] pre.

  (** In sync, except that the last ended element may still be on the stack. *)
  Definition nearly (t : nat) (r : rstate) : Prop :=
    synced r \/ (r_depth r = t /\ synced (truncate r)).

  Lemma next_synced : forall dbg r, synced r ->
    match next dbg r with
    | (Ok (EvStart _ _, _), r') => synced r' /\ r_depth r' = S (r_depth r)
    | (Ok (EvEnd _, _), r') => synced (truncate r') /\ S (r_depth r') = r_depth r
    | (Ok (EvChars _, _), r') => synced r' /\ r_depth r' = r_depth r
    | (Err e, _) => good e
    | (Abort _, _) => True
    end.
  Proof.
    intros dbg r (Hf & Hd & pre & Hpre & Hst). pose proof (next_inv dbg r) as H.
    destruct (next dbg r) as [[[ev p]|er|x] r']; auto.
    - destruct H as (nz & e & H1 & H2 & H3 & H4 & H5 & H6). destruct ev.
      + destruct H6 as (n & -> & H6). split; [|now rewrite H5].
        split; [congruence|]. split. { rewrite H5, H6, app_length; cbn; lia. }
        exists (pre ++ nz ++ [(XStartElement n attrs ns, p)]). split.
        * rewrite Hpre, H1, <- !app_assoc. reflexivity.
        * rewrite !opened_app, <- Hst, (opened_noise nz) by assumption. cbn. assumption.
      + destruct H6 as (-> & H6 & H7). cbn in H5. split; [|lia].
        unfold truncate, synced; cbn [r_fin r_depth r_stack r_src].
        assert (Hl : firstn (r_depth r') (r_stack r') = removelast (r_stack r)).
        { rewrite H6. apply firstn_removelast_len. lia. }
        rewrite Hl. split; [congruence|]. split.
        { rewrite removelast_firstn_len, firstn_length. lia. }
        exists (pre ++ nz ++ [(XEndElement name, p)]). split.
        * rewrite Hpre, H1, <- !app_assoc. reflexivity.
        * rewrite !opened_app, <- Hst, (opened_noise nz) by assumption. reflexivity.
      + destruct H6 as (He & H6).
        assert (H5' : r_depth r' = r_depth r) by (destruct He; subst; exact H5).
        split; [|assumption]. split; [congruence|]. split; [congruence|].
        exists (pre ++ nz ++ [(e, p)]). split.
        * rewrite Hpre, H1, <- !app_assoc. reflexivity.
        * rewrite !opened_app, <- Hst, (opened_noise nz) by assumption.
          destruct He; subst; cbn; assumption.
    - destruct H as (H1 & H2 & H3 & H4 & H5 & e & H6 & ->). intros x Hx. cbn in Hx. injection Hx as <-.
      cbn [er_pos er_stack]. split; [congruence|]. split; [reflexivity|].
      rewrite Hpre, opened_app, <- Hst, opened_noise by assumption. reflexivity.
  Qed.

  Lemma truncate_synced : forall r, synced r -> truncate r = r.
  Proof.
    intros [? ? ? ? ?] (_ & H & _). cbn in H. unfold truncate; cbn. rewrite H, firstn_all. reflexivity.
  Qed.

  Lemma skip_loop_synced : forall fuel dbg t r, nearly t r -> t <= r_depth r ->
    match skip_loop fuel dbg t r with
    | (Ok _, r') => synced r' /\ r_depth r' = t
    | (Err e, _) => good e
    | (Abort _, _) => True
    end.
  Proof.
    induction fuel as [|fuel IH]; intros dbg t r Hn Hd; cbn [skip_loop]; [exact I|].
    destruct (Nat.ltb_spec t (r_depth r)) as [Hlt|Hge].
    - destruct Hn as [Hs|[? _]]; [|lia].
      pose proof (next_synced dbg r Hs) as HN.
      destruct (next dbg r) as [[[ev p]|er|x] r1]; auto.
      apply IH.
      + left. destruct ev; destruct HN as [HN _]; auto; now rewrite truncate_synced.
      + cbn. destruct ev; destruct HN; lia.
    - split; [|cbn; lia]. destruct Hn as [Hs|[_ Hs]]; [|assumption]. now rewrite truncate_synced.
  Qed.

  Lemma return_to_depth_synced : forall dbg t r, nearly t r -> t <= r_depth r ->
    match return_to_depth dbg t r with
    | (Ok _, r') => synced r' /\ r_depth r' = t
    | (Err e, _) => good e
    | (Abort _, _) => True
    end.
  Proof.
    intros. unfold return_to_depth. destruct (dbg && _); [exact I|]. now apply skip_loop_synced.
  Qed.

  Lemma read_string_loop_synced : forall fuel dbg sp acc r, synced r -> r_depth r = S sp ->
    match read_string_loop fuel dbg sp acc r with
    | (Ok _, r') => synced (truncate r') /\ r_depth r' = sp
    | (Err e, _) => good e
    | (Abort _, _) => True
    end.
  Proof.
    induction fuel as [|fuel IH]; intros dbg sp acc r Hs Hd; cbn [read_string_loop]; [exact I|].
    destruct (stack_check dbg sp r); [|exact I].
    pose proof (next_synced dbg r Hs) as HN.
    destruct (next dbg r) as [[[ev p]|er|x] r1]; auto.
    destruct ev; destruct HN as [HS HD].
    - destruct (nth_error _ _); auto. intros x Hx. discriminate.
    - split; [assumption|lia].
    - apply IH; [assumption|congruence].
  Qed.

  Context {St : Type} (dbg : bool) (V : visitors St).
  Hypothesis HT : transparent V.

  Lemma attrs_loop_synced : forall attrs stack p s,
    match fst (attrs_loop V stack p attrs s) with Err e => good e | _ => True end.
  Proof.
    destruct HT as [HT1 _].
    induction attrs; intros; cbn [attrs_loop]; [exact I|].
    specialize (HT1 s (from_xml_name (a_name a)) (a_value a)).
    destruct (v_attribute V s (from_xml_name (a_name a)) (a_value a)) as [[|e|x] s']; cbn [fst].
    - apply IHattrs.
    - destruct (HT1 _ eq_refl) as (m & ->). intros x Hx. discriminate.
    - exact I.
  Qed.

  Definition good_verr (e : verr) : Prop := forall e', e = Propagate e' -> good e'.

  Definition body_synced (fuel : nat) : Prop :=
    forall sp ns s r, synced r -> r_depth r = S sp ->
      match read_loop dbg V fuel sp ns s r with
      | (Ok _, _, r') => synced (truncate r') /\ r_depth r' = sp
      | (Err e, _, _) => good e
      | (Abort _, _, _) => True
      end.

  Lemma run_action_synced : forall A B (get : A -> res verr B) fuel sp attrs ns (act : action St A) r,
    body_synced fuel -> synced r -> r_depth r = S sp -> transparent_act get act ->
    match run_action dbg V (read_loop dbg V fuel) sp attrs ns act r with
    | (inl a, r') =>
        match get a with
        | Ok _ => nearly sp r' /\ sp <= r_depth r'
        | Err e => good_verr e
        | Abort _ => True
        end
    | (inr _, _) => True
    end.
  Proof.
    intros A B get fuel sp attrs ns act r Hb Hs Hd Ht.
    assert (HW : forall (x : res verr B) r', new_error x -> nearly sp r' /\ sp <= r_depth r' ->
      match x with Ok _ => nearly sp r' /\ sp <= r_depth r' | Err e => good_verr e | Abort _ => True end).
    { intros [|e|] r' Hx Hr; auto. destruct (Hx e eq_refl) as (m & ->). intros e' He. discriminate. }
    destruct act as [a|k|s0 k]; cbn [run_action transparent_act] in *.
    - apply HW; [assumption|]. split; [now left|lia].
    - destruct Ht as [Ht1 Ht2].
      pose proof (read_string_loop_synced (S (List.length (r_src r))) dbg sp "" r Hs Hd) as H.
      unfold read_string. destruct (read_string_loop _ _ _ _ _) as [[o|e|x] r1]; auto.
      + apply HW; [apply Ht1|]. destruct H. split; [right; auto|lia].
      + rewrite Ht2. intros e' [= <-]. assumption.
    - destruct Ht as [Ht1 Ht2].
      destruct (nth_error _ _); auto.
      pose proof (attrs_loop_synced attrs (r_stack r) (se_pos s) s0) as HA.
      destruct (attrs_loop _ _ _ _ _) as [[u|e|x] s1]; cbn [fst] in HA; auto.
      + specialize (Hb sp ns s1 r Hs Hd).
        destruct (read_loop _ _ _ _ _ _ _) as [[[i|e|x] s2] r1]; auto.
        * apply HW; [apply Ht1|]. destruct Hb. split; [right; auto|lia].
        * rewrite Ht2. intros e' [= <-]. assumption.
      + rewrite Ht2. intros e' [= <-]. assumption.
  Qed.

  Lemma wrap_good : forall e st p, good_verr e -> good (wrap e st p).
  Proof.
    intros [e|m] st p H; cbn.
    - now apply H.
    - intros x Hx. discriminate.
  Qed.

  Lemma read_loop_synced : forall fuel, body_synced fuel.
  Proof.
    induction fuel as [|fuel IH]; intros sp ns s r Hs Hd; cbn [read_loop]; [exact I|].
    destruct (stack_check dbg sp r); [|exact I].
    pose proof (next_synced dbg r Hs) as HN.
    destruct (next dbg r) as [[[ev p]|er|x] r1]; auto.
    destruct ev; destruct HN as [HS HD].
    - destruct (nth_error _ _) as [el|]; [|exact I].
      pose proof (run_action_synced _ _ fst fuel (S sp) attrs ns0
        (v_element V s (EInfo (se_name el) ns0 (S (S sp)))) r1 IH HS ltac:(congruence)
        (proj2 HT _ _)) as HA.
      destruct (run_action _ _ _ _ _ _ _ _) as [[[o s']|x] r2]; auto. cbn [fst] in HA.
      destruct o as [b|e|x]; auto.
      + destruct HA as [HA1 HA2].
        pose proof (return_to_depth_synced dbg (S sp) r2 HA1 HA2) as HR.
        destruct (return_to_depth _ _ _) as [[u|e|x] r3]; auto.
        destruct HR as [HR1 HR2]. now apply IH.
      + now apply wrap_good.
    - split; [assumption|lia].
    - destruct (v_characters V s s0 p) as [[o|m|x] s']; auto.
      + apply IH; [assumption|congruence].
      + intros x Hx. discriminate.
  Qed.
End Path.

Lemma end_loop_good : forall src0 fin0 src pre e, src0 = pre ++ src -> opened [] pre = [] ->
  end_loop fin0 src = Err e -> good src0 fin0 e.
Proof.
  induction src as [|[ev p] src IH]; intros pre e Hp Ho H; cbn in H.
  - destruct fin0; [discriminate|]. injection H as <-. intros x Hx. cbn in Hx. injection Hx as <-.
    cbn. rewrite app_nil_r in Hp. subst. auto.
  - destruct ev; try (injection H as <-; intros x Hx; discriminate).
    + apply (IH (pre ++ [(XComment s, p)])); auto.
      * now rewrite <- app_assoc.
      * now rewrite opened_app, Ho.
    + apply (IH (pre ++ [(XPI name data, p)])); auto.
      * now rewrite <- app_assoc.
      * now rewrite opened_app, Ho.
Qed.

Theorem read_xml_error : forall St T dbg (V : visitors St) (D : einfo -> action St (res verr T)) src fin x st p,
  transparent V -> transparent_root D ->
  read dbg V D (reader_new src fin) = Err (Error (EXml x) st p) ->
  fin = FError x /\ p = xe_pos x /\ st = opened [] src.
Proof.
  intros St T dbg V D src fin x st p HV HD H.
  assert (G : good src fin (Error (EXml x) st p)); [|exact (G x eq_refl)].
  unfold read, root, inner_next in H. cbn [reader_new r_src r_fin] in H.
  destruct src as [|[e p0] src].
  { destruct fin; try discriminate. injection H as <- <- <-. intros y [= <-]. auto. }
  destruct e; try discriminate.
  unfold set_src in H; cbn [reader_new r_fin r_depth r_stack] in H.
  set (r0 := RState src fin p0 0 []) in H.
  assert (S0 : synced ((XStartDocument, p0) :: src) fin r0).
  { split; [reflexivity|]. split; [reflexivity|]. exists [(XStartDocument, p0)]. auto. }
  pose proof (next_synced _ _ dbg r0 S0) as HN.
  destruct (next dbg r0) as [[[ev p1]|er|?] r1]; try discriminate.
  2:{ injection H as ->. assumption. }
  destruct ev as [a ns| |]; try discriminate.
  destruct HN as [HS Hd]. cbn in Hd. cbn beta iota in H.
  destruct (nth_error (r_stack r1) 0) as [el|]; [|discriminate].
  pose proof (run_action_synced _ _ dbg V HV _ _ (fun y => y) (S (List.length (r_src r1))) 0 a ns
    (D (EInfo (se_name el) ns 1)) r1 (read_loop_synced _ _ dbg V HV _) HS Hd (HD _)) as HA.
  destruct (run_action _ _ _ _ _ _ _ _) as [[[w|e|?]|?] r2]; try discriminate.
  - destruct HA as [HA1 HA2].
    unfold end_ in H.
    pose proof (return_to_depth_synced _ _ dbg 0 r2 HA1 HA2) as HR.
    destruct (return_to_depth _ _ _) as [[u|e|?] r3]; try discriminate.
    + destruct HR as [(HR1 & HR2 & pre & HR3 & HR4) HR5].
      destruct (end_loop (r_fin r3) (r_src r3)) as [|e|] eqn:EL; try discriminate.
      injection H as ->. rewrite HR1 in EL. eapply end_loop_good; [exact HR3| |exact EL].
      rewrite <- HR4. rewrite HR5 in HR2. now destruct (r_stack r3).
    + injection H as ->. assumption.
  - injection H as H. rewrite <- H. now apply wrap_good.
Qed.

(** ** Debug and release builds *)

Lemma next_release : forall r, match next true r with
  | (Abort _, _) => True | x => next false r = x end.
Proof.
  intros r. unfold next. cbn [andb].
  destruct (negb (Nat.eqb (List.length (r_stack r)) (r_depth r))); [exact I|].
  destruct r as [src fin pos d st]. cbn [r_fin r_depth r_stack r_src]. clear pos.
  induction src as [|[e p] src IH]; cbn [next_loop].
  - now destruct fin.
  - destruct e; auto. destruct d; auto. destruct (nth_error st d); auto.
    now destruct (oname_eqb (se_name s) name).
Qed.

Lemma skip_loop_release : forall fuel t r, match skip_loop fuel true t r with
  | (Abort _, _) => True | x => skip_loop fuel false t r = x end.
Proof.
  induction fuel as [|fuel IH]; intros t r; cbn [skip_loop]; [exact I|].
  destruct (Nat.ltb t (r_depth r)); [|reflexivity].
  pose proof (next_release r) as HN. destruct (next true r) as [[ev|e|x] r1]; auto; rewrite HN; auto.
  apply IH.
Qed.

Lemma return_to_depth_release : forall t r, match return_to_depth true t r with
  | (Abort _, _) => True | x => return_to_depth false t r = x end.
Proof.
  intros. unfold return_to_depth. cbn [andb].
  destruct (Nat.ltb (r_depth r) t); [exact I|]. apply skip_loop_release.
Qed.

Lemma read_string_loop_release : forall fuel sp acc r, match read_string_loop fuel true sp acc r with
  | (Abort _, _) => True | x => read_string_loop fuel false sp acc r = x end.
Proof.
  induction fuel as [|fuel IH]; intros sp acc r; cbn [read_string_loop]; [exact I|].
  destruct (stack_check true sp r); [|exact I]. change (stack_check false sp r) with true. cbv iota.
  pose proof (next_release r) as HN. destruct (next true r) as [[[ev p]|e|x] r1]; auto; rewrite HN; auto.
  destruct ev; auto.
  - now destruct (nth_error _ _).
  - apply IH.
Qed.

Section Release.
  Context {St : Type} (V : visitors St).

  Definition body_release (fuel : nat) : Prop := forall sp ns s r,
    match read_loop true V fuel sp ns s r with
    | (Abort _, _, _) => True | x => read_loop false V fuel sp ns s r = x end.

  Lemma run_action_release : forall A fuel sp attrs ns (act : action St A) r, body_release fuel ->
    match run_action true V (read_loop true V fuel) sp attrs ns act r with
    | (inr _, _) => True | x => run_action false V (read_loop false V fuel) sp attrs ns act r = x end.
  Proof.
    intros A fuel sp attrs ns act r Hb. destruct act as [a|k|s0 k]; cbn [run_action].
    - reflexivity.
    - pose proof (read_string_loop_release (S (List.length (r_src r))) sp "" r) as H.
      unfold read_string. destruct (read_string_loop _ true _ _ _) as [[o|e|x] r1]; auto; now rewrite H.
    - destruct (nth_error _ _); auto. destruct (attrs_loop _ _ _ _ _) as [[u|e|x] s1]; auto.
      specialize (Hb sp ns s1 r).
      destruct (read_loop true _ _ _ _ _ _) as [[[i|e|x] s2] r1]; auto; now rewrite Hb.
  Qed.

  Lemma read_loop_release : forall fuel, body_release fuel.
  Proof.
    induction fuel as [|fuel IH]; intros sp ns s r; cbn [read_loop]; [exact I|].
    destruct (stack_check true sp r); [|exact I]. change (stack_check false sp r) with true. cbv iota.
    pose proof (next_release r) as HN. destruct (next true r) as [[[ev p]|e|x] r1]; auto; rewrite HN; auto.
    destruct ev; auto.
    - destruct (nth_error _ _) as [el|]; [|exact I].
      pose proof (run_action_release _ fuel (S sp) attrs ns0
        (v_element V s (EInfo (se_name el) ns0 (S (S sp)))) r1 IH) as HA.
      destruct (run_action true _ _ _ _ _ _ _) as [[[o s']|x] r2]; auto. rewrite HA.
      destruct o as [b|e|x]; auto.
      pose proof (return_to_depth_release (S sp) r2) as HR.
      destruct (return_to_depth true _ _) as [[u|e|x] r3]; auto; rewrite HR; auto. apply IH.
    - destruct (v_characters V s s0 p) as [[o|m|x] s']; auto. apply IH.
  Qed.
End Release.

Theorem read_release : forall St T (V : visitors St) (D : einfo -> action St (res verr T)) r,
  no_abort (read true V D r) -> read false V D r = read true V D r.
Proof.
  intros St T V D r. unfold read, root.
  destruct (inner_next r) as [[o|e|x] r0]; auto.
  destruct o as [[]|]; auto.
  pose proof (next_release r0) as HN.
  destruct (next true r0) as [[[ev p]|e|x] r1]; try rewrite HN; auto.
  2:{ intros H. now destruct (H x). }
  destruct ev; auto.
  destruct (nth_error _ _) as [el|]; auto.
  pose proof (run_action_release V _ (S (List.length (r_src r1))) 0 attrs ns
    (D (EInfo (se_name el) ns 1)) r1 (read_loop_release V _)) as HA.
  destruct (run_action true _ _ _ _ _ _ _) as [[a|x] r2]; [rewrite HA|intros H; now destruct (H x)].
  destruct a as [v|e|x]; auto.
  unfold end_. pose proof (return_to_depth_release 0 r2) as HR.
  destruct (return_to_depth true _ _) as [[u|e|x] r3]; try rewrite HR; auto.
  intros H. now destruct (H x).
Qed.
