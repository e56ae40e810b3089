(** Catching panics on any stream: what was read when [Ok] is returned, and termination (C65). *)
From Coq Require Import Lia.
From Verif Require Import Base Reader ReaderSpec ReaderProofs ReaderTotal ReaderOk Catch CatchSpec.

(** ** Where a panic of the reader itself leaves it *)

Lemma next_loop_panic : forall dbg fin st t src d pos m r', t < d ->
  next_loop dbg fin d st src = (Abort (Panic m), r') -> traced t (RState src fin pos d st) r'.
Proof.
  intros dbg fin st t. induction src as [|[e p] src IH]; intros d pos m r' LT; cbn [next_loop].
  - destruct fin; discriminate.
  - assert (SKIP : noise_event e = true -> next_loop dbg fin d st src = (Abort (Panic m), r') ->
      traced t (RState ((e, p) :: src) fin pos d st) r').
    { intros N H. apply (traced_trans _ _ (RState src fin pos d st)).
      - exists [(e, p)]. repeat split. constructor; [exact LT|]. destruct e; try discriminate N; constructor.
      - exact (IH d pos m r' LT H). }
    destruct e; try discriminate; try (apply SKIP; reflexivity).
    destruct d as [|d]; [lia|].
    assert (G : traced t (RState ((XEndElement name, p) :: src) fin pos (S d) st) (RState src fin p d st)).
    { exists [(XEndElement name, p)]. repeat split. constructor; [exact LT|]. constructor. }
    destruct dbg; [|discriminate]. destruct (nth_error st d) as [el|]; [destruct (oname_eqb _ _)|]; try discriminate;
      injection 1 as <- <-; exact G.
Qed.

Lemma next_panic : forall dbg t r m r', t < r_depth r -> next dbg r = (Abort (Panic m), r') -> traced t r r'.
Proof.
  intros dbg t [src fin pos d st] m r' LT. unfold next. cbn [r_depth r_stack r_fin r_src] in *.
  destruct (dbg && _).
  - injection 1 as <- <-. apply traced_refl.
  - apply next_loop_panic. exact LT.
Qed.

Lemma skip_loop_panic : forall fuel dbg t r m r', t <= r_depth r ->
  skip_loop fuel dbg t r = (Abort (Panic m), r') -> traced t r r'.
Proof.
  induction fuel as [|fuel IH]; intros dbg t r m r' LE; cbn [skip_loop]; [discriminate|].
  destruct (Nat.ltb_spec t (r_depth r)) as [LT|_]; [|discriminate].
  pose proof (next_traced t dbg r LT) as N. pose proof (next_panic dbg t r) as NP.
  destruct (next dbg r) as [[[ev p]|e|x] r1]; [|discriminate|].
  - assert (HT : traced t r r1 /\ t <= r_depth r1).
    { destruct ev; destruct N as [? ->]; split; auto; lia. }
    intro H. apply (traced_trans _ _ (truncate r1)); [apply traced_truncate, HT|]. apply (IH dbg t (truncate r1) m r'); [|exact H]. apply HT.
  - intro H. injection H as -> ->. exact (NP m r' LT eq_refl).
Qed.

Lemma return_to_depth_panic : forall dbg t r m r', t <= r_depth r ->
  return_to_depth dbg t r = (Abort (Panic m), r') -> traced t r r'.
Proof.
  intros dbg t r m r' LE. unfold return_to_depth. destruct (dbg && _).
  - injection 1 as <- <-. apply traced_refl.
  - apply skip_loop_panic. exact LE.
Qed.

Lemma read_string_loop_panic : forall fuel dbg sp acc r m r', r_depth r = S sp ->
  read_string_loop fuel dbg sp acc r = (Abort (Panic m), r') -> traced sp r r'.
Proof.
  induction fuel as [|fuel IH]; intros dbg sp acc r m r' D; cbn [read_string_loop]; [discriminate|].
  destruct (stack_check dbg sp r); [|injection 1 as <- <-; apply traced_refl].
  pose proof (next_traced sp dbg r ltac:(lia)) as N. pose proof (next_panic dbg sp r) as NP.
  destruct (next dbg r) as [[[ev p]|e|x] r1]; [|discriminate|].
  - destruct ev; destruct N as [HT HD].
    + destruct (nth_error _ _); [discriminate|]. injection 1 as <- <-. exact HT.
    + discriminate.
    + intro H. apply (traced_trans _ _ r1); [exact HT|]. assert (D1 : r_depth r1 = S sp) by congruence. exact (IH _ _ _ _ _ _ D1 H).
  - intro H. injection H as -> ->. exact (NP m r' ltac:(lia) eq_refl).
Qed.

Section Traced.
  Context {St : Type} (dbg : bool) (V : cvisitors St).

  Definition cbody_traced (fuel : nat) : Prop :=
    forall sp ns s r, r_depth r = S sp ->
      match cread_loop dbg V fuel sp ns s r with
      | (Ok _, _, r') => traced sp r r' /\ r_depth r' = sp
      | (Err _, _, r') | (Abort (Panic _), _, r') => traced sp r r'
      | (Abort _, _, _) => True
      end.

  Lemma run_caction_traced : forall A fuel sp attrs ns (act : caction St A) r,
    cbody_traced fuel -> r_depth r = S sp ->
    match run_caction dbg V (cread_loop dbg V fuel) sp attrs ns act r with
    | (inl _, r') => traced sp r r'
    | (inr x, _) => forall m, x <> Panic m
    end.
  Proof.
    intros A fuel sp attrs ns act r Hb Hd. destruct act as [a|k|s0 k]; cbn [run_caction].
    - apply traced_refl.
    - pose proof (read_string_loop_traced (S (List.length (r_src r))) dbg sp "" r Hd) as H.
      pose proof (read_string_loop_panic (S (List.length (r_src r))) dbg sp "" r) as P.
      unfold read_string. destruct (read_string_loop _ _ _ _ _) as [[o|e|[m| |]] r1]; auto; try discriminate; [now destruct H|].
      exact (P m r1 Hd eq_refl).
    - destruct (nth_error _ _); [|apply traced_refl].
      destruct (cattrs_loop _ _ _ _ _) as [[u|e|[m| |]] s1]; auto using traced_refl; try discriminate.
      specialize (Hb sp ns s1 r Hd).
      destruct (cread_loop _ _ _ _ _ _ _) as [[[i|e|[m| |]] s2] r1]; auto; try discriminate. now destruct Hb.
  Qed.

  Lemma cread_loop_traced : forall fuel, cbody_traced fuel.
  Proof.
    induction fuel as [|fuel IH]; intros sp ns s r Hd; cbn [cread_loop]; [exact I|].
    destruct (stack_check dbg sp r); [|apply traced_refl].
    pose proof (next_traced sp dbg r ltac:(lia)) as HN. pose proof (next_panic dbg sp r) as NP.
    destruct (next dbg r) as [[[ev p]|er|[m| |]] r1]; auto; [|exact (NP m r1 ltac:(lia) eq_refl)].
    destruct ev; destruct HN as [HT HD].
    - destruct (nth_error _ _) as [el|]; [|exact HT].
      pose proof (run_caction_traced _ fuel (S sp) attrs ns0
        (c_element V s (EInfo (se_name el) ns0 (S (S sp)))) r1 IH ltac:(congruence)) as HA.
      destruct (run_caction _ _ _ _ _ _ _ _) as [[[o s']|[m| |]] r2]; [|destruct (HA m eq_refl)|exact I|exact I].
      assert (H2 : traced sp r r2).
      { eapply traced_trans; [eassumption|]. eapply traced_weaken; [eassumption|lia]. }
      destruct o as [b|e|[m| |]]; auto.
      assert (Hge : S sp <= r_depth r2) by (apply (traced_ge _ _ _ HA); lia).
      pose proof (return_to_depth_traced dbg (S sp) r2 Hge) as HR.
      pose proof (return_to_depth_panic dbg (S sp) r2) as RP.
      destruct (return_to_depth _ _ _) as [[u|e|[m| |]] r3]; auto.
      + destruct HR as [HR1 HR2].
        assert (H3 : traced sp r r3).
        { eapply traced_trans; [eassumption|]. eapply traced_weaken; [eassumption|lia]. }
        specialize (IH sp ns s' r3 HR2).
        destruct (cread_loop _ _ _ _ _ _ _) as [[[i|e|[m| |]] s4] r4]; auto.
        * destruct IH. split; [|assumption]. eapply traced_trans; eassumption.
        * eapply traced_trans; eassumption.
        * eapply traced_trans; eassumption.
      + eapply traced_trans; [eassumption|]. eapply traced_weaken; [eassumption|lia].
      + eapply traced_trans; [eassumption|]. eapply traced_weaken; [exact (RP m r3 Hge eq_refl)|lia].
    - split; [assumption|]. rewrite HD, Hd. reflexivity.
    - destruct (c_characters V s s0 p) as [[o|m|[m| |]] s']; auto.
      specialize (IH sp ns s' r1 ltac:(congruence)).
      destruct (cread_loop _ _ _ _ _ _ _) as [[[i|e|[m| |]] s4] r4]; auto.
      + destruct IH. split; [|assumption]. eapply traced_trans; eassumption.
      + eapply traced_trans; eassumption.
      + eapply traced_trans; eassumption.
  Qed.
End Traced.

Theorem caught_ok_complete : forall St T dbg (V : cvisitors St) (D : einfo -> caction St (res verr T)) src fin v,
  cread dbg V D (reader_new src fin) = Ok v -> complete_stream src fin.
Proof.
  intros St T dbg V D src fin v H. unfold cread in H.
  unfold root, inner_next in H. cbn [reader_new r_src r_fin] in H.
  destruct src as [|[e p0] src]. { destruct fin; discriminate. }
  destruct e; try discriminate.
  unfold set_src in H; cbn [reader_new r_fin r_depth r_stack] in H.
  set (r0 := RState src fin p0 0 []) in H.
  pose proof (next_inv dbg r0) as HN.
  destruct (next dbg r0) as [[[ev p]|er|x] r1]; try discriminate.
  destruct HN as (nz & e & H1 & H2 & H3 & H4 & H5 & H6).
  destruct ev as [a ns| |]; try discriminate.
  destruct H6 as (n & -> & Hst). cbn [r0 r_src r_fin r_depth r_stack depth_after app] in *.
  cbn beta iota in H. rewrite Hst in H. cbn [nth_error se_name] in H.
  pose proof (run_caction_traced dbg V _ (S (List.length (r_src r1))) 0 a ns (D (EInfo n ns 1)) r1
                (cread_loop_traced dbg V _) H5) as HA.
  destruct (run_caction _ _ _ _ _ _ _ _) as [[[w|e|x]|x] r2]; try discriminate.
  unfold end_ in H.
  pose proof (return_to_depth_traced dbg 0 r2 ltac:(lia)) as HR.
  destruct (return_to_depth _ _ _) as [[u|e|x] r3]; try discriminate.
  destruct (end_loop (r_fin r3) (r_src r3)) as [[]|e|x] eqn:EL; try discriminate.
  apply end_loop_ok in EL. destruct EL as [E1 (pe & E2)].
  destruct HR as [HR1 HR2].
  destruct (traced_trans _ _ _ _ HA HR1) as (evs & T1 & T2 & T3).
  rewrite H5, HR2 in T3.
  exists p0, nz, n, a, ns, p, evs, (r_src r3), pe.
  repeat split; auto.
  - now rewrite H1, T1.
  - rewrite <- E2, T2, H3. reflexivity.
Qed.

Lemma caught_cut_off : forall St T dbg (V : cvisitors St) (D : einfo -> caction St (res verr T)) src e v,
  cread dbg V D (reader_new src (FError e)) <> Ok v.
Proof.
  intros St T dbg V D src e v H. apply caught_ok_complete in H.
  destruct H as (? & ? & ? & ? & ? & ? & ? & ? & ? & _ & _ & _ & _ & H). discriminate H.
Qed.

(** ** Termination *)

Definition in_doc (r : rstate) : Prop := exists open, nested open r.

Lemma walk_nested : forall t d evs d', walk t d evs d' -> forall open rest fin, well_nested open (evs ++ rest) fin ->
  d = List.length open -> exists open', well_nested open' rest fin /\ d' = List.length open'.
Proof.
  intros t d evs d' W. induction W as [d|d e p evs d' LT W IH]; intros open rest fin WN ->; [eauto|].
  cbn [app well_nested] in WN. destruct e; cbn [depth_after] in *; try contradiction.
  - exact (IH (name :: open) rest fin WN eq_refl).
  - destruct open as [|n' open]; [contradiction|]. destruct WN as [_ WN]. exact (IH open rest fin WN eq_refl).
  - exact (IH open rest fin WN eq_refl).
  - exact (IH open rest fin WN eq_refl).
  - exact (IH open rest fin (proj2 WN) eq_refl).
  - exact (IH open rest fin WN eq_refl).
  - exact (IH open rest fin WN eq_refl).
Qed.

Lemma traced_in_doc : forall t r r', traced t r r' -> in_doc r ->
  in_doc r' /\ List.length (r_src r') <= List.length (r_src r).
Proof.
  intros t r r' (evs & E & F & W) (open & WN & D). rewrite E in WN.
  destruct (walk_nested _ _ _ _ W open (r_src r') (r_fin r) WN D) as (open' & WN' & D'). split.
  - exists open'. split; [rewrite F|]; assumption.
  - rewrite E, app_length. lia.
Qed.

Lemma next_halts : forall dbg r x r', in_doc r -> 0 < r_depth r -> next dbg r = (Abort x, r') -> exists m, x = Panic m.
Proof.
  intros dbg [src fin pos d st] x r' (open & WN & D) LT. unfold next. cbn [r_src r_fin r_depth r_stack] in *.
  destruct (dbg && _); [injection 1 as <- <-; eauto|]. subst d. revert open WN LT.
  induction src as [|[e p] src IH]; intros open WN LT; cbn [next_loop well_nested] in *.
  - destruct fin; [|discriminate]. subst open. cbn in LT. lia.
  - destruct e; try discriminate; try contradiction.
    + destruct open as [|n open]; [contradiction|]. cbn [List.length]. destruct dbg; [|discriminate].
      destruct (nth_error st _) as [el|]; [destruct (oname_eqb _ _)|]; try discriminate; injection 1 as <- <-; eauto.
    + apply IH; [apply WN|exact LT].
    + apply IH; assumption.
    + apply IH; assumption.
Qed.

(** An event is used up. *)
Lemma next_shorter : forall dbg r ev r', next dbg r = (Ok ev, r') -> List.length (r_src r') < List.length (r_src r).
Proof.
  intros dbg r [ev p] r' E. pose proof (next_inv dbg r) as N. rewrite E in N.
  destruct N as (nz & e & -> & _). rewrite app_length. cbn. lia.
Qed.

Lemma skip_loop_halts : forall fuel dbg t r x r', in_doc r -> t <= r_depth r -> List.length (r_src r) < fuel ->
  skip_loop fuel dbg t r = (Abort x, r') -> exists m, x = Panic m.
Proof.
  induction fuel as [|fuel IH]; intros dbg t r x r' ID LE F; [lia|]. cbn [skip_loop].
  destruct (Nat.ltb_spec t (r_depth r)) as [LT|_]; [|discriminate].
  pose proof (next_traced t dbg r LT) as N. pose proof (next_halts dbg r) as NH. pose proof (next_shorter dbg r) as NS.
  destruct (next dbg r) as [[[ev p]|e|y] r1]; [|discriminate|].
  - assert (HT : traced t r r1 /\ t <= r_depth r1).
    { destruct ev; destruct N as [? ->]; split; auto; lia. }
    destruct HT as (HT & LE1). destruct (traced_in_doc _ _ _ HT ID) as (ID1 & _). specialize (NS _ _ eq_refl).
    apply IH; [exact ID1|exact LE1|]. cbn [truncate r_src]. lia.
  - intro E. injection E as -> ->. apply (NH x r' ID); [lia|reflexivity].
Qed.

Lemma return_to_depth_halts : forall dbg t r x r', in_doc r -> t <= r_depth r ->
  return_to_depth dbg t r = (Abort x, r') -> exists m, x = Panic m.
Proof.
  intros dbg t r x r' ID LE. unfold return_to_depth. destruct (dbg && _); [injection 1 as <- <-; eauto|].
  apply skip_loop_halts; auto.
Qed.

Lemma read_string_loop_halts : forall fuel dbg sp acc r x r', in_doc r -> r_depth r = S sp -> List.length (r_src r) < fuel ->
  read_string_loop fuel dbg sp acc r = (Abort x, r') -> exists m, x = Panic m.
Proof.
  induction fuel as [|fuel IH]; intros dbg sp acc r x r' ID D F; [lia|]. cbn [read_string_loop].
  destruct (stack_check dbg sp r); [|injection 1 as <- <-; unfold stack_panic; eauto].
  pose proof (next_traced sp dbg r ltac:(lia)) as N. pose proof (next_halts dbg r) as NH. pose proof (next_shorter dbg r) as NS.
  destruct (next dbg r) as [[[ev p]|e|y] r1]; [|discriminate|].
  - specialize (NS _ _ eq_refl). destruct ev; destruct N as [HT HD].
    + destruct (nth_error _ _); [discriminate|]. injection 1 as <- <-. eauto.
    + discriminate.
    + destruct (traced_in_doc _ _ _ HT ID) as (ID1 & _). apply IH; [exact ID1|congruence|lia].
  - intro E. injection E as -> ->. apply (NH x r' ID); [lia|reflexivity].
Qed.

Section Halts.
  Context {St : Type} (dbg : bool) (V : cvisitors St) (RV : all_return V).

  Definition chalts (fuel : nat) : Prop :=
    forall sp ns s r x s' r', in_doc r -> r_depth r = S sp -> List.length (r_src r) < fuel ->
      cread_loop dbg V fuel sp ns s r = (Abort x, s', r') -> exists m, x = Panic m.

  Lemma cattrs_return : forall attrs stack p s, returns (fst (cattrs_loop V stack p attrs s)).
  Proof.
    induction attrs as [|a attrs IH]; intros stack p s; cbn [cattrs_loop]; [discriminate|].
    pose proof (ret_attribute V RV s (from_xml_name (a_name a)) (a_value a)) as R.
    destruct (c_attribute V s _ _) as [[o|e|x] s']; [apply IH|discriminate|].
    intros y E. cbn [fst] in *. injection E as <-. exact (R x eq_refl).
  Qed.

  Lemma run_caction_halts : forall A (good : A -> Prop) fuel sp attrs ns (act : caction St A) r,
    chalts fuel -> in_doc r -> r_depth r = S sp -> List.length (r_src r) < fuel -> returns_act good act ->
    match run_caction dbg V (cread_loop dbg V fuel) sp attrs ns act r with
    | (inl a, _) => good a
    | (inr _, _) => False
    end.
  Proof.
    intros A good fuel sp attrs ns act r CH ID D F G. destruct act as [a|k|s0 k]; cbn [run_caction returns_act] in *.
    - exact G.
    - unfold read_string. pose proof (read_string_loop_halts (S (List.length (r_src r))) dbg sp "" r) as H.
      destruct (read_string_loop _ _ _ _ _) as [[o|e|x] r1]; auto.
      destruct (H x r1 ID D ltac:(lia) eq_refl) as (m & ->). auto.
    - destruct (nth_error _ _) as [el|]; auto.
      pose proof (cattrs_return attrs (r_stack r) (se_pos el) s0) as R.
      destruct (cattrs_loop _ _ _ _ _) as [[u|e|x] s1]; auto.
      + pose proof (CH sp ns s1 r) as H. destruct (cread_loop _ _ _ _ _ _ _) as [[[i|e|x] s2] r1]; auto.
        destruct (H x s2 r1 ID D F eq_refl) as (m & ->). auto.
      + destruct (R x eq_refl) as (m & ->). auto.
  Qed.

  Lemma cread_loop_halts : forall fuel, chalts fuel.
  Proof.
    induction fuel as [|fuel IH]; intros sp ns s r x s' r' ID D F; [lia|]. cbn [cread_loop].
    destruct (stack_check dbg sp r); [|injection 1 as <- <- <-; unfold stack_panic; eauto].
    pose proof (next_traced sp dbg r ltac:(lia)) as HN. pose proof (next_halts dbg r) as NH. pose proof (next_shorter dbg r) as NS.
    destruct (next dbg r) as [[[ev p]|er|y] r1]; [|discriminate|].
    - specialize (NS _ _ eq_refl). destruct ev; destruct HN as [HT HD];
        destruct (traced_in_doc _ _ _ HT ID) as (ID1 & LE1).
      + destruct (nth_error _ _) as [el|]; [|injection 1 as <- <- <-; eauto].
        assert (D1 : r_depth r1 = S (S sp)) by congruence.
        pose proof (run_caction_halts _ _ fuel (S sp) attrs ns0 _ r1 IH ID1 D1 ltac:(lia)
          (ret_element V RV s (EInfo (se_name el) ns0 (S (S sp))))) as HA.
        pose proof (run_caction_traced dbg V _ fuel (S sp) attrs ns0 (c_element V s (EInfo (se_name el) ns0 (S (S sp)))) r1
          (cread_loop_traced dbg V fuel) D1) as RT.
        destruct (run_caction _ _ _ _ _ _ _ _) as [[[o s1]|y] r2]; [|contradiction].
        destruct (traced_in_doc _ _ _ RT ID1) as (ID2 & LE2).
        destruct o as [b|e|y]; [|discriminate|].
        * assert (Hge : S sp <= r_depth r2) by (apply (traced_ge _ _ _ RT); lia).
          pose proof (return_to_depth_traced dbg (S sp) r2 Hge) as HR.
          pose proof (return_to_depth_halts dbg (S sp) r2) as RH.
          destruct (return_to_depth _ _ _) as [[u|e|y] r3]; [|discriminate|].
          -- destruct HR as (T3 & D3). destruct (traced_in_doc _ _ _ T3 ID2) as (ID3 & LE3).
             apply IH; [exact ID3|exact D3|lia].
          -- intro E. injection E as -> -> ->. exact (RH x r' ID2 Hge eq_refl).
        * intro E. injection E as -> -> ->. exact (HA x eq_refl).
      + discriminate.
      + pose proof (ret_characters V RV s s0 p) as R. destruct (c_characters V s s0 p) as [[o|m|y] s1]; [|discriminate|].
        * apply IH; [exact ID1|congruence|lia].
        * intro E. injection E as -> -> ->. exact (R x eq_refl).
    - intro E. injection E as -> -> ->. apply (NH x r' ID); [lia|reflexivity].
  Qed.

  (** Whatever is caught, reading ends: with a result, or with a panic. *)
  Theorem caught_halts : forall T (D : einfo -> caction St (res verr T)) src fin, deliverable src fin ->
    (forall i, returns_act returns (D i)) -> returns (cread dbg V D (reader_new src fin)).
  Proof.
    intros T D src fin DL RD. unfold cread. pose proof (root_total dbg src fin DL) as RT.
    destruct (root dbg (reader_new src fin)) as [[[attrs ns]|e|x] r1]; [|intros x E; discriminate E|contradiction].
    destruct RT as (n & p & N1 & E1). rewrite E1. cbn [nth_error se_name].
    assert (ID1 : in_doc r1) by (exists [n]; exact N1). assert (D1 : r_depth r1 = 1) by exact (proj2 N1).
    pose proof (run_caction_halts _ _ (S (List.length (r_src r1))) 0 attrs ns _ r1 (cread_loop_halts _) ID1 D1 ltac:(lia) (RD (EInfo n ns 1))) as HA.
    pose proof (run_caction_traced dbg V _ (S (List.length (r_src r1))) 0 attrs ns (D (EInfo n ns 1)) r1 (cread_loop_traced dbg V _) D1) as T1.
    destruct (run_caction _ _ _ _ _ _ _ _) as [[[v|e|x]|x] r2]; [| | |contradiction].
    - destruct (traced_in_doc _ _ _ T1 ID1) as (ID2 & _). unfold end_.
      pose proof (return_to_depth_halts dbg 0 r2) as RH. destruct (return_to_depth _ _ _) as [[u|e|x] r3].
      + pose proof (end_loop_total (r_src r3) (r_fin r3)) as ET. destruct (end_loop _ _) as [u'|e|x]; [discriminate|discriminate|destruct (ET x eq_refl)].
      + discriminate.
      + intros y E. injection E as <-. exact (RH x r3 ID2 ltac:(lia) eq_refl).
    - discriminate.
    - intros y E. injection E as <-. exact (HA x eq_refl).
  Qed.
End Halts.

(** In release builds the only panics are those of user code. *)
Theorem caught_release_total : forall St T (V : cvisitors St) (D : einfo -> caction St (res verr T)) src fin,
  all_return V -> root_catches D -> deliverable src fin -> no_abort (cread false V D (reader_new src fin)).
Proof.
  intros St T V D src fin RV RD DL. unfold cread. pose proof (root_total false src fin DL) as RT.
  destruct (root false (reader_new src fin)) as [[[attrs ns]|e|x] r1]; [|intros x E; discriminate E|contradiction].
  destruct RT as (n & p & N1 & E1). rewrite E1. cbn [nth_error se_name].
  assert (ID1 : in_doc r1) by (exists [n]; exact N1). assert (D1 : r_depth r1 = 1) by exact (proj2 N1).
  pose proof (run_caction_halts false V RV _ _ (S (List.length (r_src r1))) 0 attrs ns _ r1 (cread_loop_halts false V RV _) ID1 D1 ltac:(lia) (RD (EInfo n ns 1))) as HA.
  pose proof (run_caction_traced false V _ (S (List.length (r_src r1))) 0 attrs ns (D (EInfo n ns 1)) r1 (cread_loop_traced false V _) D1) as T1.
  destruct (run_caction _ _ _ _ _ _ _ _) as [[[v|e|x]|x] r2]; [| | |contradiction].
  - destruct (traced_in_doc _ _ _ T1 ID1) as ((open & N2) & _). unfold end_.
    assert (LO : left_off false true [] [] r2).
    { exists open. rewrite app_nil_r. split; [exact N2|]. split; [exists (r_stack r2); reflexivity|discriminate]. }
    pose proof (return_to_depth_total false [] [] r2 eq_refl LO) as HE. cbn [List.length] in HE.
    destruct (return_to_depth _ _ _) as [[u|e|x] r3]; [|intros x E; discriminate E|contradiction].
    pose proof (end_loop_total (r_src r3) (r_fin r3)) as ET. destruct (end_loop _ _) as [u'|e|x]; [intros x E; discriminate E|intros x E; discriminate E|destruct (ET x eq_refl)].
  - intros x E; discriminate E.
  - destruct (HA x eq_refl).
Qed.

(** ** Programs that catch nothing *)

Section Unwinding.
  Context {St : Type} (dbg : bool) (V : visitors St).

  Lemma unwinding_attrs : forall attrs stack p s,
    cattrs_loop (unwinding V) stack p attrs s = attrs_loop V stack p attrs s.
  Proof.
    induction attrs as [|a attrs IH]; intros stack p s; [reflexivity|]. cbn [cattrs_loop attrs_loop unwinding c_attribute].
    destruct (v_attribute V s _ _) as [[o|e|x] s']; auto.
  Qed.

  Definition unwinds (fuel : nat) : Prop := forall sp ns s r,
    fst (fst (cread_loop dbg (unwinding V) fuel sp ns s r)) = fst (fst (read_loop dbg V fuel sp ns s r)) /\
    snd (cread_loop dbg (unwinding V) fuel sp ns s r) = snd (read_loop dbg V fuel sp ns s r) /\
    (~ (exists m, fst (fst (read_loop dbg V fuel sp ns s r)) = Abort (Panic m)) ->
     snd (fst (cread_loop dbg (unwinding V) fuel sp ns s r)) = snd (fst (read_loop dbg V fuel sp ns s r))).

  Lemma unwinding_run : forall fuel, unwinds fuel -> forall A B (panics : string -> B) (f : A -> B) sp attrs ns act r,
    run_caction dbg (unwinding V) (cread_loop dbg (unwinding V) fuel) sp attrs ns (unwinding_act act (fun m _ => panics m) f) r =
    match run_action dbg V (read_loop dbg V fuel) sp attrs ns act r with
    | (inl a, r') => (inl (f a), r')
    | (inr (Panic m), r') => (inl (panics m), r')
    | (inr x, r') => (inr x, r')
    end.
  Proof.
    intros fuel U A B panics f sp attrs ns act r. destruct act as [a|k|s0 k]; cbn [unwinding_act run_caction run_action].
    - reflexivity.
    - destruct (read_string dbg sp r) as [[s|e|[m| |]] r']; reflexivity.
    - destruct (nth_error (r_stack r) sp) as [el|]; [|reflexivity]. rewrite unwinding_attrs.
      destruct (attrs_loop V (r_stack r) (se_pos el) attrs s0) as [[u|e|[m| |]] s1]; try reflexivity.
      destruct (U sp ns s1 r) as (E1 & E2 & E3).
      destruct (cread_loop dbg (unwinding V) fuel sp ns s1 r) as [[x s2] r2].
      destruct (read_loop dbg V fuel sp ns s1 r) as [[y s3] r3]. cbn [fst snd] in *. subst y r3.
      destruct x as [i|e|[m| |]]; try reflexivity; rewrite E3; try reflexivity; intros (m & E); discriminate E.
  Qed.

  Lemma unwinding_loop : forall fuel, unwinds fuel.
  Proof.
    induction fuel as [|fuel IH]; intros sp ns s r; cbn [cread_loop read_loop]; [auto|].
    destruct (stack_check dbg sp r); [|auto].
    destruct (next dbg r) as [[[[attrs ns'|name|str] p]|e|x] r1]; [| | |auto|auto].
    - destruct (nth_error (r_stack r1) (S sp)) as [el|]; [|auto].
      cbn [unwinding c_element]. fold (unwinding V).
      rewrite (unwinding_run fuel IH _ _ (fun m => (Abort (Panic m), s)) (fun a => a)).
      destruct (run_action _ _ _ _ _ _ _ _) as [[[o s']|x] r2].
      + destruct o as [b|e|y]; [|auto|auto]. destruct (return_to_depth dbg (S sp) r2) as [[u|e|y] r3]; [|auto|auto]. apply IH.
      + destruct x as [m| |]; auto.
    - auto.
    - cbn [unwinding c_characters]. fold (unwinding V). destruct (v_characters V s str p) as [[o|m|x] s']; [|auto|auto]. apply IH.
  Qed.

  (** They do what Reader.v says. *)
  Theorem unwinding_read : forall T (D : einfo -> action St (res verr T)) r,
    cread dbg (unwinding V) (unwinding_root D) r = read dbg V D r.
  Proof.
    intros T D r. unfold cread, read. destruct (root dbg r) as [[[attrs ns]|e|x] r1]; [|reflexivity|reflexivity].
    destruct (nth_error (r_stack r1) 0) as [el|]; [|reflexivity]. unfold unwinding_root.
    rewrite (unwinding_run _ (unwinding_loop _) _ _ (fun m => Abort (Panic m)) (fun a => a)).
    destruct (run_action _ _ _ _ _ _ _ _) as [[[v|e|x]|[m| |]] r2]; reflexivity.
  Qed.
End Unwinding.
