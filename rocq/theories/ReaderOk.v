(** What a successful [read] implies about an arbitrary event stream, whatever user code does. *)
From Verif Require Import Base Reader ReaderSpec ReaderProofs ReaderTotal.
From Coq Require Import Lia.

(** ** Depth along a stretch of events *)

Definition depth_after (e : xevent) (d : nat) : nat :=
  match e with
  | XStartElement _ _ _ => S d
  | XEndElement _ => pred d
  | _ => d
  end.

(** The depth goes from [d] to [d'], and is above [t] before each event. *)
Inductive walk (t : nat) : nat -> list (xevent * position) -> nat -> Prop :=
| walk_nil : forall d, walk t d [] d
| walk_cons : forall d e p evs d', t < d -> walk t (depth_after e d) evs d' -> walk t d ((e, p) :: evs) d'.

Lemma walk_app : forall t d1 e1 d2, walk t d1 e1 d2 -> forall e2 d3, walk t d2 e2 d3 -> walk t d1 (e1 ++ e2) d3.
Proof. induction 1; intros; cbn; [assumption|constructor; auto]. Qed.

Lemma walk_weaken : forall t t' d e d', walk t d e d' -> t' <= t -> walk t' d e d'.
Proof. induction 1; intros; constructor; auto; lia. Qed.

Lemma walk_ge : forall t d e d', walk t d e d' -> t <= d -> t <= d'.
Proof.
  induction 1; intros; auto. apply IHwalk. destruct e; cbn; lia.
Qed.

Lemma walk_noise : forall t nz d, Forall (fun ep => noise_event (fst ep) = true) nz -> t < d -> walk t d nz d.
Proof.
  induction 1 as [|[e p] nz He Hnz IH]; intros; constructor; auto.
  destruct e; try discriminate; cbn; auto.
Qed.

(** [r'] is reached from [r] by consuming such a stretch. *)
Definition traced (t : nat) (r r' : rstate) : Prop :=
  exists evs, r_src r = evs ++ r_src r' /\ r_fin r' = r_fin r /\ walk t (r_depth r) evs (r_depth r').

Lemma traced_refl : forall t r, traced t r r.
Proof. intros. exists []. repeat split. constructor. Qed.

Lemma traced_trans : forall t r1 r2 r3, traced t r1 r2 -> traced t r2 r3 -> traced t r1 r3.
Proof.
  intros t r1 r2 r3 (e1 & A1 & A2 & A3) (e2 & B1 & B2 & B3). exists (e1 ++ e2). repeat split.
  - now rewrite A1, B1, app_assoc.
  - congruence.
  - eapply walk_app; eassumption.
Qed.

Lemma traced_weaken : forall t t' r r', traced t r r' -> t' <= t -> traced t' r r'.
Proof. intros t t' r r' (e & A1 & A2 & A3) H. exists e. repeat split; auto. eapply walk_weaken; eauto. Qed.

Lemma traced_truncate : forall t r r', traced t r r' -> traced t r (truncate r').
Proof. auto. Qed.

(** What one call of [next] does to any source. *)
Lemma next_loop_inv : forall dbg fin d st src,
  match next_loop dbg fin d st src with
  | (Ok (ev, p), r') => exists nz e,
      src = nz ++ (e, p) :: r_src r' /\ Forall (fun ep => noise_event (fst ep) = true) nz /\
      r_fin r' = fin /\ r_pos r' = p /\ r_depth r' = depth_after e d /\
      match ev with
      | EvStart a ns => exists n, e = XStartElement n a ns /\ r_stack r' = st ++ [SElem n p]
      | EvEnd n => e = XEndElement n /\ r_stack r' = st /\ 0 < d
      | EvChars s => (e = XCharacters s \/ e = XCData s) /\ r_stack r' = st
      end
  | (Err er, r') => Forall (fun ep => noise_event (fst ep) = true) src /\ r_src r' = [] /\
      r_fin r' = fin /\ r_depth r' = d /\ r_stack r' = st /\
      exists e, fin = FError e /\ er = Error (EXml e) st (xe_pos e)
  | (Abort _, _) => True
  end.
Proof.
  intros dbg fin d st. induction src as [|[e p] src IH]; cbn [next_loop].
  - destruct fin; cbn; auto. repeat split; auto. eauto.
  - destruct (noise_event e) eqn:En.
    + replace (match e with
        | XStartDocument | XWhitespace _ | XComment _ | XPI _ _ => next_loop dbg fin d st src
        | XStartElement name attrs ns => _ | XEndElement name => _ | XCharacters s | XCData s => _ end)
      with (next_loop dbg fin d st src) by (destruct e; try discriminate; reflexivity).
      destruct (next_loop dbg fin d st src) as [[[ev p']|er|x] r']; auto.
      * destruct IH as (nz & e' & -> & H & IH). exists ((e, p) :: nz), e'. split; [reflexivity|].
        split; [now constructor|assumption].
      * destruct IH as (H & IH). split; [now constructor|assumption].
    + destruct e; try discriminate; cbn [r_src r_fin r_pos r_depth r_stack].
      * exists [], (XStartElement name attrs ns). repeat split; auto. eauto.
      * destruct d as [|d]; [exact I|].
        assert (G : exists nz e, (XEndElement name, p) :: src = nz ++ (e, p) :: src /\
          Forall (fun ep => noise_event (fst ep) = true) nz /\ fin = fin /\ p = p /\
          d = depth_after e (S d) /\ e = XEndElement name /\ st = st /\ 0 < S d).
        { exists [], (XEndElement name). cbn. repeat split; auto. lia. }
        destruct dbg; [|exact G].
        destruct (nth_error st d) as [el|]; [|exact I].
        destruct (oname_eqb (se_name el) name); [exact G|exact I].
      * exists [], (XCharacters s). repeat split; auto.
      * exists [], (XCData s). repeat split; auto.
Qed.

Lemma next_inv : forall dbg r,
  match next dbg r with
  | (Ok (ev, p), r') => exists nz e,
      r_src r = nz ++ (e, p) :: r_src r' /\ Forall (fun ep => noise_event (fst ep) = true) nz /\
      r_fin r' = r_fin r /\ r_pos r' = p /\ r_depth r' = depth_after e (r_depth r) /\
      match ev with
      | EvStart a ns => exists n, e = XStartElement n a ns /\ r_stack r' = r_stack r ++ [SElem n p]
      | EvEnd n => e = XEndElement n /\ r_stack r' = r_stack r /\ 0 < r_depth r
      | EvChars s => (e = XCharacters s \/ e = XCData s) /\ r_stack r' = r_stack r
      end
  | (Err er, r') => Forall (fun ep => noise_event (fst ep) = true) (r_src r) /\ r_src r' = [] /\
      r_fin r' = r_fin r /\ r_depth r' = r_depth r /\ r_stack r' = r_stack r /\
      exists e, r_fin r = FError e /\ er = Error (EXml e) (r_stack r) (xe_pos e)
  | (Abort _, _) => True
  end.
Proof.
  intros. unfold next. destruct (dbg && _); [exact I|]. apply next_loop_inv.
Qed.

Lemma next_traced : forall t dbg r, t < r_depth r ->
  match next dbg r with
  | (Ok (EvStart _ _, _), r') => traced t r r' /\ r_depth r' = S (r_depth r)
  | (Ok (EvEnd _, _), r') => traced t r r' /\ r_depth r' = pred (r_depth r)
  | (Ok (EvChars _, _), r') => traced t r r' /\ r_depth r' = r_depth r
  | (Err _, r') => traced t r r'
  | (Abort _, _) => True
  end.
Proof.
  intros t dbg r Hd. pose proof (next_inv dbg r) as H.
  destruct (next dbg r) as [[[ev p]|er|x] r']; auto.
  - destruct H as (nz & e & H1 & H2 & H3 & H4 & H5 & H6).
    assert (HT : traced t r r').
    { exists (nz ++ [(e, p)]). rewrite <- app_assoc. repeat split; auto.
      eapply walk_app; [now apply walk_noise|]. constructor; [assumption|]. rewrite H5. constructor. }
    destruct ev.
    + destruct H6 as (n & -> & _). auto.
    + destruct H6 as (-> & _). auto.
    + destruct H6 as ([-> | ->] & _); auto.
  - destruct H as (H1 & H2 & H3 & H4 & _). exists (r_src r). rewrite H2, app_nil_r. repeat split; auto.
    rewrite H4. now apply walk_noise.
Qed.

Lemma skip_loop_traced : forall fuel dbg t r, t <= r_depth r ->
  match skip_loop fuel dbg t r with
  | (Ok _, r') => traced t r r' /\ r_depth r' = t
  | (Err _, r') => traced t r r'
  | (Abort _, _) => True
  end.
Proof.
  induction fuel as [|fuel IH]; intros dbg t r Hd; cbn [skip_loop]; [exact I|].
  destruct (Nat.ltb_spec t (r_depth r)) as [Hlt|Hge].
  - pose proof (next_traced t dbg r Hlt) as HN.
    destruct (next dbg r) as [[[ev p]|er|x] r1]; auto.
    assert (HT : traced t r r1 /\ t <= r_depth r1).
    { destruct ev; destruct HN as [? ->]; split; auto; lia. }
    destruct HT as [HT Hd1].
    specialize (IH dbg t (truncate r1) Hd1).
    destruct (skip_loop fuel dbg t (truncate r1)) as [[u|e|x] r2]; auto.
    + destruct IH. split; [|assumption]. eapply traced_trans; [apply traced_truncate; eassumption|assumption].
    + eapply traced_trans; [apply traced_truncate; eassumption|assumption].
  - split; [|cbn; lia]. apply traced_truncate, traced_refl.
Qed.

Lemma return_to_depth_traced : forall dbg t r, t <= r_depth r ->
  match return_to_depth dbg t r with
  | (Ok _, r') => traced t r r' /\ r_depth r' = t
  | (Err _, r') => traced t r r'
  | (Abort _, _) => True
  end.
Proof.
  intros. unfold return_to_depth. destruct (dbg && _); [exact I|]. now apply skip_loop_traced.
Qed.

Lemma traced_ge : forall t r r', traced t r r' -> t <= r_depth r -> t <= r_depth r'.
Proof. intros t r r' (e & _ & _ & H) Hd. eapply walk_ge; eauto. Qed.

Lemma read_string_loop_traced : forall fuel dbg sp acc r, r_depth r = S sp ->
  match read_string_loop fuel dbg sp acc r with
  | (Ok _, r') => traced sp r r' /\ r_depth r' = sp
  | (Err _, r') => traced sp r r'
  | (Abort _, _) => True
  end.
Proof.
  induction fuel as [|fuel IH]; intros dbg sp acc r Hd; cbn [read_string_loop]; [exact I|].
  destruct (stack_check dbg sp r); [|exact I].
  pose proof (next_traced sp dbg r ltac:(lia)) as HN.
  destruct (next dbg r) as [[[ev p]|er|x] r1]; auto.
  destruct ev; destruct HN as [HT HD].
  - destruct (nth_error _ _); auto.
  - split; [assumption|]. rewrite HD, Hd. reflexivity.
  - specialize (IH dbg sp (if String.eqb acc "" then s else (acc ++ s)%string) r1 ltac:(congruence)).
    destruct (read_string_loop _ _ _ _ _) as [[o|e|x] r2]; auto.
    + destruct IH. split; [|assumption]. eapply traced_trans; eassumption.
    + eapply traced_trans; eassumption.
Qed.

Section Traced.
  Context {St : Type} (dbg : bool) (V : visitors St).

  Definition body_traced (fuel : nat) : Prop :=
    forall sp ns s r, r_depth r = S sp ->
      match read_loop dbg V fuel sp ns s r with
      | (Ok _, _, r') => traced sp r r' /\ r_depth r' = sp
      | (Err _, _, r') => traced sp r r'
      | (Abort _, _, _) => True
      end.

  Lemma run_action_traced : forall A fuel sp attrs ns (act : action St A) r,
    body_traced fuel -> r_depth r = S sp ->
    match run_action dbg V (read_loop dbg V fuel) sp attrs ns act r with
    | (inl _, r') => traced sp r r'
    | (inr _, _) => True
    end.
  Proof.
    intros A fuel sp attrs ns act r Hb Hd. destruct act as [a|k|s0 k]; cbn [run_action].
    - apply traced_refl.
    - pose proof (read_string_loop_traced (S (List.length (r_src r))) dbg sp "" r Hd) as H.
      unfold read_string. destruct (read_string_loop _ _ _ _ _) as [[o|e|x] r1]; auto. now destruct H.
    - destruct (nth_error _ _); auto. destruct (attrs_loop _ _ _ _ _) as [[u|e|x] s1]; auto using traced_refl.
      specialize (Hb sp ns s1 r Hd).
      destruct (read_loop _ _ _ _ _ _ _) as [[[i|e|x] s2] r1]; auto. now destruct Hb.
  Qed.

  Lemma read_loop_traced : forall fuel, body_traced fuel.
  Proof.
    induction fuel as [|fuel IH]; intros sp ns s r Hd; cbn [read_loop]; [exact I|].
    destruct (stack_check dbg sp r); [|exact I].
    pose proof (next_traced sp dbg r ltac:(lia)) as HN.
    destruct (next dbg r) as [[[ev p]|er|x] r1]; auto.
    destruct ev; destruct HN as [HT HD].
    - destruct (nth_error _ _) as [el|]; [|exact I].
      pose proof (run_action_traced _ fuel (S sp) attrs ns0
        (v_element V s (EInfo (se_name el) ns0 (S (S sp)))) r1 IH ltac:(congruence)) as HA.
      destruct (run_action _ _ _ _ _ _ _ _) as [[[o s']|x] r2]; auto.
      assert (H2 : traced sp r r2).
      { eapply traced_trans; [eassumption|]. eapply traced_weaken; [eassumption|lia]. }
      destruct o as [b|e|x]; auto.
      assert (Hge : S sp <= r_depth r2) by (apply (traced_ge _ _ _ HA); lia).
      pose proof (return_to_depth_traced dbg (S sp) r2 Hge) as HR.
      destruct (return_to_depth _ _ _) as [[u|e|x] r3]; auto.
      + destruct HR as [HR1 HR2].
        assert (H3 : traced sp r r3).
        { eapply traced_trans; [eassumption|]. eapply traced_weaken; [eassumption|lia]. }
        specialize (IH sp ns s' r3 HR2).
        destruct (read_loop _ _ _ _ _ _ _) as [[[i|e|x] s4] r4]; auto.
        * destruct IH. split; [|assumption]. eapply traced_trans; eassumption.
        * eapply traced_trans; eassumption.
      + eapply traced_trans; [eassumption|]. eapply traced_weaken; [eassumption|lia].
    - split; [assumption|]. rewrite HD, Hd. reflexivity.
    - destruct (v_characters V s s0 p) as [[o|m|x] s']; auto.
      specialize (IH sp ns s' r1 ltac:(congruence)).
      destruct (read_loop _ _ _ _ _ _ _) as [[[i|e|x] s4] r4]; auto.
      + destruct IH. split; [|assumption]. eapply traced_trans; eassumption.
      + eapply traced_trans; eassumption.
  Qed.
End Traced.

Definition misc_event_b (e : xevent) : bool :=
  match e with XComment _ | XPI _ _ => true | _ => false end.

Lemma end_loop_ok : forall fin src, end_loop fin src = Ok tt ->
  Forall (fun ep => misc_event_b (fst ep) = true) src /\ exists p, fin = FEndDocument p.
Proof.
  induction src as [|[e p] src IH]; cbn; intros H.
  - destruct fin; [|discriminate]. eauto.
  - destruct e; try discriminate; (destruct IH; [assumption|]; split; [constructor; auto|assumption]).
Qed.

(** A stream that was read to its end: start of document, noise, the start tag of the root, events
    at depth at least 1 up to the root's end tag, comments and processing instructions, and the end
    of the document. *)
Definition complete_stream (src : list (xevent * position)) (fin : final) : Prop :=
  exists p0 prolog n a ns p evs epilogue pe,
    src = (XStartDocument, p0) :: prolog ++ (XStartElement n a ns, p) :: evs ++ epilogue /\
    Forall (fun ep => noise_event (fst ep) = true) prolog /\
    walk 0 1 evs 0 /\
    Forall (fun ep => misc_event_b (fst ep) = true) epilogue /\
    fin = FEndDocument pe.

Theorem read_ok_complete : forall St T dbg (V : visitors St) (D : einfo -> action St (res verr T)) src fin v,
  read dbg V D (reader_new src fin) = Ok v -> complete_stream src fin.
Proof.
  intros St T dbg V D src fin v H. unfold read in H.
  unfold root, inner_next in H. cbn [reader_new r_src r_fin] in H.
  destruct src as [|[e p0] src]. { destruct fin; discriminate. }
  destruct e; try discriminate.
  unfold set_src in H; cbn [reader_new r_fin r_depth r_stack] in H.
  set (r0 := RState src fin p0 0 []) in H.
  pose proof (next_inv dbg r0) as HN.
  destruct (next dbg r0) as [[[ev p]|er|x] r1]; try discriminate.
  destruct HN as (nz & e & H1 & H2 & H3 & H4 & H5 & H6).
  destruct ev as [a ns| |]; try discriminate.
  destruct H6 as (n & -> & Hst). cbn [r0 r_src r_fin r_depth r_stack depth_after app] in *.
  cbn beta iota in H. rewrite Hst in H. cbn [nth_error se_name] in H.
  pose proof (run_action_traced dbg V _ (S (List.length (r_src r1))) 0 a ns (D (EInfo n ns 1)) r1
                (read_loop_traced dbg V _) H5) as HA.
  destruct (run_action _ _ _ _ _ _ _ _) as [[[w|e|x]|x] r2]; try discriminate.
  unfold end_ in H.
  pose proof (return_to_depth_traced dbg 0 r2 ltac:(lia)) as HR.
  destruct (return_to_depth _ _ _) as [[u|e|x] r3]; try discriminate.
  destruct (end_loop (r_fin r3) (r_src r3)) as [[]|e|x] eqn:EL; try discriminate.
  apply end_loop_ok in EL. destruct EL as [E1 (pe & E2)].
  destruct HR as [HR1 HR2].
  destruct (traced_trans _ _ _ _ HA HR1) as (evs & T1 & T2 & T3).
  rewrite H5, HR2 in T3.
  exists p0, nz, n, a, ns, p, evs, (r_src r3), pe.
  repeat split; auto.
  - now rewrite H1, T1.
  - rewrite <- E2, T2, H3. reflexivity.
Qed.

(** ** Complete deliverable streams are documents *)

Lemma walk_closes : forall evs open fin rest, walk 0 (List.length open) evs 0 ->
  well_nested open (evs ++ rest) fin -> closes open evs /\ well_nested [] rest fin.
Proof.
  induction evs as [|[e p] evs IH]; intros open fin rest Hwk Hw; inversion Hwk; subst; clear Hwk.
  - destruct open; [|discriminate]. split; [constructor|assumption].
  - destruct open as [|m open]; [cbn in *; lia|].
    destruct e; cbn [app well_nested depth_after] in *.
    + contradiction.
    + destruct (IH (name :: m :: open) fin rest) as [A B]; auto. split; [now constructor|assumption].
    + destruct Hw as [-> Hw]. cbn [List.length pred] in *.
      destruct (IH open fin rest) as [A B]; auto. split; [now constructor|assumption].
    + destruct (IH (m :: open) fin rest) as [A B]; auto. split; [now constructor|assumption].
    + destruct (IH (m :: open) fin rest) as [A B]; auto. split; [now constructor|assumption].
    + destruct Hw as [_ Hw]. destruct (IH (m :: open) fin rest) as [A B]; auto. split; [now constructor|assumption].
    + destruct (IH (m :: open) fin rest) as [A B]; auto. split; [now constructor|assumption].
    + destruct (IH (m :: open) fin rest) as [A B]; auto. split; [now constructor|assumption].
Qed.

(** Every closing stretch is the rest of some trees. *)
Lemma closes_trees : forall k open evs, List.length evs <= k -> closes open evs ->
  Forall (fun ep => fst ep <> XStartDocument) evs ->
  match open with
  | [] => evs = []
  | n :: open' => exists kids pe evs',
      evs = flat_map events kids ++ (XEndElement n, pe) :: evs' /\ closes open' evs'
  end.
Proof.
  induction k as [|k IH]; intros open evs Hk Hc HF.
  - destruct evs; [|cbn in Hk; lia]. inversion Hc. reflexivity.
  - destruct Hc as [|n a ns p m open evs Hc|n p open evs Hc|e p m open evs He Hc].
    + reflexivity.
    + inversion HF as [|? ? _ HF']; subst. cbn in Hk.
      pose proof (IH (n :: m :: open) evs ltac:(lia) Hc HF') as (k1 & pe1 & evs1 & -> & Hc1).
      rewrite app_length in Hk. cbn in Hk.
      apply Forall_app in HF'. destruct HF' as [_ HF']. inversion HF' as [|? ? _ HF1]; subst.
      pose proof (IH (m :: open) evs1 ltac:(lia) Hc1 HF1) as (k2 & pe2 & evs2 & -> & Hc2).
      exists (NElem n a ns p k1 pe1 :: k2), pe2, evs2. split; [|assumption].
      cbn [flat_map events app]. rewrite <- !app_assoc. reflexivity.
    + exists [], p, evs. split; [reflexivity|assumption].
    + inversion HF as [|? ? Hne HF']; subst. cbn in Hk.
      pose proof (IH (m :: open) evs ltac:(lia) Hc HF') as (k1 & pe1 & evs1 & -> & Hc1).
      destruct e; try discriminate; cbn in Hne.
      * congruence.
      * exists (NText false s p :: k1), pe1, evs1. auto.
      * exists (NText true s p :: k1), pe1, evs1. auto.
      * exists (NBlank s p :: k1), pe1, evs1. auto.
      * exists (NMisc (Comment s) p :: k1), pe1, evs1. auto.
      * exists (NMisc (PI name data) p :: k1), pe1, evs1. auto.
Qed.

Lemma misc_events_of : forall l, Forall (fun ep => misc_event_b (fst ep) = true) l ->
  exists m, l = misc_events m.
Proof.
  induction 1 as [|[e p] l He Hl (m & ->)].
  - now exists [].
  - destruct e; try discriminate.
    + now exists ((Comment s, p) :: m).
    + now exists ((PI name data, p) :: m).
Qed.

Lemma well_nested_no_start : forall src open fin, well_nested open src fin ->
  Forall (fun ep => fst ep <> XStartDocument) src.
Proof.
  induction src as [|[e p] src IH]; intros open fin H; constructor.
  - destruct e; cbn in *; try discriminate; contradiction.
  - destruct e; cbn in H; try (eapply IH; eassumption).
    + contradiction.
    + destruct open; [contradiction|]. destruct H. eapply IH; eassumption.
    + destruct H. eapply IH; eassumption.
Qed.

Lemma well_nested_prolog : forall nz rest fin, well_nested [] (nz ++ rest) fin ->
  Forall (fun ep => noise_event (fst ep) = true) nz ->
  Forall (fun ep => misc_event_b (fst ep) = true) nz /\ well_nested [] rest fin.
Proof.
  induction nz as [|[e p] nz IH]; intros rest fin H HF; cbn in *.
  - auto.
  - inversion HF; subst. destruct e; try discriminate; cbn in *.
    + contradiction.
    + destruct H; congruence.
    + destruct (IH _ _ H H3). split; [constructor|]; auto.
    + destruct (IH _ _ H H3). split; [constructor|]; auto.
Qed.

Theorem complete_stream_doc : forall src fin, deliverable src fin -> complete_stream src fin ->
  exists d pe, src = doc_events d /\ fin = FEndDocument pe.
Proof.
  intros src fin Hdel (p0 & prolog & n & a & ns & p & evs & epilogue & pe & -> & H1 & H2 & H3 & ->).
  destruct Hdel as (_ & Hw & _).
  destruct (well_nested_prolog _ _ _ Hw H1) as [Hp Hw1].
  cbn [app well_nested] in Hw1.
  destruct (walk_closes evs [n] _ _ H2 Hw1) as [Hc _].
  pose proof (well_nested_no_start _ _ _ Hw1) as HF. apply Forall_app in HF. destruct HF as [HF _].
  destruct (closes_trees _ _ _ (Nat.le_refl _) Hc HF) as (kids & pk & evs' & -> & Hc').
  inversion Hc'; subst evs'.
  destruct (misc_events_of _ Hp) as (m1 & ->). destruct (misc_events_of _ H3) as (m2 & ->).
  exists (Doc p0 m1 n a ns p kids pk m2), pe. split; [|reflexivity].
  unfold doc_events, d_root. cbn [d_start d_prolog d_name d_attrs d_ns d_pos d_kids d_pe d_epilogue events].
  cbn [app]. now rewrite <- !app_assoc.
Qed.

(** Conversely, the events of a document are deliverable. *)
Lemma well_nested_events : forall n m open rest fin, well_nested (m :: open) rest fin ->
  well_nested (m :: open) (events n ++ rest) fin.
Proof.
  induction n using node_ind'; intros m0 open rest fin Hw.
  - cbn [events app well_nested]. rewrite <- app_assoc. cbn [app].
    assert (Hk : well_nested (name :: m0 :: open) ((XEndElement name, pe) :: rest) fin) by (cbn; auto).
    revert Hk. generalize ((XEndElement name, pe) :: rest). clear Hw.
    induction H as [|k ks Hk Hks IH]; intros l Hl; cbn [flat_map app]; [assumption|].
    rewrite <- app_assoc. apply Hk. now apply IH.
  - destruct c; assumption.
  - destruct m; assumption.
  - cbn. split; [discriminate|assumption].
Qed.

Lemma well_nested_kids : forall kids m open rest fin, well_nested (m :: open) rest fin ->
  well_nested (m :: open) (flat_map events kids ++ rest) fin.
Proof.
  induction kids; intros; cbn [flat_map app]; [assumption|].
  rewrite <- app_assoc. apply well_nested_events. auto.
Qed.

Lemma well_nested_misc : forall l rest fin, well_nested [] rest fin ->
  well_nested [] (misc_events l ++ rest) fin.
Proof. induction l as [|[[] p] l IH]; intros; cbn; auto. Qed.

Lemma doc_deliverable : forall d pe, deliverable (doc_events d) (FEndDocument pe).
Proof.
  intros. unfold doc_events. cbn [deliverable]. repeat split.
  - apply well_nested_misc. unfold d_root. cbn [events app well_nested].
    rewrite <- app_assoc. apply well_nested_kids. cbn. split; [reflexivity|].
    rewrite <- (app_nil_r (misc_events _)). apply well_nested_misc. reflexivity.
  - red. unfold d_root. cbn [events app]. exists (d_name d), (d_attrs d), (d_ns d), (d_pos d).
    apply in_or_app. right. now left.
Qed.
