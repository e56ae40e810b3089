(** Proofs about arbitrary event streams: termination, absence of panics, and what [Ok] implies. *)
From Verif Require Import Base Reader ReaderSpec ReaderProofs.
From Coq Require Import Lia.

(** ** Totality *)

(** [r] is inside the elements [open] (innermost first). *)
Definition nested (open : list oname) (r : rstate) : Prop :=
  well_nested open (r_src r) (r_fin r) /\ r_depth r = List.length open.

(** [next] when the stack mirrors the open elements. *)
Definition sync (dbg : bool) (open : list oname) (r : rstate) : Prop :=
  dbg = true -> map se_name (r_stack r) = rev open.

Lemma sync_in_sync : forall dbg open r, sync dbg open r -> r_depth r = List.length open ->
  in_sync dbg (r_depth r) (r_stack r).
Proof.
  intros dbg open r Hs Hd E. rewrite Hd, <- (map_length se_name (r_stack r)), (Hs E). apply rev_length.
Qed.

Definition next_post (open : list oname) (r : rstate) (x : rres (event * position)) : Prop :=
  match fst x with
  | Ok (EvStart a ns, p) => exists n,
      nested (n :: open) (snd x) /\ r_stack (snd x) = r_stack r ++ [SElem n p] /\
      List.length (r_src (snd x)) < List.length (r_src r)
  | Ok (EvEnd n, p) => exists open', open = n :: open' /\
      nested open' (snd x) /\ r_stack (snd x) = r_stack r /\
      List.length (r_src (snd x)) < List.length (r_src r)
  | Ok (EvChars s, p) =>
      nested open (snd x) /\ r_stack (snd x) = r_stack r /\
      List.length (r_src (snd x)) < List.length (r_src r)
  | Err e => nested open (snd x) /\ r_stack (snd x) = r_stack r /\
      List.length (r_src (snd x)) <= List.length (r_src r)
  | Abort _ => False
  end.

Lemma next_total : forall dbg open r, nested open r -> sync dbg open r -> open <> [] ->
  next_post open r (next dbg r).
Proof.
  intros dbg open [src fin pos d st] [Hw Hd] Hs Hne. cbn in Hw, Hd.
  rewrite next_in_sync.
  2:{ exact (sync_in_sync dbg open (RState src fin pos d st) Hs Hd). }
  unfold sync in Hs; cbn in Hs.
  unfold next_post; cbn [r_src r_stack].
  induction src as [|[e p] src IH].
  - cbn in Hw |- *. destruct fin; [now subst|]. cbn. repeat split; cbn; auto.
  - assert (Hskip : forall r' : rres (event * position), r' = next_loop dbg fin d st src ->
              next_post open (RState src fin pos d st) r' ->
              next_post open (RState ((e, p) :: src) fin pos d st) r').
    { intros r' _. unfold next_post; cbn [r_src r_stack List.length].
      destruct (fst r') as [[[] ?]| |]; auto.
      - intros (n & ? & ? & ?). exists n. auto with arith.
      - intros (n & ? & ? & ? & ?). exists n. auto with arith.
      - intros (? & ? & ?). auto with arith.
      - intros (? & ? & ?). auto with arith. }
    destruct e; cbn [well_nested next_loop] in *.
    + contradiction.
    + cbn [fst snd]. exists name. repeat split; cbn; auto.
    + destruct open as [|n' open']; [contradiction|]. destruct Hw as [-> Hw]. cbn in Hd. subst d.
      assert (Hpost : match fst (Ok (EvEnd n', p) : res error (event * position), RState src fin p (List.length open') st) with
          | Ok (EvEnd n, _) => exists open'0, n' :: open' = n :: open'0 /\
              nested open'0 (RState src fin p (List.length open') st) /\ st = st /\
              List.length src < S (List.length src)
          | _ => False end).
      { cbn [fst]. exists open'. repeat split; cbn; auto. }
      destruct dbg; [|exact Hpost].
      assert (Hn : nth_error st (List.length open') = Some (SElem n' (se_pos (nth (List.length open') st (SElem n' p))))).
      { specialize (Hs eq_refl). cbn [rev] in Hs.
        destruct (exists_last (l := st)) as (st' & [n p'] & ->).
        { intros ->. destruct (rev open'); discriminate. }
        rewrite map_app in Hs. cbn [map] in Hs. apply app_inj_tail in Hs. destruct Hs as [Hs1 Hs2].
        cbn in Hs2. subst n.
        assert (HL : List.length st' = List.length open').
        { rewrite <- (map_length se_name), Hs1. apply rev_length. }
        rewrite <- HL. rewrite nth_error_app2, app_nth2, Nat.sub_diag by lia. reflexivity. }
      rewrite Hn. cbn [se_name]. rewrite oname_eqb_refl. exact Hpost.
    + cbn [fst snd]. repeat split; cbn; auto.
    + cbn [fst snd]. repeat split; cbn; auto.
    + destruct Hw as [_ Hw]. apply Hskip; [reflexivity|]. apply IH; auto.
    + apply Hskip; [reflexivity|]. apply IH; auto.
    + apply Hskip; [reflexivity|]. apply IH; auto.
Qed.

(** Inside the elements [bot], perhaps deeper. *)
Definition inside (bot : list oname) (r : rstate) : Prop := exists top, nested (top ++ bot) r.

(** [base] is the stack below; when [ok], skipping is safe. *)
Definition left_off (dbg ok : bool) (base : list selem) (bot : list oname) (r : rstate) : Prop :=
  exists top, nested (top ++ bot) r /\ (exists tl, r_stack r = base ++ tl) /\
    (dbg = true -> ok = true -> top = [] \/ map se_name (r_stack r) = rev (top ++ bot)).

Lemma skip_loop_total : forall fuel dbg base bot r,
  List.length base = List.length bot ->
  left_off dbg true base bot r ->
  List.length (r_src r) < fuel ->
  match skip_loop fuel dbg (List.length base) r with
  | (Ok _, r') => nested bot r' /\ r_stack r' = base /\ List.length (r_src r') <= List.length (r_src r)
  | (Err _, r') => left_off dbg false base bot r' /\ List.length (r_src r') <= List.length (r_src r)
  | (Abort _, _) => False
  end.
Proof.
  induction fuel as [|fuel IH]; intros dbg base bot r Hlen (top & Hn & (tl & Hst) & Hd) Hf; [lia|].
  cbn [skip_loop]. pose proof Hn as [Hw Hdep]. rewrite app_length in Hdep.
  destruct top as [|n top].
  - cbn in Hdep. replace (Nat.ltb _ _) with false by (symmetry; apply Nat.ltb_ge; lia).
    destruct Hn as [Hw' _]. cbn [app] in Hw'. unfold truncate, nested; cbn.
    repeat split; auto.
    rewrite Hst, Hdep, <- Hlen. apply firstn_app_exact.
  - replace (Nat.ltb (List.length base) (r_depth r)) with true
      by (symmetry; apply Nat.ltb_lt; cbn in Hdep; lia).
    assert (Hs : sync dbg ((n :: top) ++ bot) r).
    { intros E. destruct (Hd E eq_refl); [discriminate|assumption]. }
    pose proof (next_total dbg _ r Hn Hs ltac:(discriminate)) as HN.
    unfold next_post in HN.
    destruct (next dbg r) as [[[ev p]|e|x] r1]; cbn [fst snd] in HN; [|destruct HN as (N1 & N2 & N3)|contradiction].
    2:{ split; [|assumption]. exists (n :: top). rewrite N2, Hst. repeat split; eauto; try apply N1.
        discriminate. }
    assert (Hl : left_off dbg true base bot (truncate r1) /\ List.length (r_src r1) < List.length (r_src r)).
    { destruct ev.
      - destruct HN as (n' & [N1 N1'] & N2 & N3). split; [|assumption].
        exists (n' :: n :: top). unfold truncate, nested; cbn [r_src r_fin r_depth r_stack].
        repeat split; auto.
        + rewrite N2, Hst, <- app_assoc. rewrite firstn_app, N1'. cbn [app List.length].
          rewrite app_length, firstn_all2 by lia. eauto.
        + intros E _. right. rewrite firstn_all2.
          * rewrite N2, map_app, (Hs E). cbn [app rev]. reflexivity.
          * rewrite N1', N2. rewrite <- (map_length se_name), map_app, (Hs E).
            rewrite app_length, rev_length. cbn. lia.
      - destruct HN as (open' & [= <- <-] & [N1 N1'] & N2 & N3). split; [|assumption].
        exists top. unfold truncate, nested; cbn [r_src r_fin r_depth r_stack].
        repeat split; auto.
        + rewrite N2, Hst, firstn_app, N1', app_length, firstn_all2 by lia. eauto.
        + intros E _. right. rewrite N2, N1', <- firstn_map, (Hs E). cbn [app rev].
          rewrite <- (rev_length (top ++ bot)). apply firstn_app_exact.
      - destruct HN as ([N1 N1'] & N2 & N3). split; [|assumption].
        exists (n :: top). unfold truncate, nested; cbn [r_src r_fin r_depth r_stack].
        repeat split; auto.
        + rewrite N2, Hst, firstn_app, N1', app_length, firstn_all2 by (cbn; lia). eauto.
        + intros E _. right. rewrite firstn_all2.
          * now rewrite N2, (Hs E).
          * rewrite N1', N2. rewrite <- (map_length se_name), (Hs E), rev_length. lia. }
    destruct Hl as [Hl1 Hl2].
    specialize (IH dbg base bot (truncate r1) Hlen Hl1 ltac:(cbn; lia)).
    destruct (skip_loop fuel dbg _ _) as [[u|e|x] r2]; cbn [truncate r_src] in IH; auto.
    + destruct IH as (? & ? & ?). repeat split; auto; try apply H; try lia.
    + destruct IH as (? & ?). split; [auto|lia].
Qed.

Lemma return_to_depth_total : forall dbg base bot r,
  List.length base = List.length bot ->
  left_off dbg true base bot r ->
  match return_to_depth dbg (List.length base) r with
  | (Ok _, r') => nested bot r' /\ r_stack r' = base /\ List.length (r_src r') <= List.length (r_src r)
  | (Err _, r') => left_off dbg false base bot r' /\ List.length (r_src r') <= List.length (r_src r)
  | (Abort _, _) => False
  end.
Proof.
  intros dbg base bot r Hlen H. unfold return_to_depth.
  assert (Hge : Nat.ltb (r_depth r) (List.length base) = false).
  { destruct H as (top & [_ H] & _). apply Nat.ltb_ge. rewrite H, app_length. lia. }
  rewrite Hge, andb_false_r. apply skip_loop_total; auto.
Qed.

(** What an operation on the element above [base] leaves behind. *)
Definition op_post (dbg ok : bool) (base : list selem) (bot : list oname) (r r' : rstate) : Prop :=
  left_off dbg ok base bot r' /\ List.length (r_src r') <= List.length (r_src r).

Lemma left_off_weaken : forall dbg ok base bot r, left_off dbg ok base bot r -> left_off dbg false base bot r.
Proof.
  intros ? ? ? ? ? (top & H1 & H2 & H3). exists top. repeat split; auto; try apply H1. discriminate.
Qed.

Lemma left_off_parent : forall dbg ok base el n bot r,
  left_off dbg ok (base ++ [el]) (n :: bot) r -> left_off dbg false base bot r.
Proof.
  intros ? ? ? ? ? ? r (top & H1 & (tl & H2) & H3). exists (top ++ [n]).
  rewrite <- app_assoc. cbn [app]. repeat split; auto; try apply H1.
  - rewrite H2, <- app_assoc. eauto.
  - discriminate.
Qed.

Lemma read_string_loop_total : forall fuel dbg base el n bot acc r,
  List.length base = List.length bot ->
  nested (n :: bot) r -> sync dbg (n :: bot) r -> r_stack r = base ++ [el] ->
  List.length (r_src r) < fuel ->
  match read_string_loop fuel dbg (List.length base) acc r with
  | (Abort _, _) => False
  | (x, r') => op_post dbg (is_ok x) base bot r r'
  end.
Proof.
  induction fuel as [|fuel IH]; intros dbg base el n bot acc r Hlen Hn Hs Hst Hf; [lia|].
  cbn [read_string_loop].
  replace (stack_check dbg (List.length base) r) with true.
  2:{ unfold stack_check. rewrite Hst, app_length. cbn [List.length].
      rewrite Nat.add_1_r, Nat.eqb_refl. symmetry. apply orb_true_r. }
  pose proof (next_total dbg _ r Hn Hs ltac:(discriminate)) as HN. unfold next_post in HN.
  destruct (next dbg r) as [[[ev p]|e|x] r1]; cbn [fst snd] in HN; [| |contradiction].
  - destruct ev.
    + destruct HN as (n' & N1 & N2 & N3). rewrite N2.
      rewrite nth_error_app2; rewrite app_length; cbn [List.length]; [|lia].
      replace (_ - _ - _) with 0 by lia. cbn [nth_error]. split; [|lia].
      exists [n'; n]. cbn [app]. repeat split; try apply N1.
      * rewrite N2, Hst, <- app_assoc. eauto.
      * discriminate.
    + destruct HN as (open' & [= <- <-] & N1 & N2 & N3). split; [|lia].
      exists []. cbn [app]. repeat split; try apply N1; auto.
      rewrite N2, Hst. eauto.
    + destruct HN as (N1 & N2 & N3).
      specialize (IH dbg base el n bot (if String.eqb acc "" then s else (acc ++ s)%string) r1 Hlen N1).
      destruct (read_string_loop _ _ _ _ _) as [[o|e|x] r2].
      * destruct IH as [? ?]; [unfold sync; now rewrite N2|congruence|lia|]. split; [assumption|lia].
      * destruct IH as [? ?]; [unfold sync; now rewrite N2|congruence|lia|]. split; [assumption|lia].
      * apply IH; [unfold sync; now rewrite N2|congruence|lia].
  - destruct HN as (N1 & N2 & N3). split; [|lia].
    exists [n]. cbn [app is_ok]. repeat split; try apply N1.
    + rewrite N2, Hst. eauto.
    + discriminate.
Qed.

Section Total.
  Context {St : Type} (dbg : bool) (V : visitors St) (Inv : St -> Prop).
  Hypothesis HV : dbg = true -> propagating V.
  Hypothesis HT : total Inv V.

  Lemma attrs_loop_total : forall attrs stack p s, Inv s ->
    no_abort (fst (attrs_loop V stack p attrs s)) /\ Inv (snd (attrs_loop V stack p attrs s)).
  Proof.
    induction attrs; intros stack p s Hs; cbn [attrs_loop].
    - cbn. split; [intros x; discriminate|assumption].
    - destruct (total_attribute _ _ HT s (from_xml_name (a_name a)) (a_value a) Hs) as [H1 H2].
      destruct (v_attribute V s (from_xml_name (a_name a)) (a_value a)) as [[|e|x] s']; cbn [fst snd] in *.
      + auto.
      + split; [intros x; discriminate|assumption].
      + now destruct (H1 x).
  Qed.

  Definition body_total (fuel : nat) : Prop :=
    forall base el n bot ns s r, Inv s ->
      List.length base = List.length bot ->
      nested (n :: bot) r -> sync dbg (n :: bot) r -> r_stack r = base ++ [el] ->
      List.length (r_src r) < fuel ->
      match read_loop dbg V fuel (List.length base) ns s r with
      | (Abort _, _, _) => False
      | (x, s', r') => Inv s' /\ op_post dbg (is_ok x) base bot r r'
      end.

  Lemma run_action_total : forall A (good : A -> Prop) (ok : A -> bool) fuel base el n bot attrs ns act r,
    body_total fuel ->
    List.length base = List.length bot ->
    nested (n :: bot) r -> sync dbg (n :: bot) r -> r_stack r = base ++ [el] ->
    List.length (r_src r) < fuel ->
    total_act Inv good act ->
    (dbg = true -> propagating_act (fun a => ok a = false) act) ->
    match run_action dbg V (read_loop dbg V fuel) (List.length base) attrs ns act r with
    | (inr _, _) => False
    | (inl a, r') => good a /\ op_post dbg (ok a) base bot r r'
    end.
  Proof.
    intros A good ok fuel base el n bot attrs ns act r Hb Hlen Hn Hs Hst Hf Ht Hp.
    assert (Hhere : forall b, op_post dbg b base bot r r).
    { intros b. split; [|lia]. exists [n]. cbn [app]. repeat split; try apply Hn.
      - rewrite Hst. eauto.
      - intros E _. right. exact (Hs E). }
    destruct act as [a|k|s0 k]; cbn [run_action total_act propagating_act] in *.
    - auto.
    - pose proof (read_string_loop_total (S (List.length (r_src r))) dbg base el n bot "" r
                    Hlen Hn Hs Hst ltac:(lia)) as H.
      unfold read_string. destruct (read_string_loop _ _ _ _ _) as [[o|e|x] r1]; [| |contradiction].
      + split; [apply Ht|]. destruct H as [(top & G1 & G2 & G3) H2]. split; [|assumption].
        exists top. repeat split; auto; apply G1.
      + split; [apply Ht|]. destruct H as [(top & G1 & G2 & G3) H2]. split; [|assumption].
        exists top. repeat split; auto; try apply G1.
        intros E Ho. rewrite (Hp E) in Ho. discriminate.
    - destruct Ht as [Ht0 Ht]. rewrite Hst. rewrite nth_error_app2, Nat.sub_diag by lia. cbn [nth_error].
      destruct (attrs_loop_total attrs (base ++ [el]) (se_pos el) s0 Ht0) as [A1 A2].
      destruct (attrs_loop V (base ++ [el]) (se_pos el) attrs s0) as [[u|e|x] s1]; cbn [fst snd] in *.
      + specialize (Hb base el n bot ns s1 r A2 Hlen Hn Hs Hst Hf).
        destruct (read_loop _ _ _ _ _ _ _) as [[[i|e|x] s2] r1]; [| |contradiction].
        * destruct Hb as [Hi [(top & G1 & G2 & G3) H2]]. split; [now apply Ht|]. split; [|assumption].
          exists top. repeat split; auto; apply G1.
        * destruct Hb as [Hi [(top & G1 & G2 & G3) H2]]. split; [now apply Ht|]. split; [|assumption].
          exists top. repeat split; auto; try apply G1.
          intros E Ho. rewrite (Hp E) in Ho. discriminate.
      + split; [now apply Ht|]. apply Hhere.
      + now destruct (A1 x).
  Qed.

  Lemma read_loop_total : forall fuel, body_total fuel.
  Proof.
    induction fuel as [|fuel IH]; intros base el n bot ns s r Hi Hlen Hn Hs Hst Hf; [lia|].
    cbn [read_loop].
    replace (stack_check dbg (List.length base) r) with true.
    2:{ unfold stack_check. rewrite Hst, app_length. cbn [List.length].
        rewrite Nat.add_1_r, Nat.eqb_refl. symmetry. apply orb_true_r. }
    pose proof (next_total dbg _ r Hn Hs ltac:(discriminate)) as HN. unfold next_post in HN.
    destruct (next dbg r) as [[[ev p]|e|x] r1]; cbn [fst snd] in HN; [| |contradiction].
    - destruct ev.
      + destruct HN as (n' & N1 & N2 & N3). rewrite N2, Hst.
        rewrite nth_error_app2 by (rewrite app_length; cbn [List.length]; lia).
        replace (S (List.length base) - List.length (base ++ [el])) with 0
          by (rewrite app_length; cbn [List.length]; lia).
        cbn [nth_error].
        replace (S (List.length base)) with (List.length (base ++ [el]))
          by (rewrite app_length; cbn [List.length]; lia).
        set (i := EInfo _ _ _).
        assert (Hs1 : sync dbg (n' :: n :: bot) r1).
        { intros E. rewrite N2, map_app, (Hs E). reflexivity. }
        assert (Hp : dbg = true ->
          propagating_act (fun a : res verr bool * St => is_ok (fst a) = false) (v_element V s i)).
        { intros Hd. specialize (HV Hd s i).
          destruct (v_element _ _ _); cbn in *; auto; intros.
          - specialize (HV e). destruct (fst _); cbn; auto. now destruct (HV a).
          - specialize (HV e s1). destruct (fst _); cbn; auto. now destruct (HV a). }
        pose proof (run_action_total _ (fun a => no_abort (fst a) /\ Inv (snd a)) (fun a => is_ok (fst a))
          fuel (base ++ [el]) (SElem n' p) n' (n :: bot) attrs ns0 (v_element V s i) r1 IH
          ltac:(rewrite app_length; cbn [List.length]; lia) N1 Hs1 ltac:(congruence) ltac:(lia)
          (total_element _ _ HT s i Hi) Hp) as HA.
        destruct (run_action _ _ _ _ _ _ _ _) as [[[o s']|x] r2]; [|contradiction].
        destruct HA as [[G1 G2] G3]. cbn [fst snd] in *. destruct G3 as [G3 G4].
        destruct o as [b|e|x]; cbn [is_ok] in *.
        * pose proof (return_to_depth_total dbg (base ++ [el]) (n :: bot) r2
            ltac:(rewrite app_length; cbn [List.length]; lia) G3) as HR.
          destruct (return_to_depth _ _ _) as [[u|e|x] r3]; [| |contradiction].
          -- destruct HR as (R1 & R2 & R3).
             specialize (IH base el n bot ns s' r3 G2 Hlen R1).
             assert (Hs3 : sync dbg (n :: bot) r3).
             { intros E. rewrite R2, <- Hst. apply (Hs E). }
             specialize (IH Hs3 R2 ltac:(lia)).
             destruct (read_loop _ _ _ _ _ _ _) as [[[j|e|x] s4] r4]; [| |contradiction].
             ++ destruct IH as [? [? ?]]. split; [assumption|]. split; [assumption|lia].
             ++ destruct IH as [? [? ?]]. split; [assumption|]. split; [assumption|lia].
          -- destruct HR as [R1 R2]. split; [assumption|]. split; [|lia].
             eapply left_off_parent; eassumption.
        * split; [assumption|]. split; [|lia]. eapply left_off_parent; eassumption.
        * now destruct (G1 x).
      + destruct HN as (open' & [= <- <-] & N1 & N2 & N3). split; [assumption|]. split; [|lia].
        exists []. cbn [app]. repeat split; try apply N1; auto.
        rewrite N2, Hst. eauto.
      + destruct HN as (N1 & N2 & N3).
        destruct (total_characters _ _ HT s s0 p Hi) as [C1 C2].
        destruct (v_characters V s s0 p) as [[o|m|x] s']; cbn [fst snd] in *.
        * specialize (IH base el n bot ns s' r1 C2 Hlen N1).
          assert (Hs1 : sync dbg (n :: bot) r1) by (unfold sync; now rewrite N2).
          specialize (IH Hs1 ltac:(congruence) ltac:(lia)).
          destruct (read_loop _ _ _ _ _ _ _) as [[[j|e|x] s4] r4]; [| |contradiction].
          -- destruct IH as [? [? ?]]. split; [assumption|]. split; [assumption|lia].
          -- destruct IH as [? [? ?]]. split; [assumption|]. split; [assumption|lia].
        * split; [assumption|]. split; [|lia].
          exists [n]. cbn [app is_ok]. repeat split; try apply N1.
          -- rewrite N2, Hst. eauto.
          -- discriminate.
        * now destruct (C1 x).
    - destruct HN as (N1 & N2 & N3). split; [assumption|]. split; [|lia].
      exists [n]. cbn [app is_ok]. repeat split; try apply N1.
      + rewrite N2, Hst. eauto.
      + discriminate.
  Qed.
End Total.

Lemma end_loop_total : forall src fin, no_abort (end_loop fin src).
Proof.
  induction src as [|[e p] src IH]; intros fin x; cbn.
  - destruct fin; discriminate.
  - destruct e; try discriminate; apply IH.
Qed.

(** [root] on a deliverable stream. *)
Lemma root_total : forall dbg src fin, deliverable src fin ->
  match root dbg (reader_new src fin) with
  | (Ok (a, ns), r') => exists n p, nested [n] r' /\ r_stack r' = [SElem n p]
  | (Err _, _) => True
  | (Abort _, _) => False
  end.
Proof.
  intros dbg src fin H. destruct src as [|[e p0] src].
  - destruct H as (e & ->). exact I.
  - destruct H as (-> & Hw & Hr).
    unfold root, inner_next, reader_new, set_src; cbn [r_src r_fin r_depth r_stack].
    rewrite next_in_sync by (intros _; reflexivity).
    clear p0. induction src as [|[e p] src IH].
    + cbn. destruct fin; [|exact I]. destruct Hr as (? & ? & ? & ? & []).
    + destruct e; cbn [next_loop].
      * contradiction.
      * exists name, p. split; [|reflexivity]. split; [exact Hw|reflexivity].
      * contradiction.
      * exact I.
      * exact I.
      * destruct Hw as [Hw _]. congruence.
      * apply IH; [exact Hw|]. destruct fin; [|exact I].
        destruct Hr as (n & a & ns & q & [Hr|Hr]); [discriminate|]. red; eauto.
      * apply IH; [exact Hw|]. destruct fin; [|exact I].
        destruct Hr as (n & a & ns & q & [Hr|Hr]); [discriminate|]. red; eauto.
Qed.

Theorem read_total : forall St T dbg (V : visitors St) (D : einfo -> action St (res verr T)) Inv src fin,
  (dbg = true -> propagating V /\ propagating_root D) ->
  total Inv V -> total_root Inv D ->
  deliverable src fin ->
  no_abort (read dbg V D (reader_new src fin)).
Proof.
  intros St T dbg V D Inv src fin HV HT HD Hdel. unfold read.
  pose proof (root_total dbg src fin Hdel) as HR.
  destruct (root dbg (reader_new src fin)) as [[[attrs ns]|e|x] r1]; [|intros ?; discriminate|contradiction].
  destruct HR as (n & p & Hn & Hst). rewrite Hst. cbn [nth_error se_name].
  set (i := EInfo n ns 1).
  assert (Hp : dbg = true -> propagating_act (fun a : res verr T => is_ok a = false) (D i)).
  { intros Hd. destruct (HV Hd) as [_ HD']. specialize (HD' i).
    destruct (D i); cbn in *; auto; intros.
    - specialize (HD' e). destruct (k _); cbn; auto. now destruct (HD' a).
    - specialize (HD' e s). destruct (k _ _); cbn; auto. now destruct (HD' a). }
  pose proof (run_action_total dbg V Inv HT _ no_abort is_ok (S (List.length (r_src r1))) [] (SElem n p) n []
    attrs ns (D i) r1 (read_loop_total dbg V Inv (fun H => proj1 (HV H)) HT _) eq_refl Hn) as HA.
  specialize (HA ltac:(intros E; rewrite Hst; reflexivity) Hst ltac:(lia) (HD i) Hp).
  cbn [List.length] in HA.
  destruct (run_action _ _ _ _ _ _ _ _) as [[[v|e|x]|x] r2]; try contradiction.
  - destruct HA as [_ [HA _]]. cbn [is_ok] in HA.
    pose proof (return_to_depth_total dbg [] [] r2 eq_refl HA) as HE. cbn [List.length] in HE.
    unfold end_. destruct (return_to_depth _ _ _) as [[u|e|x] r3]; [|intros ?; discriminate|contradiction].
    pose proof (end_loop_total (r_src r3) (r_fin r3)).
    destruct (end_loop _ _) as [|?|x]; intros y; try discriminate. now destruct (H x).
  - intros ?; discriminate.
  - destruct HA as [HA _]. now destruct (HA x).
Qed.
