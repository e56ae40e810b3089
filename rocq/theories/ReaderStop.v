(** When an error is reported, the element it is about is still open or has just ended: nothing after
    it has been looked at. *)
From Coq Require Import Lia.
From Verif Require Import Base Reader ReaderSpec ReaderProofs ReaderTotal ReaderOk ReaderMore ReaderXml ReaderProps
  ReaderCut.

(** ** What has been read decides *)

Section Frame.
  Context {St : Type} (dbg : bool) (V : visitors St).
  Hypothesis HT : transparent V.

  (** The same reader in front of another stream. *)
  Definition reroute (r : rstate) (src : list (xevent * position)) (fin : final) : rstate :=
    RState src fin (r_pos r) (r_depth r) (r_stack r).

  (** [p], the outcome on [r], was determined by the events [c] that were read. *)
  Definition framed {A} (r : rstate) (p : rres A) (F : nat -> rstate -> rres A) : Prop :=
    undecided (fst p) \/
    exists c, r_src r = c ++ r_src (snd p) /\
      forall f tail fin, List.length c < f -> F f (reroute r (c ++ tail) fin) = (fst p, reroute (snd p) tail fin).

  Lemma next_loop_framed fin src : forall depth stack,
    undecided (fst (next_loop dbg fin depth stack src)) \/
    exists c, c <> [] /\ src = c ++ r_src (snd (next_loop dbg fin depth stack src)) /\
      forall tail fin', next_loop dbg fin' depth stack (c ++ tail) =
        (fst (next_loop dbg fin depth stack src), reroute (snd (next_loop dbg fin depth stack src)) tail fin').
  Proof.
    induction src as [|[e p] src IH]; intros depth stack.
    - left. destruct fin; cbn; [exact I|]. now eexists.
    - assert (G : next_loop dbg fin depth stack ((e, p) :: src) = next_loop dbg fin depth stack src ->
        (forall src', next_loop dbg fin depth stack ((e, p) :: src') = next_loop dbg fin depth stack src') ->
        (forall fin' src', next_loop dbg fin' depth stack ((e, p) :: src') = next_loop dbg fin' depth stack src') ->
        undecided (fst (next_loop dbg fin depth stack ((e, p) :: src))) \/
        exists c, c <> [] /\ (e, p) :: src = c ++ r_src (snd (next_loop dbg fin depth stack ((e, p) :: src))) /\
          forall tail fin', next_loop dbg fin' depth stack (c ++ tail) =
            (fst (next_loop dbg fin depth stack ((e, p) :: src)),
             reroute (snd (next_loop dbg fin depth stack ((e, p) :: src))) tail fin')).
      { intros G1 _ G2. rewrite G1. destruct (IH depth stack) as [U|(c & _ & H1 & H2)]; [now left|].
        right. exists ((e, p) :: c). split; [discriminate|]. split; [cbn; now rewrite <- H1|].
        intros tail fin'. cbn [app]. now rewrite G2. }
      assert (K : forall a st d, next_loop dbg fin depth stack ((e, p) :: src) = (a, RState src fin p d st) ->
        (forall fin' src', next_loop dbg fin' depth stack ((e, p) :: src') = (a, RState src' fin' p d st)) ->
        undecided (fst (next_loop dbg fin depth stack ((e, p) :: src))) \/
        exists c, c <> [] /\ (e, p) :: src = c ++ r_src (snd (next_loop dbg fin depth stack ((e, p) :: src))) /\
          forall tail fin', next_loop dbg fin' depth stack (c ++ tail) =
            (fst (next_loop dbg fin depth stack ((e, p) :: src)),
             reroute (snd (next_loop dbg fin depth stack ((e, p) :: src))) tail fin')).
      { intros a st d K1 K2. right. exists [(e, p)]. rewrite K1. split; [discriminate|]. split; [reflexivity|].
        intros tail fin'. cbn [app]. now rewrite K2. }
      destruct e; try (apply G; reflexivity); try (eapply K; reflexivity).
      clear G. destruct depth as [|depth]; [now left|]. cbn [next_loop] in *. destruct dbg; [|eapply K; reflexivity].
      destruct (nth_error stack depth) as [el|]; [|now left].
      destruct (oname_eqb (se_name el) name); [eapply K; reflexivity|now left].
  Qed.

  Lemma next_framed r :
    undecided (fst (next dbg r)) \/
    exists c, c <> [] /\ r_src r = c ++ r_src (snd (next dbg r)) /\
      forall tail fin, next dbg (reroute r (c ++ tail) fin) = (fst (next dbg r), reroute (snd (next dbg r)) tail fin).
  Proof.
    unfold next. cbn [reroute r_stack r_depth r_fin r_src].
    destruct (dbg && _); [now left|]. apply next_loop_framed.
  Qed.

  Lemma len_pos {A} (c : list A) : c <> [] -> 0 < List.length c.
  Proof. destruct c; [easy|cbn; lia]. Qed.

  Lemma skip_loop_framed f1 : forall target r,
    framed r (skip_loop f1 dbg target r) (fun f => skip_loop f dbg target).
  Proof.
    induction f1 as [|f1 IH]; intros target r; [now left|]. cbn [skip_loop].
    destruct (Nat.ltb target (r_depth r)) eqn:Et.
    - destruct (next_framed r) as [U|(c & Hc & H1 & H2)].
      { left. destruct (next dbg r) as [[ev|e|y] r']; cbn in *; auto; contradiction. }
      destruct (next dbg r) as [[ev|e|y] r']; cbn [fst snd] in *.
      + destruct (IH target (truncate r')) as [U|(c2 & H3 & H4)]; [now left|].
        right. exists (c ++ c2). cbn [truncate r_src] in H3. split; [now rewrite H1, H3 at 1; rewrite app_assoc|].
        intros f tail fin Hf. destruct f as [|f]; [lia|]. cbn [skip_loop]. cbn [reroute r_depth]. rewrite Et.
        rewrite <- app_assoc, H2. rewrite app_length in Hf. pose proof (len_pos c Hc).
        change (truncate (reroute r' (c2 ++ tail) fin)) with (reroute (truncate r') (c2 ++ tail) fin). apply H4. lia.
      + right. exists c. split; [exact H1|]. intros f tail fin Hf. destruct f as [|f]; [lia|]. cbn [skip_loop].
        cbn [reroute r_depth]. now rewrite Et, H2.
      + now left.
    - right. exists []. split; [reflexivity|]. intros f tail fin Hf. destruct f as [|f]; [cbn in Hf; lia|].
      cbn [skip_loop]. cbn [reroute r_depth]. now rewrite Et.
  Qed.

  Lemma return_framed target r :
    framed r (return_to_depth dbg target r) (fun _ => return_to_depth dbg target).
  Proof.
    unfold return_to_depth. destruct (dbg && Nat.ltb (r_depth r) target) eqn:Eb; [now left|].
    destruct (skip_loop_framed (S (List.length (r_src r))) target r) as [U|(c & H1 & H2)]; [now left|].
    right. exists c. split; [exact H1|]. intros _ tail fin _. cbn [reroute r_depth r_src].
    rewrite Eb. apply H2. rewrite app_length. lia.
  Qed.

  Lemma read_string_framed f1 : forall sp out r,
    framed r (read_string_loop f1 dbg sp out r) (fun f => read_string_loop f dbg sp out).
  Proof.
    induction f1 as [|f1 IH]; intros sp out r; [now left|]. cbn [read_string_loop].
    destruct (stack_check dbg sp r) eqn:Es; [|now left].
    destruct (next_framed r) as [U|(c & Hc & H1 & H2)].
    { left. destruct (next dbg r) as [[[[] ?]|e|y] r']; cbn in *; auto; contradiction. }
    assert (K : forall a r', next dbg r = (fst (next dbg r), r') ->
      (forall f tail fin, read_string_loop (S f) dbg sp out (reroute r (c ++ tail) fin) = (a, reroute r' tail fin)) ->
      framed r (a, r') (fun f => read_string_loop f dbg sp out)).
    { intros a r' E E2. right. exists c. rewrite E in H1. cbn [snd] in *. split; [exact H1|].
      intros f tail fin Hf. destruct f as [|f]; [lia|]. apply E2. }
    assert (Es' : forall src fin, stack_check dbg sp (reroute r src fin) = true) by (intros; exact Es).
    destruct (next dbg r) as [[[[attrs ns|n|s] p]|e|y] r'] eqn:En; cbn [fst snd] in *.
    - destruct (nth_error (r_stack r') (List.length (r_stack r') - 1)) as [ch|] eqn:Ec; [|now left].
      apply K; [reflexivity|]. intros f tail fin. cbn [read_string_loop]. rewrite Es', H2. cbn [reroute r_stack].
      now rewrite Ec.
    - apply K; [reflexivity|]. intros f tail fin. cbn [read_string_loop]. now rewrite Es', H2.
    - destruct (IH sp (if String.eqb out "" then s else (out ++ s)%string) r') as [U|(c2 & H3 & H4)]; [now left|].
      right. exists (c ++ c2). split; [now rewrite H1, H3 at 1; rewrite app_assoc|].
      intros f tail fin Hf. destruct f as [|f]; [lia|]. cbn [read_string_loop].
      rewrite Es', <- app_assoc, H2. rewrite app_length in Hf. pose proof (len_pos c Hc). apply H4. lia.
    - apply K; [reflexivity|]. intros f tail fin. cbn [read_string_loop]. now rewrite Es', H2.
    - now left.
  Qed.

  Definition framedv {A} (r : rstate) (p : res error A * St * rstate) (F : nat -> rstate -> res error A * St * rstate) : Prop :=
    undecided (fst (fst p)) \/
    exists c, r_src r = c ++ r_src (snd p) /\
      forall f tail fin, List.length c < f -> F f (reroute r (c ++ tail) fin) = (fst p, reroute (snd p) tail fin).

  Definition frameda {A B} (get : A -> res verr B) (r : rstate) (p : (A + abort) * rstate)
    (F : nat -> rstate -> (A + abort) * rstate) : Prop :=
    match fst p with
    | inr _ => True
    | inl a => (exists e, get a = Err (Propagate e) /\ is_xml e) \/
        exists c, r_src r = c ++ r_src (snd p) /\
          forall f tail fin, List.length c < f -> F f (reroute r (c ++ tail) fin) = (fst p, reroute (snd p) tail fin)
    end.

  Lemma run_action_framed {A B} (get : A -> res verr B) body1 body2 sp attrs ns (act : action St A) r :
    (forall sp ns s r, framedv r (body1 sp ns s r) (fun f => body2 f sp ns s)) ->
    transparent_act get act ->
    frameda get r (run_action dbg V body1 sp attrs ns act r) (fun f => run_action dbg V (body2 f) sp attrs ns act).
  Proof.
    intros HB Ht. destruct act as [a|k|s0 k]; cbn [run_action transparent_act] in *.
    - right. exists []. split; reflexivity.
    - destruct Ht as [_ Ht]. unfold read_string.
      pose proof (read_string_framed (S (List.length (r_src r))) sp "" r) as S.
      destruct (read_string_loop _ dbg sp "" r) as [a r']. destruct S as [U|(c & H1 & H2)]; cbn [fst snd] in *.
      + destruct a as [s|e|y]; cbn in U; [contradiction| |exact I]. left. exists e. now rewrite Ht.
      + destruct a as [s|e|y]; [| |exact I]; right; exists c; (split; [exact H1|]); intros f tail fin _;
          cbn [run_action]; unfold read_string; rewrite H2 by (cbn [reroute r_src]; rewrite app_length; lia); reflexivity.
    - destruct Ht as [_ Ht]. destruct (nth_error (r_stack r) sp) as [el|] eqn:Ee; [|exact I].
      destruct (attrs_loop V (r_stack r) (se_pos el) attrs s0) as [[u|e|y] s1] eqn:Ea.
      + specialize (HB sp ns s1 r). destruct (body1 sp ns s1 r) as [[a s2] r'].
        destruct HB as [U|(c & H1 & H2)]; cbn [fst snd] in *.
        * destruct a as [i|e|y]; cbn in U; [contradiction| |exact I]. left. exists e. now rewrite Ht.
        * destruct a as [i|e|y]; [| |exact I]; right; exists c; (split; [exact H1|]); intros f tail fin Hf;
            cbn [run_action]; cbn [reroute r_stack]; rewrite Ee, Ea; cbv iota; rewrite (H2 f tail fin Hf); reflexivity.
      + right. exists []. split; [reflexivity|]. intros f tail fin Hf. cbn [run_action].
        cbn [reroute r_stack]. now rewrite Ee, Ea.
      + exact I.
  Qed.

  Lemma read_loop_framed f1 : forall sp ns s r,
    framedv r (read_loop dbg V f1 sp ns s r) (fun f => read_loop dbg V f sp ns s).
  Proof.
    induction f1 as [|f1 IH]; intros sp ns s r; [now left|]. cbn [read_loop].
    destruct (stack_check dbg sp r) eqn:Es; [|now left].
    destruct (next_framed r) as [U|(c & Hc & H1 & H2)].
    { left. destruct (next dbg r) as [[[[] ?]|e|y] r']; cbn in *; auto; contradiction. }
    assert (Es' : forall src fin, stack_check dbg sp (reroute r src fin) = true) by (intros; exact Es).
    pose proof (len_pos c Hc) as Lc.
    destruct (next dbg r) as [[[[attrs ns'|n|str] p]|e|y] r1] eqn:En; cbn [fst snd] in *.
    - destruct (nth_error (r_stack r1) (S sp)) as [el|] eqn:Ee; [|now left].
      pose proof (run_action_framed fst (read_loop dbg V f1) (read_loop dbg V) (S sp) attrs ns'
        (v_element V s (EInfo (se_name el) ns' (S (S sp)))) r1 IH (proj2 HT _ _)) as A.
      destruct (run_action dbg V (read_loop dbg V f1) (S sp) attrs ns' _ r1) as [[[b s']|y] r2]; [|now left].
      unfold frameda in A. cbn [fst snd] in A. destruct A as [(e & Eb & X)|(c2 & H3 & H4)].
      { subst b. left. exact X. }
      destruct b as [b|e|y].
      + destruct (return_framed (S sp) r2) as [U|(c3 & H5 & H6)].
        { left. destruct (return_to_depth dbg (S sp) r2) as [[]?]; cbn in *; auto; contradiction. }
        destruct (return_to_depth dbg (S sp) r2) as [[u|e|y] r3]; cbn [fst snd] in *.
        * destruct (IH sp ns s' r3) as [U|(c4 & H7 & H8)]; [now left|].
          right. exists (c ++ c2 ++ c3 ++ c4). split.
          { rewrite H1, H3, H5. rewrite H7 at 1. now rewrite !app_assoc. }
          intros f tail fin Hf. destruct f as [|f]; [lia|]. rewrite !app_length in Hf.
          cbn [read_loop]. rewrite Es', <- !app_assoc, H2. cbn [reroute r_stack]. rewrite Ee.
          rewrite (H4 f (c3 ++ c4 ++ tail) fin) by lia. cbv iota.
          rewrite (H6 (S (List.length c3)) (c4 ++ tail) fin) by lia. cbv iota. apply H8. lia.
        * right. exists (c ++ c2 ++ c3). split.
          { cbn [snd]. rewrite H1, H3, H5. now rewrite !app_assoc. }
          intros f tail fin Hf. destruct f as [|f]; [lia|]. rewrite !app_length in Hf.
          cbn [read_loop]. rewrite Es', <- !app_assoc, H2. cbn [reroute r_stack]. rewrite Ee.
          rewrite (H4 f (c3 ++ tail) fin) by lia. cbv iota.
          now rewrite (H6 (S (List.length c3)) tail fin) by lia.
        * now left.
      + right. exists (c ++ c2). split.
        { cbn [snd]. rewrite H1, H3. now rewrite !app_assoc. }
        intros f tail fin Hf. destruct f as [|f]; [lia|]. rewrite !app_length in Hf.
        cbn [read_loop]. rewrite Es', <- !app_assoc, H2. cbn [reroute r_stack]. rewrite Ee.
        now rewrite (H4 f tail fin) by lia.
      + now left.
    - right. exists c. split; [exact H1|]. intros f tail fin Hf. destruct f as [|f]; [lia|].
      cbn [read_loop]. now rewrite Es', H2.
    - destruct (v_characters V s str p) as [[b|m|y] s'] eqn:Ech.
      + destruct (IH sp ns s' r1) as [U|(c2 & H3 & H4)]; [now left|].
        right. exists (c ++ c2). split; [now rewrite H1, H3 at 1; rewrite app_assoc|].
        intros f tail fin Hf. destruct f as [|f]; [lia|]. rewrite !app_length in Hf.
        cbn [read_loop]. rewrite Es', <- !app_assoc, H2, Ech. apply H4. lia.
      + right. exists c. split; [exact H1|]. intros f tail fin Hf. destruct f as [|f]; [lia|].
        cbn [read_loop]. now rewrite Es', H2, Ech.
      + now left.
    - right. exists c. split; [exact H1|]. intros f tail fin Hf. destruct f as [|f]; [lia|].
      cbn [read_loop]. now rewrite Es', H2.
    - now left.
  Qed.
End Frame.

(** ** Where the reader is *)

Section Place.
  Context (src0 : list (xevent * position)) (fin0 : final).

  (** The reader's stack is that of the open elements, or has one more: the element that just ended. *)
  Definition placed (r : rstate) : Prop :=
    synced src0 fin0 r \/ (synced src0 fin0 (truncate r) /\ List.length (r_stack r) = S (r_depth r)).

  Definition at_place (e : error) (r : rstate) : Prop := is_xml e \/ (er_stack e = r_stack r /\ placed r).

  Lemma next_error_xml dbg r e r' : next dbg r = (Err e, r') -> is_xml e.
  Proof.
    unfold next. destruct (dbg && _); [discriminate|].
    generalize (r_depth r), (r_stack r). induction (r_src r) as [|[ev p] src IH]; intros d st H.
    - cbn in H. destruct (r_fin r); [discriminate|]. injection H as <- _. now eexists.
    - destruct ev; cbn [next_loop] in H; try discriminate; eauto.
      destruct d; [discriminate|]. destruct dbg; [|discriminate]. destruct (nth_error _ _); [|discriminate].
      now destruct (oname_eqb _ _).
  Qed.

  Lemma next_end_len dbg r n p r' : synced src0 fin0 r -> next dbg r = (Ok (EvEnd n, p), r') ->
    List.length (r_stack r') = S (r_depth r') /\ List.length (r_stack r') = r_depth r.
  Proof.
    intros (_ & Hd & _) E. pose proof (next_inv dbg r) as H. rewrite E in H.
    destruct H as (nz & e & _ & _ & _ & _ & H5 & (-> & H6 & H7)). cbn in H5. rewrite H6. lia.
  Qed.

  Lemma read_string_loop_placed : forall fuel dbg sp acc r, synced src0 fin0 r -> r_depth r = S sp ->
    match read_string_loop fuel dbg sp acc r with
    | (Ok _, r') => List.length (r_stack r') = S (r_depth r')
    | (Err e, r') => at_place e r'
    | (Abort _, _) => True
    end.
  Proof.
    induction fuel as [|fuel IH]; intros dbg sp acc r Hs Hd; cbn [read_string_loop]; [exact I|].
    destruct (stack_check dbg sp r); [|exact I].
    pose proof (next_synced _ _ dbg r Hs) as HN.
    destruct (next dbg r) as [[[ev p]|er|x] r1] eqn:En; auto.
    - destruct ev; destruct HN as [HS HD].
      + destruct (nth_error _ _); [|exact I]. right. split; [reflexivity|now left].
      + now apply (next_end_len dbg r name p r1).
      + apply IH; [assumption|congruence].
    - left. eapply next_error_xml; eauto.
  Qed.

  Context {St : Type} (dbg : bool) (V : visitors St).
  Hypothesis HT : transparent V.

  Definition body_placed (fuel : nat) : Prop :=
    forall sp ns s r, synced src0 fin0 r -> r_depth r = S sp ->
      match read_loop dbg V fuel sp ns s r with
      | (Ok _, _, r') => List.length (r_stack r') = S (r_depth r')
      | (Err e, _, r') => at_place e r'
      | (Abort _, _, _) => True
      end.

  (** The error of an action is one handed on, or a new one. *)
  Definition verr_placed (e : verr) (r : rstate) : Prop :=
    match e with Propagate e => at_place e r | Wrap _ => placed r end.

  Lemma attrs_loop_placed attrs : forall stack p s,
    match fst (attrs_loop V stack p attrs s) with Err e => er_stack e = stack | _ => True end.
  Proof.
    destruct HT as [HT1 _]. induction attrs as [|a attrs IH]; intros; cbn [attrs_loop]; [exact I|].
    specialize (HT1 s (from_xml_name (a_name a)) (a_value a)).
    destruct (v_attribute V s (from_xml_name (a_name a)) (a_value a)) as [[|e|x] s']; cbn [fst]; auto.
    - apply IH.
    - destruct (HT1 _ eq_refl) as (m & ->). reflexivity.
  Qed.

  Lemma run_action_placed : forall A B (get : A -> res verr B) fuel sp attrs ns (act : action St A) r,
    body_placed fuel -> synced src0 fin0 r -> r_depth r = S sp -> transparent_act get act ->
    match run_action dbg V (read_loop dbg V fuel) sp attrs ns act r with
    | (inl a, r') => match get a with Err e => verr_placed e r' | _ => True end
    | (inr _, _) => True
    end.
  Proof.
    intros A B get fuel sp attrs ns act r Hb Hs Hd Ht.
    assert (HW : forall (x : res verr B) r', new_error x -> placed r' ->
      match x with Err e => verr_placed e r' | _ => True end).
    { intros [|e|] r' Hx Hr; auto. destruct (Hx e eq_refl) as (m & ->). exact Hr. }
    destruct act as [a|k|s0 k]; cbn [run_action transparent_act] in *.
    - apply HW; [assumption|]. now left.
    - destruct Ht as [Ht1 Ht2]. unfold read_string.
      pose proof (read_string_loop_placed (S (List.length (r_src r))) dbg sp "" r Hs Hd) as H.
      pose proof (read_string_loop_synced _ _ (S (List.length (r_src r))) dbg sp "" r Hs Hd) as H'.
      destruct (read_string_loop _ _ _ _ _) as [[o|e|x] r1]; auto.
      + apply HW; [apply Ht1|]. right. split; [apply H'|exact H].
      + rewrite Ht2. exact H.
    - destruct Ht as [Ht1 Ht2].
      destruct (nth_error _ _); auto.
      pose proof (attrs_loop_placed attrs (r_stack r) (se_pos s) s0) as HA.
      destruct (attrs_loop _ _ _ _ _) as [[u|e|x] s1]; cbn [fst] in HA; auto.
      + specialize (Hb sp ns s1 r Hs Hd).
        pose proof (read_loop_synced _ _ dbg V HT fuel sp ns s1 r Hs Hd) as Hb'.
        destruct (read_loop _ _ _ _ _ _ _) as [[[i|e|x] s2] r1]; auto.
        * apply HW; [apply Ht1|]. right. split; [apply Hb'|exact Hb].
        * rewrite Ht2. exact Hb.
      + rewrite Ht2. right. split; [exact HA|now left].
  Qed.

  Lemma wrap_placed e r p : verr_placed e r -> at_place (wrap e (r_stack r) p) r.
  Proof. destruct e as [e|m]; cbn; [auto|]. intros H. right. split; [reflexivity|exact H]. Qed.

  Lemma return_error_xml t r e r' : return_to_depth dbg t r = (Err e, r') -> is_xml e.
  Proof.
    unfold return_to_depth. destruct (dbg && _); [discriminate|]. generalize (S (List.length (r_src r))) as f.
    intros f. revert r. induction f as [|f IH]; intros r H; cbn [skip_loop] in H; [discriminate|].
    destruct (Nat.ltb _ _); [|discriminate]. destruct (next dbg r) as [[]?] eqn:En; try discriminate; eauto.
    injection H as -> <-. eapply next_error_xml; eauto.
  Qed.

  Lemma read_loop_placed : forall fuel, body_placed fuel.
  Proof.
    induction fuel as [|fuel IH]; intros sp ns s r Hs Hd; cbn [read_loop]; [exact I|].
    destruct (stack_check dbg sp r); [|exact I].
    pose proof (next_synced _ _ dbg r Hs) as HN.
    destruct (next dbg r) as [[[ev p]|er|x] r1] eqn:En; auto.
    2:{ left. eapply next_error_xml; eauto. }
    destruct ev; destruct HN as [HS HD].
    - destruct (nth_error _ _) as [el|]; [|exact I].
      set (act := v_element V s _).
      pose proof (run_action_placed _ _ fst fuel (S sp) attrs ns0 act r1 IH HS ltac:(congruence)
        (proj2 HT _ _)) as HA.
      pose proof (run_action_synced _ _ dbg V HT _ _ fst fuel (S sp) attrs ns0 act r1
        (read_loop_synced _ _ dbg V HT fuel) HS ltac:(congruence) (proj2 HT _ _)) as HA'.
      destruct (run_action _ _ _ _ _ _ _ _) as [[[o s']|x] r2]; auto. cbn [fst] in HA, HA'.
      destruct o as [b|e|x]; auto.
      + destruct HA' as [HA1 HA2].
        pose proof (return_to_depth_synced _ _ dbg (S sp) r2 HA1 HA2) as HR.
        destruct (return_to_depth dbg (S sp) r2) as [[u|e|x] r3] eqn:Er; auto.
        * destruct HR as [HR1 HR2]. now apply IH.
        * left. eapply return_error_xml; eauto.
      + now apply wrap_placed.
    - now apply (next_end_len dbg r name p r1).
    - destruct (v_characters V s s0 p) as [[o|m|x] s']; auto.
      + apply IH; [assumption|congruence].
      + right. split; [reflexivity|now left].
  Qed.
End Place.

(** An error about an element is decided by a stretch of the input after which that element is the
    innermost open one, or has just ended. *)
Theorem read_stops {St T} dbg (V : visitors St) (D : einfo -> action St (res verr T)) src fin e :
  transparent V -> transparent_root D ->
  read dbg V D (reader_new src fin) = Err e -> ~ is_xml e -> er_stack e <> [] ->
  exists pre post, src = pre ++ post /\
    (er_stack e = opened [] pre \/ exists el, er_stack e = opened [] pre ++ [el]) /\
    forall post' fin', read dbg V D (reader_new (pre ++ post') fin') = Err e.
Proof.
  intros HV HD H Nx Ns. unfold read, root, inner_next in H. cbn [reader_new r_src r_fin] in H.
  destruct src as [|[ev p0] src].
  { destruct fin; injection H as <-; [now elim Ns|]. elim Nx. now eexists. }
  destruct ev; try (injection H as <-; now elim Ns).
  unfold set_src in H; cbn [reader_new r_fin r_depth r_stack] in H.
  set (r0 := RState src fin p0 0 []) in H.
  assert (S0 : synced ((XStartDocument, p0) :: src) fin r0).
  { split; [reflexivity|]. split; [reflexivity|]. exists [(XStartDocument, p0)]. auto. }
  pose proof (next_synced _ _ dbg r0 S0) as HN.
  pose proof (next_framed dbg r0) as HF.
  destruct (next dbg r0) as [[[ev p1]|er|?] r1] eqn:En; try discriminate.
  2:{ injection H as ->. elim Nx. eapply next_error_xml; eauto. }
  destruct ev as [a ns| |]; try (injection H as <-; now elim Ns).
  destruct HN as [HS Hd]. cbn in Hd. cbn beta iota in H.
  destruct HF as [[]|(c1 & _ & H1 & H2)]. cbn [fst snd] in *.
  destruct (nth_error (r_stack r1) 0) as [el|] eqn:Ee; [|discriminate].
  set (fuel := S (List.length (r_src r1))) in *. set (act := D _) in *.
  pose proof (run_action_synced _ _ dbg V HV _ _ (fun y => y) fuel 0 a ns act r1
    (read_loop_synced _ _ dbg V HV _) HS Hd (HD _)) as HA.
  pose proof (run_action_placed _ _ dbg V HV _ _ (fun y => y) fuel 0 a ns act r1
    (read_loop_placed _ _ dbg V HV _) HS Hd (HD _)) as HP.
  pose proof (run_action_framed dbg V (fun y => y) (read_loop dbg V fuel) (read_loop dbg V) 0 a ns act r1
    (read_loop_framed dbg V HV fuel) (HD _)) as HF.
  destruct (run_action dbg V (read_loop dbg V fuel) 0 a ns act r1) as [[[w|ve|?]|?] r2]; try discriminate.
  - exfalso. unfold end_ in H. destruct (return_to_depth dbg 0 r2) as [[u|e'|?] r3] eqn:Er; try discriminate.
    + destruct (end_loop (r_fin r3) (r_src r3)) as [|e'|] eqn:EL; try discriminate. injection H as ->.
      revert EL. generalize (r_src r3). intros l. induction l as [|[ev p] l IH]; cbn.
      * destruct (r_fin r3); [discriminate|]. intros [= <-]. now elim Ns.
      * destruct ev; auto; intros [= <-]; now elim Ns.
    + injection H as ->. apply Nx. eapply return_error_xml; eauto.
  - unfold frameda in HF. cbn [fst snd] in HF. injection H as H.
    apply wrap_placed with (p := r_pos r2) in HP. rewrite H in HP.
    destruct HF as [(e' & Ev & X)|(c2 & H3 & H4)].
    { injection Ev as ->. cbn in H. now subst e'. }
    destruct HP as [X|[Est Hp]]; [contradiction|].
    assert (Hsrc : (XStartDocument, p0) :: src = ((XStartDocument, p0) :: c1 ++ c2) ++ r_src r2).
    { cbn [app]. f_equal. change src with (r_src r0). rewrite H1, H3. apply app_assoc. }
    exists ((XStartDocument, p0) :: c1 ++ c2), (r_src r2). split; [exact Hsrc|]. split.
    + destruct Hp as [(_ & _ & pre & Hpre & Hst)|[(_ & _ & pre & Hpre & Hst) Hl]].
      * left. rewrite Hsrc in Hpre. apply app_inv_tail in Hpre. now rewrite Hpre, <- Hst.
      * right. cbn [truncate r_src r_stack] in *. rewrite Hsrc in Hpre. apply app_inv_tail in Hpre. subst pre.
        pose proof (firstn_skipn (r_depth r2) (r_stack r2)) as Hfs.
        assert (Hk : List.length (skipn (r_depth r2) (r_stack r2)) = 1) by (rewrite skipn_length; lia).
        destruct (skipn (r_depth r2) (r_stack r2)) as [|el' [|]] eqn:Ek; try discriminate. exists el'.
        now rewrite Est, <- Hst, Hfs.
    + intros post' fin'. unfold read, root, inner_next. cbn [reader_new r_src r_fin app].
      unfold set_src. cbn [r_fin r_depth r_stack].
      rewrite <- app_assoc. match goal with |- context [next dbg ?r] =>
        change (next dbg r) with (next dbg (reroute r0 (c1 ++ c2 ++ post') fin')) end.
      rewrite H2. cbn [reroute r_stack r_src]. rewrite Ee. fold act.
      change (RState (c2 ++ post') fin' (r_pos r1) (r_depth r1) (r_stack r1)) with (reroute r1 (c2 ++ post') fin').
      rewrite (H4 (S (List.length (c2 ++ post'))) post' fin') by (rewrite app_length; lia).
      cbn [reroute r_stack r_pos]. now rewrite H.
Qed.
