(** Visitors are called as the document comes in. *)
From Coq Require Import Lia.
From Verif Require Import Base Types Reader ReaderSpec ReaderProofs Steps StepsSpec StepsProofs StreamSpec.

Lemma starts_refl {A} (l : list A) : starts l l.
Proof. exists []. now rewrite app_nil_r. Qed.
Lemma starts_nil {A} (l : list A) : starts [] l.
Proof. now exists l. Qed.
Lemma starts_cons {A} (a : A) l l' : starts l l' -> starts (a :: l) (a :: l').
Proof. intros (x & ->). now exists x. Qed.
Lemma starts_app {A} (a l l' : list A) : starts l l' -> starts (a ++ l) (a ++ l').
Proof. intros (x & ->). exists x. now rewrite app_assoc. Qed.
Lemma starts_more {A} (l a b : list A) : starts l a -> starts l (a ++ b).
Proof. intros (x & ->). exists (x ++ b). now rewrite app_assoc. Qed.

(** ** The shorter stream *)
Section Cut.
  Context {St : Type} (dbg : bool) (V : visitors St) (x : xerr) (post : list (xevent * position)) (fin : final).

  (** The same reader on the longer stream. *)
  Definition ext (r : rstate) : rstate := RState (r_src r ++ post) fin (r_pos r) (r_depth r) (r_stack r).
  Definition cut (r : rstate) : Prop := r_fin r = FError x.
  (** Nothing more to be read, although elements are open. *)
  Definition gone (d : nat) (r : rstate) : Prop := cut r /\ r_src r = [] /\ d <= r_depth r.

  (** Depth at least [d] if cut off, [d'] if not. *)
  Definition sim {A} (d d' : nat) (p1 p2 : rres A) : Prop :=
    match fst p1 with
    | Abort _ => True
    | Err _ => gone d (snd p1) \/ (cut (snd p1) /\ d' <= r_depth (snd p1) /\ p2 = (fst p1, ext (snd p1)))
    | Ok _ => cut (snd p1) /\ d' <= r_depth (snd p1) /\ p2 = (fst p1, ext (snd p1))
    end.

  Lemma next_loop_sim src : forall depth stack,
    sim depth (depth - 1) (next_loop dbg (FError x) depth stack src) (next_loop dbg fin depth stack (src ++ post)).
  Proof.
    induction src as [|[e p] src IH]; intros depth stack; [left; repeat split; cbn; lia|].
    destruct e; cbn [next_loop app]; try apply IH; try (unfold sim; cbn; repeat split; lia).
    destruct depth as [|depth]; [exact I|]. destruct dbg; [|unfold sim; cbn; repeat split; lia].
    destruct (nth_error stack depth) as [el|]; [|exact I].
    destruct (oname_eqb _ _); [unfold sim; cbn; repeat split; lia|exact I].
  Qed.

  Lemma next_sim r : cut r -> sim (r_depth r) (r_depth r - 1) (next dbg r) (next dbg (ext r)).
  Proof.
    intros C. unfold next. cbn [ext r_stack r_depth r_fin r_src].
    destruct (dbg && _); [exact I|]. rewrite C. apply next_loop_sim.
  Qed.

  Lemma next_start r attrs ns p r1 : next dbg r = (Ok (EvStart attrs ns, p), r1) -> r_depth r1 = S (r_depth r).
  Proof.
    unfold next. destruct (dbg && _); [discriminate|].
    generalize (r_depth r) as d, (r_stack r) as st, (r_fin r) as f. induction (r_src r) as [|[e q] src IH]; intros d st f.
    - cbn. destruct f; discriminate.
    - destruct e; cbn [next_loop]; try apply IH; try discriminate; [now intros [= _ _ _ <-]|].
      destruct d; [discriminate|]. destruct dbg; [|discriminate]. destruct (nth_error _ _); [|discriminate].
      destruct (oname_eqb _ _); discriminate.
  Qed.

  Lemma next_chars r str p r1 : next dbg r = (Ok (EvChars str, p), r1) -> r_depth r1 = r_depth r.
  Proof.
    unfold next. destruct (dbg && _); [discriminate|].
    generalize (r_depth r) as d, (r_stack r) as st, (r_fin r) as f. induction (r_src r) as [|[e q] src IH]; intros d st f.
    - cbn. destruct f; discriminate.
    - destruct e; cbn [next_loop]; try apply IH; try discriminate; try now intros [= _ _ <-].
      destruct d; [discriminate|]. destruct dbg; [|discriminate]. destruct (nth_error _ _); [|discriminate].
      destruct (oname_eqb _ _); discriminate.
  Qed.

  Lemma skip_sim f1 : forall f2 target r, f1 <= f2 -> cut r -> target <= r_depth r ->
    sim (S target) target (skip_loop f1 dbg target r) (skip_loop f2 dbg target (ext r)).
  Proof.
    induction f1 as [|f1 IH]; intros f2 target r Hf C Hd; [exact I|].
    destruct f2 as [|f2]; [lia|]. cbn [skip_loop]. cbn [ext r_depth].
    destruct (Nat.ltb_spec target (r_depth r)) as [Hl|Hl]; [|unfold sim; cbn; auto].
    pose proof (next_sim r C) as G. destruct (next dbg r) as [[ev|e|y] r']; unfold sim in G; cbn [fst snd] in *; [| |exact I].
    - destruct G as (C' & D' & ->). change (truncate (ext r')) with (ext (truncate r')). apply IH; [lia|exact C'|cbn; lia].
    - destruct G as [(C' & E' & D')|(C' & D' & ->)]; unfold sim; cbn [fst snd].
      + left. repeat split; auto; lia.
      + right. repeat split; auto; lia.
  Qed.

  Lemma return_sim target r : cut r -> target <= r_depth r ->
    sim (S target) target (return_to_depth dbg target r) (return_to_depth dbg target (ext r)).
  Proof.
    intros C Hd. unfold return_to_depth. cbn [ext r_depth r_src]. destruct (dbg && _); [exact I|].
    apply skip_sim; auto. rewrite app_length. lia.
  Qed.

  (** Once nothing more can be read, no element can be left. *)
  Lemma return_gone target r : gone (S target) r ->
    match fst (return_to_depth dbg target r) with Ok _ => False | _ => True end /\
    (forall e, fst (return_to_depth dbg target r) = Err e -> gone (S target) (snd (return_to_depth dbg target r))).
  Proof.
    intros (C & E & D). unfold return_to_depth. destruct (dbg && _); [split; [exact I|discriminate]|]. rewrite E. cbn [List.length skip_loop].
    destruct (Nat.ltb_spec target (r_depth r)) as [Hl|Hl]; [|lia]. unfold next.
    destruct (dbg && _); [split; [exact I|discriminate]|]. rewrite E, C. cbn [next_loop fst snd]. split; [exact I|].
    intros e _. repeat split. exact D.
  Qed.

  Lemma string_sim f1 : forall f2 sp out r, f1 <= f2 -> cut r -> S sp <= r_depth r ->
    sim (S sp) sp (read_string_loop f1 dbg sp out r) (read_string_loop f2 dbg sp out (ext r)).
  Proof.
    induction f1 as [|f1 IH]; intros f2 sp out r Hf C Hd; [exact I|].
    destruct f2 as [|f2]; [lia|]. cbn [read_string_loop].
    change (stack_check dbg sp (ext r)) with (stack_check dbg sp r).
    destruct (stack_check dbg sp r); [|exact I].
    pose proof (next_sim r C) as G. pose proof (next_chars r) as Hc.
    destruct (next dbg r) as [[[[attrs ns|n|str] p]|e|y] r']; unfold sim in G; cbn [fst snd] in *; [| | | |exact I].
    - destruct G as (C' & D' & ->). cbn [ext r_stack].
      destruct (nth_error _ _); [|exact I]. right. cbn [fst snd]. repeat split; auto; lia.
    - destruct G as (C' & D' & ->). unfold sim. cbn [fst snd]. repeat split; auto; lia.
    - destruct G as (C' & D' & ->). apply IH; [lia|exact C'|]. rewrite (Hc _ _ _ eq_refl). exact Hd.
    - destruct G as [(C' & E' & D')|(C' & D' & ->)]; unfold sim; cbn [fst snd].
      + left. repeat split; auto; lia.
      + right. repeat split; auto; lia.
  Qed.

  (** Results with calls.  [stop]: nothing follows. *)
  Definition simc {A} (d d' : nat) (p1 p2 : A * rstate * list (call St)) : Prop :=
    starts (snd p1) (snd p2) /\
    (gone d (snd (fst p1)) \/ (cut (snd (fst p1)) /\ d' <= r_depth (snd (fst p1)) /\ p2 = (fst (fst p1), ext (snd (fst p1)), snd p1))).

  Definition simv (d d' : nat) (p1 p2 : res error endinfo * St * rstate * list (call St)) : Prop :=
    match fst (fst (fst p1)) with
    | Abort _ => starts (snd p1) (snd p2)
    | Ok _ => cut (snd (fst p1)) /\ d' <= r_depth (snd (fst p1)) /\ p2 = (fst (fst p1), ext (snd (fst p1)), snd p1)
    | Err _ => simc d d' p1 p2
    end.

  Definition sima {A} (d d' : nat) (p1 p2 : (A + abort) * rstate * list (call St)) : Prop :=
    match fst (fst p1) with inr _ => starts (snd p1) (snd p2) | inl _ => simc d d' p1 p2 end.

  Lemma run_sim {A} body1 body2 sp attrs ns (act : action St A) r :
    (forall ns s r, cut r -> S sp <= r_depth r -> simv (S sp) sp (body1 sp ns s r) (body2 sp ns s (ext r))) ->
    cut r -> S sp <= r_depth r ->
    sima (S sp) sp (run_c dbg V body1 sp attrs ns act r) (run_c dbg V body2 sp attrs ns act (ext r)).
  Proof.
    intros HB C Hd.
    assert (R : forall (a : A) r' l, cut r' -> sp <= r_depth r' -> sima (S sp) sp (inl a, r', l) (inl a, ext r', l)).
    { intros a r' l C' D'. split; [apply starts_refl|right; auto]. }
    destruct act as [a|k|s0 k]; cbn [run_c].
    - apply R; auto. lia.
    - unfold read_string. cbn [ext r_src].
      pose proof (string_sim (S (List.length (r_src r))) (S (List.length (r_src r ++ post))) sp "" r) as G.
      specialize (G ltac:(rewrite app_length; lia) C Hd).
      destruct (read_string_loop _ dbg sp "" r) as [[s|e|y] r']; unfold sim in G; cbn [fst snd] in G; [| |apply starts_nil].
      + destruct G as (C' & D' & G). rewrite G. now apply R.
      + destruct G as [G|(C' & D' & G)].
        * split; [apply starts_nil|left; exact G].
        * rewrite G. now apply R.
    - cbn [ext r_stack]. destruct (nth_error (r_stack r) sp) as [el|]; [|apply starts_nil].
      destruct (attrs_c V (r_stack r) (se_pos el) attrs s0) as [[[u|e|y] s1] l].
      + specialize (HB ns s1 r C Hd).  destruct (body1 sp ns s1 r) as [[[[i|e|y] s2] r'] l1];
          unfold simv in HB; cbn [fst snd] in HB.
        * destruct HB as (C' & D' & ->). cbn [fst snd]. now apply R.
        * destruct HB as [P HB]. cbn [fst snd] in *. destruct (body2 sp ns s1 _) as [[[a2 s3] r3] l2]. cbn [snd] in P.
          destruct HB as [HB|(C' & D' & [= -> -> -> ->])]; [|now apply R].
          unfold sima. cbn [fst snd]. split; [|left; exact HB]. cbn [snd]. destruct a2; cbn [snd]; now apply starts_app.
        * destruct (body2 sp ns s1 _) as [[[a2 s3] r3] l2]. cbn [snd] in HB. unfold sima. cbn [fst snd].
          destruct a2; cbn [snd]; now apply starts_app.
      + apply R; auto. lia.
      + unfold sima. cbn [fst snd]. apply starts_refl.
  Qed.

  Lemma loop_sim f1 : forall f2 sp ns s r, f1 <= f2 -> cut r -> S sp <= r_depth r ->
    simv (S sp) sp (loop_c dbg V f1 sp ns s r) (loop_c dbg V f2 sp ns s (ext r)).
  Proof.
    induction f1 as [|f1 IH]; intros f2 sp ns s r Hf C Hd; [apply starts_nil|].
    destruct f2 as [|f2]; [lia|]. cbn [loop_c].
    change (stack_check dbg sp (ext r)) with (stack_check dbg sp r).
    destruct (stack_check dbg sp r); [|apply starts_nil].
    assert (R : forall e s' r' l, cut r' -> sp <= r_depth r' -> simv (S sp) sp (Err e, s', r', l) (Err e, s', ext r', l)).
    { intros e s' r' l C' D'. split; [apply starts_refl|right; auto]. }
    pose proof (next_sim r C) as G. pose proof (next_start r) as Hs. pose proof (next_chars r) as Hc.
    destruct (next dbg r) as [[[[attrs ns'|n|str] p]|e|y] r1]; unfold sim in G; cbn [fst snd] in *; [| | | |apply starts_nil].
    - destruct G as (C' & _ & ->). specialize (Hs _ _ _ _ eq_refl). cbn [ext r_stack].
      destruct (nth_error (r_stack r1) (S sp)) as [el|]; [|apply starts_nil]. set (child := EInfo _ _ _).
      pose proof (run_sim (loop_c dbg V f1) (loop_c dbg V f2) (S sp) attrs ns' (v_element V s child) r1) as A.
      specialize (A ltac:(intros; apply IH; [lia|assumption..]) C' ltac:(lia)). fold (ext r1).
      destruct (run_c dbg V (loop_c dbg V f1) (S sp) attrs ns' _ r1) as [[[[b s']|y] r2] l]; unfold sima in A; cbn [fst snd] in A.
      + destruct A as [P A]. cbn [fst snd] in P, A.
        destruct A as [A|(C2 & D2 & E2)].
        * (* nothing more comes *)
          assert (P' : starts (CElement s child :: l)
            (snd (match run_c dbg V (loop_c dbg V f2) (S sp) attrs ns' (v_element V s child) (ext r1) with
                  | (inr x, r2, l) => (Abort x, s, r2, CElement s child :: l)
                  | (inl (Abort x, s'), r2, l) => (Abort x, s', r2, CElement s child :: l)
                  | (inl (Err e, s'), r2, l) => (Err (wrap e (r_stack r2) p), s', r2, CElement s child :: l)
                  | (inl (Ok _, s'), r2, l) =>
                      match return_to_depth dbg (S sp) r2 with
                      | (Ok _, r3) => let (x, l') := loop_c dbg V f2 sp ns s' r3 in (x, CElement s child :: l ++ l')
                      | (Err e, r3) => (Err e, s', r3, CElement s child :: l)
                      | (Abort x, r3) => (Abort x, s', r3, CElement s child :: l)
                      end
                  end))).
          { destruct (run_c dbg V (loop_c dbg V f2) (S sp) attrs ns' _ (ext r1)) as [[[[[b2|e2|y2] s2]|y2] r2'] l2]; cbn [snd] in P;
              try (cbn [snd]; now apply starts_cons).
            destruct (return_to_depth dbg (S sp) r2') as [[u|e|y] r3]; cbn [snd]; try now apply starts_cons.
            destruct (loop_c dbg V f2 sp ns s2 r3) as [z l']. cbn [snd]. apply starts_cons. now apply starts_more. }
          assert (W : gone (S sp) r2) by (destruct A as (A1 & A2 & A3); repeat split; auto; lia).
          destruct b as [b|e|y].
          -- destruct (return_gone (S sp) r2 A) as [N Ne]. destruct (return_to_depth dbg (S sp) r2) as [[u|e|y] r3]; [destruct N| |exact P'].
             specialize (Ne _ eq_refl). cbn [snd] in Ne. split; [exact P'|left]. cbn [fst snd].
             destruct Ne as (A1 & A2 & A3); repeat split; auto; lia.
          -- split; [exact P'|left; exact W].
          -- exact P'.
        * cbn [fst snd] in E2. rewrite E2. destruct b as [b|e|y]; [|apply R; auto; lia|apply starts_refl].
          pose proof (return_sim (S sp) r2 C2 D2) as Q. destruct (return_to_depth dbg (S sp) r2) as [[u|e|y] r3]; unfold sim in Q; cbn [fst snd] in Q.
          -- destruct Q as (C3 & D3 & ->). specialize (IH f2 sp ns s' r3 ltac:(lia) C3 D3).
             destruct (loop_c dbg V f1 sp ns s' r3) as [[[a s3] r4] l3]. destruct (loop_c dbg V f2 sp ns s' (ext r3)) as [[[a' s3'] r4'] l3'].
             unfold simv, simc in *. cbn [fst snd] in *. destruct a as [i|e|y].
             ++ destruct IH as (I1 & I2 & [= -> -> -> ->]). auto.
             ++ destruct IH as [I0 I1]. split; [now apply starts_cons, starts_app|]. destruct I1 as [I1|(I1 & I2 & [= -> -> -> ->])]; auto.
             ++ now apply starts_cons, starts_app.
          -- destruct Q as [(A1 & A2 & A3)|(C3 & D3 & ->)]; [|apply R; auto; lia]. split.
             ++ cbn [snd]. destruct (return_to_depth dbg (S sp) (ext r2)) as [[u'|e'|y'] r3']; try apply starts_refl.
                destruct (loop_c dbg V f2 sp ns s' r3') as [z l']. cbn [snd]. apply starts_cons, starts_more, starts_refl.
             ++ left. cbn [fst snd]. repeat split; auto; lia.
          -- unfold simv. cbn [fst snd]. destruct (return_to_depth dbg (S sp) (ext r2)) as [[u'|e'|y'] r3']; try apply starts_refl.
             destruct (loop_c dbg V f2 sp ns s' r3') as [z l']. cbn [snd]. apply starts_cons, starts_more, starts_refl.
      + unfold simv. cbn [fst snd].
        destruct (run_c dbg V (loop_c dbg V f2) (S sp) attrs ns' _ (ext r1)) as [[[[[b2|e2|y2] s2]|y2] r2'] l2]; cbn [snd] in A;
          try (cbn [snd]; now apply starts_cons).
        destruct (return_to_depth dbg (S sp) r2') as [[u|e|y'] r3]; cbn [snd]; try now apply starts_cons.
        destruct (loop_c dbg V f2 sp ns s2 r3) as [z l']. cbn [snd]. apply starts_cons. now apply starts_more.
    - destruct G as (C' & D' & ->). unfold simv. cbn [fst snd]. repeat split; auto; lia.
    - destruct G as (C' & D' & ->). specialize (Hc _ _ _ eq_refl).
      destruct (v_characters V s str p) as [[b|m|y] s']; [|apply R; auto; lia|apply starts_refl].
      specialize (IH f2 sp ns s' r1 ltac:(lia) C' ltac:(lia)).
      destruct (loop_c dbg V f1 sp ns s' r1) as [[[a s3] r4] l3]. destruct (loop_c dbg V f2 sp ns s' (ext r1)) as [[[a' s3'] r4'] l3'].
      unfold simv, simc in *. cbn [fst snd] in *. destruct a as [i|e|y].
      + destruct IH as (I1 & I2 & [= -> -> -> ->]). auto.
      + destruct IH as [I0 I1]. split; [now apply starts_cons|]. destruct I1 as [I1|(I1 & I2 & [= -> -> -> ->])]; auto.
      + now apply starts_cons.
    - destruct G as [(A1 & A2 & A3)|(C' & D' & ->)]; [|apply R; auto; lia].
      split; [apply starts_nil|left]. cbn [fst snd]. repeat split; auto; lia.
  Qed.

  Lemma read_sim {T} (D : einfo -> action St (res verr T)) pre :
    starts (snd (read_c dbg V D (reader_new pre (FError x)))) (snd (read_c dbg V D (reader_new (pre ++ post) fin))).
  Proof.
    unfold read_c. destruct pre as [|[e p] pre]; [apply starts_nil|]. unfold root, inner_next. cbn [reader_new r_src app].
    destruct e; try apply starts_nil. set (r0 := set_src _ _ _). change (set_src _ (pre ++ post) p) with (ext r0).
    pose proof (next_sim r0 eq_refl) as G. pose proof (next_start r0) as Hs.
    destruct (next dbg r0) as [[[[attrs ns|n|str] q]|e|y] r1]; unfold sim in G; cbn [fst snd] in *; try apply starts_nil.
    destruct G as (C & _ & ->). specialize (Hs _ _ _ _ eq_refl). cbn [ext r_stack r_src].
    destruct (nth_error (r_stack r1) 0) as [el|]; [|apply starts_nil]. fold (ext r1).
    pose proof (run_sim (loop_c dbg V (S (List.length (r_src r1)))) (loop_c dbg V (S (List.length (r_src r1 ++ post)))) 0 attrs ns
      (D (EInfo (se_name el) ns 1)) r1) as A.
    specialize (A ltac:(intros; apply loop_sim; [rewrite app_length; lia|assumption..]) C ltac:(lia)).
    assert (P : starts (snd (run_c dbg V (loop_c dbg V (S (List.length (r_src r1)))) 0 attrs ns (D (EInfo (se_name el) ns 1)) r1))
                       (snd (run_c dbg V (loop_c dbg V (S (List.length (r_src r1 ++ post)))) 0 attrs ns (D (EInfo (se_name el) ns 1)) (ext r1)))).
    { unfold sima, simc in A. destruct (fst (fst _)) in A; tauto. }
    destruct (run_c dbg V (loop_c dbg V (S (List.length (r_src r1)))) 0 attrs ns _ r1) as [[[[v|e|y]|y] r2] l];
      destruct (run_c dbg V (loop_c dbg V (S (List.length (r_src r1 ++ post)))) 0 attrs ns _ (ext r1)) as [[[[v'|e'|y']|y'] r2'] l'];
      exact P.
  Qed.
End Cut.

(** ** Nothing is put off *)

(** Streams of (beginnings of) documents, with the names of the elements that are open. *)
Definition quiet (src : list (xevent * position)) : Prop := forall d, items_at d src = [].

Fixpoint nested (open : list oname) (src : list (xevent * position)) : Prop :=
  match src with
  | [] => True
  | (XStartElement n _ _, _) :: src' => nested (n :: open) src'
  | (XEndElement n, _) :: src' =>
      match open with
      | [] => False
      | [n'] => n = n' /\ quiet src'
      | n' :: open' => n = n' /\ nested open' src'
      end
  | (XCharacters _, _) :: src' | (XCData _, _) :: src' => open <> [] /\ nested open src'
  | _ :: src' => nested open src'
  end.

Definition after (open : list oname) (src : list (xevent * position)) : Prop :=
  match open with [] => quiet src | _ => nested open src end.

Lemma nested_end n open n' src p : nested (n' :: open) ((XEndElement n, p) :: src) <-> n = n' /\ after open src.
Proof. destruct open; reflexivity. Qed.

Lemma quiet_firstn src : forall n, quiet src -> quiet (firstn n src).
Proof.
  unfold quiet. induction src as [|[e p] src IH]; intros [|n] H d; cbn [firstn items_at] in *; auto.
  destruct e; try (specialize (H 0); discriminate); auto.
  apply IH. intro d'. exact (H (S d')).
Qed.

Lemma nested_firstn src : forall open n, nested open src -> nested open (firstn n src).
Proof.
  induction src as [|[e p] src IH]; intros open [|n] H; cbn [firstn]; try exact I.
  destruct e; cbn [nested] in *; eauto; try (destruct H; split; eauto).
  destruct open as [|n' [|n'' open]]; [contradiction|destruct H; split; auto; now apply quiet_firstn|destruct H; split; eauto].
Qed.

Lemma nested_events : forall n m open rest, nested (m :: open) rest -> nested (m :: open) (events n ++ rest).
Proof.
  induction n using node_ind'; intros m0 open rest Hw.
  - cbn [events app nested]. rewrite <- app_assoc. cbn [app].
    assert (Hk : nested (name :: m0 :: open) ((XEndElement name, pe) :: rest)) by (cbn; auto).
    revert Hk. generalize ((XEndElement name, pe) :: rest). clear Hw.
    induction H as [|k ks Hk Hks IH]; intros l Hl; cbn [flat_map app]; [assumption|].
    rewrite <- app_assoc. apply Hk. now apply IH.
  - destruct c; cbn; split; auto; discriminate.
  - destruct m; assumption.
  - assumption.
Qed.

Lemma nested_kids kids m open rest : nested (m :: open) rest -> nested (m :: open) (flat_map events kids ++ rest).
Proof. intro H. induction kids; cbn [flat_map app]; [assumption|]. rewrite <- app_assoc. now apply nested_events. Qed.

Lemma nested_misc l rest : nested [] rest -> nested [] (misc_events l ++ rest).
Proof. intro H. induction l as [|[[] p] l IH]; cbn; auto. Qed.

Lemma quiet_misc l : quiet (misc_events l).
Proof. unfold quiet. induction l as [|[[] p] l IH]; intro d; cbn; auto. Qed.

Lemma nested_doc d : nested [] (tl (doc_events d)).
Proof.
  unfold doc_events. cbn [tl]. apply nested_misc. unfold d_root. cbn [events app nested]. rewrite <- app_assoc.
  apply nested_kids. cbn. split; auto. apply quiet_misc.
Qed.

Section Eager.
  Context {St : Type} (dbg : bool) (V : visitors St) (x : xerr).
  Hypothesis HV : eager V.

  Definition attr_items (attrs : list attr) : list item := map (fun a => IAttribute (from_xml_name (a_name a)) (a_value a)) attrs.

  Definition sync (r : rstate) (open : list oname) : Prop :=
    map se_name (r_stack r) = rev open /\ r_depth r = List.length open /\ cut x r.

  Lemma oname_refl n : oname_eqb n n = true.
  Proof.
    unfold oname_eqb, opt_str_eqb. destruct n as [[a|] [b|] c]; cbn; now rewrite ?String.eqb_refl.
  Qed.

  Lemma next_eager r open : sync r open -> nested open (r_src r) ->
    match next dbg r with
    | (Ok (EvStart attrs ns, _), r1) => exists n, sync r1 (n :: open) /\ nested (n :: open) (r_src r1) /\
        IElement n ns (S (List.length open)) :: attr_items attrs ++ items_at (S (List.length open)) (r_src r1) = items_at (List.length open) (r_src r) /\ List.length (r_src r1) < List.length (r_src r)
    | (Ok (EvEnd _, _), r1) => exists n open', open = n :: open' /\ r_stack r1 = r_stack r /\ r_depth r1 = List.length open' /\ cut x r1 /\
        after open' (r_src r1) /\ items_at (List.length open') (r_src r1) = items_at (List.length open) (r_src r) /\ List.length (r_src r1) < List.length (r_src r)
    | (Ok (EvChars str, q), r1) => open <> [] /\ sync r1 open /\ nested open (r_src r1) /\
        IText str q :: items_at (List.length open) (r_src r1) = items_at (List.length open) (r_src r) /\ List.length (r_src r1) < List.length (r_src r)
    | (Err _, r1) => items_at (List.length open) (r_src r) = [] /\ gone x (List.length open) r1
    | (Abort _, _) => False
    end.
  Proof.
    destruct r as [src fin p0 depth stack]. unfold sync, cut. cbn [r_stack r_depth r_src r_fin]. intros (Hs & -> & ->).
    unfold next. cbn [r_stack r_depth r_src r_fin].
    assert (L : List.length stack = List.length open) by (rewrite <- (map_length se_name), Hs; apply rev_length).
    rewrite L, Nat.eqb_refl, andb_false_r. revert p0 L.
    induction src as [|[e p] src IH]; intros p0 L H; [unfold gone, cut; cbn; repeat split; lia|].
    assert (R : forall src1, nested open src1 -> items_at (List.length open) src1 = items_at (List.length open) ((e, p) :: src) -> src1 = src ->
      match next_loop dbg (FError x) (List.length open) stack src with
      | (Ok (EvStart attrs ns, _), r1) => exists n, (map se_name (r_stack r1) = rev (n :: open) /\ r_depth r1 = List.length (n :: open) /\ r_fin r1 = FError x) /\
          nested (n :: open) (r_src r1) /\
          IElement n ns (S (List.length open)) :: attr_items attrs ++ items_at (S (List.length open)) (r_src r1) = items_at (List.length open) ((e, p) :: src) /\ List.length (r_src r1) < List.length ((e, p) :: src)
      | (Ok (EvEnd _, _), r1) => exists n open', open = n :: open' /\ r_stack r1 = stack /\ r_depth r1 = List.length open' /\ r_fin r1 = FError x /\
          after open' (r_src r1) /\ items_at (List.length open') (r_src r1) = items_at (List.length open) ((e, p) :: src) /\ List.length (r_src r1) < List.length ((e, p) :: src)
      | (Ok (EvChars str, q), r1) => open <> [] /\ (map se_name (r_stack r1) = rev open /\ r_depth r1 = List.length open /\ r_fin r1 = FError x) /\
          nested open (r_src r1) /\
          IText str q :: items_at (List.length open) (r_src r1) = items_at (List.length open) ((e, p) :: src) /\ List.length (r_src r1) < List.length ((e, p) :: src)
      | (Err _, r1) => items_at (List.length open) ((e, p) :: src) = [] /\ gone x (List.length open) r1
      | (Abort _, _) => False
      end).
    { intros src1 H1 Hw ->. specialize (IH p0 L H1). rewrite <- Hw. cbn [List.length].
      destruct (next_loop dbg (FError x) (List.length open) stack src) as [[[[attrs ns|n|str] q]|e'|y] r1]; auto.
      - destruct IH as (n & I1 & I2 & I3 & I4). exists n. split; [exact I1|]. repeat split; auto; lia.
      - destruct IH as (n' & open' & I1 & I2 & I3 & I4 & I5 & I6 & I7). exists n', open'. repeat split; auto; lia.
      - destruct IH as (I0 & I1 & I2 & I3 & I4). split; [exact I0|]. split; [exact I1|]. repeat split; auto; lia. }
    destruct e; cbn [next_loop nested] in *; try (eapply R; [exact H|reflexivity|reflexivity]); try destruct H as [H0 H].
    - (* start *) exists name. cbn [r_stack r_depth r_src r_fin]. rewrite map_app, Hs. cbn. repeat split; auto; lia.
    - (* end *) destruct open as [|n' open]; [contradiction|]. cbn [List.length].
      assert (H' : name = n' /\ after open src) by (destruct open; exact H). destruct H' as [-> H'].
      assert (E : exists el, nth_error stack (List.length open) = Some el /\ se_name el = n').
      { cbn [rev] in Hs. assert (nth_error (map se_name stack) (List.length open) = Some n') as E.
        { rewrite Hs, nth_error_app2; rewrite rev_length; [|lia]. now rewrite Nat.sub_diag. }
        rewrite nth_error_map in E. destruct (nth_error stack (List.length open)) as [el|]; [|discriminate]. cbn in E. injection E as E. eauto. }
      destruct E as (el & -> & <-). rewrite oname_refl.
      assert (G : exists n0 open', se_name el :: open = n0 :: open' /\ stack = stack /\ List.length open = List.length open' /\ FError x = FError x /\
        after open' src /\ items_at (List.length open') src = items_at (S (List.length open)) ((XEndElement (se_name el), p) :: src) /\ List.length src < S (List.length src))
        by (exists (se_name el), open; repeat split; auto).
      destruct dbg; exact G.
    - repeat split; auto.
    - repeat split; auto.
  Qed.

  Lemma attrs_eager stack p attrs : forall s, exists s' l, attrs_c V stack p attrs s = (Ok tt, s', l) /\ map what l = attr_items attrs.
  Proof.
    induction attrs as [|a attrs IH]; intro s; cbn [attrs_c List.length].
    - now exists s, [].
    - destruct (proj1 HV s (from_xml_name (a_name a)) (a_value a)) as (b & s1 & ->). destruct (IH s1) as (s' & l & -> & E).
      exists s', (CAttribute s (from_xml_name (a_name a)) (a_value a) :: l). split; auto. cbn [map what attr_items]. now rewrite E.
  Qed.

  Lemma top_name r n open : sync r (n :: open) -> exists el, nth_error (r_stack r) (List.length open) = Some el /\ se_name el = n.
  Proof.
    intros (Hs & _). assert (E : nth_error (map se_name (r_stack r)) (List.length open) = Some n).
    { rewrite Hs. cbn [rev]. rewrite nth_error_app2; rewrite rev_length; [|lia]. now rewrite Nat.sub_diag. }
    rewrite nth_error_map in E. destruct (nth_error (r_stack r) (List.length open)) as [el|]; [|discriminate]. injection E as E. eauto.
  Qed.

  Lemma return_here target r : r_depth r = target -> return_to_depth dbg target r = (Ok tt, truncate r).
  Proof.
    intro E. unfold return_to_depth. rewrite E, Nat.ltb_irrefl, andb_false_r. cbn [skip_loop]. rewrite E, Nat.ltb_irrefl. reflexivity.
  Qed.

  (** The loop for an element, with those open around it. *)
  Definition reads (sp : nat) (open : list oname) (r : rstate) (y : res error endinfo * St * rstate * list (call St)) : Prop :=
    match fst (fst (fst y)) with
    | Ok _ => let r' := snd (fst y) in
        map se_name (r_stack r') = rev open /\ r_depth r' = sp /\ cut x r' /\ after (tl open) (r_src r') /\
        map what (snd y) ++ items_at sp (r_src r') = items_at (S sp) (r_src r) /\ List.length (r_src r') < List.length (r_src r)
    | Err _ => map what (snd y) = items_at (S sp) (r_src r) /\ gone x (S sp) (snd (fst y))
    | Abort _ => map what (snd y) = items_at (S sp) (r_src r)
    end.

  Lemma loop_eager fuel : forall sp ns s r open, List.length (r_src r) < fuel -> sync r open -> List.length open = S sp ->
    nested open (r_src r) -> reads sp open r (loop_c dbg V fuel sp ns s r).
  Proof.
    induction fuel as [|fuel IH]; intros sp ns s r open Hf Hy Ho Hn; [lia|]. cbn [loop_c].
    replace (stack_check dbg sp r) with true.
    2: { unfold stack_check. destruct Hy as (Hs & _). apply (f_equal (@List.length _)) in Hs.
         rewrite map_length, rev_length, Ho in Hs. rewrite Hs, Nat.eqb_refl. now rewrite orb_true_r. }
    pose proof (next_eager r open Hy Hn) as N.
    destruct (next dbg r) as [[[[attrs ns'|n|str] p]|e|y] r1]; [| | | |contradiction].
    - destruct N as (n & Y1 & N1 & W1 & L1).
      destruct (top_name r1 n open Y1) as (el & El & En). rewrite Ho in El, W1. rewrite El. set (child := EInfo _ _ _).
      destruct (proj2 (proj2 HV) s child) as (s0 & k & Ek & Hk). rewrite Ek. cbn [run_c]. rewrite El.
      destruct (attrs_eager (r_stack r1) (se_pos el) attrs s0) as (s1 & l & -> & Ta).
      assert (Ec : forall l', map what (CElement s child :: l ++ l') = IElement n ns' (S (S sp)) :: attr_items attrs ++ map what l').
      { intro l'. cbn [map what]. rewrite map_app, Ta. unfold child. cbn [ei_name ei_ns ei_depth]. now rewrite En. }
      pose proof (IH (S sp) ns' s1 r1 (n :: open) ltac:(lia) Y1 ltac:(cbn; lia) N1) as B.
      destruct (loop_c dbg V fuel (S sp) ns' s1 r1) as [[[[i|e|y] s2] r2] l2]; unfold reads in B; cbn [fst snd tl] in B.
      + destruct B as (B1 & B2 & B3 & B4 & B5 & B6). specialize (Hk i s2). destruct (k (inl i) s2) as [b s3].
        destruct Hk as (b' & Hb). cbn in Hb. subst b. rewrite (return_here (S sp) r2 B2).
        assert (Y3 : sync (truncate r2) open).
        { unfold sync, truncate, cut. cbn [r_stack r_depth r_fin]. rewrite B2, Ho. repeat split; auto.
          rewrite <- firstn_map, B1. cbn [rev]. rewrite firstn_app, rev_length, Ho, Nat.sub_diag.
          change (firstn 0 [n]) with (@nil oname). rewrite app_nil_r. apply firstn_all2. rewrite rev_length. lia. }
        assert (N3 : nested open (r_src (truncate r2))) by (destruct open; [discriminate|exact B4]).
        specialize (IH sp ns s3 (truncate r2) open ltac:(cbn [truncate r_src]; lia) Y3 Ho N3).
        destruct (loop_c dbg V fuel sp ns s3 (truncate r2)) as [[[[i'|e|y] s4] r4] l4]; unfold reads in *; cbn [fst snd] in *;
          rewrite <- ?app_assoc, Ec, map_app; cbn [truncate r_src r_stack] in IH.
        * destruct IH as (I1 & I2 & I3 & I4 & I5 & I6). repeat split; auto; [|lia].
          rewrite <- W1, <- B5, <- I5. cbn [app]. now rewrite <- !app_assoc.
        * destruct IH as [I1 I2]. split; auto. now rewrite <- W1, <- B5, I1.
        * now rewrite <- W1, <- B5, IH.
      + destruct B as [B1 B2].
        assert (T : map what (CElement s child :: l ++ l2) = items_at (S sp) (r_src r)) by now rewrite Ec, B1.
        assert (G : gone x (S sp) r2) by (destruct B2 as (A1 & A2 & A3); repeat split; auto; lia).
        destruct (k (inr (Propagate e)) s2) as [[b|e'|y'] s3]; [|split; auto|exact T].
        destruct (return_gone dbg x (S sp) r2 B2) as [R1 R2].
        destruct (return_to_depth dbg (S sp) r2) as [[u|e'|y'] r3]; [destruct R1| |exact T].
        split; [exact T|]. specialize (R2 _ eq_refl). destruct R2 as (A1 & A2 & A3). repeat split; auto. cbn [fst snd] in *. lia.
      + unfold reads. cbn [fst snd]. now rewrite Ec, B.
    - destruct N as (n' & open' & -> & N1 & N2 & N3 & N4 & N5 & N6). destruct Hy as (Hs & _).
      cbn [List.length] in Ho, N5. injection Ho as Ho. rewrite Ho in N2, N5. unfold reads. cbn [fst snd tl]. rewrite N1. repeat split; auto.
    - destruct N as (N0 & Y1 & N1 & W1 & L1). rewrite Ho in W1. destruct (proj1 (proj2 HV) s str p) as (b & s' & ->).
      specialize (IH sp ns s' r1 open ltac:(lia) Y1 Ho N1).
      destruct (loop_c dbg V fuel sp ns s' r1) as [[[[i'|e|y] s4] r4] l4]; unfold reads in *; cbn [fst snd] in *;
        cbn [map what app].
      + destruct IH as (I1 & I2 & I3 & I4 & I5 & I6). repeat split; auto; [|lia]. now rewrite I5.
      + destruct IH as [I1 I2]. split; auto. now rewrite I1.
      + now rewrite IH.
    - destruct N as [N1 N2]. rewrite Ho in N1, N2. split; [now rewrite N1|exact N2].
  Qed.

  Lemma read_eager {T} (D : einfo -> action St (res verr T)) p src : (forall i, eager_act (fun _ => True) (D i)) -> nested [] src ->
    map what (snd (read_c dbg V D (reader_new ((XStartDocument, p) :: src) (FError x)))) = tl (items src).
  Proof.
    intros HD Hn. unfold read_c, root, inner_next. cbn [reader_new r_src]. set (r0 := set_src _ _ _).
    assert (Y : sync r0 []) by (repeat split).
    pose proof (next_eager r0 [] Y Hn) as N. change (r_src r0) with src in N. change (List.length (@nil oname)) with 0 in N. change (items_at 0) with items in N.
    destruct (next dbg r0) as [[[[attrs ns'|n|str] q]|e|y] r1]; [| | | |contradiction].
    - destruct N as (n & Y1 & N1 & W1 & L1).
      destruct (nth_error (r_stack r1) 0) as [el|] eqn:El.
      2: { apply nth_error_None in El. destruct Y1 as (Hs & _). apply (f_equal (@List.length _)) in Hs.
           rewrite map_length, rev_length in Hs. cbn in Hs. lia. }
      destruct (HD (EInfo (se_name el) ns' 1)) as (s0 & k & -> & _). cbn [run_c]. rewrite El.
      destruct (attrs_eager (r_stack r1) (se_pos el) attrs s0) as (s1 & l & -> & Ta).
      pose proof (loop_eager (S (List.length (r_src r1))) 0 ns' s1 r1 [n] ltac:(lia) Y1 eq_refl N1) as B.
      destruct (loop_c dbg V _ 0 ns' s1 r1) as [[[[i|e|y] s2] r2] l2]; unfold reads in B; cbn [fst snd tl] in B.
      + destruct B as (B1 & B2 & B3 & B4 & B5 & B6).
        assert (map what (l ++ l2) = tl (items src)).
        { rewrite map_app, Ta, <- W1. cbn [tl]. rewrite <- B5. unfold after, quiet in B4. now rewrite (B4 0), app_nil_r. }
        destruct (k (inl i) s2); auto.
      + destruct B as [B _]. assert (map what (l ++ l2) = tl (items src)) by (rewrite map_app, Ta, B, <- W1; reflexivity).
        destruct (k (inr (Propagate e)) s2); auto.
      + cbn [snd]. rewrite map_app, Ta, B, <- W1. reflexivity.
    - destruct N as (? & ? & E & _). discriminate.
    - destruct N as [N _]. congruence.
    - destruct N as [N _]. rewrite N. reflexivity.
  Qed.
End Eager.

Lemma at_once {St T} dbg (V : visitors St) (D : einfo -> action St (res verr T)) d n x :
  eager V -> (forall i, eager_act (fun _ => True) (D i)) ->
  map what (snd (read_c dbg V D (reader_new (firstn n (doc_events d)) (FError x)))) = tl (items (firstn n (doc_events d))).
Proof.
  intros HV HD. destruct n as [|n]; [reflexivity|].
  change (firstn (S n) (doc_events d)) with ((XStartDocument, d_start d) :: firstn n (tl (doc_events d))).
  unfold items. cbn [items_at]. apply (read_eager dbg V x HV D (d_start d)); auto. apply nested_firstn, nested_doc.
Qed.
