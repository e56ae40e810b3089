(** Two programs that take the same decisions, also about the panics they catch, are read in the same way; and whatever
    makes a read abort is their doing or one of the reader's own panics (ReaderRel.v with caught panics). *)
From Verif Require Import Base Reader ReaderRel Catch.

Section Rel.
  Context {S1 S2 K : Type} (R : K -> S1 -> S2 -> Prop) (P : abort -> Prop).
  Hypothesis HP : forall x, reader_abort x -> P x.

  (** What a call may come to: panics only with [P]. *)
  Definition possible {X} (x : X + failure) : Prop := forall m, x = inr (Panicked m) -> P (Panic m).

  Definition cact_rel {A1 A2} (G : A1 -> A2 -> Prop) (a1 : caction S1 A1) (a2 : caction S2 A2) : Prop :=
    match a1, a2 with
    | CNoRead a1, CNoRead a2 => G a1 a2
    | CReadString k1, CReadString k2 => forall x, possible x -> G (k1 x) (k2 x)
    | CReadTo s1 k1, CReadTo s2 k2 => exists k, R k s1 s2 /\
        forall x s1' s2', possible x -> R k s1' s2' -> G (k1 x s1') (k2 x s2')
    | _, _ => False
    end.

  Record cvis_rel (V1 : cvisitors S1) (V2 : cvisitors S2) : Prop := CVisRel {
    cvr_attribute : forall k s1 s2 n v, R k s1 s2 ->
      agree P (fst (c_attribute V1 s1 n v)) (fst (c_attribute V2 s2 n v)) /\
      R k (snd (c_attribute V1 s1 n v)) (snd (c_attribute V2 s2 n v));
    cvr_characters : forall k s1 s2 str p, R k s1 s2 ->
      agree P (fst (c_characters V1 s1 str p)) (fst (c_characters V2 s2 str p)) /\
      R k (snd (c_characters V1 s1 str p)) (snd (c_characters V2 s2 str p));
    cvr_element : forall k s1 s2 i, R k s1 s2 ->
      cact_rel (fun a b => agree P (fst a) (fst b) /\ R k (snd a) (snd b)) (c_element V1 s1 i) (c_element V2 s2 i);
  }.

  Context (dbg : bool) (V1 : cvisitors S1) (V2 : cvisitors S2).
  Hypothesis HV : cvis_rel V1 V2.

  Ltac mine := apply HP; first [now left|right; eexists; split; [reflexivity|cbn; tauto]].

  Lemma cattrs_rel stack p attrs k s1 s2 : R k s1 s2 ->
    agree P (fst (cattrs_loop V1 stack p attrs s1)) (fst (cattrs_loop V2 stack p attrs s2)) /\
    R k (snd (cattrs_loop V1 stack p attrs s1)) (snd (cattrs_loop V2 stack p attrs s2)).
  Proof.
    revert s1 s2. induction attrs as [|a attrs IH]; intros s1 s2 HR; cbn; [split; [split; [reflexivity|discriminate]|exact HR]|].
    destruct (cvr_attribute _ _ HV k s1 s2 (from_xml_name (a_name a)) (a_value a) HR) as [[E A] HR'].
    destruct (c_attribute V1 s1 _ _) as [r1 s1'], (c_attribute V2 s2 _ _) as [r2 s2']. cbn in *. subst r2.
    destruct r1; cbn; [now apply IH|split; [split; [reflexivity|discriminate]|exact HR']|].
    split; [split; [reflexivity|]|exact HR']. intros y [= <-]. now apply A.
  Qed.

  Definition cloop_rel (b1 : nat -> nsmap -> S1 -> rstate -> res error endinfo * S1 * rstate)
    (b2 : nat -> nsmap -> S2 -> rstate -> res error endinfo * S2 * rstate) : Prop :=
    forall k sp ns s1 s2 r, R k s1 s2 ->
    agree P (fst (fst (b1 sp ns s1 r))) (fst (fst (b2 sp ns s2 r))) /\
    R k (snd (fst (b1 sp ns s1 r))) (snd (fst (b2 sp ns s2 r))) /\
    snd (b1 sp ns s1 r) = snd (b2 sp ns s2 r).

  Lemma possible_ok {X} (v : X) : possible (inl v).
  Proof. discriminate. Qed.
  Lemma possible_err {X} e : possible (inr (Failed e) : X + failure).
  Proof. discriminate. Qed.
  Lemma possible_panic {X} m : P (Panic m) -> possible (inr (Panicked m) : X + failure).
  Proof. now intros H m' [= <-]. Qed.
  Hint Resolve possible_ok possible_err possible_panic : core.

  Lemma run_crel {A1 A2} (G : A1 -> A2 -> Prop) b1 b2 sp attrs ns a1 a2 r : cloop_rel b1 b2 -> cact_rel G a1 a2 ->
    out_rel P G (run_caction dbg V1 b1 sp attrs ns a1 r) (run_caction dbg V2 b2 sp attrs ns a2 r).
  Proof.
    intros HB. destruct a1 as [a1|k1|s1 k1], a2 as [a2|k2|s2 k2]; try contradiction; cbn [run_caction cact_rel].
    - now split.
    - intros HG. destruct (read_string dbg sp r) as [[s|e|x] r1] eqn:E; [split; cbn; auto..|].
      pose proof (read_string_aborts P HP dbg _ _ _ _ E) as Hx.
      destruct x; (split; [|reflexivity]); cbn; auto.
    - intros (k & HR & HG). destruct (nth_error (r_stack r) sp) as [el|].
      2:{ split; [|reflexivity]. cbn. apply HG; [|exact HR]. apply possible_panic. mine. }
      destruct (cattrs_rel (r_stack r) (se_pos el) attrs k s1 s2 HR) as [[E A] HR'].
      destruct (cattrs_loop V1 _ _ _ s1) as [x1 s1'], (cattrs_loop V2 _ _ _ s2) as [x2 s2']. cbn in E, A, HR'. subst x2.
      destruct x1 as [[]|e|x]; [|split; [apply HG; auto|reflexivity]|].
      2:{ pose proof (A x eq_refl) as Hx. destruct x; (split; [|reflexivity]); cbn; auto. }
      destruct (HB k sp ns s1' s2' r HR') as ([E2 A2'] & HR2 & Er).
      destruct (b1 sp ns s1' r) as [[y1 t1] r1], (b2 sp ns s2' r) as [[y2 t2] r2]. cbn in E2, A2', HR2, Er. subst y2 r2.
      destruct y1 as [i|e|x]; [split; cbn; auto..|].
      pose proof (A2' x eq_refl) as Hx. destruct x; (split; [|reflexivity]); cbn; auto.
  Qed.

  Lemma cread_loop_rel fuel : cloop_rel (cread_loop dbg V1 fuel) (cread_loop dbg V2 fuel).
  Proof.
    induction fuel as [|fuel IH]; intros k sp ns s1 s2 r HR; cbn [cread_loop].
    - split; [split; [reflexivity|]|now split]. cbn. intros x [= <-]. mine.
    - assert (F : forall x t1 t2 (r0 : rstate), R k t1 t2 -> P x ->
        agree P (fst (fst (@Abort error endinfo x, t1, r0))) (fst (fst (@Abort error endinfo x, t2, r0))) /\
        R k (snd (fst (@Abort error endinfo x, t1, r0))) (snd (fst (@Abort error endinfo x, t2, r0))) /\
        snd (@Abort error endinfo x, t1, r0) = snd (@Abort error endinfo x, t2, r0)).
      { intros x t1 t2 r0 HR0 Hx. split; [split; [reflexivity|]|now split]. cbn. now intros y [= <-]. }
      assert (N : forall y t1 t2 (r0 : rstate), R k t1 t2 -> (forall x, y <> Abort x) ->
        agree P (fst (fst (y : res error endinfo, t1, r0))) (fst (fst (y, t2, r0))) /\
        R k (snd (fst (y, t1, r0))) (snd (fst (y, t2, r0))) /\ snd (y, t1, r0) = snd (y, t2, r0)).
      { intros y t1 t2 r0 HR0 Hx. split; [split; [reflexivity|]|now split]. cbn. intros x ->. now elim (Hx x). }
      destruct (stack_check dbg sp r); [|apply F; [exact HR|mine]].
      destruct (next dbg r) as [[[[attrs ns'|name|str] p]|e|x] r1] eqn:En.
      + destruct (nth_error (r_stack r1) (S sp)) as [el|]; [|apply F; [exact HR|mine]].
        pose proof (run_crel (fun a b => agree P (fst a) (fst b) /\ R k (snd a) (snd b)) _ _ (S sp) attrs ns' _ _ r1 IH
          (cvr_element _ _ HV k s1 s2 (EInfo (se_name el) ns' (S (S sp))) HR)) as [H E].
        destruct (run_caction dbg V1 _ _ _ _ _ r1) as [o1 r2], (run_caction dbg V2 _ _ _ _ _ r1) as [o2 r2'].
        cbn in E, H. subst r2'. destruct o1 as [[y1 t1]|x1], o2 as [[y2 t2]|x2]; try contradiction.
        * cbn in H. destruct H as [[<- A] HR']. destruct y1 as [b|e|x]; [|apply N; [exact HR'|discriminate]|apply F; auto].
          destruct (return_to_depth dbg (S sp) r2) as [[u|e|x] r3] eqn:Er; [now apply IH|apply N; [exact HR'|discriminate]|].
          apply F; [exact HR'|]. now apply (return_aborts P HP) in Er.
        * destruct H as [<- Hx]. now apply F.
      + apply N; [exact HR|discriminate].
      + destruct (cvr_characters _ _ HV k s1 s2 str p HR) as [[E A] HR'].
        destruct (c_characters V1 s1 str p) as [y1 t1], (c_characters V2 s2 str p) as [y2 t2]. cbn in E, A, HR'. subst y2.
        destruct y1 as [b|e|x]; [now apply IH|apply N; [exact HR'|discriminate]|apply F; auto].
      + apply N; [exact HR|discriminate].
      + apply F; [exact HR|]. now apply (next_aborts P HP) in En.
  Qed.

  Theorem cread_rel {T} (D1 : einfo -> caction S1 (res verr T)) (D2 : einfo -> caction S2 (res verr T)) r :
    (forall i, cact_rel (agree P) (D1 i) (D2 i)) -> agree P (cread dbg V1 D1 r) (cread dbg V2 D2 r).
  Proof.
    intros HD. unfold cread.
    assert (Hroot : forall x r', root dbg r = (Abort x, r') -> P x).
    { intros x r'. unfold root, inner_next. destruct (r_src r) as [|[e p] src].
      - destruct (r_fin r); discriminate.
      - destruct e; try discriminate. match goal with |- context [next dbg ?r0] => destruct (next dbg r0) as [[[[a ns|n|s] q]|e|y] r1] eqn:E end; try discriminate.
        intros [= <- <-]. now apply (next_aborts P HP) in E. }
    destruct (root dbg r) as [[[attrs ns]|e|x] r1]; [|split; [reflexivity|discriminate]|split; [reflexivity|intros y [= <-]; eauto]].
    destruct (nth_error (r_stack r1) 0) as [el|]; [|split; [reflexivity|intros y [= <-]; mine]].
    pose proof (run_crel (agree P) _ _ 0 attrs ns _ _ r1 (cread_loop_rel (S (List.length (r_src r1)))) (HD (EInfo (se_name el) ns 1))) as [H E].
    destruct (run_caction dbg V1 _ _ _ _ _ r1) as [o1 r2], (run_caction dbg V2 _ _ _ _ _ r1) as [o2 r2'].
    cbn in E, H. subst r2'. destruct o1 as [y1|x1], o2 as [y2|x2]; try contradiction.
    - destruct H as [<- A]. destruct y1 as [v|e|x]; [|split; [reflexivity|discriminate]|split; [reflexivity|intros y [= <-]; auto]].
      unfold end_. destruct (return_to_depth dbg 0 r2) as [[u|e|x] r3] eqn:Er; [|split; [reflexivity|discriminate]|].
      + assert (G : forall fin src x, end_loop fin src <> Abort x).
        { intros fin src x. induction src as [|[ev p] src IH]; cbn; [destruct fin; discriminate|]. destruct ev; auto; discriminate. }
        destruct (end_loop _ _) as [w|w|w] eqn:El; try (split; [reflexivity|discriminate]). now apply G in El.
      + split; [reflexivity|]. intros y [= <-]. now apply (return_aborts P HP) in Er.
    - destruct H as [<- Hx]. split; [reflexivity|]. now intros y [= <-].
  Qed.
End Rel.
