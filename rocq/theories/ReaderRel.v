(** Two programs that take the same decisions are read in the same way, and whatever makes a read abort
    is either their doing or one of the reader's own panics. *)
From Verif Require Import Base Reader.

(** The reader's own ways of not returning (debug assertions, overflow, endless loops). *)
Definition reader_abort (x : abort) : Prop :=
  x = Diverge \/ exists m, x = Panic m /\
    In m ["attempt to subtract with overflow"; "assertion failed: name"; "index out of bounds";
          "assertion failed: stack.len() == depth"; "assertion failed: depth >= target";
          "assertion failed: stack_pos == stack.len() - 1";
          "called `Option::unwrap()` on a `None` value"]%string.

Section Rel.
  (** [R k s1 s2]: [s1] and [s2] are states of corresponding visitors of kind [k]. *)
  Context {S1 S2 K : Type} (R : K -> S1 -> S2 -> Prop) (P : abort -> Prop).
  Hypothesis HP : forall x, reader_abort x -> P x.

  Definition agree {E A} (r1 r2 : res E A) : Prop := r1 = r2 /\ forall x, r1 = Abort x -> P x.

  Definition act_rel {A1 A2} (G : A1 -> A2 -> Prop) (a1 : action S1 A1) (a2 : action S2 A2) : Prop :=
    match a1, a2 with
    | ANoRead a1, ANoRead a2 => G a1 a2
    | AReadString k1, AReadString k2 => forall x, G (k1 x) (k2 x)
    | AReadTo s1 k1, AReadTo s2 k2 => exists k, R k s1 s2 /\ forall x s1' s2', R k s1' s2' -> G (k1 x s1') (k2 x s2')
    | _, _ => False
    end.

  Record vis_rel (V1 : visitors S1) (V2 : visitors S2) : Prop := VisRel {
    vr_attribute : forall k s1 s2 n v, R k s1 s2 ->
      agree (fst (v_attribute V1 s1 n v)) (fst (v_attribute V2 s2 n v)) /\
      R k (snd (v_attribute V1 s1 n v)) (snd (v_attribute V2 s2 n v));
    vr_characters : forall k s1 s2 str p, R k s1 s2 ->
      agree (fst (v_characters V1 s1 str p)) (fst (v_characters V2 s2 str p)) /\
      R k (snd (v_characters V1 s1 str p)) (snd (v_characters V2 s2 str p));
    vr_element : forall k s1 s2 i, R k s1 s2 ->
      act_rel (fun a b => agree (fst a) (fst b) /\ R k (snd a) (snd b)) (v_element V1 s1 i) (v_element V2 s2 i);
  }.

  Context (dbg : bool) (V1 : visitors S1) (V2 : visitors S2).
  Hypothesis HV : vis_rel V1 V2.

  Ltac mine := apply HP; first [now left|right; eexists; split; [reflexivity|cbn; tauto]].

  Lemma next_loop_aborts fin d st src x r : next_loop dbg fin d st src = (Abort x, r) -> P x.
  Proof.
    revert d st. induction src as [|[e p] src IH]; intros d st; cbn.
    - destruct fin; intros [= <- <-]. mine.
    - destruct e; try discriminate; try apply IH. destruct d; [intros [= <- <-]; mine|].
      destruct dbg; [|discriminate]. destruct (nth_error st d); [destruct (oname_eqb _ _); [discriminate|]|];
        intros [= <- <-]; mine.
  Qed.

  Lemma next_aborts r x r' : next dbg r = (Abort x, r') -> P x.
  Proof. unfold next. destruct (_ && _); [intros [= <- <-]; mine|]. apply next_loop_aborts. Qed.

  Lemma skip_loop_aborts fuel target r x r' : skip_loop fuel dbg target r = (Abort x, r') -> P x.
  Proof.
    revert r. induction fuel as [|fuel IH]; intros r; cbn [skip_loop]; [intros [= <- <-]; mine|].
    destruct (Nat.ltb target (r_depth r)); [|discriminate].
    destruct (next dbg r) as [[e|e|y] r1] eqn:E; [apply IH|discriminate|]. intros [= <- <-].
    now apply next_aborts in E.
  Qed.

  Lemma return_aborts target r x r' : return_to_depth dbg target r = (Abort x, r') -> P x.
  Proof. unfold return_to_depth. destruct (_ && _); [intros [= <- <-]; mine|]. apply skip_loop_aborts. Qed.

  Lemma read_string_aborts sp r x r' : read_string dbg sp r = (Abort x, r') -> P x.
  Proof.
    unfold read_string. generalize (S (List.length (r_src r))) as fuel. generalize ""%string as out. intros out fuel.
    revert out r. induction fuel as [|fuel IH]; intros out r; cbn; [intros [= <- <-]; mine|].
    destruct (stack_check _ _ _); [|intros [= <- <-]; mine].
    destruct (next dbg r) as [[[[a ns|n|s] p]|e|y] r1] eqn:E; try discriminate.
    - destruct (nth_error _ _); [discriminate|]. intros [= <- <-]. mine.
    - apply IH.
    - intros [= <- <-]. now apply next_aborts in E.
  Qed.

  Lemma attrs_rel stack p attrs k s1 s2 : R k s1 s2 ->
    agree (fst (attrs_loop V1 stack p attrs s1)) (fst (attrs_loop V2 stack p attrs s2)) /\
    R k (snd (attrs_loop V1 stack p attrs s1)) (snd (attrs_loop V2 stack p attrs s2)).
  Proof.
    revert s1 s2. induction attrs as [|a attrs IH]; intros s1 s2 HR; cbn; [split; [split; [reflexivity|discriminate]|exact HR]|].
    destruct (vr_attribute _ _ HV k s1 s2 (from_xml_name (a_name a)) (a_value a) HR) as [[E A] HR'].
    destruct (v_attribute V1 s1 _ _) as [r1 s1'], (v_attribute V2 s2 _ _) as [r2 s2']. cbn in *. subst r2.
    destruct r1; cbn; [now apply IH|split; [split; [reflexivity|discriminate]|exact HR']|].
    split; [split; [reflexivity|]|exact HR']. intros y [= <-]. now apply A.
  Qed.

  Definition loop_rel (b1 : nat -> nsmap -> S1 -> rstate -> res error endinfo * S1 * rstate)
    (b2 : nat -> nsmap -> S2 -> rstate -> res error endinfo * S2 * rstate) : Prop :=
    forall k sp ns s1 s2 r, R k s1 s2 ->
    agree (fst (fst (b1 sp ns s1 r))) (fst (fst (b2 sp ns s2 r))) /\
    R k (snd (fst (b1 sp ns s1 r))) (snd (fst (b2 sp ns s2 r))) /\
    snd (b1 sp ns s1 r) = snd (b2 sp ns s2 r).

  Definition out_rel {A1 A2} (G : A1 -> A2 -> Prop) (x1 : (A1 + abort) * rstate) (x2 : (A2 + abort) * rstate) : Prop :=
    match fst x1, fst x2 with
    | inl a1, inl a2 => G a1 a2
    | inr x, inr y => x = y /\ P x
    | _, _ => False
    end /\ snd x1 = snd x2.

  Lemma run_rel {A1 A2} (G : A1 -> A2 -> Prop) b1 b2 sp attrs ns a1 a2 r : loop_rel b1 b2 -> act_rel G a1 a2 ->
    out_rel G (run_action dbg V1 b1 sp attrs ns a1 r) (run_action dbg V2 b2 sp attrs ns a2 r).
  Proof.
    intros HB. destruct a1 as [a1|k1|s1 k1], a2 as [a2|k2|s2 k2]; try contradiction; cbn [run_action act_rel].
    - now split.
    - intros HG. destruct (read_string dbg sp r) as [[s|e|x] r1] eqn:E; (split; [|reflexivity]); cbn; auto.
      split; [reflexivity|]. now apply read_string_aborts in E.
    - intros (k & HR & HG). destruct (nth_error (r_stack r) sp) as [el|]; [|split; [split; [reflexivity|mine]|reflexivity]].
      destruct (attrs_rel (r_stack r) (se_pos el) attrs k s1 s2 HR) as [[E A] HR'].
      destruct (attrs_loop V1 _ _ _ s1) as [x1 s1'], (attrs_loop V2 _ _ _ s2) as [x2 s2']. cbn in E, A, HR'. subst x2.
      destruct x1 as [[]|e|x]; [|split; [apply HG; exact HR'|reflexivity]|split; [split; [reflexivity|now apply A]|reflexivity]].
      destruct (HB k sp ns s1' s2' r HR') as ([E2 A2'] & HR2 & Er).
      destruct (b1 sp ns s1' r) as [[y1 t1] r1], (b2 sp ns s2' r) as [[y2 t2] r2]. cbn in E2, A2', HR2, Er. subst y2 r2.
      destruct y1 as [i|e|x]; (split; [|reflexivity]); cbn; auto.
  Qed.

  Lemma read_loop_rel fuel : loop_rel (read_loop dbg V1 fuel) (read_loop dbg V2 fuel).
  Proof.
    induction fuel as [|fuel IH]; intros k sp ns s1 s2 r HR; cbn [read_loop].
    - split; [split; [reflexivity|]|now split]. cbn. intros x [= <-]. mine.
    - assert (F : forall x t1 t2 (r0 : rstate), R k t1 t2 -> P x ->
        agree (fst (fst (@Abort error endinfo x, t1, r0))) (fst (fst (@Abort error endinfo x, t2, r0))) /\
        R k (snd (fst (@Abort error endinfo x, t1, r0))) (snd (fst (@Abort error endinfo x, t2, r0))) /\
        snd (@Abort error endinfo x, t1, r0) = snd (@Abort error endinfo x, t2, r0)).
      { intros x t1 t2 r0 HR0 Hx. split; [split; [reflexivity|]|now split]. cbn. now intros y [= <-]. }
      assert (N : forall y t1 t2 (r0 : rstate), R k t1 t2 -> (forall x, y <> Abort x) ->
        agree (fst (fst (y : res error endinfo, t1, r0))) (fst (fst (y, t2, r0))) /\
        R k (snd (fst (y, t1, r0))) (snd (fst (y, t2, r0))) /\ snd (y, t1, r0) = snd (y, t2, r0)).
      { intros y t1 t2 r0 HR0 Hx. split; [split; [reflexivity|]|now split]. cbn. intros x ->. now elim (Hx x). }
      destruct (stack_check dbg sp r); [|apply F; [exact HR|mine]].
      destruct (next dbg r) as [[[[attrs ns'|name|str] p]|e|x] r1] eqn:En.
      + destruct (nth_error (r_stack r1) (S sp)) as [el|]; [|apply F; [exact HR|mine]].
        pose proof (run_rel (fun a b => agree (fst a) (fst b) /\ R k (snd a) (snd b)) _ _ (S sp) attrs ns' _ _ r1 IH
          (vr_element _ _ HV k s1 s2 (EInfo (se_name el) ns' (S (S sp))) HR)) as [H E].
        destruct (run_action dbg V1 _ _ _ _ _ r1) as [o1 r2], (run_action dbg V2 _ _ _ _ _ r1) as [o2 r2'].
        cbn in E, H. subst r2'. destruct o1 as [[y1 t1]|x1], o2 as [[y2 t2]|x2]; try contradiction.
        * cbn in H. destruct H as [[<- A] HR']. destruct y1 as [b|e|x]; [|apply N; [exact HR'|discriminate]|apply F; auto].
          destruct (return_to_depth dbg (S sp) r2) as [[u|e|x] r3] eqn:Er; [now apply IH|apply N; [exact HR'|discriminate]|].
          apply F; [exact HR'|]. now apply return_aborts in Er.
        * destruct H as [<- Hx]. now apply F.
      + apply N; [exact HR|discriminate].
      + destruct (vr_characters _ _ HV k s1 s2 str p HR) as [[E A] HR'].
        destruct (v_characters V1 s1 str p) as [y1 t1], (v_characters V2 s2 str p) as [y2 t2]. cbn in E, A, HR'. subst y2.
        destruct y1 as [b|e|x]; [now apply IH|apply N; [exact HR'|discriminate]|apply F; auto].
      + apply N; [exact HR|discriminate].
      + apply F; [exact HR|]. now apply next_aborts in En.
  Qed.

  Theorem read_rel {T} (D1 : einfo -> action S1 (res verr T)) (D2 : einfo -> action S2 (res verr T)) r :
    (forall i, act_rel agree (D1 i) (D2 i)) -> agree (read dbg V1 D1 r) (read dbg V2 D2 r).
  Proof.
    intros HD. unfold read.
    assert (Hroot : forall x r', root dbg r = (Abort x, r') -> P x).
    { intros x r'. unfold root, inner_next. destruct (r_src r) as [|[e p] src].
      - destruct (r_fin r); discriminate.
      - destruct e; try discriminate. match goal with |- context [next dbg ?r0] => destruct (next dbg r0) as [[[[a ns|n|s] q]|e|y] r1] eqn:E end; try discriminate.
        intros [= <- <-]. now apply next_aborts in E. }
    destruct (root dbg r) as [[[attrs ns]|e|x] r1]; [|split; [reflexivity|discriminate]|split; [reflexivity|intros y [= <-]; eauto]].
    destruct (nth_error (r_stack r1) 0) as [el|]; [|split; [reflexivity|intros y [= <-]; mine]].
    pose proof (run_rel agree _ _ 0 attrs ns _ _ r1 (read_loop_rel (S (List.length (r_src r1)))) (HD (EInfo (se_name el) ns 1))) as [H E].
    destruct (run_action dbg V1 _ _ _ _ _ r1) as [o1 r2], (run_action dbg V2 _ _ _ _ _ r1) as [o2 r2'].
    cbn in E, H. subst r2'. destruct o1 as [y1|x1], o2 as [y2|x2]; try contradiction.
    - destruct H as [<- A]. destruct y1 as [v|e|x]; [|split; [reflexivity|discriminate]|split; [reflexivity|intros y [= <-]; auto]].
      unfold end_. destruct (return_to_depth dbg 0 r2) as [[u|e|x] r3] eqn:Er; [|split; [reflexivity|discriminate]|].
      + assert (G : forall fin src x, end_loop fin src <> Abort x).
        { intros fin src x. induction src as [|[ev p] src IH]; cbn; [destruct fin; discriminate|]. destruct ev; auto; discriminate. }
        destruct (end_loop _ _) as [w|w|w] eqn:El; try (split; [reflexivity|discriminate]). now apply G in El.
      + split; [reflexivity|]. intros y [= <-]. now apply return_aborts in Er.
    - destruct H as [<- Hx]. split; [reflexivity|]. now intros y [= <-].
  Qed.
End Rel.
