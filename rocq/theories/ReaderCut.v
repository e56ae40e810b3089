(** Streams that are cut off by an error of the XML parser: what was decided before the cut is decided
    for every continuation. *)
From Coq Require Import Lia.
From Verif Require Import Base Reader ReaderSpec ReaderProofs ReaderTotal ReaderOk ReaderMore ReaderXml ReaderProps.

Section Cut.
  Context {St : Type} (dbg : bool) (V : visitors St) (x : xerr) (post : list (xevent * position)) (fin : final).
  Hypothesis HT : transparent V.

  (** The same reader on the longer stream. *)
  Definition ext (r : rstate) : rstate := RState (r_src r ++ post) fin (r_pos r) (r_depth r) (r_stack r).
  Definition cut (r : rstate) : Prop := r_fin r = FError x.

  Definition is_xml (e : error) : Prop := exists y, er_kind e = EXml y.

  (** Not decided before the cut. *)
  Definition undecided {A} (a : res error A) : Prop :=
    match a with Ok _ => False | Err e => is_xml e | Abort _ => True end.

  Definition sim {A} (p1 p2 : rres A) : Prop :=
    undecided (fst p1) \/ (cut (snd p1) /\ p2 = (fst p1, ext (snd p1))).

  Lemma next_loop_sim src : forall depth stack,
    sim (next_loop dbg (FError x) depth stack src) (next_loop dbg fin depth stack (src ++ post)).
  Proof.
    induction src as [|[e p] src IH]; intros depth stack.
    - left. cbn. now exists x.
    - destruct e; cbn [next_loop app]; try apply IH; try (right; split; reflexivity).
      destruct depth as [|depth]; [now left|]. destruct dbg; [|right; split; reflexivity].
      destruct (nth_error stack depth) as [el|]; [|now left]. destruct (oname_eqb _ _); [right; split; reflexivity|now left].
  Qed.

  Lemma next_sim r : cut r -> sim (next dbg r) (next dbg (ext r)).
  Proof.
    intros C. unfold next. cbn [ext r_stack r_depth r_fin r_src].
    destruct (dbg && _); [now left|]. rewrite C. apply next_loop_sim.
  Qed.

  Lemma skip_loop_sim f1 : forall f2 target r, f1 <= f2 -> cut r ->
    sim (skip_loop f1 dbg target r) (skip_loop f2 dbg target (ext r)).
  Proof.
    induction f1 as [|f1 IH]; intros f2 target r Hf C; [now left|].
    destruct f2 as [|f2]; [lia|]. cbn [skip_loop]. cbn [ext r_depth].
    destruct (Nat.ltb target (r_depth r)); [|right; split; [exact C|reflexivity]].
    pose proof (next_sim r C) as S. destruct (next dbg r) as [a r'].
    destruct S as [U|[C' E]]; cbn [fst snd] in *.
    - left. destruct a; cbn in *; auto; contradiction.
    - rewrite E. destruct a as [ev|e|y].
      + change (truncate (ext r')) with (ext (truncate r')). apply IH; [lia|exact C'].
      + right. split; [exact C'|reflexivity].
      + now left.
  Qed.

  Lemma return_sim target r : cut r -> sim (return_to_depth dbg target r) (return_to_depth dbg target (ext r)).
  Proof.
    intros C. unfold return_to_depth. cbn [ext r_depth r_src]. destruct (dbg && _); [now left|].
    apply skip_loop_sim; [rewrite app_length; lia|exact C].
  Qed.

  Lemma read_string_sim f1 : forall f2 sp out r, f1 <= f2 -> cut r ->
    sim (read_string_loop f1 dbg sp out r) (read_string_loop f2 dbg sp out (ext r)).
  Proof.
    induction f1 as [|f1 IH]; intros f2 sp out r Hf C; [now left|].
    destruct f2 as [|f2]; [lia|]. cbn [read_string_loop].
    change (stack_check dbg sp (ext r)) with (stack_check dbg sp r).
    destruct (stack_check dbg sp r); [|now left].
    pose proof (next_sim r C) as S. destruct (next dbg r) as [a r'].
    destruct S as [U|[C' E]]; cbn [fst snd] in *.
    - left. destruct a as [[[] ?]|e|y]; cbn in *; auto; contradiction.
    - rewrite E. destruct a as [[[attrs ns|n|s] p]|e|y].
      + cbn [ext r_stack]. destruct (nth_error _ _); [right; split; [exact C'|reflexivity]|now left].
      + right. split; [exact C'|reflexivity].
      + apply IH; [lia|exact C'].
      + right. split; [exact C'|reflexivity].
      + now left.
  Qed.

  Definition simv {A} (p1 p2 : res error A * St * rstate) : Prop :=
    undecided (fst (fst p1)) \/ (cut (snd p1) /\ p2 = (fst p1, ext (snd p1))).

  (** An action's outcome: undecided if it is an abort, or an error of the parser handed on. *)
  Definition sima {A B} (get : A -> res verr B) (p1 p2 : (A + abort) * rstate) : Prop :=
    match fst p1 with
    | inr _ => True
    | inl a => (exists e, get a = Err (Propagate e) /\ is_xml e) \/ (cut (snd p1) /\ p2 = (fst p1, ext (snd p1)))
    end.

  Lemma run_action_sim {A B} (get : A -> res verr B) body1 body2 sp attrs ns (act : action St A) r :
    (forall sp ns s r, cut r -> simv (body1 sp ns s r) (body2 sp ns s (ext r))) ->
    transparent_act get act -> cut r ->
    sima get (run_action dbg V body1 sp attrs ns act r) (run_action dbg V body2 sp attrs ns act (ext r)).
  Proof.
    intros HB Ht C. destruct act as [a|k|s0 k]; cbn [run_action transparent_act] in *.
    - right. split; [exact C|reflexivity].
    - destruct Ht as [_ Ht]. unfold read_string. cbn [ext r_src].
      pose proof (read_string_sim (S (List.length (r_src r))) (S (List.length (r_src r ++ post))) sp "" r) as S.
      specialize (S ltac:(rewrite app_length; lia) C).
      destruct (read_string_loop _ dbg sp "" r) as [a r']. destruct S as [U|[C' E]]; cbn [fst snd] in *.
      + destruct a as [s|e|y]; cbn in U; [contradiction| |exact I]. left. exists e. now rewrite Ht.
      + rewrite E. destruct a as [s|e|y]; [right; split; [exact C'|reflexivity]..|exact I].
    - destruct Ht as [_ Ht]. cbn [ext r_stack]. destruct (nth_error (r_stack r) sp) as [el|]; [|exact I].
      destruct (attrs_loop V (r_stack r) (se_pos el) attrs s0) as [[u|e|y] s1].
      + specialize (HB sp ns s1 r C). destruct (body1 sp ns s1 r) as [[a s2] r'].
        destruct HB as [U|[C' E]]; cbn [fst snd] in *.
        * destruct a as [i|e|y]; cbn in U; [contradiction| |exact I]. left. exists e. now rewrite Ht.
        * rewrite E. destruct a as [i|e|y]; [right; split; [exact C'|reflexivity]..|exact I].
      + right. split; [exact C|reflexivity].
      + exact I.
  Qed.

  Lemma read_loop_sim f1 : forall f2 sp ns s r, f1 <= f2 -> cut r ->
    simv (read_loop dbg V f1 sp ns s r) (read_loop dbg V f2 sp ns s (ext r)).
  Proof.
    induction f1 as [|f1 IH]; intros f2 sp ns s r Hf C; [now left|].
    destruct f2 as [|f2]; [lia|]. cbn [read_loop].
    change (stack_check dbg sp (ext r)) with (stack_check dbg sp r).
    destruct (stack_check dbg sp r); [|now left].
    pose proof (next_sim r C) as S. destruct (next dbg r) as [a r1].
    destruct S as [U|[C' E]]; cbn [fst snd] in *.
    { left. destruct a as [[[] ?]|e|y]; cbn in *; auto; contradiction. }
    rewrite E. destruct a as [[[attrs ns'|n|str] p]|e|y].
    - cbn [ext r_stack]. destruct (nth_error (r_stack r1) (S sp)) as [el|]; [|now left].
      pose proof (run_action_sim fst (read_loop dbg V f1) (read_loop dbg V f2) (S sp) attrs ns'
        (v_element V s (EInfo (se_name el) ns' (S (S sp)))) r1) as A.
      specialize (A ltac:(intros; apply IH; [lia|assumption]) (proj2 HT _ _) C').
     
      destruct (run_action dbg V (read_loop dbg V f1) (S sp) attrs ns' _ r1) as [[[b s']|y] r2]; [|now left].
      unfold sima in A. cbn [fst snd] in A. destruct A as [(e & Eb & X)|[C2 E2]].
      + cbn in Eb. subst b. left. exact X.
      + rewrite E2. destruct b as [b|e|y].
        * pose proof (return_sim (S sp) r2 C2) as R. destruct (return_to_depth dbg (S sp) r2) as [c r3].
          destruct R as [U|[C3 E3]]; cbn [fst snd] in *.
          -- left. destruct c; cbn in *; auto; contradiction.
          -- rewrite E3. destruct c as [u|e|y]; [apply IH; [lia|exact C3]|right; split; [exact C3|reflexivity]|now left].
        * right. split; [exact C2|reflexivity].
        * now left.
    - right. split; [exact C'|reflexivity].
    - destruct (v_characters V s str p) as [[b|m|y] s']; [apply IH; [lia|exact C']|right; split; [exact C'|reflexivity]|now left].
    - right. split; [exact C'|reflexivity].
    - now left.
  Qed.

  Lemma inner_next_ext r : cut r -> r_src r <> [] ->
    inner_next (ext r) = (fst (inner_next r), ext (snd (inner_next r))) /\ cut (snd (inner_next r)).
  Proof.
    intros C Hs. unfold inner_next. cbn [ext r_src]. destruct (r_src r) as [|[e p] src]; [easy|].
    cbn. split; [reflexivity|exact C].
  Qed.

  Lemma root_sim r : cut r -> sim (root dbg r) (root dbg (ext r)).
  Proof.
    intros C. destruct (r_src r) as [|e src] eqn:Es.
    { left. unfold root, inner_next. rewrite Es, C. cbn. now exists x. }
    unfold root. destruct (inner_next_ext r C) as [E1 C1]; [congruence|]. rewrite E1.
    destruct (inner_next r) as [[o|y|y] r1]; cbn [fst snd] in *.
    - destruct o as [[]|]; try (right; split; [exact C1|reflexivity]).
      pose proof (next_sim r1 C1) as S. destruct (next dbg r1) as [a r2].
      destruct S as [U|[C2 E2]]; cbn [fst snd] in *.
      + left. destruct a as [[[] ?]|e'|y]; cbn in *; auto; contradiction.
      + rewrite E2. destruct a as [[[] ?]|e'|y]; try (right; split; [exact C2|reflexivity]).
    - right. split; [exact C1|reflexivity].
    - now left.
  Qed.

  Lemma end_loop_sim src : undecided (end_loop (FError x) src) \/ end_loop fin (src ++ post) = end_loop (FError x) src.
  Proof.
    induction src as [|[e p] src IH]; [left; cbn; now exists x|]. destruct e; cbn [end_loop app]; auto.
  Qed.

  Lemma end_sim r : cut r -> undecided (end_ dbg r) \/ end_ dbg (ext r) = end_ dbg r.
  Proof.
    intros C. unfold end_. pose proof (return_sim 0 r C) as R. destruct (return_to_depth dbg 0 r) as [a r1].
    destruct R as [U|[C1 E]]; cbn [fst snd] in *.
    - left. destruct a; cbn in *; auto; contradiction.
    - rewrite E. destruct a as [u|e|y]; auto. cbn [ext r_fin r_src]. rewrite C1. apply end_loop_sim.
  Qed.

  Theorem read_sim {T} (D : einfo -> action St (res verr T)) pre : transparent_root D ->
    undecided (read dbg V D (reader_new pre (FError x))) \/
    read dbg V D (reader_new (pre ++ post) fin) = read dbg V D (reader_new pre (FError x)).
  Proof.
    intros HD. unfold read. change (reader_new (pre ++ post) fin) with (ext (reader_new pre (FError x))).
    pose proof (root_sim (reader_new pre (FError x)) eq_refl) as R.
    destruct (root dbg (reader_new pre (FError x))) as [a r1]. destruct R as [U|[C E]]; cbn [fst snd] in *.
    { left. destruct a as [[]|e|y]; cbn in *; auto; contradiction. }
    rewrite E. destruct a as [[attrs ns]|e|y]; auto. cbn [ext r_stack r_src].
    destruct (nth_error (r_stack r1) 0) as [el|]; [|now left].
    pose proof (run_action_sim (fun x => x) (read_loop dbg V (S (List.length (r_src r1))))
      (read_loop dbg V (S (List.length (r_src r1 ++ post)))) 0 attrs ns (D (EInfo (se_name el) ns 1)) r1) as A.
    specialize (A ltac:(intros; apply read_loop_sim; [rewrite app_length; lia|assumption]) (HD _) C).
   
    destruct (run_action dbg V (read_loop dbg V (S (List.length (r_src r1)))) 0 attrs ns _ r1) as [[b|y] r2]; [|now left].
    unfold sima in A. cbn [fst snd] in A. destruct A as [(e & -> & X)|[C2 E2]]; [left; exact X|]. rewrite E2.
    destruct b as [v|e|y]; auto.
    destruct (end_sim r2 C2) as [U|Ee].
    - left. destruct (end_ dbg r2); cbn in *; auto; contradiction.
    - right. now rewrite Ee.
  Qed.
End Cut.
