(** Nothing overflows. *)
From Coq Require Import Lia.
From Verif Require Import Base Text Reader ReaderSpec Word WordSpec.
From Verif Require Ser NsProofs.

Local Arguments Nat.max : simpl never.

(** Every end tag has a start tag before it. *)
Fixpoint covered (depth : nat) (src : list (xevent * position)) : Prop :=
  match src with
  | [] => True
  | (XStartElement _ _ _, _) :: src' => covered (S depth) src'
  | (XEndElement _, _) :: src' => match depth with O => False | S depth => covered depth src' end
  | _ :: src' => covered depth src'
  end.

Lemma well_nested_covered src fin : forall open, well_nested open src fin -> covered (List.length open) src.
Proof.
  induction src as [|[e p] src IH]; intros open H; cbn; auto.
  destruct e; cbn in H; try (now apply IH); try contradiction.
  - exact (IH (_ :: open) H).
  - destruct open as [|n' open]; [contradiction|]. cbn. now apply IH.
Qed.

Lemma deliverable_covered src fin : deliverable src fin -> covered 0 src.
Proof.
  destruct src as [|[e p] src]; cbn; auto. intros [-> [H _]]. cbn. exact (well_nested_covered src fin [] H).
Qed.

Lemma nesting_ge src : forall d, d <= nesting d src.
Proof.
  induction src as [|[e p] src IH]; intros d; cbn; [lia|].
  destruct e; try apply IH; [specialize (IH (S d)); lia|lia].
Qed.

Section Usize.
  Context (dbg : bool) (umax : nat).

  (** The stack has all open elements, and at most [k] more. *)
  Record fits (k : nat) (r : rstate) : Prop := Fits {
    f_depth : r_depth r <= List.length (r_stack r);
    f_stack : List.length (r_stack r) <= r_depth r + k;
    f_max : nesting (r_depth r) (r_src r) <= umax;
    f_cov : covered (r_depth r) (r_src r);
  }.

  (** Unless reading aborts. *)
  Definition leaves {E A} (k : nat) (x : res E A) (r : rstate) : Prop :=
    match x with Abort _ => True | _ => fits k r end.

  Lemma fits_more k k' r : k <= k' -> fits k r -> fits k' r.
  Proof. intros Hk [H1 H2 H3 H4]. split; auto. lia. Qed.

  Lemma incr_small n : n < umax -> incr dbg umax n = inl (S n).
  Proof. intros H. unfold incr. apply Nat.ltb_lt in H. now rewrite H. Qed.

  Definition is_end (x : res error (event * position)) : bool :=
    match x with Ok (EvEnd _, _) => true | _ => false end.

  Lemma next_loop_fits k fin src : forall depth stack p0, fits k (RState src fin p0 depth stack) ->
    let r' := snd (next_loop dbg fin depth stack src) in
    wnext_loop dbg umax fin depth stack src = next_loop dbg fin depth stack src /\
    leaves (if is_end (fst (next_loop dbg fin depth stack src)) then S k else k)
      (fst (next_loop dbg fin depth stack src)) r' /\
    depth <= S (r_depth r') /\ List.length stack <= List.length (r_stack r').
  Proof.
    induction src as [|[e p] src IH]; intros depth stack p0 [H1 H2 H3 H4]; cbn in *.
    - destruct fin; cbn; repeat split; cbn; auto; lia.
    - destruct e; try (now apply IH with (p0 := p)).
      + pose proof (nesting_ge src (S depth)). rewrite incr_small by lia. cbn.
        repeat split; cbn; auto; rewrite ?app_length; cbn; lia.
      + destruct depth as [|depth]; [contradiction|]. cbn in *.
        destruct dbg; [destruct (nth_error stack depth) as [el|]; [destruct (oname_eqb (se_name el) name)|]|];
          cbn; repeat split; cbn; auto; lia.
      + cbn. repeat split; cbn; auto; lia.
      + cbn. repeat split; cbn; auto; lia.
  Qed.

  Lemma next_fits k r : fits k r ->
    wnext dbg umax r = next dbg r /\
    leaves (if is_end (fst (next dbg r)) then S k else k) (fst (next dbg r)) (snd (next dbg r)) /\
    r_depth r <= S (r_depth (snd (next dbg r))) /\ List.length (r_stack r) <= List.length (r_stack (snd (next dbg r))).
  Proof.
    intros H. unfold wnext, next. destruct (dbg && negb _).
    - cbn. repeat split; auto.
    - destruct r as [src fin p depth stack]. now apply next_loop_fits with (p0 := p).
  Qed.

  Lemma truncate_fits k r : fits k r -> fits 0 (truncate r).
  Proof. intros [H1 H2 H3 H4]. split; cbn; auto; rewrite firstn_length; lia. Qed.

  Definition fits_unless {A} (x : res error A) (r : rstate) : Prop :=
    match x with Ok _ => fits 0 r | Err _ => fits 1 r | Abort _ => True end.

  Lemma skip_fits target fuel : forall r, fits 1 r ->
    wskip_loop dbg umax fuel target r = skip_loop fuel dbg target r /\
    fits_unless (fst (skip_loop fuel dbg target r)) (snd (skip_loop fuel dbg target r)) /\
    (target <= r_depth r -> fst (skip_loop fuel dbg target r) = Ok tt -> target <= r_depth (snd (skip_loop fuel dbg target r))).
  Proof.
    induction fuel as [|fuel IH]; intros r H; cbn [wskip_loop skip_loop].
    - repeat split. cbn. discriminate.
    - destruct (Nat.ltb target (r_depth r)) eqn:E.
      + destruct (next_fits 1 r H) as (-> & H1 & H2 & _). destruct (next dbg r) as [[x|e|x] r']; cbn in H1, H2.
        * apply truncate_fits in H1. apply (fits_more 0 1) in H1; [|lia].
          destruct (IH (truncate r') H1) as (H4 & H5 & H6). split; [exact H4|]. split; [exact H5|].
          intros Ht. apply H6. cbn. apply Nat.ltb_lt in E. lia.
        * cbn. repeat split; try apply H1. discriminate.
        * cbn. repeat split. discriminate.
      + cbn. split; [reflexivity|]. split; [now apply truncate_fits with (k := 1)|]. auto.
  Qed.

  Lemma return_fits target r : fits 1 r ->
    wreturn_to_depth dbg umax target r = return_to_depth dbg target r /\
    fits_unless (fst (return_to_depth dbg target r)) (snd (return_to_depth dbg target r)) /\
    (dbg = true -> fst (return_to_depth dbg target r) = Ok tt ->
     target <= List.length (r_stack (snd (return_to_depth dbg target r)))).
  Proof.
    intros H. unfold wreturn_to_depth, return_to_depth. destruct (dbg && Nat.ltb (r_depth r) target) eqn:E.
    - cbn. split; [reflexivity|]. split; [exact I|]. discriminate.
    - destruct (skip_fits target (S (List.length (r_src r))) r H) as (H1 & H2 & H3).
      split; [exact H1|]. split; [exact H2|]. intros Hd Hok. rewrite Hd in E. cbn [andb] in E. apply Nat.ltb_ge in E.
      specialize (H3 E Hok). rewrite Hok in H2. pose proof (f_depth _ _ H2). lia.
  Qed.

  (** The element at [sp] is on the stack (as far as it matters). *)
  Definition at_sp (sp : nat) (r : rstate) : Prop := sp < umax /\ (dbg = true -> sp < List.length (r_stack r)).

  Lemma check_fits sp r : at_sp sp r ->
    wstack_check dbg umax sp r = if stack_check dbg sp r then None else Some stack_panic.
  Proof.
    intros [_ H]. unfold wstack_check, stack_check. destruct dbg; [|reflexivity]. cbn.
    specialize (H eq_refl). destruct (r_stack r) as [|x l]; cbn in *; [lia|].
    now destruct (Nat.eqb sp (List.length l)).
  Qed.

  Lemma at_sp_next k sp r : fits k r -> at_sp sp r -> at_sp sp (snd (next dbg r)).
  Proof.
    intros H [H1 H2]. destruct (next_fits k r H) as (_ & _ & _ & H3). split; [exact H1|]. intros Hd. specialize (H2 Hd). lia.
  Qed.

  Lemma at_sp_nth sp r el : fits 0 r -> nth_error (r_stack r) sp = Some el -> at_sp sp r.
  Proof.
    intros H Hn. assert (sp < List.length (r_stack r)) by (apply nth_error_Some; congruence).
    pose proof (f_stack _ r H). pose proof (f_max _ r H). pose proof (nesting_ge (r_src r) (r_depth r)). split; [lia|auto].
  Qed.

  Lemma read_string_fits sp fuel : forall out r, fits 0 r -> at_sp sp r ->
    wread_string_loop dbg umax fuel sp out r = read_string_loop fuel dbg sp out r /\
    leaves 1 (fst (read_string_loop fuel dbg sp out r)) (snd (read_string_loop fuel dbg sp out r)).
  Proof.
    induction fuel as [|fuel IH]; intros out r H Hs; cbn [wread_string_loop read_string_loop].
    - now split.
    - rewrite (check_fits sp r Hs). destruct (stack_check dbg sp r); [|now split].
      pose proof (at_sp_next 0 sp r H Hs) as Hs'.
      destruct (next_fits 0 r H) as (-> & H1 & _). destruct (next dbg r) as [[[[a ns|n|s] p]|e|x] r']; cbn in H1, Hs'.
      + destruct (nth_error (r_stack r') (List.length (r_stack r') - 1)); (split; [reflexivity|]); cbn; auto.
        now apply (fits_more 0 1); [lia|].
      + now split.
      + now apply IH.
      + split; [reflexivity|]. now apply (fits_more 0 1); [lia|].
      + now split.
  Qed.

  Section ReadTo.
    Context {St : Type} (V : visitors St).
    Notation bodyt := (nat -> nsmap -> St -> rstate -> res error endinfo * St * rstate).

    Definition bodies (wbody body : bodyt) : Prop := forall sp ns s r, fits 0 r -> at_sp sp r ->
      wbody sp ns s r = body sp ns s r /\ leaves 1 (fst (fst (body sp ns s r))) (snd (body sp ns s r)).

    Definition acts {A} (x : (A + abort) * rstate) : Prop := match fst x with inl _ => fits 1 (snd x) | inr _ => True end.

    Lemma run_fits {A} wbody body sp attrs ns (act : action St A) r : bodies wbody body -> fits 0 r -> at_sp sp r ->
      wrun_action dbg umax V wbody sp attrs ns act r = run_action dbg V body sp attrs ns act r /\
      acts (run_action dbg V body sp attrs ns act r).
    Proof.
      intros Hb H Hs. pose proof (fits_more 0 1 r (le_S _ _ (le_n _)) H) as H'.
      destruct act as [a|k|s0 k]; cbn [wrun_action run_action].
      - now split.
      - unfold wread_string, read_string. destruct (read_string_fits sp (S (List.length (r_src r))) "" r H Hs) as [-> H1].
        destruct (read_string_loop _ dbg sp "" r) as [[x|e|x] r']; now split.
      - destruct (nth_error (r_stack r) sp) as [el|] eqn:E; [|now split].
        destruct (attrs_loop V (r_stack r) (se_pos el) attrs s0) as [[x|e|x] s1]; try (now split).
        destruct (Hb sp ns s1 r H Hs) as [-> H1]. destruct (body sp ns s1 r) as [[[i|e|x0] s2] r']; now split.
    Qed.

    Lemma read_loop_fits fuel : bodies (wread_loop dbg umax V fuel) (read_loop dbg V fuel).
    Proof.
      induction fuel as [|fuel IH]; intros sp ns s r H Hs; cbn [wread_loop read_loop].
      - now split.
      - rewrite (check_fits sp r Hs). destruct (stack_check dbg sp r); [|now split].
        pose proof (at_sp_next 0 sp r H Hs) as Hs'.
        destruct (next_fits 0 r H) as (-> & H1 & _).
        destruct (next dbg r) as [[[[a ns'|n|str] p]|e|x] r1]; cbn in H1, Hs'; try (now split).
        + rewrite incr_small by apply Hs.
          destruct (nth_error (r_stack r1) (S sp)) as [el|] eqn:E; [|now split].
          pose proof (at_sp_nth _ _ _ H1 E) as Hc. rewrite incr_small by apply Hc.
          destruct (run_fits _ _ (S sp) a ns' (v_element V s (EInfo (se_name el) ns' (S (S sp)))) r1 IH H1 Hc) as [-> H2].
          destruct (run_action dbg V (read_loop dbg V fuel) (S sp) a ns' _ r1) as [[[[b|e|x] s']|x] r2]; cbn in H2; try (now split).
          destruct (return_fits (S sp) r2 H2) as (-> & H3 & H4).
          destruct (return_to_depth dbg (S sp) r2) as [[[]|e|x] r3]; cbn in H3, H4; try (now split).
          apply IH; [exact H3|]. split; [apply Hs|]. intros Hd. specialize (H4 Hd eq_refl). lia.
        + destruct (v_characters V s str p) as [[y|m|x] s']; [now apply IH| |now split].
          split; [reflexivity|]. now apply (fits_more 0 1); [lia|].
        + split; [reflexivity|]. now apply (fits_more 0 1); [lia|].
    Qed.

    Theorem wread_same {T} (D : einfo -> action St (res verr T)) src fin : deliverable src fin ->
      nesting 0 src <= umax -> wread dbg umax V D (reader_new src fin) = read dbg V D (reader_new src fin).
    Proof.
      intros Hd Hu. pose proof (deliverable_covered src fin Hd) as Hc.
      unfold wread, read, wroot, root.
      destruct src as [|[e p] src]; [destruct Hd as [x ->]; reflexivity|]. destruct Hd as [-> [Hw _]].
      change (inner_next (reader_new ((XStartDocument, p) :: src) fin))
        with (Ok (E := xerr) (Some XStartDocument), RState src fin p 0 []).
      cbv iota beta.
      assert (H1 : fits 0 (RState src fin p 0 [])) by (split; cbn in *; auto; lia).
      destruct (next_fits 0 _ H1) as (-> & H2 & _).
      destruct (next dbg (RState src fin p 0 [])) as [[[[a ns|n|s] p']|e|x] r1]; try reflexivity. cbn in H2.
      destruct (nth_error (r_stack r1) 0) as [el|] eqn:E; [|reflexivity].
      pose proof (at_sp_nth _ _ _ H2 E) as Hs. rewrite incr_small by apply Hs.
      destruct (run_fits _ _ 0 a ns (D (EInfo (se_name el) ns 1)) r1 (read_loop_fits (S (List.length (r_src r1)))) H2 Hs)
        as [-> H3].
      destruct (run_action dbg V _ 0 a ns _ r1) as [[[v|e|x]|x] r2]; try reflexivity. cbn in H3.
      unfold wend, end_. destruct (return_fits 0 r2 H3) as (-> & _). reflexivity.
    Qed.
  End ReadTo.
End Usize.

(** ** The search for a free prefix *)

Local Open Scope Z_scope.

Lemma i32_numbered_same p i : i32_numbered p (Z.of_nat i) = Ser.numbered p i.
Proof.
  unfold i32_numbered, Ser.numbered. f_equal. unfold show_int.
  destruct (Z.of_nat i) eqn:E; try lia; rewrite <- E; f_equal; f_equal; lia.
Qed.

Lemma pick_same dbg u m p fuel : forall i, Z.of_nat i + Z.of_nat fuel <= i32_max ->
  i32_pick dbg fuel p (Z.of_nat i) u m = match Ser.pick fuel p i u m with Some x => Ok x | None => Abort Diverge end.
Proof.
  induction fuel as [|fuel IH]; intros i H; cbn [i32_pick Ser.pick]; [reflexivity|].
  rewrite i32_numbered_same. destruct (Ser.ns_put (Ser.numbered p i) u m) as [[|] m']; [reflexivity|].
  unfold i32_incr. assert (E : Z.of_nat i <? i32_max = true) by (apply Z.ltb_lt; lia). rewrite E.
  replace (Z.of_nat i + 1) with (Z.of_nat (S i)) by lia. apply IH. lia.
Qed.

Lemma put_length p u m b m' : Ser.ns_put p u m = (b, m') -> (List.length m' <= S (List.length m))%nat.
Proof.
  unfold Ser.ns_put. destruct (bm_mem p m); intros [= <- <-]; [lia|].
  induction m as [|[k v] m IH]; cbn; [lia|]. destruct (String.compare p k); cbn in *; lia.
Qed.

Lemma pick_length u m p fuel : forall i x m', Ser.pick fuel p i u m = Some (x, m') ->
  (List.length m' <= S (List.length m))%nat.
Proof.
  induction fuel as [|fuel IH]; intros i x m'; cbn [Ser.pick]; [discriminate|].
  destruct (Ser.ns_put (Ser.numbered p i) u m) as [[|] m0] eqn:E; [|apply IH].
  intros [= <- <-]. eauto using put_length.
Qed.

Lemma assign_same dbg l : forall m, Z.of_nat (List.length l) + Z.of_nat (List.length m) + 3 <= i32_max ->
  i32_assign_required dbg l m = match Ser.assign_required l m with Some x => Ok x | None => Abort Diverge end.
Proof.
  induction l as [|[u e] l IH]; intros m H; cbn [i32_assign_required Ser.assign_required]; [reflexivity|].
  cbn [List.length] in H.
  assert (Hstep : forall e' m', (List.length m' <= S (List.length m))%nat ->
    bind (i32_assign_required dbg l m') (fun '(l'', m'') => Ok ((u, e') :: l'', m'')) =
    match match Ser.assign_required l m' with Some (l'', m'') => Some ((u, e') :: l'', m'') | None => None end with
    | Some x => Ok x | None => Abort Diverge end).
  { intros e' m' Hm. rewrite IH by lia. now destruct (Ser.assign_required l m') as [[l'' m'']|]. }
  destruct (Ser.q_required e); [|apply Hstep; lia].
  assert (Hpick : forall p i, Z.of_nat i <= 2 ->
    bind (i32_pick dbg (S (List.length m)) p (Z.of_nat i) u m) (fun '(p', m') =>
      bind (i32_assign_required dbg l m') (fun '(l'', m'') =>
        Ok ((u, Ser.NsEntry (Ser.q_prefix e) (Some p') true (Ser.q_needs e)) :: l'', m''))) =
    match match Ser.pick (S (List.length m)) p i u m with
          | Some (p', m') =>
              match Ser.assign_required l m' with
              | Some (l'', m'') => Some ((u, Ser.NsEntry (Ser.q_prefix e) (Some p') true (Ser.q_needs e)) :: l'', m'')
              | None => None
              end
          | None => None
          end with Some x => Ok x | None => Abort Diverge end).
  { intros p i Hi. rewrite pick_same by lia. destruct (Ser.pick _ p i u m) as [[p' m']|] eqn:E; [|reflexivity].
    cbn [bind]. apply Hstep. eauto using pick_length. }
  destruct (String.eqb (Ser.q_prefix e) "") eqn:Ee.
  - rewrite Bool.andb_true_r. destruct (Ser.q_needs e); [exact (Hpick "ns"%string 1%nat ltac:(lia))|].
    destruct (Ser.ns_put (Ser.q_prefix e) u m) as [[|] m'] eqn:E; [apply Hstep; eauto using put_length|].
    exact (Hpick "ns"%string 1%nat ltac:(lia)).
  - rewrite Bool.andb_false_r.
    destruct (Ser.ns_put (Ser.q_prefix e) u m) as [[|] m'] eqn:E; [apply Hstep; eauto using put_length|].
    exact (Hpick (Ser.q_prefix e) 2%nat ltac:(lia)).
Qed.

Theorem i32_same dbg b : Z.of_nat (List.length b) < 2 ^ 31 - 3 ->
  i32_finalize dbg b = match Ser.finalize b with Some x => Ok x | None => Abort Diverge end.
Proof.
  intros H. unfold i32_finalize, Ser.finalize.
  rewrite assign_same by (unfold i32_max; cbn [List.length]; lia).
  destruct (Ser.assign_required b []) as [[b1 m1]|]; [|reflexivity]. cbn [bind].
  now destruct (Ser.assign_optional b1 m1) as [b2 m2].
Qed.
