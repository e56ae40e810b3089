(** More open elements than a [usize] counts. *)
From Coq Require Import Lia.
From Verif Require Import Base Text Reader ReaderSpec ReaderProofs ReaderOk Word WordSpec WordProofs.

Local Arguments Nat.max : simpl never.
Local Arguments Nat.ltb : simpl never.

(** No element starts once all are closed. *)
Fixpoint one_root (depth : nat) (src : list (xevent * position)) : Prop :=
  match src with
  | [] => True
  | (XStartElement _ _ _, _) :: src' => match depth with O => False | S _ => one_root (S depth) src' end
  | (XEndElement _, _) :: src' => one_root (pred depth) src'
  | _ :: src' => one_root depth src'
  end.

Lemma one_root_misc l : forall rest, one_root 0 rest -> one_root 0 (misc_events l ++ rest).
Proof. induction l as [|[[] p] l IH]; intros; cbn; auto. Qed.

Lemma one_root_events : forall n d rest, one_root (S d) rest -> one_root (S d) (events n ++ rest).
Proof.
  induction n using node_ind'; intros d rest Hw.
  - cbn [events app one_root]. rewrite <- app_assoc. cbn [app].
    assert (Hk : one_root (S (S d)) ((XEndElement name, pe) :: rest)) by (cbn; auto).
    revert Hk. generalize ((XEndElement name, pe) :: rest). clear Hw.
    induction kids as [|k kids IHk]; intros rest' Hk; cbn [flat_map app]; [exact Hk|].
    rewrite <- app_assoc. inversion H; subst. apply H2. now apply IHk.
  - destruct c; exact Hw.
  - destruct m; exact Hw.
  - exact Hw.
Qed.

Lemma one_root_kids kids : forall d rest, one_root (S d) rest -> one_root (S d) (flat_map events kids ++ rest).
Proof.
  induction kids as [|k kids IH]; intros; cbn [flat_map app]; [assumption|].
  rewrite <- app_assoc. apply one_root_events. auto.
Qed.

Lemma one_root_max src : one_root 0 src -> nesting 0 src = 0.
Proof. induction src as [|[e p] src IH]; cbn; auto. destruct e; auto; try contradiction. Qed.

Lemma end_loop_open n open src fin : well_nested (n :: open) src fin -> exists e, end_loop fin src = Err e.
Proof.
  revert n open. induction src as [|[e p] src IH]; intros n open H.
  - destruct fin; cbn in H; [discriminate|]. cbn. eauto.
  - destruct e; cbn in H |- *; eauto.
Qed.

Section Over.
  Context (dbg : bool) (umax : nat).

  Definition over_panic : abort := Panic "attempt to add with overflow".

  (** Reading so far was all right, but will not be. *)
  Record ahead (r : rstate) : Prop := Ahead {
    a_depth : r_depth r = List.length (r_stack r);
    a_nested : well_nested (rev (map se_name (r_stack r))) (r_src r) (r_fin r);
    a_once : one_root (r_depth r) (r_src r);
    a_ok : r_depth r <= umax;
    a_over : umax < nesting (r_depth r) (r_src r);
  }.

  (** The counter was started anew. *)
  Definition lost (r : rstate) : Prop := r_depth r = 0 /\ exists e, end_loop (r_fin r) (r_src r) = Err e.

  Lemma ahead_pos r : ahead r -> 0 < r_depth r.
  Proof.
    intros H. destruct (r_depth r) eqn:E; [|lia]. pose proof (a_once r H) as H1. pose proof (a_over r H) as H2.
    rewrite E in *. rewrite (one_root_max _ H1) in H2. lia.
  Qed.

  Definition lands (n : nat) (x : res error (event * position)) (r : rstate) : Prop :=
    (dbg = true /\ x = Abort over_panic) \/
    ((exists y, x = Ok y) /\ List.length (r_src r) < n /\ (ahead (truncate r) \/ (dbg = false /\ lost r))).

  Lemma next_loop_over src : forall fin depth stack p, ahead (RState src fin p depth stack) ->
    lands (List.length src) (fst (wnext_loop dbg umax fin depth stack src)) (snd (wnext_loop dbg umax fin depth stack src)).
  Proof.
    induction src as [|[e p'] src IH]; intros fin depth stack p H.
    - exfalso. pose proof (a_ok _ H). pose proof (a_over _ H). cbn in *. lia.
    - assert (Hl : forall n x r, lands n x r -> lands (S n) x r).
      { intros n x r [L|[L1 [L2 L3]]]; [now left|right]. split; [exact L1|]. split; [lia|exact L3]. }
      pose proof (ahead_pos _ H) as Hp. destruct H as [H1 H2 H3 H4 H5].
      cbn [r_depth r_stack r_src r_fin] in *.
      destruct e; cbn [wnext_loop List.length]; cbn [well_nested one_root nesting] in H2, H3, H5; try contradiction.
      + unfold incr. destruct (Nat.ltb depth umax) eqn:E.
        * apply Nat.ltb_lt in E. right. cbn [fst snd]. split; [eauto|]. split; [cbn; lia|]. left.
          destruct depth as [|depth]; [lia|].
          unfold truncate. split; cbn [r_depth r_stack r_src r_fin].
          -- rewrite firstn_all2 by (rewrite app_length; cbn; lia). rewrite app_length. cbn. lia.
          -- rewrite firstn_all2 by (rewrite app_length; cbn; lia). rewrite map_app, rev_app_distr. exact H2.
          -- exact H3.
          -- lia.
          -- exact H5.
        * destruct dbg eqn:D; [left; auto|right]. cbn [fst snd]. split; [eauto|]. split; [cbn; lia|]. right.
          split; [exact D|]. split; [reflexivity|]. cbn [r_fin r_src]. eapply end_loop_open. exact H2.
      + destruct depth as [|depth]; [lia|]. cbn [decr]. cbn [pred] in H3, H5.
        destruct (rev (map se_name stack)) as [|n open] eqn:R; [contradiction|]. destruct H2 as [-> H2].
        destruct stack as [|el stack _] using rev_ind; [discriminate|].
        rewrite map_app, rev_app_distr in R. cbn in R. injection R as <- <-.
        rewrite app_length in H1. cbn in H1.
        assert (Hd : depth = List.length stack) by lia.
        assert (Hn : nth_error (stack ++ [el]) depth = Some el).
        { subst depth. rewrite nth_error_app2 by lia. now rewrite Nat.sub_diag. }
        assert (Hr : ahead (truncate (RState src fin p' depth (stack ++ [el])))).
        { unfold truncate. cbn [r_depth r_stack r_src r_fin r_pos].
          rewrite Hd at 2. rewrite firstn_app, firstn_all, Nat.sub_diag. cbn [firstn]. rewrite app_nil_r.
          split; cbn [r_depth r_stack r_src r_fin]; auto; lia. }
        rewrite Hn. assert (He : oname_eqb (se_name el) (se_name el) = true) by (apply oname_eqb_refl).
        rewrite He. right. destruct dbg; cbn [fst snd r_src]; (split; [eauto|]); (split; [lia|]); left; exact Hr.
      + right. cbn [fst snd r_src]. split; [eauto|]. split; [lia|]. left. unfold truncate.
        cbn [r_depth r_stack r_src r_fin r_pos]. rewrite firstn_all2 by lia. split; cbn; auto.
      + right. cbn [fst snd r_src]. split; [eauto|]. split; [lia|]. left. unfold truncate.
        cbn [r_depth r_stack r_src r_fin r_pos]. rewrite firstn_all2 by lia. split; cbn; auto.
      + apply Hl. apply (IH _ _ _ p'). split; cbn; auto; apply H2.
      + apply Hl. apply (IH _ _ _ p'). split; cbn; auto; apply H2.
      + apply Hl. apply (IH _ _ _ p'). split; cbn; auto; apply H2.
  Qed.

  Lemma next_over r : ahead r -> lands (List.length (r_src r)) (fst (wnext dbg umax r)) (snd (wnext dbg umax r)).
  Proof.
    intros H. unfold wnext. rewrite (a_depth _ H), Nat.eqb_refl, andb_false_r.
    rewrite <- (a_depth _ H). destruct r as [src fin p depth stack]. exact (next_loop_over src fin depth stack p H).
  Qed.

  Definition lands_out (x : res error unit) (r : rstate) : Prop :=
    (dbg = true /\ x = Abort over_panic) \/ (x = Ok tt /\ dbg = false /\ lost r).

  Lemma skip_over fuel : forall r, List.length (r_src r) < fuel -> ahead r ->
    lands_out (fst (wskip_loop dbg umax fuel 0 r)) (snd (wskip_loop dbg umax fuel 0 r)).
  Proof.
    induction fuel as [|fuel IH]; intros r Hf H; [lia|]. cbn [wskip_loop].
    pose proof (ahead_pos _ H) as Hp. apply Nat.ltb_lt in Hp. rewrite Hp.
    pose proof (next_over r H) as L. destruct (wnext dbg umax r) as [x r']. cbn [fst snd] in L.
    destruct L as [[L ->]|[[y ->] [L1 [L2|[L2 [L3 L4]]]]]].
    - left. auto.
    - apply IH; [cbn [truncate r_src]; lia|exact L2].
    - right. destruct fuel as [|fuel]; [lia|]. cbn [wskip_loop truncate r_depth]. rewrite L3.
      change (Nat.ltb 0 0) with false. cbn [fst snd]. split; [reflexivity|]. split; [exact L2|]. split; [exact L3|exact L4].
  Qed.

  Lemma end_over r : ahead r ->
    (dbg = true /\ wend dbg umax r = Abort over_panic) \/ (dbg = false /\ exists e, wend dbg umax r = Err e).
  Proof.
    intros H. unfold wend, wreturn_to_depth. replace (Nat.ltb (r_depth r) 0) with false
      by (symmetry; apply Nat.ltb_ge; lia). rewrite andb_false_r.
    pose proof (skip_over (S (List.length (r_src r))) r (Nat.lt_succ_diag_r _) H) as L.
    destruct (wskip_loop dbg umax (S (List.length (r_src r))) 0 r) as [x r']. cbn [fst snd] in L.
    destruct L as [[L ->]|[-> [L1 [L2 [e L3]]]]]; [left; auto|right]. split; [exact L1|]. exists e. exact L3.
  Qed.
End Over.

Lemma wnext_misc dbg umax fin l : forall rest,
  wnext_loop dbg umax fin 0 [] (misc_events l ++ rest) = wnext_loop dbg umax fin 0 [] rest.
Proof. induction l as [|[[] p] l IH]; intros; cbn; auto. Qed.

Lemma nesting_misc l : forall rest, nesting 0 (misc_events l ++ rest) = nesting 0 rest.
Proof. induction l as [|[[] p] l IH]; intros; cbn; auto. Qed.

Theorem over_reads dbg umax St (V : visitors St) d pe : umax < nesting 0 (doc_events d) ->
  (dbg = true /\ wread dbg umax V skipper (reader_new (doc_events d) (FEndDocument pe)) = Abort over_panic) \/
  (dbg = false /\ exists e, wread dbg umax V skipper (reader_new (doc_events d) (FEndDocument pe)) = Err e).
Proof.
  intros H. unfold doc_events in *. cbn [nesting] in H. rewrite nesting_misc in H.
  unfold d_root in *. cbn [events app nesting] in H |- *.
  unfold wread, wroot. cbn [reader_new].
  match goal with |- context [inner_next ?r] =>
    change (inner_next r) with (Ok (E := xerr) (Some XStartDocument),
      RState (misc_events (d_prolog d) ++ (XStartElement (d_name d) (d_attrs d) (d_ns d), d_pos d) ::
        (flat_map events (d_kids d) ++ [(XEndElement (d_name d), d_pe d)]) ++ misc_events (d_epilogue d))
        (FEndDocument pe) (d_start d) 0 []) end.
  cbv iota beta.
  unfold wnext at 1 2. cbn [r_stack r_depth r_src r_fin List.length Nat.eqb negb]. rewrite andb_false_r, wnext_misc.
  rewrite <- app_assoc in *. cbn [app] in *.
  set (rest := flat_map events (d_kids d) ++ (XEndElement (d_name d), d_pe d) :: misc_events (d_epilogue d)) in *.
  assert (Hw : well_nested [d_name d] rest (FEndDocument pe)).
  { unfold rest. apply well_nested_kids. cbn. split; [reflexivity|].
    rewrite <- (app_nil_r (misc_events _)). apply well_nested_misc. reflexivity. }
  assert (Ho : one_root 1 rest).
  { unfold rest. apply one_root_kids. cbn. rewrite <- (app_nil_r (misc_events _)). now apply one_root_misc. }
  clearbody rest. cbn [wnext_loop]. unfold incr. destruct (Nat.ltb 0 umax) eqn:E.
  - apply Nat.ltb_lt in E. cbn [r_stack app nth_error wrun_action skipper].
    destruct (end_over dbg umax (RState rest (FEndDocument pe) (d_pos d) 1 [SElem (d_name d) (d_pos d)])) as [[-> L]|[-> [e L]]].
    + split; cbn; auto; lia.
    + left. rewrite L. auto.
    + right. rewrite L. eauto.
  - destruct dbg; [left; auto|right]. split; [reflexivity|]. cbn [r_stack app nth_error wrun_action skipper].
    unfold wend, wreturn_to_depth. cbn [r_depth andb wskip_loop r_src]. change (Nat.ltb 0 0) with false. cbv iota.
    cbn [truncate r_fin r_src]. destruct (end_loop_open _ _ _ _ Hw) as [e ->]. eauto.
Qed.

Theorem skipper_reads dbg St (V : visitors St) d pe :
  (dbg = true -> propagating V) -> read dbg V skipper (reader_new (doc_events d) (FEndDocument pe)) = Ok tt.
Proof.
  intros H. rewrite read_sem; [|intros Hd; split; [auto|]].
  - reflexivity.
  - intros i. cbn. auto.
Qed.

Theorem over_exact umax St (V : visitors St) d pe : umax < nesting 0 (doc_events d) ->
  wread true umax V skipper (reader_new (doc_events d) (FEndDocument pe)) = Abort over_panic /\
  (exists e, wread false umax V skipper (reader_new (doc_events d) (FEndDocument pe)) = Err e) /\
  (forall dbg, (dbg = true -> propagating V) ->
   read dbg V skipper (reader_new (doc_events d) (FEndDocument pe)) = Ok tt).
Proof.
  intros H. split; [|split].
  - destruct (over_reads true umax St V d pe H) as [[_ L]|[L _]]; [exact L|discriminate].
  - destruct (over_reads false umax St V d pe H) as [[L _]|[_ L]]; [discriminate|exact L].
  - intros dbg Hp. now apply skipper_reads.
Qed.
