(** Failing writes under programs that return their errors at once. *)
From Verif Require Import Base Normalize Text Find Types Ser SerSpec SerProofs FailSpec DeriveSer DeriveMixedSer.
From Coq Require Import Lia.

(** ** Programs that give up *)

Lemma repeat_snoc {A} (x : A) n : repeat x n ++ [x] = x :: repeat x n.
Proof. induction n; cbn; congruence. Qed.

Lemma give_up_run dbg w d (p : wprog d) : forall x nss k y, gives_up x p -> k_poison k = Some y ->
  run_w dbg w p nss k =
  inl (Some x, Sink (k_out k) (k_tries k) (Some y) (k_log k ++ repeat (NDropped writer_dropped) d)).
Proof.
  induction p as [r| | | |d p IHp| | | | | |] using wprog_mut with (P0 := fun _ _ => True);
    cbn [gives_up run_w]; try exact I; intros x nss k' y G E; try easy.
  - subst r. destruct k' as [a b c l]. cbn in *. subst c. now rewrite app_nil_r.
  - rewrite (IHp x _ (poison writer_dropped k') y G) by (cbn; now rewrite E).
    cbn. now rewrite <- app_assoc.
Qed.

(** ** Poisoned writers do not ask the output *)

Lemma write_dead w w' e k y : k_poison k = Some y -> write w e k = write w' e k.
Proof. unfold write. now intros ->. Qed.

Lemma write_stays_dead w e k y : k_poison k = Some y ->
  k_poison (snd (write w e k)) = Some y /\ k_out (snd (write w e k)) = k_out k.
Proof. unfold write. now intros ->. Qed.

Lemma start_dead w w' b k y : k_poison k = Some y -> builder_start w b k = builder_start w' b k.
Proof.
  intros E. unfold builder_start. destruct (finalize _); [|easy]. destruct (resolve_element _ _); [|easy].
  destruct (resolve_attributes _ _); [|easy]. now rewrite (write_dead w w' _ _ y E).
Qed.

Lemma start_stays_dead w b k y r k' : k_poison k = Some y -> builder_start w b k = inl (r, k') ->
  k_poison k' = Some y.
Proof.
  intros E. unfold builder_start. destruct (finalize _); [|easy]. destruct (resolve_element _ _); [|easy].
  destruct (resolve_attributes _ _); [|easy]. destruct (write _ _ _) as [[z|] k2] eqn:W; intros [= <- <-];
    pose proof (write_stays_dead w (WStart p l (by_prefix n)) k y E) as [H _]; now rewrite W in H.
Qed.

Lemma run_dead dbg w w' :
  (forall d (p : wprog d) nss k y, k_poison k = Some y -> run_w dbg w p nss k = run_w dbg w' p nss k) /\
  (forall d (q : bprog d) b nss k y, k_poison k = Some y -> run_b dbg w q b nss k = run_b dbg w' q b nss k).
Proof.
  apply prog_mut; cbn [run_w run_b]; try reflexivity.
  - intros d s f IH nss k y E. rewrite (write_dead w w' _ _ y E).
    pose proof (write_stays_dead w' (WChars s) k y E) as [H _]. destruct (write _ _ _). eauto.
  - intros d n b IH nss k y E. destruct nss; [reflexivity|]. eauto.
  - intros d f IH nss k y E. rewrite (write_dead w w' _ _ y E).
    pose proof (write_stays_dead w' WEnd k y E) as [H _]. destruct (write _ _ _). eauto.
  - intros d p IH nss k y E. apply (IH _ _ y). cbn. now rewrite E.
  - intros d p u q IH b nss k y E. destruct (builder_namespace _ _ _ _); eauto.
  - intros d n v f IH b nss k y E. destruct (builder_attribute _ _ _) as [[r b']|]; eauto.
  - intros d p IH b nss k y E. apply (IH _ _ y). cbn. now rewrite E.
  - intros d p IH pe IHe b nss k y E. rewrite (start_dead w w' _ _ y E).
    destruct (builder_start w' b k) as [[[m|e] k']|x] eqn:S0; [| |reflexivity];
      apply (start_stays_dead w' b k y _ _ E) in S0; eauto.
Qed.

Lemma run_dead_out dbg w d (p : wprog d) nss k y r k' : k_poison k = Some y ->
  run_w dbg w p nss k = inl (r, k') -> k_out k' = k_out k.
Proof.
  intros E H. apply (proj1 (dead_run dbg w)) with (e := y) in H; [|exact E]. apply H.
Qed.

(** ** Before the failure *)

Definition alive (es : list wevent) : sink := Sink es (length es) None (map NWrote es).

Lemma write_alive w es e : w (length es) = None -> write w e (alive es) = (None, alive (es ++ [e])).
Proof.
  intros H. unfold write, alive. cbn. rewrite H, app_length, map_app. cbn. now rewrite Nat.add_1_r.
Qed.

Lemma write_failing w es e m : w (length es) = Some m ->
  write w e (alive es) =
  (Some (SMsg m), Sink es (S (length es)) (Some (SMsg m)) (map NWrote es ++ [NFailed (SMsg m)])).
Proof. intros H. unfold write, alive. cbn. now rewrite H. Qed.

Lemma start_alive w b es :
  builder_start w b (alive es) =
  match builder_start never b (alive es) with
  | inr x => inr x
  | inl (r, k) =>
      match w (length es) with
      | None => inl (r, k)
      | Some m => inl (inr (SMsg m),
                    Sink es (S (length es)) (Some (SMsg m)) (map NWrote es ++ [NFailed (SMsg m)]))
      end
  end.
Proof.
  unfold builder_start. destruct (finalize _); [|easy]. destruct (resolve_element _ _); [|easy].
  destruct (resolve_attributes _ _); [|easy]. rewrite (write_alive never) by reflexivity.
  destruct (w (length es)) eqn:E; [rewrite (write_failing _ _ _ _ E)|rewrite (write_alive _ _ _ E)]; reflexivity.
Qed.

Lemma start_never b es r k : builder_start never b (alive es) = inl (r, k) ->
  exists m p l, r = inl m /\ k = alive (es ++ [WStart p l (by_prefix m)]).
Proof.
  unfold builder_start. destruct (finalize _) as [m|]; [|easy]. destruct (resolve_element _ _); [|easy].
  destruct (resolve_attributes _ _); [|easy]. rewrite (write_alive never) by reflexivity.
  intros [= <- <-]. eauto.
Qed.

Lemma open_after_app es : forall h es', open_after h (es ++ es') = open_after (open_after h es) es'.
Proof. induction es as [|[]]; cbn; auto. Qed.

(** [drops]: how many writers of the program itself are dropped. *)
Definition inner (n : nat) (m : string) (es : list wevent) : sink :=
  Sink (firstn n es) (S n) (Some (SMsg m))
    (map NWrote (firstn n es) ++ NFailed (SMsg m) :: repeat (NDropped writer_dropped) (pred (writers_left es n))).

Lemma cut_here {A} (es : list A) e tl' n : length es = n -> firstn n (es ++ e :: tl') = es /\ nth_error (es ++ e :: tl') n = Some e.
Proof.
  intros <-. split.
  - rewrite firstn_app, firstn_all, Nat.sub_diag. cbn. apply app_nil_r.
  - rewrite nth_error_app2, Nat.sub_diag by lia. reflexivity.
Qed.

Definition agrees (w : io) (n : nat) (m : string) (es : list wevent)
  (ref got : (option serr * sink) + abort) : Prop :=
  match ref with
  | inl (r0, k0) =>
      (exists tl', k_out k0 = es ++ tl') /\
      (length (k_out k0) <= n -> got = inl (r0, k0)) /\
      (n < length (k_out k0) ->
         got = inl (Some (SMsg m), inner n m (k_out k0)) /\ writers_left (k_out k0) n <> 0)
  | inr x => got = inr x \/ exists k, got = inl (Some (SMsg m), k)
  end.

Lemma agrees_dead w n m es ref y : length es <= n ->
  (forall r k, ref = inl (r, k) -> k_out k = es) -> y = ref -> agrees w n m es ref y.
Proof.
  intros L H ->. destruct ref as [[r k]|x]; cbn; [|auto]. rewrite (H r k eq_refl).
  split; [exists []; now rewrite app_nil_r|]. split; [reflexivity|lia].
Qed.

Lemma agrees_later w n m es e ref y : agrees w n m (es ++ [e]) ref y -> agrees w n m es ref y.
Proof.
  destruct ref as [[r k]|x]; cbn; [|auto]. intros ((tl' & ->) & A & B). split; [|auto].
  rewrite <- app_assoc. cbn. eauto.
Qed.

Lemma agrees_now w n m es e ref d : length es = n ->
  (match e with WEnd => open_after 0 es = S (S d) | _ => open_after 0 es = S d end) ->
  (forall r k, ref = inl (r, k) -> exists tl', k_out k = (es ++ [e]) ++ tl') ->
  agrees w n m es ref
    (inl (Some (SMsg m), Sink es (S (length es)) (Some (SMsg m))
       ((map NWrote es ++ [NFailed (SMsg m)]) ++ repeat (NDropped writer_dropped) d))).
Proof.
  intros L O H. destruct ref as [[r k]|x]; cbn in *; [|eauto]. destruct (H r k eq_refl) as (tl' & E).
  rewrite <- app_assoc in E. cbn in E. destruct (cut_here es e tl' n L) as (C1 & C2).
  rewrite E. split; [eauto|]. split; [rewrite app_length; cbn; lia|]. intros _.
  unfold inner, writers_left. rewrite C1, C2, L, <- app_assoc. cbn. destruct e; rewrite O; split; easy.
Qed.

Lemma fails_later w n m es (e : wevent) : fails_first w n m -> length es <= n -> w (length es) = None ->
  length (es ++ [e]) <= n.
Proof.
  intros [_ F] L E. rewrite app_length. cbn. destruct (Nat.eq_dec (length es) n) as [H|H]; [congruence|lia].
Qed.

Lemma fails_now w n m (es : list wevent) m' : fails_first w n m -> length es <= n -> w (length es) = Some m' ->
  length es = n /\ m' = m.
Proof.
  intros [B F] L E. destruct (Nat.eq_dec (length es) n) as [H|H]; [split; congruence|].
  rewrite B in E by lia. discriminate.
Qed.

(** ** Nothing written is taken back *)

Lemma write_extends w e k : exists tl', k_out (snd (write w e k)) = k_out k ++ tl'.
Proof.
  unfold write. destruct (k_poison k); [exists []; now rewrite app_nil_r|].
  destruct (w _); cbn; [exists []; now rewrite app_nil_r|eauto].
Qed.

Lemma start_extends w b k r k' : builder_start w b k = inl (r, k') -> exists tl', k_out k' = k_out k ++ tl'.
Proof.
  unfold builder_start. destruct (finalize _) as [m|]; [|easy]. destruct (resolve_element _ _) as [p|]; [|easy].
  destruct (resolve_attributes _ _) as [l|]; [|easy]. pose proof (write_extends w (WStart p l (by_prefix m)) k) as (tl' & H).
  destruct (write _ _ _) as [[z|] k2]; intros [= <- <-]; cbn in H; eauto.
Qed.

Lemma run_extends dbg w :
  (forall d (p : wprog d) nss k r k', run_w dbg w p nss k = inl (r, k') -> exists tl', k_out k' = k_out k ++ tl') /\
  (forall d (q : bprog d) b nss k r k', run_b dbg w q b nss k = inl (r, k') -> exists tl', k_out k' = k_out k ++ tl').
Proof.
  apply prog_mut; cbn [run_w run_b]; try discriminate.
  - intros r nss k r' k' [= <- <-]. exists []. now rewrite app_nil_r.
  - intros d s f IH nss k r k' H. pose proof (write_extends w (WChars s) k) as (t1 & E). destruct (write _ _ _) as [z k2].
    apply IH in H as (t2 & E2). cbn in E. rewrite E2, E, <- app_assoc. eauto.
  - intros d n b IH nss k r k' H. destruct nss; [discriminate|]. eauto.
  - intros d f IH nss k r k' H. pose proof (write_extends w WEnd k) as (t1 & E). destruct (write _ _ _) as [z k2].
    apply IH in H as (t2 & E2). cbn in E. rewrite E2, E, <- app_assoc. eauto.
  - intros d p IH nss k r k' H. apply IH in H. exact H.
  - intros d p u q IH b nss k r k' H. destruct (builder_namespace _ _ _ _); [|discriminate]. eauto.
  - intros d n v f IH b nss k r k' H. destruct (builder_attribute _ _ _) as [[z b']|]; [|discriminate]. eauto.
  - intros d p IH b nss k r k' H. apply IH in H. exact H.
  - intros d p IH pe IHe b nss k r k' H. destruct (builder_start w b k) as [[[m|e] k2]|x] eqn:S0; [| |discriminate];
      apply start_extends in S0 as (t1 & E); [apply IH in H as (t2 & E2)|apply IHe in H as (t2 & E2)];
      rewrite E2, E, <- app_assoc; eauto.
Qed.

(** ** The failure *)

Lemma run_agrees dbg w n m : fails_first w n m ->
  (forall d (p : wprog d) nss es, prompt_w p -> open_after 0 es = S d -> length es <= n ->
     agrees w n m es (run_w dbg never p nss (alive es)) (run_w dbg w p nss (alive es))) /\
  (forall d (q : bprog d) b nss es, prompt_b q -> open_after 0 es = S d -> length es <= n ->
     agrees w n m es (run_b dbg never q b nss (alive es)) (run_b dbg w q b nss (alive es))).
Proof.
  intros F. apply prog_mut; cbn [run_w run_b prompt_w prompt_b].
  - intros r nss es _ O L. apply agrees_dead; auto. now intros ? ? [= <- <-].
  - intros d s f IH nss es [P1 P2] O L. rewrite (write_alive never) by reflexivity.
    destruct (w (length es)) as [m'|] eqn:E.
    + rewrite (write_failing _ _ _ _ E). destruct (fails_now _ _ _ _ _ F L E) as [L' ->].
      rewrite (give_up_run dbg w _ _ (SMsg m) _ _ (SMsg m) (P2 (SMsg m))) by reflexivity. apply (agrees_now _ _ _ _ (WChars s)); auto.
      intros r k R. now apply (proj1 (run_extends dbg never)) in R.
    + rewrite (write_alive _ _ _ E). eapply agrees_later. apply IH; auto.
      * rewrite open_after_app. cbn. exact O.
      * eapply fails_later; eauto.
  - intros d nm b IH nss es P O L. destruct nss; [now left|]. now apply IH.
  - intros d f IH nss es [P1 P2] O L. rewrite (write_alive never) by reflexivity.
    destruct (w (length es)) as [m'|] eqn:E.
    + rewrite (write_failing _ _ _ _ E). destruct (fails_now _ _ _ _ _ F L E) as [L' ->].
      rewrite (give_up_run dbg w _ _ (SMsg m) _ _ (SMsg m) (P2 (SMsg m))) by reflexivity. apply (agrees_now _ _ _ _ WEnd); auto.
      intros r k R. now apply (proj1 (run_extends dbg never)) in R.
    + rewrite (write_alive _ _ _ E). eapply agrees_later. apply IH; auto.
      * rewrite open_after_app. cbn. now rewrite O.
      * eapply fails_later; eauto.
  - intros d p _ nss es _ O L. apply agrees_dead; auto.
    + intros r k R. now apply (run_dead_out _ _ _ _ _ _ writer_dropped) in R.
    + now apply (proj1 (run_dead dbg w never)) with (y := writer_dropped).
  - intros d msg nss es _ O L. now left.
  - intros d p u q IH b nss es P O L. destruct (builder_namespace _ _ _ _); [|now left]. now apply IH.
  - intros d nm v f IH b nss es P O L. destruct (builder_attribute _ _ _) as [[z b']|]; [|now left]. now apply IH.
  - intros d p _ b nss es _ O L. apply agrees_dead; auto.
    + intros r k R. now apply (run_dead_out _ _ _ _ _ _ builder_dropped) in R.
    + now apply (proj1 (run_dead dbg w never)) with (y := builder_dropped).
  - intros d p IH pe _ b nss es [P1 P2] O L. rewrite (start_alive w).
    destruct (builder_start never b (alive es)) as [[r k]|x] eqn:S0; [|now left].
    apply start_never in S0 as (ms & p0 & l & -> & ->).
    destruct (w (length es)) as [m'|] eqn:E.
    + destruct (fails_now _ _ _ _ _ F L E) as [L' ->].
      rewrite (give_up_run dbg w _ _ (SMsg m) _ _ (SMsg m) (P2 (SMsg m))) by reflexivity.
      apply (agrees_now _ _ _ _ (WStart p0 l (by_prefix ms))); auto.
      intros r k R. now apply (proj1 (run_extends dbg never)) in R.
    + eapply agrees_later. apply IH; auto.
      * rewrite open_after_app. cbn. now rewrite O.
      * eapply fails_later; eauto.
  - intros d msg b nss es _ O L. now left.
Qed.

(** What is left unpoisoned has written as many ends as starts. *)
Lemma run_alive dbg :
  (forall d (p : wprog d) nss es r k, open_after 0 es = S d -> run_w dbg never p nss (alive es) = inl (r, k) ->
     k_poison k = None -> exists es', k = alive es' /\ open_after 0 es' = 1) /\
  (forall d (q : bprog d) b nss es r k, open_after 0 es = S d -> run_b dbg never q b nss (alive es) = inl (r, k) ->
     k_poison k = None -> exists es', k = alive es' /\ open_after 0 es' = 1).
Proof.
  assert (Dead : forall d (p : wprog d) nss k0 y r k, k_poison k0 = Some y -> run_w dbg never p nss k0 = inl (r, k) ->
            k_poison k = None -> False).
  { intros d p nss k0 y r k E R N. apply (proj1 (dead_run dbg never)) with (e := y) in R; [|exact E].
    destruct R as (R & _). congruence. }
  apply prog_mut; cbn [run_w run_b]; try discriminate.
  - intros r nss es r' k O [= <- <-] N. eauto.
  - intros d s f IH nss es r k O R N. rewrite (write_alive never) in R by reflexivity.
    eapply IH; [|exact R|exact N]. rewrite open_after_app. exact O.
  - intros d n b IH nss es r k O R N. destruct nss; [discriminate|]. eauto.
  - intros d f IH nss es r k O R N. rewrite (write_alive never) in R by reflexivity.
    eapply IH; [|exact R|exact N]. rewrite open_after_app. cbn. now rewrite O.
  - intros d p _ nss es r k O R N. exfalso. eapply (Dead _ p _ _ writer_dropped); [|exact R|exact N]. reflexivity.
  - intros d p u q IH b nss es r k O R N. destruct (builder_namespace _ _ _ _); [|discriminate]. eauto.
  - intros d n v f IH b nss es r k O R N. destruct (builder_attribute _ _ _) as [[z b']|]; [|discriminate]. eauto.
  - intros d p _ b nss es r k O R N. exfalso. eapply (Dead _ p _ _ builder_dropped); [|exact R|exact N]. reflexivity.
  - intros d p IH pe _ b nss es r k O R N.
    destruct (builder_start never b (alive es)) as [[r1 k1]|x] eqn:S0; [|discriminate].
    apply start_never in S0 as (ms & p0 & l & -> & ->).
    eapply IH; [|exact R|exact N]. rewrite open_after_app. cbn. now rewrite O.
Qed.

(** ** Whole documents *)

Theorem stops dbg w n m name v r0 k0 : prompt v -> fails_first w n m ->
  to dbg never name v = inl (r0, k0) -> n < length (k_out k0) ->
  to dbg w name v = inl (Some (SMsg m), failed_at n m (k_out k0)).
Proof.
  intros P F. unfold to. destruct (run_a dbg (s_attrs v) _) as [[[e|] b]|x]; [intros [= <- <-]; cbn; lia| |discriminate].
  change sink0 with (alive []). rewrite (start_alive w).
  destruct (builder_start never b (alive [])) as [[r k]|x] eqn:S0; [|discriminate].
  apply start_never in S0 as (ms & p0 & l & -> & ->). cbn [app].
  set (e := WStart p0 l (by_prefix ms)). intros R L.
  destruct (w (length (@nil wevent))) as [m'|] eqn:E.
  - destruct (fails_now w n m [] m' F ltac:(cbn; lia) E) as [<- ->].
    assert (X : exists tl', k_out k0 = [e] ++ tl').
    { destruct (run_w dbg never (s_kids v) [ms] (alive [e])) as [[[x|] k']|x] eqn:R1; [| |discriminate];
        apply (proj1 (run_extends dbg never)) in R1 as (t1 & X).
      - injection R as <- <-. cbn in X |- *. eauto.
      - injection R as R. pose proof (write_extends never WEnd k') as (t2 & Y). rewrite R in Y. cbn in Y, X.
        rewrite Y, X. cbn. eauto. }
    destruct X as (tl' & ->). unfold failed_at, writers_left. reflexivity.
  - assert (L1 : length [e] <= n) by (apply (fails_later w n m [] e F); [cbn; lia|exact E]).
    pose proof (proj1 (run_agrees dbg w n m F) 0 (s_kids v) [ms] [e] P eq_refl L1) as A.
    destruct (run_w dbg never (s_kids v) [ms] (alive [e])) as [[r1 k1]|x] eqn:R1; [|destruct r0; discriminate].
    cbn in A. destruct A as ((t1 & X) & A & B).
    assert (C : n < length (k_out k1) ->
              match run_w dbg w (s_kids v) [ms] (alive [e]) with
              | inl (Some e0, k') => inl (Some e0, poison writer_dropped k')
              | inl (None, k') => inl (write w WEnd k')
              | inr x => inr x
              end = inl (Some (SMsg m), failed_at n m (k_out k1)) :> (option serr * sink) + abort).
    { intros L2. destruct (B L2) as [-> Z]. unfold poison, inner, failed_at. cbn [k_out k_tries k_poison k_log].
      do 3 f_equal. rewrite <- app_assoc. cbn [app]. do 2 f_equal. rewrite repeat_snoc.
      destruct (writers_left (k_out k1) n); [easy|]. reflexivity. }
    destruct r1 as [e1|].
    + injection R as <- <-. cbn in L |- *. now apply C.
    + destruct (k_poison k1) as [y|] eqn:D.
      * injection R as R. unfold write in R. rewrite D in R. injection R as <- <-. cbn in L |- *. now apply C.
      * destruct (proj1 (run_alive dbg) 0 (s_kids v) [ms] [e] None k1 eq_refl R1 D) as (es & -> & O).
        rewrite (write_alive never) in R by reflexivity. injection R as <- <-. cbn [alive k_out] in *.
        destruct (Nat.lt_ge_cases n (length es)) as [L2|L2].
        -- rewrite (C L2). unfold failed_at, writers_left. rewrite firstn_app, nth_error_app1 by exact L2.
           replace (n - length es) with 0 by lia. cbn [firstn]. now rewrite app_nil_r.
        -- rewrite app_length in L. cbn in L. assert (n = length es) by lia. subst n. rewrite (A L2).
           rewrite (write_failing _ _ _ _ (proj2 F)). unfold failed_at, writers_left.
           destruct (cut_here es WEnd [] (length es) eq_refl) as [-> ->]. now rewrite O.
Qed.

(** Before its first failure, an output makes no difference, whatever the program. *)
Lemma run_same dbg w N : (forall i, i < N -> w i = None) ->
  (forall d (p : wprog d) nss es r k, run_w dbg never p nss (alive es) = inl (r, k) -> length (k_out k) <= N ->
     run_w dbg w p nss (alive es) = inl (r, k)) /\
  (forall d (q : bprog d) b nss es r k, run_b dbg never q b nss (alive es) = inl (r, k) -> length (k_out k) <= N ->
     run_b dbg w q b nss (alive es) = inl (r, k)).
Proof.
  intros W.
  assert (Len : forall es e k (tl' : list wevent), k_out k = (es ++ [e]) ++ tl' -> length (k_out k) <= N ->
            w (length es) = None).
  { intros es e k tl' -> L. apply W. rewrite !app_length in L. cbn in L. lia. }
  apply prog_mut; cbn [run_w run_b]; try discriminate.
  - auto.
  - intros d s f IH nss es r k R L. rewrite (write_alive never) in R by reflexivity.
    destruct (proj1 (run_extends dbg never) _ _ _ _ _ _ R) as (tl' & X).
    rewrite (write_alive w) by exact (Len _ _ _ _ X L). eauto.
  - intros d n b IH nss es r k R L. destruct nss; [discriminate|]. eauto.
  - intros d f IH nss es r k R L. rewrite (write_alive never) in R by reflexivity.
    destruct (proj1 (run_extends dbg never) _ _ _ _ _ _ R) as (tl' & X).
    rewrite (write_alive w) by exact (Len _ _ _ _ X L). eauto.
  - intros d p _ nss es r k R L. rewrite <- R. now apply (proj1 (run_dead dbg w never)) with (y := writer_dropped).
  - intros d p u q IH b nss es r k R L. destruct (builder_namespace _ _ _ _); [|discriminate]. eauto.
  - intros d n v f IH b nss es r k R L. destruct (builder_attribute _ _ _) as [[z b']|]; [|discriminate]. eauto.
  - intros d p _ b nss es r k R L. rewrite <- R. now apply (proj1 (run_dead dbg w never)) with (y := builder_dropped).
  - intros d p IH pe _ b nss es r k R L. rewrite (start_alive w).
    destruct (builder_start never b (alive es)) as [[r1 k1]|x] eqn:S0; [|discriminate].
    apply start_never in S0 as (ms & p0 & l & -> & ->).
    destruct (proj1 (run_extends dbg never) _ _ _ _ _ _ R) as (tl' & X).
    rewrite (Len es _ _ _ X L). eauto.
Qed.

Theorem same_before dbg w name v r0 k0 : to dbg never name v = inl (r0, k0) ->
  (forall i, i < length (k_out k0) -> w i = None) -> to dbg w name v = inl (r0, k0).
Proof.
  intros R W. revert R. unfold to. destruct (run_a dbg (s_attrs v) _) as [[[e|] b]|x]; [auto| |discriminate].
  change sink0 with (alive []). rewrite (start_alive w).
  destruct (builder_start never b (alive [])) as [[r k]|x] eqn:S0; [|discriminate].
  apply start_never in S0 as (ms & p0 & l & -> & ->). cbn [app]. set (e := WStart p0 l (by_prefix ms)).
  destruct (run_w dbg never (s_kids v) [ms] (alive [e])) as [[r1 k1]|x] eqn:R1; [|discriminate]. intros R.
  assert (X : exists tl', k_out k0 = k_out k1 ++ tl').
  { destruct r1.
    - injection R as <- <-. exists []. now rewrite app_nil_r.
    - injection R as R. pose proof (write_extends never WEnd k1) as H. now rewrite R in H. }
  destruct X as (t1 & X). destruct (proj1 (run_extends dbg never) _ _ _ _ _ _ R1) as (t2 & X2). cbn in X2.
  assert (L0 : 0 < length (k_out k0)) by (rewrite X, X2; cbn; lia).
  cbn [length]. rewrite (W 0 L0).
  rewrite (proj1 (run_same dbg w _ W) _ _ _ _ _ _ R1) by (rewrite X, app_length; lia).
  destruct r1; [exact R|]. injection R as R. rewrite <- R. f_equal.
  destruct (k_poison k1) as [y|] eqn:D; [now apply write_dead with (y := y)|].
  destruct (proj1 (run_alive dbg) 0 (s_kids v) [ms] [e] None k1 eq_refl R1 D) as (es & -> & O).
  rewrite (write_alive never) in R |- * by reflexivity. apply write_alive. apply W.
  injection R as <- <-. cbn. rewrite app_length. cbn. lia.
Qed.

(** A failing output adds no panic. *)
Lemma run_no_panic dbg w :
  (forall d (p : wprog d) nss es x, prompt_w p -> run_w dbg w p nss (alive es) = inr x ->
     run_w dbg never p nss (alive es) = inr x) /\
  (forall d (q : bprog d) b nss es x, prompt_b q -> run_b dbg w q b nss (alive es) = inr x ->
     run_b dbg never q b nss (alive es) = inr x).
Proof.
  apply prog_mut; cbn [run_w run_b prompt_w prompt_b]; try discriminate; auto.
  - intros d s f IH nss es x [P1 P2] R. rewrite (write_alive never) by reflexivity.
    destruct (w (length es)) as [m|] eqn:E.
    + rewrite (write_failing _ _ _ _ E) in R.
      rewrite (give_up_run dbg w _ _ (SMsg m) _ _ (SMsg m) (P2 (SMsg m))) in R by reflexivity. discriminate.
    + rewrite (write_alive _ _ _ E) in R. eauto.
  - intros d n b IH nss es x P R. destruct nss; eauto.
  - intros d f IH nss es x [P1 P2] R. rewrite (write_alive never) by reflexivity.
    destruct (w (length es)) as [m|] eqn:E.
    + rewrite (write_failing _ _ _ _ E) in R.
      rewrite (give_up_run dbg w _ _ (SMsg m) _ _ (SMsg m) (P2 (SMsg m))) in R by reflexivity. discriminate.
    + rewrite (write_alive _ _ _ E) in R. eauto.
  - intros d p _ nss es x _ R. rewrite <- R. now apply (proj1 (run_dead dbg never w)) with (y := writer_dropped).
  - intros d p u q IH b nss es x P R. destruct (builder_namespace _ _ _ _); eauto.
  - intros d n v f IH b nss es x P R. destruct (builder_attribute _ _ _) as [[z b']|]; eauto.
  - intros d p _ b nss es x _ R. rewrite <- R. now apply (proj1 (run_dead dbg never w)) with (y := builder_dropped).
  - intros d p IH pe _ b nss es x [P1 P2] R. rewrite (start_alive w) in R.
    destruct (builder_start never b (alive es)) as [[r1 k1]|y] eqn:S0; [|exact R].
    apply start_never in S0 as (ms & p0 & l & -> & ->).
    destruct (w (length es)) as [m|] eqn:E; [|eauto].
    rewrite (give_up_run dbg w _ _ (SMsg m) _ _ (SMsg m) (P2 (SMsg m))) in R by reflexivity. discriminate.
Qed.

Theorem no_new_panic dbg w name v x : prompt v -> to dbg w name v = inr x -> to dbg never name v = inr x.
Proof.
  intros P. unfold to. destruct (run_a dbg (s_attrs v) _) as [[[e|] b]|y]; [discriminate| |auto].
  change sink0 with (alive []). rewrite (start_alive w).
  destruct (builder_start never b (alive [])) as [[r k]|y] eqn:S0; [|auto].
  apply start_never in S0 as (ms & p0 & l & -> & ->).
  destruct (w _); [discriminate|].
  destruct (run_w dbg w (s_kids v) [ms] _) as [[[z|] k1]|y] eqn:R; try discriminate.
  intros [= <-]. now rewrite (proj1 (run_no_panic dbg w) _ _ _ _ _ P R).
Qed.

(** ** Generated code returns every error at once *)

Definition quits {d} (k : option serr -> wprog d) : Prop := forall x, gives_up x (k (Some x)).
Definition prompt_k {d} (k : option serr -> wprog d) : Prop := prompt_w (k None) /\ quits k.

Lemma gives_up_prompt d (p : wprog d) x : gives_up x p -> prompt_w p.
Proof. destruct p; cbn; easy. Qed.

Lemma prompt_any {d} (k : option serr -> wprog d) : prompt_k k -> forall r, prompt_w (k r).
Proof. intros [H1 H2] [x|]; [exact (gives_up_prompt _ _ x (H2 x))|exact H1]. Qed.

Lemma gives_up_graft {d} (k : option serr -> wprog d) x : quits k -> forall e (p : wprog e), gives_up x p ->
  gives_up x (graft p k).
Proof.
  intros K. induction p as [r| | | |e p IHp| | | | | |] using wprog_mut with (P0 := fun _ _ => True);
    cbn [gives_up graft]; try exact I; try easy.
  - intros ->. apply K.
Qed.

Lemma prompt_graft {d} (k : option serr -> wprog d) : prompt_k k ->
  (forall e (p : wprog e), prompt_w p -> prompt_w (graft p k)) /\
  (forall e (q : bprog e), prompt_b q -> prompt_b (graft_b q k)).
Proof.
  intros K. apply prog_mut; cbn [prompt_w prompt_b graft graft_b]; auto.
  - intros r _. now apply prompt_any.
  - intros e s f IH [H1 H2]. split; [auto|]. intros x. now apply gives_up_graft; [apply K|].
  - intros e f IH [H1 H2]. split; [auto|]. intros x. now apply gives_up_graft; [apply K|].
  - intros e p IH pe _ [H1 H2]. split; [auto|]. intros x. now apply gives_up_graft; [apply K|].
Qed.

Lemma prompt_embed {d} (a : aprog) : forall k : option serr -> bprog d, (forall r, prompt_b (k r)) ->
  prompt_b (embed a k).
Proof. induction a as [r|p u a IH|n v f IH|m]; cbn; auto. Qed.

Lemma prompt_on_ok {d} (k : option serr -> wprog d) p : quits k -> prompt_w p -> prompt_k (on_ok k p).
Proof. intros K P. split; [exact P|]. intros x. apply K. Qed.

Lemma prompt_one {d} n a kids (k : option serr -> wprog d) :
  (forall k', prompt_k k' -> prompt_w (kids k')) -> prompt_k k -> prompt_w (write_one n a kids k).
Proof.
  intros Hk K. cbn [write_one prompt_w]. apply prompt_embed. intros [e|]; cbn [prompt_b]; [exact I|].
  split; [|apply K]. apply Hk. split; [exact K|]. intros x. cbn. apply K.
Qed.

Lemma prompt_each_of {d} one l : forall k : option serr -> wprog d,
  (forall v k, In v l -> prompt_k k -> prompt_w (one v k)) -> prompt_k k -> prompt_w (for_each one l k).
Proof.
  induction l as [|v l IH]; intros k H K; cbn [for_each]; [apply K|].
  apply H; [now left|]. apply prompt_on_ok; [apply K|]. apply IH; auto. intros. apply H; auto. now right.
Qed.

Fixpoint vsize (v : value) : nat :=
  match v with
  | VText _ | VNone | VSkipped => 1
  | VSome v => S (vsize v)
  | VVec l | VStruct l => S (list_sum (map vsize l))
  | VEnum _ (Some v) => S (vsize v)
  | VEnum _ None => 1
  end.

Lemma vsize_in v l : In v l -> vsize v <= list_sum (map vsize l).
Proof.
  induction l as [|x l IH]; [easy|]. intros [->|H]; cbn; [lia|]. apply IH in H. unfold list_sum in H. lia.
Qed.

Lemma prompt_field {d} one kd v (k : option serr -> wprog d) :
  (forall v' k, vsize v' <= vsize v -> prompt_k k -> prompt_w (one v' k)) -> prompt_k k ->
  prompt_w (write_field one kd v k).
Proof.
  intros H K. destruct kd; cbn [write_field].
  - now apply H.
  - destruct v; try exact I; [apply K|]. apply H; auto. cbn. lia.
  - destruct v; try exact I. apply prompt_each_of; auto. intros v' k' Hin K'. apply H; auto.
    apply vsize_in in Hin. cbn. lia.
Qed.

Lemma prompt_each {d} sel w vs : forall fs (k : option serr -> wprog d),
  (forall f v k, In v vs -> prompt_k k -> prompt_w (w f v k)) -> prompt_k k -> prompt_w (w_each sel w vs fs k).
Proof.
  induction vs as [|v vs IH]; intros [|f fs] k H K; cbn [w_each]; try exact I; [apply K|].
  assert (R : prompt_w (w_each sel w vs fs k)) by (apply IH; auto; intros; apply H; auto; now right).
  destruct (sel f); [|exact R]. apply H; [now left|]. apply prompt_on_ok; [apply K|exact R].
Qed.

Section Derived.
  Context (o : oracles) (env : tenv) (hand : nat -> option (value -> serialize)).
  Context (H : forall id h, hand id = Some h -> forall v, prompt (h v)).

  Lemma prompt_kids s : forall v t d (k : option serr -> wprog d), vsize v <= s -> prompt_k k ->
    prompt_w (mser_kids o env hand v t k).
  Proof.
    induction s as [|s IH]; intros v t d k L K; [destruct v as [|?|? []| | | |]; cbn in L; lia|].
    destruct t as [t|id].
    - destruct v; cbn [mser_kids]; try exact I. destruct (to_text o t _); [exact K|].
      destruct (text_error o t _); [|exact I]. now apply prompt_any.
    - destruct v as [x|vs|i p| | | |]; cbn [mser_kids];
        (destruct (env id) as [[? ? ? fs|? ? ? variants skipped]|];
        [| |destruct (hand id) as [h|] eqn:E; [|exact I]; exact (proj1 (prompt_graft k K) 0 _ (H id h E _))]);
        try exact I.
      + assert (In_vs : forall v, In v vs -> vsize v <= s)
          by (intros v Hin; apply vsize_in in Hin; cbn in L; lia).
        apply prompt_each.
        * intros f v k0 Hin K0. destruct (f_mode f); try exact I. apply prompt_field; [|exact K0].
          intros v' k9 L1 K1. apply prompt_one; [|exact K1]. intros k' K'. apply IH; [|exact K'].
          specialize (In_vs v Hin). lia.
        * apply prompt_on_ok; [apply K|]. apply prompt_each; [|exact K].
          intros f v k0 Hin K0. destruct (f_mode f); try exact I. apply IH; auto.
      + destruct (nth_error _ i) as [w|]; [|exact I]. destruct (v_ty w) as [[kd t]|], p as [x|]; try exact I.
        * apply prompt_field; [|exact K]. intros v' k9 L1 K1. apply prompt_one; [|exact K1].
          intros k' K'. apply IH; [|exact K']. cbn in L. lia.
        * cbn. split; [exact K|apply K].
      + destruct skipped; [apply K|exact I].
  Qed.

  Theorem mixed_prompt t v : prompt (mser_value o env hand t v).
  Proof. apply (prompt_kids (vsize v)); [lia|]. now split. Qed.
End Derived.

Theorem derived_prompt o env t v : prompt (ser_value o env t v).
Proof. rewrite <- no_hand_written. now apply mixed_prompt. Qed.

Theorem derived_stops o env dbg w n m t v name r k : fails_first w n m ->
  serialize_with_name o env dbg never t v name = inl (r, k) ->
  serialize_with_name o env dbg w t v name =
  (if n <? length (k_out k) then inl (Some (SMsg m), failed_at n m (k_out k)) else inl (r, k)).
Proof.
  intros F R. destruct (Nat.ltb_spec n (length (k_out k))) as [L|L].
  - eapply stops; eauto. apply derived_prompt.
  - apply same_before; [exact R|]. intros i Hi. apply F. lia.
Qed.
