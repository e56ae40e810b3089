(** Exactly which prefixes are chosen. *)
From Verif Require Import Base Text TextSpec TextProofs TextCanon Find FindProofs BMap Ser SerSpec SerProofs SerTree
  NsProofs NsSpec NsMain NsMeaning NsChoice NsExactSpec.
From Coq Require Import Lia.

(** ** One namespace *)

Lemma numbered_canonical p i s : canonical s (Z.of_nat i) -> numbered p i = (p ++ s)%string.
Proof.
  intro H. unfold numbered. f_equal. eapply canonical_unique; [|exact H].
  rewrite <- nat_N_Z. apply show_N_canonical.
Qed.

Lemma numbered_has p i : exists s, canonical s (Z.of_nat i) /\ numbered p i = (p ++ s)%string.
Proof.
  exists (str_of (show_N (N.of_nat i))). split; [|reflexivity]. rewrite <- nat_N_Z. apply show_N_canonical.
Qed.

Lemma pick_spec fuel : forall p i u m q m', pick fuel p i u m = Some (q, m') ->
  exists k, i <= k /\ q = numbered p k /\ bm_mem q m = false /\ m' = bm_insert q u m /\
    forall j, i <= j < k -> bm_mem (numbered p j) m = true.
Proof.
  induction fuel as [|fuel IH]; intros p i u m q m' H; cbn [pick] in H; [discriminate|].
  unfold ns_put in H. destruct (bm_mem (numbered p i) m) eqn:E.
  - destruct (IH _ _ _ _ _ _ H) as (k & A & B & C & D & F). exists k. repeat split; auto; [lia|].
    intros j Hj. destruct (Nat.eq_dec j i); [subst; assumption|]. apply F. lia.
  - inversion H; subst. exists i. repeat split; auto. intros j Hj. lia.
Qed.

Lemma picks_iff (T T' : string -> Prop) a p q : (forall x, T x <-> T' x) -> picks T a p q -> picks T' a p q.
Proof.
  intros H. unfold picks. destruct (if String.eqb p "" then _ else _) as [base first].
  intros [[[A B] E] | [N (i & s & A & B & C & D & F)]].
  - left. rewrite <- H. auto.
  - right. split; [rewrite <- H; exact N|]. exists i, s. rewrite <- H. repeat split; auto.
    intros j s' Hj Hc. rewrite <- H. eauto.
Qed.

(** What [assign_required] does for one namespace. *)
Lemma step_picks u e (m : bmap string) (k : string -> bmap string -> Prop) q m' :
  (if (q_needs e && String.eqb (q_prefix e) "")%bool then false else negb (bm_mem (q_prefix e) m)) = true ->
  q = q_prefix e -> m' = bm_insert q u m ->
  picks (fun x => bm_mem x m = true) (q_needs e) (q_prefix e) q /\ bm_mem q m = false.
Proof.
  intros H -> ->. destruct (q_needs e && String.eqb (q_prefix e) "")%bool eqn:E; [discriminate|].
  apply negb_true_iff in H. split; [|assumption]. unfold picks. destruct (if String.eqb (q_prefix e) "" then _ else _).
  left. rewrite H. split; [|reflexivity]. split; [|discriminate]. intros [A B]. rewrite A, B in E. discriminate.
Qed.

Lemma fallback_picks u e (m : bmap string) p i q m' :
  (if (q_needs e && String.eqb (q_prefix e) "")%bool then false else negb (bm_mem (q_prefix e) m)) = false ->
  (p, i) = (if String.eqb (q_prefix e) "" then ("ns"%string, 1) else (q_prefix e, 2)) ->
  pick (S (List.length m)) p i u m = Some (q, m') ->
  picks (fun x => bm_mem x m = true) (q_needs e) (q_prefix e) q /\ bm_mem q m = false /\ m' = bm_insert q u m.
Proof.
  intros H Hp Hk. destruct (pick_spec _ _ _ _ _ _ _ Hk) as (k & A & B & C & D & F).
  split; [|auto]. unfold picks. rewrite <- Hp. right. split.
  - intros [X Y]. destruct (q_needs e && String.eqb (q_prefix e) "")%bool eqn:E.
    + apply andb_prop in E. destruct E as [E1 E2]. apply String.eqb_eq in E2. tauto.
    + apply negb_false_iff in H. congruence.
  - destruct (numbered_has p k) as (s & S1 & S2). exists k, s. repeat split; auto; try congruence.
    intros j s' Hj Hc. rewrite <- (numbered_canonical p j s' Hc). auto.
Qed.

(** ** All namespaces *)

Lemma required_exact l : forall m l' m', ksorted l -> assign_required l m = Some (l', m') ->
  (forall q u, bm_get q m = Some u -> bm_get q m' = Some u) /\
  (forall q u, bm_get q m' = Some u -> bm_get q m = Some u \/ exists e, In (u, e) l /\ q_required e = true) /\
  (forall u e, In (u, e) l -> q_required e = true -> exists q, bm_get q m' = Some u /\
     picks (fun x => bm_mem x m = true \/ exists v e', In (v, e') l /\ String.compare v u = Lt /\
                       q_required e' = true /\ bm_get x m' = Some v) (q_needs e) (q_prefix e) q).
Proof.
  induction l as [|[u e] l IH]; intros m l' m' Hs H; cbn [assign_required] in H.
  { inversion H; subst. repeat split; auto. intros u e []. }
  inversion Hs as [|? ? ? Hlt Hs']; subst.
  assert (Ord : forall v e', In (v, e') l -> String.compare u v = Lt).
  { intros v e' Hin. apply Hlt. apply in_map_iff. now exists (v, e'). }
  assert (NoLt : forall v e', In (v, e') ((u, e) :: l) -> String.compare v u = Lt -> False).
  { intros v e' [E | Hin] C; [inversion E; subst; now rewrite str_compare_refl in C|].
    pose proof (Ord _ _ Hin) as O. rewrite String.compare_antisym, O in C. discriminate. }
  destruct (q_required e) eqn:Er.
  - (* the step *)
    assert (St : exists q l1, assign_required l (bm_insert q u m) = Some (l1, m') /\ bm_mem q m = false /\
       picks (fun x => bm_mem x m = true) (q_needs e) (q_prefix e) q).
    { destruct (if (q_needs e && String.eqb (q_prefix e) "")%bool then false else negb (bm_mem (q_prefix e) m)) eqn:Eu.
      - destruct (step_picks u e m (fun _ _ => True) (q_prefix e) _ Eu eq_refl eq_refl) as [P F].
        destruct (q_needs e && String.eqb (q_prefix e) "")%bool; [discriminate|].
        unfold ns_put in H. rewrite F in H.
        destruct (assign_required l (bm_insert (q_prefix e) u m)) as [[l1 m1]|] eqn:E; [|discriminate].
        inversion H; subst. exists (q_prefix e), l1. auto.
      - destruct (if String.eqb (q_prefix e) "" then ("ns"%string, 1) else (q_prefix e, 2)) as [p i] eqn:Ep.
        assert (H' : match pick (S (List.length m)) p i u m with
          | Some (p', m'0) => match assign_required l m'0 with
              | Some (l'', m'') => Some ((u, NsEntry (q_prefix e) (Some p') (q_required e) (q_needs e)) :: l'', m'')
              | None => None end
          | None => None end = Some (l', m')).
        { rewrite Er. destruct (q_needs e && String.eqb (q_prefix e) "")%bool; [exact H|].
          unfold ns_put in H. apply negb_false_iff in Eu. rewrite Eu in H. exact H. }
        clear H. destruct (pick (S (List.length m)) p i u m) as [[q m1]|] eqn:Ek; [|discriminate].
        destruct (fallback_picks u e m p i q m1 Eu (eq_sym Ep) Ek) as (P & F & ->).
        destruct (assign_required l (bm_insert q u m)) as [[l1 m2]|] eqn:E; [|discriminate].
        inversion H'; subst. exists q, l1. auto. }
    destruct St as (q & l1 & E & Fq & P). destruct (IH _ _ _ Hs' E) as (K & O & A).
    assert (Kq : bm_get q m' = Some u) by (apply K; now rewrite bm_get_insert, String.eqb_refl).
    assert (Kq' : forall x, bm_get x m' = Some u -> bm_get x (bm_insert q u m) = Some u).
    { intros x Hx. destruct (O _ _ Hx) as [G | (e' & Hin & _)]; [assumption|].
      pose proof (Ord _ _ Hin) as C. now rewrite str_compare_refl in C. }
    split; [|split].
    + intros x v Hx. apply K. rewrite bm_get_insert. destruct (String.eqb_spec x q); [|assumption].
      subst. unfold bm_mem in Fq. rewrite Hx in Fq. discriminate.
    + intros x v Hx. destruct (O _ _ Hx) as [G | (e' & Hin & Hr)].
      * rewrite bm_get_insert in G. destruct (String.eqb_spec x q); [|auto]. inversion G; subst. right. exists e. split; [now left|assumption].
      * right. exists e'. split; [now right|assumption].
    + intros v e1 [Eq | Hin] Hr.
      * inversion Eq; subst v e1. exists q. split; [assumption|]. eapply picks_iff; [|exact P].
        intro x. cbn. split; [auto|]. intros [X | (w & e' & Hin & C & _)]; [assumption|]. destruct (NoLt _ _ Hin C).
      * destruct (A v e1 Hin Hr) as (q1 & G1 & P1). exists q1. split; [assumption|].
        eapply picks_iff; [|exact P1]. intro x. cbn beta. split.
        -- intros [X | (w & e' & Hw & C & R & G)].
           ++ rewrite bm_mem_insert in X. destruct (String.eqb_spec x q); [|auto]. subst x. right.
              exists u, e. repeat split; auto; [now left|eapply Ord; eauto].
           ++ right. exists w, e'. repeat split; auto. now right.
        -- intros [X | (w & e' & [Eq | Hw] & C & R & G)].
           ++ left. rewrite bm_mem_insert, X. apply orb_true_r.
           ++ inversion Eq; subst w e'. left. apply Kq' in G. unfold bm_mem. now rewrite G.
           ++ right. exists w, e'. repeat split; auto.
  - destruct (assign_required l m) as [[l1 m1]|] eqn:E; [|discriminate]. inversion H; subst. clear H.
    destruct (IH _ _ _ Hs' E) as (K & O & A). split; [assumption|]. split.
    + intros x v Hx. destruct (O _ _ Hx) as [G | (e' & Hin & Hr)]; [auto|]. right. exists e'. split; [now right|assumption].
    + intros v e1 [Eq | Hin] Hr; [inversion Eq; subst; congruence|].
      destruct (A v e1 Hin Hr) as (q1 & G1 & P1). exists q1. split; [assumption|].
      eapply picks_iff; [|exact P1]. intro x. cbn beta. split.
      * intros [X | (w & e' & Hw & R)]; [auto|]. right. exists w, e'. split; [now right|assumption].
      * intros [X | (w & e' & [Eq | Hw] & C & R & G)]; [auto| |].
        -- inversion Eq; subst. congruence.
        -- right. exists w, e'. auto.
Qed.

Lemma required_keeps l : forall m l' m', assign_required l m = Some (l', m') ->
  keys l' = keys l /\ forall v e, q_required e = false -> (In (v, e) l' <-> In (v, e) l).
Proof.
  induction l as [|[u e0] l IH]; intros m l' m' H; cbn [assign_required] in H.
  { inversion H; subst. split; [reflexivity|tauto]. }
  assert (St : exists e1 m1 l1 m2, assign_required l m1 = Some (l1, m2) /\ l' = (u, e1) :: l1 /\ (e1 = e0 \/ q_required e0 = true /\ q_required e1 = true)).
  { assert (Go : forall p1 m1, match assign_required l m1 with
         | Some (l'', m'') => Some ((u, NsEntry (q_prefix e0) (Some p1) (q_required e0) (q_needs e0)) :: l'', m'')
         | None => None end = Some (l', m') -> q_required e0 = true ->
       exists e1 m1 l1 m2, assign_required l m1 = Some (l1, m2) /\ l' = (u, e1) :: l1 /\
         (e1 = e0 \/ q_required e0 = true /\ q_required e1 = true)).
    { intros p1 m1 X R. destruct (assign_required l m1) as [[l1 m2]|] eqn:E; [|discriminate].
      inversion X; subst. do 4 eexists. split; [exact E|]. split; [reflexivity|]. right. auto. }
    destruct (q_required e0) eqn:Er.
    - destruct (if String.eqb (q_prefix e0) "" then ("ns"%string, 1) else (q_prefix e0, 2)) as [p i].
      destruct (q_needs e0 && String.eqb (q_prefix e0) "")%bool.
      + destruct (pick (S (List.length m)) p i u m) as [[p1 m1]|]; [|discriminate]. eapply Go; [exact H|reflexivity].
      + destruct (ns_put (q_prefix e0) u m) as [[|] m1]; [eapply Go; [exact H|reflexivity]|].
        destruct (pick (S (List.length m)) p i u m) as [[p1 m2]|]; [|discriminate]. eapply Go; [exact H|reflexivity].
    - destruct (assign_required l m) as [[l1 m1]|] eqn:E; [|discriminate]. inversion H; subst.
      do 4 eexists. split; [exact E|]. auto. }
  destruct St as (e1 & m1 & l1 & m2 & E & -> & C). destruct (IH _ _ _ E) as [K I]. split; [unfold keys in *; cbn; now rewrite K|].
  intros v e R. cbn [In]. rewrite (I v e R). destruct C as [-> | [R0 R1]]; [tauto|].
  split; (intros [X | X]; [inversion X; subst; congruence|auto]).
Qed.

Lemma picks_unique T a p q q' : picks T a p q -> picks T a p q' -> q = q'.
Proof.
  unfold picks. destruct (if String.eqb p "" then _ else _) as [base first].
  intros [[U E] | [U (i & s & A & B & C & D & F)]] [[U' E'] | [U' (i' & s' & A' & B' & C' & D' & F')]];
    try contradiction; [congruence|].
  destruct (Nat.lt_trichotomy i i') as [L | [L | L]].
  - exfalso. apply D. rewrite C. eapply F'; [|exact B]. lia.
  - subst i'. rewrite C, C'. f_equal. eapply canonical_unique; eauto.
  - exfalso. apply D'. rewrite C'. eapply F; [|exact B']. lia.
Qed.

Lemma optional_exact l : forall m l' m', assign_optional l m = (l', m') ->
  (forall u e u' e', In (u, e) l -> In (u', e') l -> q_required e = false -> q_required e' = false ->
     q_prefix e = q_prefix e' -> u = u') -> NoDup (keys l) ->
  forall q u, bm_get q m' = Some u <->
    bm_get q m = Some u \/
    (bm_mem q m = false /\ exists e, In (u, e) l /\ q_required e = false /\ q_prefix e = q).
Proof.
  induction l as [|[v e] l IH]; intros m l' m' H Hd Hn q u; cbn [assign_optional] in H.
  { inversion H; subst. split; [auto|]. intros [G | (_ & e & [] & _)]. exact G. }
  inversion Hn as [|? ? Hni Hn']; subst.
  assert (Hd' : forall u e u' e', In (u, e) l -> In (u', e') l -> q_required e = false -> q_required e' = false ->
     q_prefix e = q_prefix e' -> u = u') by (intros; eapply Hd; [right|right| | |]; eauto).
  destruct (q_required e) eqn:Er.
  - destruct (assign_optional l m) as [l1 m1] eqn:E. inversion H; subst. rewrite (IH _ _ _ E Hd' Hn').
    split; (intros [G | (F & e' & Hin & R & P)]; [auto|]); right; (split; [assumption|]); exists e'.
    + split; [now right|auto].
    + destruct Hin as [Eq | Hin]; [inversion Eq; subst; congruence|auto].
  - unfold ns_put in H. destruct (bm_mem (q_prefix e) m) eqn:Em.
    + destruct (assign_optional l m) as [l1 m1] eqn:E. inversion H; subst. rewrite (IH _ _ _ E Hd' Hn').
      split; (intros [G | (F & e' & Hin & R & P)]; [auto|]); right; (split; [assumption|]); exists e'.
      * split; [now right|auto].
      * destruct Hin as [Eq | Hin]; [inversion Eq; subst; congruence|auto].
    + destruct (assign_optional l (bm_insert (q_prefix e) v m)) as [l1 m1] eqn:E. inversion H; subst.
      rewrite (IH _ _ _ E Hd' Hn'), bm_get_insert, bm_mem_insert. destruct (String.eqb_spec q (q_prefix e)) as [->|Hne]; cbn [orb].
      * split.
        -- intros [G | (F & _)]; [|discriminate]. inversion G; subst. right. split; [assumption|]. exists e. split; [now left|auto].
        -- intros [G | (F & e' & Hin & R & P)].
           ++ unfold bm_mem in Em. rewrite G in Em. discriminate.
           ++ left. f_equal. eapply Hd; [left; reflexivity|exact Hin| | |]; auto.
      * split; (intros [G | (F & e' & Hin & R & P)]; [auto|]); right; (split; [assumption|]); exists e'.
        -- split; [now right|auto].
        -- destruct Hin as [Eq | Hin]; [inversion Eq; subst; congruence|auto].
Qed.

Lemma finalize_exact b m : wf_builder b -> finalize b = Some m ->
  (forall u e u' e', bm_get u b = Some e -> bm_get u' b = Some e' -> q_required e = false -> q_required e' = false ->
     q_prefix e = q_prefix e' -> u = u') ->
  let taken u q := exists v e, String.compare v u = Lt /\ bm_get v b = Some e /\ q_required e = true /\ bm_get q (by_prefix m) = Some v in
  forall q u, bm_get q (by_prefix m) = Some u <-> exists e, bm_get u b = Some e /\
    if q_required e then picks (taken u) (q_needs e) (q_prefix e) q
    else q = q_prefix e /\ forall v e', bm_get v b = Some e' -> q_required e' = true -> bm_get q (by_prefix m) <> Some v.
Proof.
  intros W H Hd taken q u. assert (H' := H). destruct W as [Hs Hw]. unfold finalize in H.
  destruct (assign_required b []) as [[b1 m1]|] eqn:E1; [|discriminate].
  destruct (assign_optional b1 m1) as [b2 m2] eqn:E2. inversion H; subst m. clear H. cbn [by_prefix] in *.
  destruct (finalize_ok b (conj Hs Hw)) as (m & Ef & Fo). rewrite H' in Ef. inversion Ef; subst m. clear Ef H'.
  pose proof (final_values _ _ Fo) as Nv. pose proof (fo_sorted _ _ Fo) as Sm. cbn [by_prefix] in Nv, Sm. clear Fo.
  pose proof (sorted_NoDup _ Hs) as Nd.
  destruct (required_exact b [] b1 m1 Hs E1) as (_ & O & A).
  destruct (required_keeps _ _ _ _ E1) as [K1 I1].
  assert (B1 : forall v q', (exists e, In (v, e) b1 /\ q_required e = false /\ q_prefix e = q') <->
                        (exists e, bm_get v b = Some e /\ q_required e = false /\ q_prefix e = q')).
  { intros v q'. split; intros (e & G & R & P); exists e; (split; [|auto]).
    - apply In_bm_get; [assumption|]. now apply I1.
    - apply I1; [assumption|]. now apply bm_get_In. }
  assert (Opt : forall q u, bm_get q m2 = Some u <-> bm_get q m1 = Some u \/
    (bm_mem q m1 = false /\ exists e, bm_get u b = Some e /\ q_required e = false /\ q_prefix e = q)).
  { intros q' u'. rewrite (optional_exact b1 m1 b2 m2 E2); [now rewrite B1| |now rewrite K1].
    intros v e v' e' I I' R R' P.
    destruct (proj1 (B1 v (q_prefix e)) ltac:(eauto)) as (x & X1 & X2 & X3).
    destruct (proj1 (B1 v' (q_prefix e')) ltac:(eauto)) as (y & Y1 & Y2 & Y3).
    eapply Hd; eauto. congruence. }
  assert (Req : forall q u e, bm_get u b = Some e -> q_required e = true -> (bm_get q m2 = Some u <-> bm_get q m1 = Some u)).
  { intros q' u' e G R. rewrite Opt. split; [|auto]. intros [X | (_ & e' & G' & R' & _)]; [assumption|congruence]. }
  assert (Only : forall q u, bm_get q m1 = Some u -> exists e, bm_get u b = Some e /\ q_required e = true).
  { intros q' u' G. destruct (O _ _ G) as [X | (e & Hin & R)]; [discriminate|]. exists e. split; [|assumption].
    now apply In_bm_get. }
  assert (Uniq : forall q q' u, bm_get q m2 = Some u -> bm_get q' m2 = Some u -> q = q').
  { intros q1 q2 u' G1 G2. apply bm_get_In in G1, G2. clear - Nv G1 G2.
    induction m2 as [|[a c] m IH]; [destruct G1|]. cbn in Nv. inversion Nv as [|? ? N1 N2]; subst.
    destruct G1 as [E1|G1], G2 as [E2|G2].
    - congruence.
    - inversion E1; subst. exfalso. apply N1. apply in_map_iff. now exists (q2, u').
    - inversion E2; subst. exfalso. apply N1. apply in_map_iff. now exists (q1, u').
    - auto. }
  assert (Tk : forall u x, taken u x <-> (bm_mem x ([] : bmap string) = true \/ exists v e', In (v, e') b /\ String.compare v u = Lt /\
                       q_required e' = true /\ bm_get x m1 = Some v)).
  { intros u' x. unfold taken. split.
    - intros (v & e & C & G & R & X). right. exists v, e. repeat split; auto; [now apply bm_get_In|].
      now apply (Req _ _ _ G R).
    - intros [X | (v & e & Hin & C & R & G)]; [discriminate|]. exists v, e.
      assert (bm_get v b = Some e) by now apply In_bm_get.
      repeat split; auto. now apply (Req _ _ e). }
  split.
  - intro G. apply Opt in G. destruct G as [G | (Fr & e & Gu & R & P)].
    + destruct (Only _ _ G) as (e & Gu & R). exists e. split; [assumption|]. rewrite R.
      destruct (A u e (bm_get_In _ _ _ Gu) R) as (q1 & G1 & P1).
      assert (q1 = q) by (eapply Uniq; apply Opt; left; eauto). subst q1.
      eapply picks_iff; [|exact P1]. intro x. symmetry. apply Tk.
    + exists e. split; [assumption|]. rewrite R. split; [auto|]. intros v e' Gv Rv X. apply (Req _ _ _ Gv Rv) in X.
      unfold bm_mem in Fr. rewrite X in Fr. discriminate.
  - intros (e & Gu & P). destruct (q_required e) eqn:R.
    + destruct (A u e (bm_get_In _ _ _ Gu) R) as (q1 & G1 & P1).
      apply (Req _ _ _ Gu R). rewrite (picks_unique _ _ _ q q1 P); [exact G1|].
      eapply picks_iff; [|exact P1]. intro x. symmetry. apply Tk.
    + destruct P as [-> P]. apply Opt. right. split; [|eauto].
      unfold bm_mem. destruct (bm_get (q_prefix e) m1) as [v|] eqn:G; [|reflexivity]. exfalso.
      destruct (Only _ _ G) as (e' & Gv & Rv). eapply P; eauto. now apply (Req _ _ _ Gv Rv).
Qed.

(** ** Elements *)

Lemma apply_reqs_exact dbg u l : forall b b', apply_reqs dbg l b = inl b' ->
  bm_get u b' =
  match bm_get u b with
  | Some e =>
      if q_required e then Some (NsEntry (q_prefix e) (q_assigned e) true (q_needs e || attribute_in true u l))
      else match first_request (Some (q_prefix e)) u l with
           | Some p => Some (NsEntry p (q_assigned e) true (q_needs e || attribute_in true u l))
           | None => Some e
           end
  | None =>
      match first_request None u l with
      | Some p => Some (NsEntry p None true (attribute_in false u l))
      | None => None
      end
  end.
Proof.
  induction l as [|[p v|n v] l IH]; intros b b' H; cbn in H.
  - inversion H; subst. destruct (bm_get u b') as [[p a [|] nd]|]; cbn; rewrite ?orb_false_r; reflexivity.
  - destruct (nb_insert dbg p v b) as [b1|] eqn:E; [|discriminate]. rewrite (IH _ _ H). clear IH H.
    unfold nb_insert in E. destruct (dbg && starts_with "xml" p)%bool; [discriminate|].
    inversion E; subst b1. clear E. cbn [first_request attribute_in].
    destruct (String.eqb_spec u v) as [->|Hne].
    + destruct (bm_get v b) as [[q a [|] nd]|]; rewrite bm_get_insert, String.eqb_refl; cbn; reflexivity.
    + assert (Hs : bm_get u (match bm_get v b with
         | Some e => bm_insert v (NsEntry (if q_required e then q_prefix e else p) (q_assigned e) true (q_needs e)) b
         | None => bm_insert v (NsEntry p None true false) b end) = bm_get u b).
      { destruct (bm_get v b); rewrite bm_get_insert; destruct (String.eqb_spec u v); congruence. }
      rewrite Hs. reflexivity.
  - rewrite (IH _ _ H). clear IH H. cbn [first_request attribute_in].
    destruct (String.eqb_spec u (xn_ns n)) as [->|Hne].
    + unfold nb_attribute. destruct (bm_get (xn_ns n) b) as [[q a [|] nd]|] eqn:Ev.
      * rewrite bm_get_insert, String.eqb_refl. cbn. now rewrite orb_true_r.
      * rewrite bm_get_insert, String.eqb_refl. cbn. now rewrite orb_true_r.
      * rewrite Ev. reflexivity.
    + assert (Hs : bm_get u (nb_attribute (xn_ns n) b) = bm_get u b).
      { unfold nb_attribute. destruct (bm_get (xn_ns n) b); [|reflexivity]. rewrite bm_get_insert.
        destruct (String.eqb_spec u (xn_ns n)); congruence. }
      rewrite Hs, andb_false_r. reflexivity.
Qed.

Lemma parent_known m u : existsb (fun d : string * string => String.eqb u (snd d)) m =
  match parent_prefix m u with Some _ => true | None => false end.
Proof.
  unfold parent_prefix. induction m as [|d m IH]; cbn; [reflexivity|].
  destruct (String.eqb u (snd d)); [reflexivity|exact IH].
Qed.

Lemma parent_prefix_In m u p : parent_prefix m u = Some p -> In (p, u) m.
Proof.
  unfold parent_prefix. intro H. destruct (List.find (fun d => String.eqb u (snd d)) m) as [[q w]|] eqn:F; [|discriminate].
  inversion H; subst. apply List.find_some in F. destruct F as [A B]. cbn in B. apply String.eqb_eq in B. now subst.
Qed.

Lemma parent_prefix_iff m u p : NoDup (map snd m) -> parent_prefix m u = Some p <-> In (p, u) m.
Proof.
  intro Nd. split; [apply parent_prefix_In|]. intro Hin. unfold parent_prefix.
  induction m as [|[q w] m IH]; [destruct Hin|]. cbn. cbn in Nd. inversion Nd as [|? ? N1 N2]; subst.
  destruct Hin as [E | Hin].
  - inversion E; subst. now rewrite String.eqb_refl.
  - destruct (String.eqb_spec u w); [|auto]. subst. exfalso. apply N1. apply in_map_iff. now exists (p, w).
Qed.

Lemma finalized_exact dbg m n reqs b m' : NoDup (map snd (by_prefix m)) -> NoDup (map fst (by_prefix m)) ->
  apply_reqs dbg reqs (ns_child m (xn_ns n)) = inl b -> finalize b = Some m' ->
  exact_tag (n, reqs) (by_prefix m, by_prefix m').
Proof.
  intros Nd Nk Eb Ef.
  pose proof (wf_apply_reqs dbg reqs _ b (wf_child m (xn_ns n)) Eb) as Wb.
  unfold exact_tag. cbn [snd]. set (want := wanted (by_prefix m) (n, reqs)).
  assert (G : forall u, bm_get u b = match want u with
     | Some p => Some (NsEntry p None true
                   (attribute_in (existsb (fun d => String.eqb u (snd d)) (by_prefix m)) u reqs))
     | None => option_map (fun p => NsEntry p None false false) (parent_prefix (by_prefix m) u)
     end).
  { intro u. rewrite (apply_reqs_exact dbg u reqs _ b Eb), (child_get m (xn_ns n) u Nd), parent_known.
    unfold want, wanted, requested. cbn [fst snd]. destruct (parent_prefix (by_prefix m) u) as [p|]; cbn [option_map]; [|reflexivity].
    cbn [q_required q_prefix q_assigned q_needs orb]. destruct (String.eqb u (xn_ns n)); [reflexivity|].
    destruct (first_request (Some p) u reqs); reflexivity. }
  clearbody want. clear Eb.
  destruct (finalize_ok b Wb) as (m1 & E1 & Fo). rewrite Ef in E1. inversion E1; subst m1. clear E1.
  pose proof (fo_sorted _ _ Fo) as Sm. clear Fo.
  assert (Dst : forall u e u' e', bm_get u b = Some e -> bm_get u' b = Some e' -> q_required e = false ->
     q_required e' = false -> q_prefix e = q_prefix e' -> u = u').
  { intros u e u' e' X X' R R' P. rewrite G in X, X'.
    destruct (want u) as [p|]; [inversion X; subst; discriminate|].
    destruct (want u') as [p'|]; [inversion X'; subst; discriminate|].
    destruct (parent_prefix (by_prefix m) u) as [p|] eqn:Ep; [|discriminate].
    destruct (parent_prefix (by_prefix m) u') as [p'|] eqn:Ep'; [|discriminate].
    inversion X; inversion X'; subst. cbn in P. subst p'.
    apply parent_prefix_In in Ep, Ep'. apply (In_bm_get _ _ _ Nk) in Ep, Ep'. congruence. }
  intros q u. rewrite (sorted_In _ _ _ Sm), (finalize_exact b m' Wb Ef Dst).
  assert (Wn : forall v, want v <> None <-> exists e, bm_get v b = Some e /\ q_required e = true).
  { intro v. rewrite G. destruct (want v) as [p|].
    - split; [|congruence]. intros _. eexists. split; reflexivity.
    - split; [congruence|]. intros (e & X & R). destruct (parent_prefix (by_prefix m) v); [|discriminate].
      inversion X; subst. discriminate. }
  assert (Tk : forall x, (exists v e, String.compare v u = Lt /\ bm_get v b = Some e /\ q_required e = true /\
                            bm_get x (by_prefix m') = Some v) <->
                         (exists v, String.compare v u = Lt /\ want v <> None /\ In (x, v) (by_prefix m'))).
  { intro x. split.
    - intros (v & e & A & B & C & D). exists v. rewrite Wn, (sorted_In _ _ _ Sm). eauto.
    - intros (v & A & B & C). apply Wn in B. destruct B as (e & B1 & B2). apply (sorted_In _ _ _ Sm) in C. exists v, e. auto. }
  rewrite G. destruct (want u) as [p|] eqn:Wu.
  - split.
    + intros (e & X & P). inversion X; subst. cbn in P. eapply picks_iff; [|exact P]. exact Tk.
    + intro P. eexists. split; [reflexivity|]. cbn. eapply picks_iff; [|exact P]. intro x. symmetry. apply Tk.
  - rewrite <- (parent_prefix_iff _ u q Nd). split.
    + intros (e & X & P). destruct (parent_prefix (by_prefix m) u) as [p|]; [|discriminate]. inversion X; subst.
      cbn in P. destruct P as [-> P]. split; [reflexivity|]. intros v Hv Hin. apply Wn in Hv. destruct Hv as (e & X1 & X2).
      apply (sorted_In _ _ _ Sm) in Hin. exact (P v e X1 X2 Hin).
    + intros [-> P]. eexists. split; [reflexivity|]. cbn. split; [reflexivity|]. intros v e X1 X2 Hg.
      apply (P v); [apply Wn; eauto|]. now apply bm_get_In.
Qed.

Lemma begin_exact dbg m n reqs ev m' : NoDup (map snd (by_prefix m)) -> NoDup (map fst (by_prefix m)) ->
  begin_tag dbg (ns_child m (xn_ns n)) n reqs = inl (ev, m') ->
  exact_tag (n, reqs) (by_prefix m, by_prefix m').
Proof.
  intros Nd Nk H. unfold begin_tag in H.
  destruct (apply_reqs dbg reqs (ns_child m (xn_ns n))) as [b|] eqn:Eb; [|discriminate].
  destruct (finalize b) as [m0|] eqn:Ef; [|discriminate].
  destruct (resolve_element m0 n) as [pn|]; [|discriminate].
  destruct (resolve_attributes m0 (req_attrs reqs)); [|discriminate]. inversion H; subst m0.
  eapply finalized_exact; eauto.
Qed.

Lemma layout_exact dbg t : forall m st evs rest, NoDup (map snd (by_prefix m)) -> NoDup (map fst (by_prefix m)) ->
  layout dbg (ns_child m) t = inl evs ->
  exists l, tags_in (by_prefix m :: st) (evs ++ rest) = l ++ tags_in (by_prefix m :: st) rest /\
    Forall2 exact_tag (elements t) l.
Proof.
  induction t as [n reqs kids IH | s] using rtree_ind'; intros m st evs rest W W' L.
  - rewrite layout_elem in L.
    destruct (begin_tag dbg (ns_child m (xn_ns n)) n reqs) as [[ev m']|] eqn:B; [|discriminate].
    destruct (layouts dbg m' kids) as [ks|] eqn:K; [|discriminate]. inversion L; subst evs. clear L.
    pose proof (begin_exact dbg m n reqs ev m' W W' B) as Ch.
    destruct (begin_tag_ok dbg _ n reqs ev m' (wf_child _ _) B) as (pn & attrs & -> & Ok).
    destruct Ok as (Nk & Nv & _).
    assert (KM : forall rest, exists l, tags_in (by_prefix m' :: by_prefix m :: st) (ks ++ rest) =
       l ++ tags_in (by_prefix m' :: by_prefix m :: st) rest /\ Forall2 exact_tag (flat_map elements kids) l).
    { clear rest B Ch. revert ks K. induction IH as [|t l Ht Hl IHl]; intros ks K rest; cbn in K.
      - inversion K; subst. exists []. split; [reflexivity|constructor].
      - destruct (layout dbg (ns_child m') t) as [e1|] eqn:L1; [|discriminate].
        destruct (layouts dbg m' l) as [e2|] eqn:L2; [|discriminate]. inversion K; subst.
        rewrite <- app_assoc.
        destruct (Ht m' (by_prefix m :: st) e1 (e2 ++ rest) Nv Nk L1) as (l1 & -> & F1).
        destruct (IHl e2 eq_refl rest) as (l2 & -> & F2).
        exists (l1 ++ l2). split; [now rewrite app_assoc|]. cbn. now apply Forall2_app. }
    destruct (KM (WEnd :: rest)) as (l & El & Fl).
    exists ((by_prefix m, by_prefix m') :: l). split; [|constructor; assumption].
    cbn [app tags_in hd]. rewrite <- app_assoc. cbn [app]. rewrite El. reflexivity.
  - cbn in L. inversion L; subst. exists []. split; [reflexivity|constructor].
Qed.

Lemma to_exact dbg o n v k t : to dbg o n v = inl (None, k) -> asked n v = Some t ->
  Forall2 exact_tag (elements t) (tags_in [[]] (k_out k)).
Proof.
  intros H A. destruct (to_asked dbg o n v k H) as (t' & A' & L & _). rewrite A in A'. inversion A'; subst t'.
  unfold asked in A. destruct (ask_a (s_attrs v) []) as [reqs|]; [|discriminate].
  destruct (ask_w (s_kids v) [] []) as [kids|]; [|discriminate]. inversion A; subst t.
  assert (L' : layout dbg (ns_child (Namespaces [] [])) (RElem n reqs kids) = inl (k_out k)).
  { rewrite layout_elem in *. exact L. }
  destruct (layout_exact dbg _ (Namespaces [] []) [] _ [] ltac:(constructor) ltac:(constructor) L') as (l & E & F).
  rewrite (app_nil_r (k_out k)) in E.
  assert (E' : tags_in [[]] (k_out k) = l) by (etransitivity; [exact E|]; cbn; apply app_nil_r).
  exact (eq_ind_r (Forall2 exact_tag _) F E').
Qed.

(** ** The mappings are determined *)

Lemma want_finite parent n reqs u : requested (parent_prefix parent u) (String.eqb u (xn_ns n)) u reqs <> None ->
  In u (map snd parent ++ flat_map (fun r => match r with ReqNs _ v => [v] | ReqAttr _ _ => [] end) reqs).
Proof.
  intro H. rewrite in_app_iff. unfold requested in H. destruct (parent_prefix parent u) as [p|] eqn:E.
  - left. apply parent_prefix_In in E. apply in_map_iff. now exists (p, u).
  - right. clear E. induction reqs as [|[p v|a v] l IH]; cbn in *; [congruence| |auto].
    destruct (String.eqb_spec u v); [subst; auto|right; auto].
Qed.

Lemma str_lt_trans a b c : String.compare a b = Lt -> String.compare b c = Lt -> String.compare a c = Lt.
Proof. intros H1 H2. exact (str_compare_trans a b c H1 H2). Qed.

Lemma exact_determined x parent m m' : exact_tag x (parent, m) -> exact_tag x (parent, m') ->
  forall d, In d m <-> In d m'.
Proof.
  destruct x as [n reqs]. unfold exact_tag. cbn [snd].
  set (want := wanted parent (n, reqs)). intros E E'.
  assert (W : forall u, want u <> None -> forall q, In (q, u) m <-> In (q, u) m').
  { set (L := map snd parent ++ flat_map (fun r => match r with ReqNs _ v => [v] | ReqAttr _ _ => [] end) reqs).
    assert (I : forall k u, List.length (filter (fun v => match String.compare v u with Lt => true | _ => false end) L) < k ->
       want u <> None -> forall q, In (q, u) m <-> In (q, u) m').
    { induction k as [|k IH]; intros u Hk Hw q; [lia|].
      rewrite E, E'. destruct (want u) as [p|] eqn:Wu; [|congruence].
      assert (Tk : forall x, (exists v, String.compare v u = Lt /\ want v <> None /\ In (x, v) m) <->
                             (exists v, String.compare v u = Lt /\ want v <> None /\ In (x, v) m')).
      { intro x.
        assert (R : forall v, String.compare v u = Lt -> want v <> None -> (In (x, v) m <-> In (x, v) m')).
        { intros v C Hv. apply IH; [|assumption].
          assert (Hin : In v L) by exact (want_finite _ _ _ _ Hv).
          enough (List.length (filter (fun w => match String.compare w v with Lt => true | _ => false end) L) <
                  List.length (filter (fun w => match String.compare w u with Lt => true | _ => false end) L)) by lia.
          clearbody L. clear - Hin C. induction L as [|w l IHl]; [destruct Hin|]. cbn [filter].
          assert (Le : List.length (filter (fun w => match String.compare w v with Lt => true | _ => false end) l) <=
                  List.length (filter (fun w => match String.compare w u with Lt => true | _ => false end) l)).
          { clear - C. induction l as [|w l IH]; [auto|]. cbn [filter].
            destruct (String.compare w v) eqn:Cv; [destruct (String.compare w u); cbn; lia| |destruct (String.compare w u); cbn; lia].
            rewrite (str_lt_trans _ _ _ Cv C). cbn. lia. }
          destruct Hin as [-> | Hin].
          - rewrite str_compare_refl, C. cbn. lia.
          - specialize (IHl Hin). destruct (String.compare w v) eqn:Cv;
              [destruct (String.compare w u); cbn; lia| |destruct (String.compare w u); cbn; lia].
            rewrite (str_lt_trans _ _ _ Cv C). cbn. lia. }
        split; intros (v & A & B & C); exists v; (split; [assumption|]); (split; [assumption|]); now apply R. }
      split; apply picks_iff; [exact Tk|]. intro x. symmetry. apply Tk. }
    intros u. apply (I (S (List.length (filter (fun v => match String.compare v u with Lt => true | _ => false end) L)))). lia. }
  intros [q u]. destruct (want u) as [p|] eqn:Wu.
  - apply W. congruence.
  - rewrite E, E', Wu. split; (intros [A B]; split; [assumption|]; intros v Hv Hin; apply (B v Hv); now apply W).
Qed.
