(** Prefix assignment: [NamespacesBuilder::finalize]. *)
From Verif Require Import Base Text DisplaySpec DisplayProofs Find FindProofs BMap Ser SerSpec SerTree.
From Coq Require Import Lia.

(** ** The search for a free prefix *)

Lemma numbered_inj p i j : numbered p i = numbered p j -> i = j.
Proof.
  unfold numbered. intro H. apply append_inv_head in H. apply show_N_inj in H. lia.
Qed.

Lemma numbered_nonempty p i : numbered p i <> ""%string.
Proof.
  unfold numbered. intro H. apply (f_equal bytes_of) in H. rewrite bytes_app, bytes_str in H.
  apply app_eq_nil in H. destruct H as [_ H].
  now apply (numeral_ne 10 (show_N (N.of_nat i)) (N.of_nat i)) in H; [|apply show_N_numeral].
Qed.

Lemma ns_put_true p u m m' : ns_put p u m = (true, m') -> bm_mem p m = false /\ m' = bm_insert p u m.
Proof. unfold ns_put. destruct (bm_mem p m); intros [= <-]; auto. Qed.

Lemma ns_put_false p u m m' : ns_put p u m = (false, m') -> bm_mem p m = true.
Proof. unfold ns_put. destruct (bm_mem p m); intros [= <-]; auto. Qed.

Lemma pick_Some fuel : forall p i u m p' m', pick fuel p i u m = Some (p', m') ->
  exists j, i <= j /\ p' = numbered p j /\ bm_mem p' m = false /\ m' = bm_insert p' u m.
Proof.
  induction fuel as [|fuel IH]; intros p i u m p' m' H; cbn in H; [discriminate|].
  destruct (ns_put (numbered p i) u m) as [[|] m1] eqn:E.
  - inversion H; subst. apply ns_put_true in E. destruct E as [E1 ->]. exists i. auto.
  - apply IH in H. destruct H as (j & Hj & H). exists j. split; [lia|exact H].
Qed.

Lemma pick_None fuel : forall p i u m, pick fuel p i u m = None ->
  forall j, i <= j < i + fuel -> In (numbered p j) (keys m).
Proof.
  induction fuel as [|fuel IH]; intros p i u m H j Hj; cbn in H; [lia|].
  destruct (ns_put (numbered p i) u m) as [[|] m1] eqn:E; [discriminate|].
  apply ns_put_false in E. destruct (Nat.eq_dec i j) as [-> | Hne].
  - now apply bm_mem_keys.
  - eapply IH; [exact H|lia].
Qed.

Lemma pick_total p i u m : exists p' m', pick (S (List.length m)) p i u m = Some (p', m').
Proof.
  destruct (pick (S (List.length m)) p i u m) as [[p' m']|] eqn:E; [eauto|]. exfalso.
  set (cands := map (numbered p) (seq i (S (List.length m)))).
  assert (Hn : NoDup cands).
  { apply FinFun.Injective_map_NoDup; [intros a b; apply numbered_inj | apply seq_NoDup]. }
  assert (Hi : incl cands (keys m)).
  { intros x Hx. apply in_map_iff in Hx. destruct Hx as (j & <- & Hj). apply in_seq in Hj.
    eapply pick_None; eauto. }
  apply (NoDup_incl_length Hn) in Hi. unfold cands, keys in Hi.
  rewrite !map_length, seq_length in Hi. lia.
Qed.

(** ** Invariants of builders *)

Definition wf_builder (b : nsbuilder) : Prop :=
  ksorted b /\ forall u e, bm_get u b = Some e ->
    q_assigned e = None /\ (q_needs e = true -> q_required e = true).

Lemma wf_nil : wf_builder [].
Proof. split; [constructor|]. intros u e H. discriminate. Qed.

Lemma wf_insert u e b : wf_builder b -> q_assigned e = None -> (q_needs e = true -> q_required e = true) ->
  wf_builder (bm_insert u e b).
Proof.
  intros [Hs Hb] H1 H2. split; [now apply insert_sorted|].
  intros u' e'. rewrite bm_get_insert. destruct (String.eqb u' u); [intros [= <-]; auto | apply Hb].
Qed.

Lemma wf_nb_insert dbg p u b b' : wf_builder b -> nb_insert dbg p u b = inl b' -> wf_builder b'.
Proof.
  intros W. unfold nb_insert. destruct (dbg && starts_with "xml" p)%bool; [discriminate|].
  destruct (bm_get u b) as [e|] eqn:E; intros [= <-]; apply wf_insert; cbn; auto.
  now apply W in E.
Qed.

Lemma wf_nb_attribute u b : wf_builder b -> wf_builder (nb_attribute u b).
Proof.
  intro W. unfold nb_attribute. destruct (bm_get u b) as [e|] eqn:E; [|assumption].
  apply wf_insert; cbn; auto. now apply W in E.
Qed.

Lemma wf_apply_reqs dbg l : forall b b', wf_builder b -> apply_reqs dbg l b = inl b' -> wf_builder b'.
Proof.
  induction l as [|[p u|n v] l IH]; intros b b' W H; cbn in H.
  - now inversion H; subst.
  - destruct (nb_insert dbg p u b) as [b1|] eqn:E; [|discriminate]. eauto using wf_nb_insert.
  - eauto using wf_nb_attribute.
Qed.

Lemma wf_child_loop ns l : forall found b, wf_builder b -> wf_builder (child_loop ns l found b).
Proof.
  induction l as [|[p u] l IH]; intros found b W; cbn; [assumption|].
  apply IH, wf_insert; cbn; auto. discriminate.
Qed.

Lemma wf_child m ns : wf_builder (ns_child m ns).
Proof. apply wf_child_loop, wf_nil. Qed.

(** ** The two loops *)

(** Where an assigned prefix comes from. *)
Definition from_request (e : nsentry) (p : string) : Prop :=
  p = q_prefix e \/ exists i, p = numbered (if String.eqb (q_prefix e) "" then "ns" else q_prefix e) i.

(** The entry [e] of [u] became [e'] and the map became [m']. *)
Definition assigned_ok (m' : bmap string) (x x' : string * nsentry) : Prop :=
  fst x' = fst x /\ q_prefix (snd x') = q_prefix (snd x) /\ q_required (snd x') = q_required (snd x) /\
  q_needs (snd x') = q_needs (snd x) /\
  forall p, q_assigned (snd x') = Some p ->
    bm_get p m' = Some (fst x) /\ from_request (snd x) p /\ (q_needs (snd x) = true -> p <> ""%string).

Definition extends (m m' : bmap string) : Prop := forall p u, bm_get p m = Some u -> bm_get p m' = Some u.

Lemma extends_insert p u m : bm_mem p m = false -> extends m (bm_insert p u m).
Proof.
  intros H q v Hq. rewrite bm_get_insert. destruct (String.eqb_spec q p); [|assumption].
  subst. unfold bm_mem in H. rewrite Hq in H. discriminate.
Qed.

Lemma extends_trans a b c : extends a b -> extends b c -> extends a c.
Proof. unfold extends. auto. Qed.

Lemma required_spec l : forall m, ksorted m -> (forall u e, In (u, e) l -> q_assigned e = None) ->
  exists l' m', assign_required l m = Some (l', m') /\ ksorted m' /\ extends m m' /\
  Forall2 (assigned_ok m') l l' /\
  Forall (fun x => q_required (snd x) = true <-> q_assigned (snd x) <> None) l' /\
  (forall p u, bm_get p m' = Some u -> bm_get p m = Some u \/
     exists e, In (u, e) l' /\ q_assigned e = Some p).
Proof.
  induction l as [|[u e] l IH]; intros m Hs Hn.
  { exists [], m. cbn. repeat split; auto. intros p u H; exact H. }
  assert (Hn' : forall u e, In (u, e) l -> q_assigned e = None) by (intros; eapply Hn; right; eauto).
  assert (He : q_assigned e = None) by (eapply Hn; left; reflexivity).
  cbn [assign_required].
  (* assigning [p'] *)
  assert (Step : forall p', bm_mem p' m = false -> from_request e p' -> q_required e = true ->
    (q_needs e = true -> p' <> ""%string) ->
    exists l' m',
      match assign_required l (bm_insert p' u m) with
      | Some (l'', m'') => Some ((u, NsEntry (q_prefix e) (Some p') (q_required e) (q_needs e)) :: l'', m'')
      | None => None
      end = Some (l', m') /\ ksorted m' /\ extends m m' /\ Forall2 (assigned_ok m') ((u, e) :: l) l' /\
      Forall (fun x => q_required (snd x) = true <-> q_assigned (snd x) <> None) l' /\
      (forall p v, bm_get p m' = Some v -> bm_get p m = Some v \/
         exists e', In (v, e') l' /\ q_assigned e' = Some p)).
  { intros p' Hm Hr Hq Hne.
    destruct (IH (bm_insert p' u m) (insert_sorted p' u m Hs) Hn') as (l' & m' & E & S' & X & F & R & O).
    rewrite E. eexists. exists m'. split; [reflexivity|]. split; [assumption|].
    split; [eapply extends_trans; [exact (extends_insert p' u m Hm)|assumption]|].
    split; [|split].
    - constructor; [|assumption]. repeat split; cbn.
      + intros. inversion H; subst. apply X. rewrite bm_get_insert, String.eqb_refl. reflexivity.
      + intros. now inversion H; subst.
      + intros. inversion H; subst. auto.
    - constructor; [|assumption]. cbn. rewrite Hq. split; congruence.
    - intros p v Hp. destruct (O p v Hp) as [H | (e' & Hin & Ha)].
      + rewrite bm_get_insert in H. destruct (String.eqb_spec p p'); [|auto].
        inversion H; subst. right. eexists. split; [left; reflexivity|reflexivity].
      + right. exists e'. split; [right; assumption|assumption]. }
  destruct (q_required e) eqn:Hq.
  - assert (Fb : exists l' m',
      (let '(p, i) := if String.eqb (q_prefix e) "" then ("ns"%string, 1) else (q_prefix e, 2) in
       match pick (S (List.length m)) p i u m with
       | Some (p', m') =>
           match assign_required l m' with
           | Some (l'', m'') => Some ((u, NsEntry (q_prefix e) (Some p') true (q_needs e)) :: l'', m'')
           | None => None
           end
       | None => None
       end) = Some (l', m') /\ ksorted m' /\ extends m m' /\ Forall2 (assigned_ok m') ((u, e) :: l) l' /\
      Forall (fun x => q_required (snd x) = true <-> q_assigned (snd x) <> None) l' /\
      (forall p v, bm_get p m' = Some v -> bm_get p m = Some v \/
         exists e', In (v, e') l' /\ q_assigned e' = Some p)).
    { destruct (if String.eqb (q_prefix e) "" then ("ns"%string, 1) else (q_prefix e, 2)) as [p i] eqn:Epi.
      destruct (pick_total p i u m) as (p' & m1 & Ep). rewrite Ep.
      apply pick_Some in Ep. destruct Ep as (j & _ & -> & Hm & ->).
      apply Step; auto.
      - right. exists j. destruct (String.eqb (q_prefix e) ""); inversion Epi; subst; reflexivity.
      - intros _. apply numbered_nonempty. }
    destruct (q_needs e && String.eqb (q_prefix e) "")%bool eqn:En; [exact Fb|].
    destruct (ns_put (q_prefix e) u m) as [[|] m1] eqn:Ep; [|exact Fb].
    apply ns_put_true in Ep. destruct Ep as [Hm ->].
    apply Step; auto.
    + left. reflexivity.
    + intros Hne Hz. rewrite Hne, Hz in En. discriminate.
  - destruct (IH m Hs Hn') as (l' & m' & E & S' & X & F & R & O).
    rewrite E. eexists. exists m'. split; [reflexivity|]. split; [assumption|]. split; [assumption|].
    split; [|split].
    + constructor; [|assumption]. split; [|split; [|split; [|split]]]; try reflexivity.
      cbn. rewrite He. discriminate.
    + constructor; [|assumption]. cbn. rewrite Hq, He. split; congruence.
    + intros p v Hp. destruct (O p v Hp) as [H | (e' & Hin & Ha)]; [auto|].
      right. exists e'. split; [right; assumption|assumption].
Qed.

Lemma optional_spec l : forall m l' m', ksorted m ->
  (forall u e, In (u, e) l -> q_required e = false -> q_assigned e = None) ->
  (forall u e, In (u, e) l -> q_needs e = true -> q_required e = true) ->
  assign_optional l m = (l', m') ->
  ksorted m' /\ extends m m' /\
  Forall2 (fun x x' => if q_required (snd x) then x' = x else assigned_ok m' x x') l l' /\
  (forall p u, bm_get p m' = Some u -> bm_get p m = Some u \/
     exists e, In (u, e) l' /\ q_assigned e = Some p).
Proof.
  induction l as [|[u e] l IH]; intros m l' m' Hs Hn Hq H; cbn [assign_optional] in H.
  { inversion H; subst. repeat split; auto. intros p u Hp; exact Hp. }
  assert (Hn' : forall u e, In (u, e) l -> q_required e = false -> q_assigned e = None) by (intros; eapply Hn; [right|]; eauto).
  assert (Hq' : forall u e, In (u, e) l -> q_needs e = true -> q_required e = true) by (intros; eapply Hq; [right|]; eauto).
  destruct (q_required e) eqn:He.
  - destruct (assign_optional l m) as [l1 m1] eqn:E. inversion H; subst.
    destruct (IH _ _ _ Hs Hn' Hq' E) as (S' & X & F & O). repeat split; auto.
    + constructor; [|assumption]. cbn. now rewrite He.
    + intros p v Hp. destruct (O p v Hp) as [H0 | (e' & Hin & Ha)]; [auto|].
      right. exists e'. split; [right; assumption|assumption].
  - destruct (ns_put (q_prefix e) u m) as [[|] m1] eqn:Ep.
    + apply ns_put_true in Ep. destruct Ep as [Hm ->].
      destruct (assign_optional l (bm_insert (q_prefix e) u m)) as [l1 m1] eqn:E. inversion H; subst.
      destruct (IH _ _ _ (insert_sorted _ u m Hs) Hn' Hq' E) as (S' & X & F & O). repeat split; auto.
      * eapply extends_trans; [exact (extends_insert (q_prefix e) u m Hm)|assumption].
      * constructor; [|assumption]. cbn. rewrite He.
        split; [|split; [|split; [|split]]]; try reflexivity.
        -- cbn. congruence.
        -- cbn. intros p [= <-]. split; [|split].
           ++ apply X. now rewrite bm_get_insert, String.eqb_refl.
           ++ now left.
           ++ intro Hne. rewrite (Hq u e (or_introl eq_refl) Hne) in He. discriminate.
      * intros p v Hp. destruct (O p v Hp) as [H0 | (e' & Hin & Ha)].
        -- rewrite bm_get_insert in H0. destruct (String.eqb_spec p (q_prefix e)); [|auto].
           inversion H0; subst. right. eexists. split; [left; reflexivity|reflexivity].
        -- right. exists e'. split; [right; assumption|assumption].
    + destruct (assign_optional l m) as [l1 m2] eqn:E. inversion H; subst.
      destruct (IH _ _ _ Hs Hn' Hq' E) as (S' & X & F & O). repeat split; auto.
      * constructor; [|assumption]. cbn. rewrite He.
        split; [|split; [|split; [|split]]]; try reflexivity.
        cbn. rewrite (Hn u e (or_introl eq_refl) He). discriminate.
      * intros p v Hp. destruct (O p v Hp) as [H0 | (e' & Hin & Ha)]; [auto|].
        right. exists e'. split; [right; assumption|assumption].
Qed.

(** ** finalize *)

Lemma Forall2_get {V W} (P : string * V -> string * W -> Prop) (l : bmap V) (l' : bmap W) u e :
  (forall x y, P x y -> fst y = fst x) -> Forall2 P l l' -> bm_get u l = Some e ->
  exists e', bm_get u l' = Some e' /\ P (u, e) (u, e').
Proof.
  intros HP F. induction F as [|[u1 e1] [u2 e2] l l' H F IH]; cbn; [discriminate|].
  pose proof (HP _ _ H) as E. cbn in E. subst u2.
  destruct (String.eqb_spec u u1); [|auto]. intros [= <-]. subst. eauto.
Qed.

Lemma Forall2_keys {V W} (P : string * V -> string * W -> Prop) (l : bmap V) (l' : bmap W) :
  (forall x y, P x y -> fst y = fst x) -> Forall2 P l l' -> keys l' = keys l.
Proof. intros HP F. unfold keys. induction F; cbn; [reflexivity|]. f_equal; auto. Qed.

Record final_ok (b : nsbuilder) (m : namespaces) : Prop := FinalOk {
  fo_sorted : ksorted (by_prefix m);
  fo_url : forall u e, bm_get u b = Some e -> exists a,
      bm_get u (by_url m) = Some (NsEntry (q_prefix e) a (q_required e) (q_needs e)) /\
      (q_required e = true -> a <> None) /\
      forall p, a = Some p -> bm_get p (by_prefix m) = Some u /\ from_request e p /\
        (q_needs e = true -> p <> ""%string);
  fo_only : forall u, bm_get u b = None -> bm_get u (by_url m) = None;
  fo_prefix : forall p u, bm_get p (by_prefix m) = Some u ->
      exists e, bm_get u b = Some e /\ exists e', bm_get u (by_url m) = Some e' /\ q_assigned e' = Some p;
}.

Lemma finalize_ok b : wf_builder b -> exists m, finalize b = Some m /\ final_ok b m.
Proof.
  intros [Hs Hw].
  assert (Hg : forall u e, In (u, e) b -> bm_get u b = Some e)
    by (intros u e H; apply In_bm_get; [now apply sorted_NoDup|assumption]).
  destruct (required_spec b [] ltac:(constructor)) as (b1 & m1 & E1 & S1 & X1 & F1 & R1 & O1).
  { intros u e H. apply Hg in H. now apply Hw in H. }
  unfold finalize. rewrite E1.
  destruct (assign_optional b1 m1) as [b2 m2] eqn:E2.
  assert (K1 : keys b1 = keys b) by (eapply Forall2_keys; [|exact F1]; intros x y H; apply H).
  assert (N1 : NoDup (keys b1)) by (rewrite K1; now apply sorted_NoDup).
  rewrite Forall_forall in R1.
  apply optional_spec in E2; auto.
  2: { intros u e H Hr. specialize (R1 _ H). cbn in R1. destruct (q_assigned e); [|reflexivity].
       exfalso. rewrite Hr in R1. assert (false = true) by (apply R1; discriminate). discriminate. }
  2: { intros u e H Hne. apply In_bm_get in H; [|assumption].
       assert (Hk : In u (keys b)) by (rewrite <- K1; apply bm_mem_keys; unfold bm_mem; now rewrite H).
       apply bm_mem_keys in Hk. unfold bm_mem in Hk.
       destruct (bm_get u b) as [e0|] eqn:E0; [|discriminate].
       destruct (Forall2_get (assigned_ok m1) _ _ u e0 (fun x y P => proj1 P) F1 E0) as (e1 & E1' & P).
       rewrite H in E1'. inversion E1'; subst e1. destruct P as (_ & _ & P1 & P2 & _). cbn in P1, P2.
       rewrite P1. apply (Hw _ _ E0). congruence. }
  destruct E2 as (S2 & X2 & F2 & O2).
  assert (HP : forall x y : string * nsentry, (if q_required (snd x) then y = x else assigned_ok m2 x y) -> fst y = fst x).
  { intros x y. destruct (q_required (snd x)); [intros ->; reflexivity | intros P; apply P]. }
  assert (K2 : keys b2 = keys b) by (rewrite <- K1; eapply Forall2_keys; [exact HP|exact F2]).
  eexists. split; [reflexivity|]. split; cbn [by_prefix by_url].
  - assumption.
  - intros u e He.
    destruct (Forall2_get (assigned_ok m1) _ _ u e (fun x y P => proj1 P) F1 He) as (e1 & G1 & P1).
    destruct (Forall2_get _ _ _ u e1 HP F2 G1) as (e2 & G2 & P2). cbn in P2.
    destruct P1 as (_ & Q1 & Q2 & Q3 & Q4). cbn in Q1, Q2, Q3, Q4.
    assert (R : q_required e1 = true <-> q_assigned e1 <> None).
    { apply (R1 (u, e1)). now apply bm_get_In. }
    exists (q_assigned e2).
    destruct (q_required e1) eqn:Hr.
    + inversion P2; subst e2. rewrite G2. split; [|split].
      * destruct e1; cbn in *; congruence.
      * intros _. now apply R.
      * intros p Hp. destruct (Q4 p Hp) as (A & B & C). auto.
    + destruct P2 as (_ & T1 & T2 & T3 & T4). cbn in T1, T2, T3, T4. rewrite G2. split; [|split].
      * destruct e2; cbn in *; congruence.
      * intro. congruence.
      * intros p Hp. destruct (T4 p Hp) as (A & B & C). split; [assumption|]. split.
        -- unfold from_request in *. now rewrite <- Q1.
        -- rewrite <- Q3. assumption.
  - intros u Hu. apply bm_get_None. rewrite K2. now apply bm_get_None.
  - assert (Hk : forall u e, In (u, e) b2 -> exists e0, bm_get u b = Some e0).
    { intros u e H. assert (Hin : In u (keys b)) by (rewrite <- K2; apply in_map_iff; now exists (u, e)).
      apply bm_mem_keys in Hin. unfold bm_mem in Hin. destruct (bm_get u b) as [e0|]; [eauto|discriminate]. }
    assert (N2 : NoDup (keys b2)) by (rewrite K2; now apply sorted_NoDup).
    intros p u Hp. destruct (O2 p u Hp) as [H | (e' & Hin & Ha)].
    + destruct (O1 p u H) as [H0 | (e' & Hin & Ha)]; [discriminate|].
      pose proof (R1 _ Hin) as Hr. cbn in Hr. rewrite Ha in Hr.
      assert (Hreq : q_required e' = true) by (apply Hr; discriminate).
      apply In_bm_get in Hin; [|assumption].
      destruct (Forall2_get _ _ _ u e' HP F2 Hin) as (e2 & G2 & P2). cbn in P2. rewrite Hreq in P2.
      inversion P2; subst e2.
      destruct (Hk u e' (bm_get_In _ _ _ G2)) as [e0 He0]. eauto.
    + destruct (Hk u e' Hin) as [e0 He0]. exists e0. split; [assumption|].
      exists e'. split; [now apply In_bm_get|assumption].
Qed.
