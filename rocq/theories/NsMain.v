(** Written names mean the names that were asked for. *)
From Verif Require Import Base Text DisplaySpec DisplayProofs Find FindProofs BMap Ser SerSpec SerProofs SerTree NsProofs NsSpec.
From Coq Require Import Lia.

(** ** Prefixes *)

Definition okp (p : string) : Prop := p <> "xml"%string /\ p <> "xmlns"%string.
Definition oku (u : string) : Prop := u <> ""%string /\ u <> XML_NS /\ u <> XMLNS_NS.

Lemma starts_okp p : starts_with "xml" p = false -> okp p.
Proof. intro H. split; intros ->; discriminate. Qed.

Lemma last_digit p i : exists l d, bytes_of (numbered p i) = l ++ [d] /\ dvalue d <> None.
Proof.
  unfold numbered. rewrite bytes_app, bytes_str.
  pose proof (show_N_numeral (N.of_nat i)) as H.
  pose proof (numeral_ne 10 _ _ H) as Hne.
  destruct (exists_last Hne) as (l & d & E).
  exists (bytes_of p ++ l), d. split; [now rewrite E, app_assoc|].
  apply (numeral_digits _ _ _ H). rewrite E. apply in_or_app. right. now left.
Qed.

Lemma numbered_okp p i : okp (numbered p i).
Proof.
  destruct (last_digit p i) as (l & d & E & Hd).
  split; intro H; rewrite H in E; apply (f_equal (fun x => last x "0"%char)) in E; rewrite last_last in E;
    cbn in E; subst d; now apply Hd.
Qed.

Lemma from_request_okp e p : okp (q_prefix e) -> from_request e p -> okp p.
Proof. intros H [-> | [i ->]]; [assumption|apply numbered_okp]. Qed.

Lemma from_request_ne e p : q_prefix e <> ""%string -> from_request e p -> p <> ""%string.
Proof. intros H [-> | [i ->]]; [assumption|apply numbered_nonempty]. Qed.

(** ** Properties of all entries *)

Definition entries (Q : string -> nsentry -> Prop) (b : nsbuilder) : Prop :=
  forall u e, bm_get u b = Some e -> Q u e.

Lemma child_loop_entries ns l : forall found b u e,
  bm_get u (child_loop ns l found b) = Some e ->
  bm_get u b = Some e \/ (In (q_prefix e, u) l /\ q_needs e = false).
Proof.
  induction l as [|[p v] l IH]; intros found b u e H; cbn in H; [auto|].
  apply IH in H. destruct H as [H | [H1 H2]].
  - rewrite bm_get_insert in H. destruct (String.eqb_spec u v); [|auto].
    inversion H; subst. right. cbn. auto.
  - right. cbn. auto.
Qed.

Lemma child_entries m ns u e : bm_get u (ns_child m ns) = Some e ->
  In (q_prefix e, u) (by_prefix m) /\ q_needs e = false.
Proof. intro H. apply child_loop_entries in H. destruct H as [H | H]; [discriminate|assumption]. Qed.

Lemma apply_reqs_entries (Q : string -> nsentry -> Prop) dbg l :
  (forall p u e, In (ReqNs p u) l -> Q u e ->
     Q u (NsEntry (q_prefix e) (q_assigned e) true (q_needs e))) ->
  (forall p u e, In (ReqNs p u) l -> Q u e -> q_required e = false ->
     Q u (NsEntry p (q_assigned e) true (q_needs e))) ->
  (forall p u, In (ReqNs p u) l -> Q u (NsEntry p None true false)) ->
  (forall n v e, In (ReqAttr n v) l -> Q (xn_ns n) e ->
     Q (xn_ns n) (NsEntry (q_prefix e) (q_assigned e) true true)) ->
  forall b b', entries Q b -> apply_reqs dbg l b = inl b' -> entries Q b'.
Proof.
  induction l as [|[p u|n v] l IH]; intros H1 H2 H3 H4 b b' W H; cbn in H.
  - now inversion H; subst.
  - destruct (nb_insert dbg p u b) as [b1|] eqn:E; [|discriminate].
    eapply IH; [..|exact H]; [intros; eapply H1; [right|]; eauto | intros; eapply H2; [right| |]; eauto
      | intros; eapply H3; right; eauto | intros; eapply H4; [right|]; eauto |].
    unfold nb_insert in E. destruct (dbg && starts_with "xml" p)%bool; [discriminate|].
    inversion E; subst b1. clear E. destruct (bm_get u b) as [e|] eqn:E.
    + intros u' e'. rewrite bm_get_insert. destruct (String.eqb_spec u' u); [subst|apply W].
      intros [= <-]. destruct (q_required e) eqn:Er.
      * eapply H1; [left; reflexivity|auto].
      * eapply H2; [left; reflexivity|auto|auto].
    + intros u' e'. rewrite bm_get_insert. destruct (String.eqb_spec u' u); [subst|apply W].
      intros [= <-]. eapply H3. left. reflexivity.
  - eapply IH; [..|exact H]; [intros; eapply H1; [right|]; eauto | intros; eapply H2; [right| |]; eauto
      | intros; eapply H3; right; eauto | intros; eapply H4; [right|]; eauto |].
    unfold nb_attribute. destruct (bm_get (xn_ns n) b) as [e|] eqn:E; [|assumption].
    intros u' e'. rewrite bm_get_insert. destruct (String.eqb_spec u' (xn_ns n)); [subst|apply W].
    intros [= <-]. eapply H4; [left; reflexivity|auto].
Qed.

(** When the requested prefixes agree with a function from prefixes to URLs, so do the assigned ones:
    every URL gets the prefix requested for it, but a default namespace used by an attribute gets
    [ns1]. *)
Lemma required_kept f l : forall m l' m',
  (forall u e, In (u, e) l -> f (q_prefix e) = u /\ (q_needs e = true -> q_prefix e = ""%string -> f "ns1"%string = u)) ->
  (forall p u, bm_get p m = Some u -> f p = u /\ ~ In u (keys l)) -> NoDup (keys l) ->
  assign_required l m = Some (l', m') ->
  forall p u, bm_get p m' = Some u -> f p = u.
Proof.
  induction l as [|[u e] l IH]; intros m l' m' Hl Hm Hn H p v Hp; cbn [assign_required] in H.
  { inversion H; subst. now apply Hm. }
  inversion Hn as [|? ? Hni Hn']; subst.
  assert (Hl' : forall u e, In (u, e) l ->
      f (q_prefix e) = u /\ (q_needs e = true -> q_prefix e = ""%string -> f "ns1"%string = u))
    by (intros; eapply Hl; right; eauto).
  destruct (Hl u e (or_introl eq_refl)) as [Hf Hd].
  assert (Hput : forall q, f q = u -> ns_put q u m = (true, bm_insert q u m)).
  { intros q Hq. unfold ns_put. destruct (bm_mem q m) eqn:E; [|reflexivity]. exfalso.
    unfold bm_mem in E. destruct (bm_get q m) as [v'|] eqn:E'; [|discriminate].
    destruct (Hm _ _ E') as [A B]. apply B. left. cbn. congruence. }
  assert (Hm' : forall q, f q = u -> forall p' u', bm_get p' (bm_insert q u m) = Some u' -> f p' = u' /\ ~ In u' (keys l)).
  { intros q Hq p' u'. rewrite bm_get_insert. destruct (String.eqb_spec p' q).
    - intros [= <-]. subst p'. split; [auto|exact Hni].
    - intro G. destruct (Hm _ _ G) as [G1 G2]. split; [assumption|]. intro. apply G2. now right. }
  destruct (q_required e).
  - destruct (q_needs e && String.eqb (q_prefix e) "")%bool eqn:Hc.
    + apply andb_true_iff in Hc. destruct Hc as [Hc1 Hc2]. rewrite Hc2 in H. apply String.eqb_eq in Hc2.
      cbn [pick] in H. change (numbered "ns" 1) with "ns1"%string in H.
      pose proof (Hd Hc1 Hc2) as Hg. rewrite (Hput _ Hg) in H.
      destruct (assign_required l (bm_insert "ns1" u m)) as [[l1 m1]|] eqn:E; [|discriminate].
      injection H as <- <-. eapply IH; [exact Hl'|apply Hm'; exact Hg|exact Hn'|exact E|exact Hp].
    + rewrite (Hput _ Hf) in H.
      destruct (assign_required l (bm_insert (q_prefix e) u m)) as [[l1 m1]|] eqn:E; [|discriminate].
      injection H as <- <-. eapply IH; [exact Hl'|apply Hm'; exact Hf|exact Hn'|exact E|exact Hp].
  - destruct (assign_required l m) as [[l1 m1]|] eqn:E; [|discriminate]. injection H as <- <-.
    eapply IH; [exact Hl'| |exact Hn'|exact E|exact Hp].
    intros p' u' G. destruct (Hm _ _ G) as [G1 G2]. split; [assumption|]. intro. apply G2. now right.
Qed.

Lemma assign_required_prefixes l : forall m l' m', assign_required l m = Some (l', m') ->
  Forall2 (fun x x' => fst x' = fst x /\ q_prefix (snd x') = q_prefix (snd x)) l l'.
Proof.
  induction l as [|[u e] l IH]; intros m l' m' H; cbn [assign_required] in H.
  { inversion H; subst. constructor. }
  assert (G : exists e1 m1, match assign_required l m1 with
               | Some (l'', m'') => Some ((u, e1) :: l'', m'')
               | None => None end = Some (l', m') /\ q_prefix e1 = q_prefix e).
  { destruct (q_required e); [|eauto].
    destruct (q_needs e && String.eqb (q_prefix e) "")%bool;
    [|destruct (ns_put (q_prefix e) u m) as [[|] m1]; [eauto|]];
    (destruct (if String.eqb (q_prefix e) "" then ("ns"%string, 1) else (q_prefix e, 2)) as [q i];
     destruct (pick (S (List.length m)) q i u m) as [[p' m2]|]; [|discriminate]; eauto). }
  destruct G as (e1 & m1 & G & Hp). destruct (assign_required l m1) as [[l1 m2]|] eqn:E; [|discriminate].
  inversion G; subst. constructor; [cbn; auto|]. eauto.
Qed.

Lemma optional_only l : forall m l' m', assign_optional l m = (l', m') ->
  forall p u, bm_get p m' = Some u -> bm_get p m = Some u \/ exists e, In (u, e) l /\ p = q_prefix e.
Proof.
  induction l as [|[u e] l IH]; intros m l' m' H p v Hp; cbn [assign_optional] in H.
  { inversion H; subst. auto. }
  destruct (q_required e).
  - destruct (assign_optional l m) as [l1 m1] eqn:E. inversion H; subst.
    destruct (IH _ _ _ E p v Hp) as [A | (e' & A & B)]; [auto|]. right. exists e'. split; [now right|assumption].
  - destruct (ns_put (q_prefix e) u m) as [[|] m1] eqn:Ep.
    + apply ns_put_true in Ep. destruct Ep as [_ ->].
      destruct (assign_optional l (bm_insert (q_prefix e) u m)) as [l1 m1] eqn:E. inversion H; subst.
      destruct (IH _ _ _ E p v Hp) as [A | (e' & A & B)].
      * rewrite bm_get_insert in A. destruct (String.eqb_spec p (q_prefix e)); [|auto].
        inversion A; subst. right. exists e. split; [now left|reflexivity].
      * right. exists e'. split; [now right|assumption].
    + destruct (assign_optional l m) as [l1 m2] eqn:E. inversion H; subst.
      destruct (IH _ _ _ E p v Hp) as [A | (e' & A & B)]; [auto|]. right. exists e'. split; [now right|assumption].
Qed.

Lemma Forall2_In_r {X Y} (P : X -> Y -> Prop) l l' y : Forall2 P l l' -> In y l' -> exists x, In x l /\ P x y.
Proof.
  induction 1 as [|x z l l' H F IH]; [intros []|]. intros [-> | Hin]; [eauto using in_eq|].
  destruct (IH Hin) as (w & A & B). eauto using in_cons.
Qed.

Lemma finalize_kept f b m : NoDup (keys b) ->
  (forall u e, In (u, e) b -> f (q_prefix e) = u /\ (q_needs e = true -> q_prefix e = ""%string -> f "ns1"%string = u)) ->
  finalize b = Some m ->
  forall p u, bm_get p (by_prefix m) = Some u -> f p = u.
Proof.
  intros Hn Hb H p u Hp. unfold finalize in H.
  destruct (assign_required b []) as [[b1 m1]|] eqn:E1; [|discriminate].
  destruct (assign_optional b1 m1) as [b2 m2] eqn:E2. inversion H; subst m. cbn in Hp.
  destruct (optional_only _ _ _ _ E2 p u Hp) as [A | (e & A & B)].
  - exact (required_kept f b [] b1 m1 Hb ltac:(intros; discriminate) Hn E1 p u A).
  - apply assign_required_prefixes in E1. destruct (Forall2_In_r _ _ _ _ E1 A) as ([u0 e0] & C & D1 & D2).
    cbn in *. subst u0 p. rewrite D2. now apply Hb.
Qed.

(** ** Scopes *)

Lemma find_bm (p : string) (l : list (string * string)) :
  match List.find (fun d => String.eqb p (fst d)) l with Some d => Some (snd d) | None => None end = bm_get p l.
Proof.
  induction l as [|[q u] l IH]; cbn; [reflexivity|]. destruct (String.eqb p q); [reflexivity|exact IH].
Qed.

Lemma in_scope_cons ds st p :
  in_scope (ds :: st) p = match bm_get p ds with Some u => Some u | None => in_scope st p end.
Proof.
  cbn. rewrite <- find_bm. destruct (List.find (fun d => String.eqb p (fst d)) ds); reflexivity.
Qed.

(** Everything mapped is in scope. *)
Definition scoped (m : bmap string) (st : list (list (string * string))) : Prop :=
  forall p u, bm_get p m = Some u -> in_scope st p = Some u.

Lemma get_filter (P : string * string -> bool) (m : bmap string) p : NoDup (keys m) ->
  bm_get p (filter P m) = match bm_get p m with Some u => if P (p, u) then Some u else None | None => None end.
Proof.
  induction m as [|[q u] m IH]; intro Hn; cbn; [reflexivity|]. inversion Hn as [|? ? Hni Hn']; subst.
  destruct (String.eqb_spec p q) as [->|Hne].
  - destruct (P (q, u)); cbn; [now rewrite String.eqb_refl|]. rewrite (IH Hn').
    destruct (bm_get q m) eqn:E; [|reflexivity]. exfalso. apply Hni.
    apply bm_mem_keys. unfold bm_mem. now rewrite E.
  - destruct (P (q, u)); cbn; [destruct (String.eqb_spec p q); [contradiction|]|]; now apply IH.
Qed.

Lemma scoped_push_in_scope m st : NoDup (keys m) ->
  scoped m (filter (fun d => negb (redundant SkipIfInScope st d)) m :: st).
Proof.
  intros Hn p u Hp. rewrite in_scope_cons, get_filter, Hp by assumption.
  cbn. destruct (in_scope st p) as [u'|] eqn:E; [|reflexivity].
  destruct (String.eqb_spec u u'); [now subst|reflexivity].
Qed.

Lemma scoped_push_never m st : NoDup (keys m) ->
  scoped m (filter (fun d => negb (redundant SkipNever st d)) m :: st).
Proof. intros Hn p u Hp. now rewrite in_scope_cons, get_filter, Hp by assumption. Qed.

Lemma in_scope_In st p u : in_scope st p = Some u -> exists ds, In ds st /\ In (p, u) ds.
Proof.
  induction st as [|ds st IH]; cbn; [discriminate|].
  destruct (List.find (fun d => String.eqb p (fst d)) ds) as [[q v]|] eqn:E.
  - intros [= <-]. apply List.find_some in E. destruct E as [E1 E2]. cbn in E2. apply String.eqb_eq in E2.
    subst. eauto.
  - intro H. destruct (IH H) as (d & A & B). eauto.
Qed.

Lemma In_in_scope st p u ds : In ds st -> In (p, u) ds -> exists v, in_scope st p = Some v.
Proof.
  induction st as [|d st IH]; intros H1 H2; [destruct H1|]. cbn.
  destruct (List.find (fun d => String.eqb p (fst d)) d) as [x|] eqn:E; [eauto|].
  destruct H1 as [-> | H1]; [|auto].
  apply (List.find_none _ _ E) in H2. cbn in H2. rewrite String.eqb_refl in H2. discriminate.
Qed.

Lemma scoped_push_anywhere f m st : NoDup (keys m) ->
  (forall p u, bm_get p m = Some u -> f p = u) ->
  (forall ds, In ds st -> forall p u, In (p, u) ds -> f p = u) ->
  scoped m (filter (fun d => negb (redundant SkipIfAnywhere st d)) m :: st).
Proof.
  intros Hn Hm Hst p u Hp. rewrite in_scope_cons, get_filter, Hp by assumption.
  destruct (redundant SkipIfAnywhere st (p, u)) eqn:E; [|reflexivity]. cbn [negb].
  cbn in E. apply existsb_exists in E. destruct E as (ds & Hds & E).
  apply existsb_exists in E. destruct E as ([p' u'] & Hin & E). cbn in E.
  apply andb_true_iff in E. destruct E as [E1 E2]. apply String.eqb_eq in E1, E2. subst p' u'.
  destruct (In_in_scope st p u ds Hds Hin) as [v Hv]. rewrite Hv. f_equal.
  destruct (in_scope_In st p v Hv) as (ds' & A & B).
  rewrite <- (Hm _ _ Hp). symmetry. eauto.
Qed.

(** ** One start tag *)

Lemma resolved_element dbg base n reqs pn attrs bp m st :
  (forall b, apply_reqs dbg reqs base = inl b -> wf_builder b) ->
  begin_tag dbg base n reqs = inl (WStart pn attrs bp, m) ->
  scoped (by_prefix m) st -> (forall p u, bm_get p (by_prefix m) = Some u -> okp p /\ u <> ""%string) ->
  (xn_ns n = ""%string -> bm_get "" (by_prefix m) = None -> in_scope st "" = None) ->
  bp = by_prefix m /\ element_name st pn = Some n /\ attribute_names st attrs = Some (req_attrs reqs).
Proof.
  intros Hw H Hs Hp Hd. unfold begin_tag in H.
  destruct (apply_reqs dbg reqs base) as [b|] eqn:Eb; [|discriminate].
  specialize (Hw b eq_refl). destruct (finalize_ok b Hw) as (m0 & Ef & Fo). rewrite Ef in H.
  destruct (resolve_element m0 n) as [p|] eqn:Ee; [|discriminate].
  destruct (resolve_attributes m0 (req_attrs reqs)) as [l|] eqn:Ea; [|discriminate].
  inversion H; subst. split; [reflexivity|].
  (* a prefix assigned to [u] means [u] *)
  assert (As : forall u e q, bm_get u (by_url m) = Some e -> q_assigned e = Some q ->
     bm_get q (by_prefix m) = Some u).
  { intros u e q H1 H2. destruct (bm_get u b) as [e0|] eqn:E0.
    - destruct (fo_url _ _ Fo u e0 E0) as (a & A & _ & C). rewrite H1 in A. inversion A; subst. cbn in H2.
      now apply C in H2.
    - rewrite (fo_only _ _ Fo u E0) in H1. discriminate. }
  assert (Pu : forall q u, bm_get q (by_prefix m) = Some u -> q <> ""%string -> prefix_url st q = Some u).
  { intros q u Hq Hne. unfold prefix_url. destruct (Hp q u Hq) as [[O1 _] _].
    destruct (String.eqb_spec q "xml"); [contradiction|].
    destruct (String.eqb_spec q ""); [contradiction|]. now apply Hs. }
  split.
  - unfold resolve_element in Ee. destruct n as [ns local]. cbn [xn_ns xn_local] in *.
    assert (Dflt : String.eqb ns "" = true -> match bm_get "" (by_prefix m) with
         | Some _ => inr default_set | None => inl (prefixed "" local) end = inl pn ->
         element_name st pn = Some (XName ns local)).
    { intros Hns Hx. apply String.eqb_eq in Hns. destruct (bm_get "" (by_prefix m)) eqn:Eg; [discriminate|].
      inversion Hx; subst. unfold element_name; cbn. now rewrite (Hd eq_refl eq_refl). }
    destruct (bm_get ns (by_url m)) as [[q [a|] [|] nd]|] eqn:Eu.
    + inversion Ee; subst. pose proof (As _ _ _ Eu eq_refl) as G.
      unfold element_name, prefixed. cbn. destruct (String.eqb_spec a "").
      * subst. now rewrite (Hs _ _ G).
      * cbn. now rewrite (Pu a ns G n).
    + destruct (String.eqb ns "") eqn:Hns; [now apply Dflt|discriminate].
    + destruct (String.eqb ns "") eqn:Hns; [now apply Dflt|discriminate].
    + destruct (String.eqb ns "") eqn:Hns; [now apply Dflt|discriminate].
    + destruct (String.eqb_spec ns XML_NS).
      * inversion Ee; subst. reflexivity.
      * destruct (String.eqb ns "") eqn:Hns; [now apply Dflt|discriminate].
  - revert attrs Ea H. clear Ee. generalize (req_attrs reqs) as ats.
    induction ats as [|[[ns local] v] ats IH]; intros attrs Ea H; cbn [resolve_attributes] in Ea.
    { inversion Ea; subst. reflexivity. }
    destruct (resolve_attribute m (XName ns local)) as [p|] eqn:Er; [|discriminate].
    destruct (resolve_attributes m ats) as [l'|] eqn:El; [|discriminate]. inversion Ea; subst.
    cbn [attribute_names]. 
    assert (N : attribute_name st p = Some (XName ns local)).
    { unfold resolve_attribute in Er. cbn [xn_ns xn_local] in Er.
      destruct (String.eqb_spec ns ""); [inversion Er; subst; reflexivity|].
      destruct (bm_get ns (by_url m)) as [e|] eqn:Eu.
      - destruct (q_assigned e) as [q|] eqn:Eq; [|discriminate].
        destruct (String.eqb_spec q ""); [discriminate|]. inversion Er; subst.
        unfold attribute_name, prefixed. destruct (String.eqb_spec q ""); [contradiction|]. cbn.
        now rewrite (Pu q ns (As _ _ _ Eu Eq) n1).
      - destruct (String.eqb_spec ns XML_NS); [|discriminate]. inversion Er; subst. reflexivity. }
    rewrite N, (IH l' eq_refl eq_refl). reflexivity.
Qed.
