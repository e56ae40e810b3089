(** Derived serialization next to hand-written implementations. *)
From Verif Require Import Base Normalize Text Find Types Ser SerSpec SerProofs SerTree NsSpec NsMeaning SerPoison ScopeSpec NsScope DeriveSer DSerSpec DSerProofs DeriveMixedSer
  MixedSerSpec.

(** ** Grafting *)

Lemma add_kid_length t root st : List.length (snd (add_kid t root st)) = List.length st.
Proof. now destruct st. Qed.


(** [ks] is added to what the caller has written so far. *)
Definition base (ks : list rtree) (root : list rtree) (st : list frame) : list rtree * list frame :=
  add_kids ks (root, st).

Lemma add_kid_over t ks st1 root st :
  add_kid t (fst (base ks root st)) (st1 ++ snd (base ks root st)) =
  (fst (base (fst (add_kid t ks st1)) root st), snd (add_kid t ks st1) ++ snd (base (fst (add_kid t ks st1)) root st)).
Proof.
  destruct st1 as [|f st1]; cbn [add_kid app fst snd]; [|reflexivity].
  unfold base, add_kids. rewrite fold_left_app. cbn [fold_left].
  destruct (fold_left _ ks (root, st)) as [r s]. cbn. now destruct (add_kid t r s).
Qed.

Lemma ask_graft {d} (k : option serr -> wprog d) root st : strict k ->
  (forall e (p : wprog e) ks st1, List.length st1 = e ->
     ask_w (graft p k) (fst (base ks root st)) (st1 ++ snd (base ks root st)) =
     match ask_w p ks st1 with
     | Some ks' => ask_w (k None) (fst (base ks' root st)) (snd (base ks' root st))
     | None => None
     end) /\
  (forall e (q : bprog e) n l ks st1, List.length st1 = e ->
     ask_b (graft_b q k) n l (fst (base ks root st)) (st1 ++ snd (base ks root st)) =
     match ask_b q n l ks st1 with
     | Some ks' => ask_w (k None) (fst (base ks' root st)) (snd (base ks' root st))
     | None => None
     end).
Proof.
  intros K. apply prog_mut; cbn [graft graft_b ask_w ask_b].
  - intros [x|] ks st1 D; destruct st1; try discriminate; cbn; [apply K|reflexivity].
  - intros e s f IH ks st1 D. rewrite add_kid_over.
    pose proof (add_kid_length (RText s) ks st1) as Len. destruct (add_kid (RText s) ks st1) as [ks' st1']. cbn in *.
    apply IH. congruence.
  - intros e n b IH ks st1 D. now apply IH.
  - intros e f IH ks st1 D. destruct st1 as [|fr st1]; [discriminate|]. cbn [app]. rewrite add_kid_over.
    pose proof (add_kid_length (RElem (fr_name fr) (fr_reqs fr) (fr_kids fr)) ks st1) as Len.
    destruct (add_kid _ ks st1) as [ks' st1']. cbn in *. apply IH. congruence.
  - reflexivity.
  - reflexivity.
  - intros e p u q IH n l ks st1 D. now apply IH.
  - intros e a v f IH n l ks st1 D. destruct (add_attr a v l) as [r l']. now apply IH.
  - reflexivity.
  - intros e p IHp pe IHe n l ks st1 D. apply (IHp ks (Frame n l [] :: st1)). cbn. congruence.
  - reflexivity.
Qed.

Lemma graft_kids {d} (p : wprog 0) (k : option serr -> wprog d) root st : strict k ->
  ask_w (graft p k) root st =
  match ask_w p [] [] with
  | Some ks => let '(root', st') := add_kids ks (root, st) in ask_w (k None) root' st'
  | None => None
  end.
Proof.
  intros K. pose proof (proj1 (ask_graft k root st K) 0 p [] [] eq_refl) as H. cbn [base add_kids fold_left fst snd app] in H.
  etransitivity; [exact H|]. destruct (ask_w p [] []) as [ks|]; [|reflexivity].
  unfold base. destruct (add_kids ks (root, st)). reflexivity.
Qed.

(** ** Attributes *)

Lemma add_reqs_inv rs : forall l, NoDup (map fst (req_attrs l)) ->
  add_reqs l rs = Some (l ++ rs) /\ NoDup (map fst (req_attrs (l ++ rs))) \/
  add_reqs l rs = None /\ ~ NoDup (map fst (req_attrs (l ++ rs))).
Proof.
  intros l Hl. destruct (add_reqs l rs) as [l'|] eqn:E.
  - left. pose proof (add_reqs_Some _ _ _ E) as ->. split; [reflexivity|]. revert l Hl E.
    induction rs as [|[p u|n v] rs IH]; intros l Hl E.
    + now rewrite app_nil_r.
    + change (ReqNs p u :: rs) with ([ReqNs p u] ++ rs). rewrite app_assoc. apply IH.
      * rewrite req_attrs_app. cbn. now rewrite app_nil_r.
      * cbn in E. now rewrite <- app_assoc.
    + change (ReqAttr n v :: rs) with ([ReqAttr n v] ++ rs). rewrite app_assoc. cbn in E.
      destruct (attr_value n l) as [x|] eqn:A; [discriminate|]. apply IH.
      * rewrite req_attrs_app, map_app. cbn. apply attr_value_None in A.
        apply (NoDup_Add (a := n) (l := map fst (req_attrs l))); [|auto].
        rewrite <- (app_nil_r (map fst (req_attrs l))) at 1. apply Add_app.
      * now rewrite <- app_assoc.
  - right. split; [reflexivity|]. intros N. apply add_reqs_NoDup in N. congruence.
Qed.

Lemma add_reqs_nil rs : add_reqs [] rs = None -> forall l, add_reqs l rs = None.
Proof.
  intros H l. destruct (add_reqs l rs) as [l'|] eqn:E; [|reflexivity]. exfalso.
  destruct (add_reqs_inv rs [] ltac:(constructor)) as [[H1 _]|[_ H1]]; [congruence|]. apply H1. cbn.
  clear H H1. revert l l' E. induction rs as [|[p u|n v] rs IH]; intros l l' E; cbn in *; [constructor|eauto|].
  destruct (attr_value n l) as [x|] eqn:A; [discriminate|]. constructor; [|eauto].
  intros I. assert (Hf : In n (map fst (req_attrs (l ++ [ReqAttr n v])))).
  { rewrite req_attrs_app, map_app. apply in_or_app. right. now left. }
  revert E Hf I. generalize (l ++ [ReqAttr n v]). clear. revert l'.
  induction rs as [|[p u|m w] rs IH]; intros l' l E Hf I; cbn in *; [contradiction| |].
  - eapply IH; eauto. rewrite req_attrs_app, map_app. apply in_or_app. now left.
  - destruct (attr_value m l) as [x|] eqn:A; [discriminate|]. destruct I as [->|I].
    + apply attr_value_None in A. contradiction.
    + eapply IH; eauto. rewrite req_attrs_app, map_app. apply in_or_app. now left.
Qed.

Lemma hands_on_asks a : hands_on a -> exists ors, forall l,
  ask_a a l = match ors with Some rs => add_reqs l rs | None => None end.
Proof.
  induction a as [[e|]|p u a IH|n v f IH|m]; cbn [hands_on ask_a]; intros H.
  - now exists None.
  - now exists (Some []).
  - destruct (IH H) as ([rs|] & E); [exists (Some (ReqNs p u :: rs))|exists None]; intros l; rewrite E; reflexivity.
  - destruct H as [H1 H2]. destruct (IH None H1) as ([rs|] & E); [exists (Some (ReqAttr n v :: rs))|exists None]; intros l;
      unfold add_attr; cbn [add_reqs]; destruct (attr_value n l); rewrite ?H2, ?E; reflexivity.
  - now exists None.
Qed.

Lemma hands_on_reqs a rs : hands_on a -> ask_a a [] = add_reqs [] rs -> forall l, ask_a a l = add_reqs l rs.
Proof.
  intros H E l. destruct (hands_on_asks a H) as (ors & A). rewrite A in *.
  destruct (add_reqs [] rs) as [x|] eqn:R.
  - destruct ors as [rs'|]; [|discriminate]. apply add_reqs_Some in R. apply add_reqs_Some in E. cbn in *. congruence.
  - rewrite (add_reqs_nil rs R). destruct ors; [|reflexivity]. now apply add_reqs_nil.
Qed.

Lemma hands_on_then a b : hands_on a -> hands_on b -> hands_on (a_then a b).
Proof.
  intros Ha Hb. revert Ha. induction a as [[e|]|p u a IH|n v f IH|m]; cbn [hands_on a_then]; auto.
  intros [H1 H2]. split; [auto|]. intros e l. now rewrite ask_a_then, H2.
Qed.

Lemma hands_on_namespaces nss a : hands_on a -> hands_on (write_namespaces nss a).
Proof. induction nss as [|[p u] nss IH]; cbn; auto. Qed.

Lemma hands_on_each sel w vs : forall fs, (forall f v, In f fs -> In v vs -> sel f = true -> hands_on (w f v)) ->
  hands_on (a_each sel w vs fs).
Proof.
  induction vs as [|v vs IH]; intros [|f fs] H; cbn [a_each]; try exact I.
  destruct (sel f) eqn:E.
  - apply hands_on_then; [apply H; auto; now left|]. apply IH. intros g x Hg Hx. apply H; now right.
  - apply IH. intros g x Hg Hx. apply H; now right.
Qed.

(** Each part of the program writes something, or nothing comes of it. *)
Definition writes {d} (p : (option serr -> wprog d) -> wprog d) (oks : option (list rtree)) : Prop :=
  forall k root st, strict k ->
  ask_w (p k) root st =
    match oks with
    | Some ks => let '(root', st') := add_kids ks (root, st) in ask_w (k None) root' st'
    | None => None
    end.

Definition both (a b : option (list rtree)) : option (list rtree) :=
  match a, b with Some x, Some y => Some (x ++ y) | _, _ => None end.

Lemma both_inv a b ks : both a b = Some ks -> exists x y, a = Some x /\ b = Some y /\ ks = x ++ y.
Proof. destruct a, b; try discriminate. intros [= <-]. eauto. Qed.

Lemma writes_nil {d} : writes (fun k : option serr -> wprog d => k None) (Some []).
Proof. intros k root st _. reflexivity. Qed.

Lemma writes_panic {d} m : writes (fun _ : option serr -> wprog d => WPanic m) None.
Proof. intros k root st _. reflexivity. Qed.

Lemma writes_app {d} (p q : (option serr -> wprog d) -> wprog d) a b : writes p a -> writes q b ->
  writes (fun k => p (on_ok k (q k))) (both a b).
Proof.
  intros H1 H2 k root st Hk. rewrite H1 by now apply strict_on_ok. unfold both.
  destruct a as [x|]; [|reflexivity]. destruct (add_kids x (root, st)) as [root' st'] eqn:E.
  cbn [on_ok]. rewrite H2 by assumption. destruct b as [y|]; [|reflexivity].
  unfold add_kids. rewrite fold_left_app. fold (add_kids x (root, st)). rewrite E. reflexivity.
Qed.

Lemma writes_ext {d} (p q : (option serr -> wprog d) -> wprog d) a : (forall k, p k = q k) -> writes q a -> writes p a.
Proof. intros E H k root st Hk. rewrite E. auto. Qed.

Lemma writes_one {d} n attrs (kids : (option serr -> wprog (S d)) -> wprog (S d)) oks : writes kids oks ->
  writes (write_one n attrs kids)
    (match ask_a attrs [], oks with Some rs, Some ks => Some [RElem n rs ks] | _, _ => None end).
Proof.
  intros Hk k root st K. unfold write_one. cbn [ask_w].
  rewrite ask_embed by (intros; reflexivity). destruct (ask_a attrs []) as [rs|]; [|reflexivity].
  cbn [ask_b]. rewrite Hk by (intros e r s; reflexivity).
  destruct oks as [ks|]; [|reflexivity]. rewrite add_kids_frame. cbn [ask_w fr_name fr_reqs fr_kids app].
  cbn [add_kids fold_left fst snd]. destruct (add_kid _ root st). reflexivity.
Qed.

Section Mixed.
  Context (o : oracles) (env : tenv) (hand : nat -> option (value -> serialize)).
  Notation mcontent := (mcontent o env hand).
  Notation mattrs := (mser_attrs o env hand).
  Notation mkids := (mser_kids o env hand).
  Hypothesis Flat : flattens_hand_on env hand.

  Ltac rewrite_env := repeat match goal with
    | E : env _ = _ |- _ => rewrite E
    | E : hand _ = _ |- _ => rewrite E
    | E : nth_error (sorted_variants _) _ = Some _ |- _ => rewrite E
    | E : v_ty _ = _ |- _ => rewrite E
    | E : to_text _ _ _ = Some _ |- _ => rewrite E
    end.

  (** *** Flattened types hand errors on *)
  Lemma attr_hands_on n opt t v : hands_on (write_attr o n opt t v).
  Proof.
    unfold write_attr. destruct opt, v; cbn; auto.
    all: repeat match goal with |- context [match ?x with _ => _ end] => destruct x; cbn; auto end.
  Qed.

  Lemma attrs_hand_on v : forall t,
    (forall id h, t = ERef id -> env id = None -> hand id = Some h -> hands_on (s_attrs (h v))) ->
    hands_on (mattrs v t).
  Proof.
    induction v using value_ind''; intros [t|id] Hh; cbn [mser_attrs]; try exact I;
      destruct (env id) as [[? ? nss fs|? ? nss ws sk]|] eqn:E; try exact I;
      try (destruct (hand id) as [h|] eqn:Eh; [eauto|exact I]); try (apply hands_on_namespaces; exact I).
    apply hands_on_namespaces, hands_on_then.
    - apply hands_on_each. intros f v _ _ _. destruct (f_mode f); try exact I. apply attr_hands_on.
    - apply hands_on_each. intros f v Hf Hv _. destruct (f_mode f) as [| |id'|] eqn:M; try exact I.
      rewrite Forall_forall in H. apply (H v Hv). intros id0 h [= <-] E0 H0. eapply Flat; eauto.
  Qed.

  Lemma flat_hands_on id ident root nss fs f id' v : env id = Some (TDStruct ident root nss fs) -> In f fs ->
    f_mode f = MFlatten id' -> hands_on (mattrs v (ERef id')).
  Proof. intros E I M. apply attrs_hand_on. intros id0 h [= <-] E0 H0. eapply Flat; eauto. Qed.

  (** *** What is asked for is the content *)

  Definition shown (v : value) : Prop := forall t, exists oks,
    (forall d, writes (fun k : option serr -> wprog d => mkids v t k) oks) /\
    (forall rs ks, ask_a (mattrs v t) [] = Some rs -> oks = Some ks -> mcontent t v rs ks).

  Lemma shown_each n t l : Forall shown l -> exists oks,
    (forall d, writes (fun k : option serr -> wprog d => for_each (fun v k => write_one n (mattrs v t) (fun k' => mkids v t k') k) l k) oks) /\
    (forall ks, oks = Some ks -> elems_are mcontent n t l ks).
  Proof.
    induction 1 as [|v l Hv _ IH].
    - exists (Some []). split; [intros d; apply writes_nil|]. intros ks [= <-]. constructor.
    - destruct (Hv t) as (ov & W & C). destruct IH as (ol & Wl & Cl).
      eexists. split.
      + intros d. eapply writes_ext; [|apply writes_app; [apply (writes_one n (mattrs v t) _ ov (W (S d)))|apply Wl]].
        intros k. reflexivity.
      + intros ks B. apply both_inv in B. destruct B as (x & y & Bx & By & ->).
        destruct (ask_a (mattrs v t) []) as [rs|]; [|discriminate]. destruct ov as [ks|]; [|discriminate].
        injection Bx as <-. cbn. constructor; auto.
  Qed.

  Lemma shown_field n t kd v : below shown v -> exists oks,
    (forall d, writes (fun k : option serr -> wprog d => write_field (fun v k => write_one n (mattrs v t) (fun k' => mkids v t k') k) kd v k) oks) /\
    (forall ks, oks = Some ks -> exists l, items kd v l /\ elems_are mcontent n t l ks).
  Proof.
    intros Hb.
    assert (One : forall v, shown v -> exists oks,
      (forall d, writes (fun k : option serr -> wprog d => write_one n (mattrs v t) (fun k' => mkids v t k') k) oks) /\
      (forall ks, oks = Some ks -> elems_are mcontent n t [v] ks)).
    { intros x S. destruct (S t) as (ov & W & C). eexists. split.
      - intros d. exact (writes_one n (mattrs x t) _ ov (W (Datatypes.S d))).
      - intros ks B. destruct (ask_a (mattrs x t) []) as [rs|]; [|discriminate]. destruct ov as [ks'|]; [|discriminate].
        injection B as <-. constructor; [auto|constructor]. }
    destruct kd; cbn [write_field].
    - destruct (One v (proj1 Hb)) as (oks & W & C). exists oks. split; [exact W|]. intros ks E. exists [v]. split; [constructor|auto].
    - destruct Hb as [_ Hb].
      destruct v as [x|vs|i p| | |v|l]; try (exists None; split; [intros d; apply writes_panic|discriminate]).
      + exists (Some []). split; [intros d; apply writes_nil|]. intros ks [= <-]. exists []. split; constructor.
      + destruct (One v Hb) as (oks & W & C). exists oks. split; [exact W|]. intros ks E. exists [v]. split; [constructor|auto].
    - destruct Hb as [_ Hb].
      destruct v as [x|vs|i p| | |v|l]; try (exists None; split; [intros d; apply writes_panic|discriminate]).
      destruct (shown_each n t l Hb) as (oks & W & C). exists oks. split; [exact W|]. intros ks E. exists l. split; [constructor|auto].
  Qed.

  Lemma shown_own vs : Forall (below shown) vs -> forall fs, exists oks,
    (forall d, writes (fun k : option serr -> wprog d => w_each is_element
       (fun f v k => match f_mode f with
          | MElement kd t => write_field (fun v k => write_one (expanded (f_name f)) (mattrs v t) (fun k' => mkids v t k') k) kd v k
          | _ => WPanic ill_typed
          end) vs fs k) oks) /\
    (forall ks, oks = Some ks -> own_kids mcontent fs vs ks).
  Proof.
    induction 1 as [|v vs Hv _ IH]; intros [|f fs]; cbn [w_each].
    2,3: exists None; split; [intros d; apply writes_panic|discriminate].
    - exists (Some []). split; [intros d; apply writes_nil|]. intros ks [= <-]. constructor.
    - destruct (IH fs) as (ol & Wl & Cl). destruct (is_element f) eqn:M.
      2: { exists ol. split; [exact Wl|]. intros ks E. apply ok_other; auto. }
      unfold is_element in M. destruct (f_mode f) as [kd t| | |] eqn:Mf; try discriminate.
      destruct (shown_field (expanded (f_name f)) t kd v Hv) as (ov & W & C).
      eexists. split.
      + intros d. eapply writes_ext; [|apply writes_app; [apply W|apply Wl]]. intros k0. reflexivity.
      + intros ks B. apply both_inv in B. destruct B as (x & y & Bx & By & ->).
        destruct (C _ Bx) as (l & I & E). eapply ok_here; eauto.
  Qed.

  Lemma shown_flat id ident root nss fs0 vs : env id = Some (TDStruct ident root nss fs0) ->
    Forall (below shown) vs -> forall fs, incl fs fs0 -> exists oks,
    (forall d, writes (fun k : option serr -> wprog d => w_each is_flatten
       (fun f v k => match f_mode f with MFlatten id => mkids v (ERef id) k | _ => WPanic ill_typed end) vs fs k) oks) /\
    (forall l l' ks, ask_a (a_each is_flatten
       (fun f v => match f_mode f with MFlatten id => mattrs v (ERef id) | _ => APanic ill_typed end) vs fs) l = Some l' ->
       oks = Some ks -> exists rs, l' = l ++ rs /\ flattened mcontent fs vs rs ks).
  Proof.
    intros E0. induction 1 as [|v vs Hv _ IH]; intros [|f fs] Hi; cbn [w_each a_each].
    2,3: exists None; split; [intros d; apply writes_panic|discriminate].
    - exists (Some []). split; [intros d; apply writes_nil|]. intros l l' ks [= <-] [= <-]. exists [].
      rewrite app_nil_r. split; [reflexivity|constructor].
    - destruct (IH fs (fun g Hg => Hi g (or_intror Hg))) as (ol & Wl & Cl). destruct (is_flatten f) eqn:Mb.
      2: { exists ol. split; [exact Wl|]. intros l l' ks A B. destruct (Cl _ _ _ A B) as (rs & -> & Fl).
           exists rs. split; [reflexivity|]. apply fl_other; auto. }
      unfold is_flatten in Mb. destruct (f_mode f) as [| |id'|] eqn:M; try discriminate.
      destruct Hv as [Hv _]. destruct (Hv (ERef id')) as (ov & W & C).
      eexists. split.
      + intros d. eapply writes_ext; [|apply writes_app; [apply W|apply Wl]]. intros k0. reflexivity.
      + intros l1 l2 ks A B. apply both_inv in B. destruct B as (x & y & Bx & By & ->).
        rewrite ask_a_then in A.
        destruct (hands_on_asks _ (flat_hands_on id ident root nss fs0 f id' v E0 (Hi f (or_introl eq_refl)) M)) as (ors & Ha).
        rewrite Ha in A. destruct ors as [rs|]; [|discriminate].
        destruct (add_reqs l1 rs) as [l3|] eqn:R; [|discriminate].
        assert (R0 : add_reqs [] rs = Some rs).
        { destruct (add_reqs [] rs) as [z|] eqn:Z; [now rewrite (add_reqs_Some _ _ _ Z)|].
          rewrite (add_reqs_nil rs Z) in R. discriminate. }
        apply add_reqs_Some in R. subst. destruct (Cl _ _ _ A eq_refl) as (rs' & -> & Fl).
        exists (rs ++ rs'). split; [now rewrite app_assoc|]. eapply fl_here; eauto. apply C; auto. now rewrite Ha.
  Qed.

  Lemma shown_attrs vs : forall fs l l', ask_a (a_each is_attribute
      (fun f v => match f_mode f with
                  | MAttribute opt t => write_attr o (expanded (f_name f)) opt t v
                  | _ => APanic ill_typed
                  end) vs fs) l = Some l' -> exists rs, l' = l ++ rs /\ attrs_are o fs vs rs.
  Proof.
    induction vs as [|v vs IH]; intros [|f fs] l l' A; cbn [a_each] in A; try discriminate.
    - injection A as <-. exists []. rewrite app_nil_r. split; [reflexivity|constructor].
    - destruct (is_attribute f) eqn:M.
      2: { destruct (IH _ _ _ A) as (rs & -> & H). exists rs. split; [reflexivity|]. now apply aa_other. }
      unfold is_attribute in M. destruct (f_mode f) as [|opt t| |] eqn:Mf; try discriminate.
      rewrite ask_a_then in A.
      assert (One : forall x y, ask_a match to_text o t x with
                | Some s => AAttr (expanded (f_name f)) s ARet
                | None => match text_error o t x with Some m => ARet (Some (SMsg m)) | None => APanic ill_typed end
                end l = Some y -> exists s, to_text o t x = Some s /\ y = l ++ [ReqAttr (expanded (f_name f)) s]).
      { intros x y. destruct (to_text o t x) as [s|]; [|destruct (text_error o t x); discriminate].
        cbn [ask_a]. unfold add_attr. destruct (attr_value _ l); [discriminate|]. intros [= <-]. eauto. }
      unfold write_attr in A. destruct opt.
      + destruct v as [x|ws|i p| | |v|ws]; try discriminate A.
        * cbn [ask_a] in A. destruct (IH _ _ _ A) as (rs & -> & H). exists rs. split; [reflexivity|]. eapply aa_none; eauto.
        * destruct v as [x|ws|i p| | |v|ws]; try discriminate A.
          destruct (ask_a _ l) as [y|] eqn:Y in A; [|discriminate]. destruct (One _ _ Y) as (s & T & ->).
          destruct (IH _ _ _ A) as (rs & -> & H). exists (ReqAttr (expanded (f_name f)) s :: rs). rewrite <- app_assoc. split; [reflexivity|].
          exact (aa_here o f fs true t x s vs rs Mf T H).
      + destruct v as [x|ws|i p| | |v|ws]; try discriminate A.
        destruct (ask_a _ l) as [y|] eqn:Y in A; [|discriminate]. destruct (One _ _ Y) as (s & T & ->).
        destruct (IH _ _ _ A) as (rs & -> & H). exists (ReqAttr (expanded (f_name f)) s :: rs). rewrite <- app_assoc. split; [reflexivity|].
        exact (aa_here o f fs false t x s vs rs Mf T H).
  Qed.

  Lemma value_shown v : shown v.
  Proof.
    assert (Hand : forall id v, env id = None -> exists oks,
      (forall d, writes (fun k : option serr -> wprog d => mkids v (ERef id) k) oks) /\
      (forall rs ks, ask_a (mattrs v (ERef id)) [] = Some rs -> oks = Some ks -> mcontent (ERef id) v rs ks)).
    { intros id x E. destruct (hand id) as [h|] eqn:Eh.
      - exists (ask_w (s_kids (h x)) [] []). split.
        + intros d k root st K.
          replace (mkids x (ERef id) k) with (graft (s_kids (h x)) k) by (destruct x; cbn [mser_kids]; now rewrite E, Eh).
          now apply graft_kids.
        + intros rs ks A B. eapply mco_hand; eauto.
          replace (mattrs x (ERef id)) with (s_attrs (h x)) in A by (destruct x; cbn [mser_attrs]; now rewrite E, Eh).
          exact A.
      - exists None. split; [|discriminate]. intros d k root st K. destruct x; cbn [mser_kids]; rewrite E, Eh; reflexivity. }
    assert (None_ : forall v t, (forall d (k : option serr -> wprog d), mkids v t k = WPanic ill_typed) -> exists oks,
      (forall d, writes (fun k : option serr -> wprog d => mkids v t k) oks) /\
      (forall rs ks, ask_a (mattrs v t) [] = Some rs -> oks = Some ks -> mcontent t v rs ks)).
    { intros x t E. exists None. split; [|discriminate]. intros d k root st K. rewrite E. reflexivity. }
    induction v using value_ind''; intros [t|id];
      try (destruct (env id) as [[ident root nss fs|ident root nss ws sk]|] eqn:E; [| |now apply Hand]);
      try (apply None_; intros d k; cbn [mser_kids]; rewrite ?E; reflexivity).
    - destruct (to_text o t x) as [s|] eqn:E.
      + exists (Some [RText s]). split.
        * intros d k root st K. cbn [mser_kids]. rewrite E. cbn. destruct (add_kid (RText s) root st). reflexivity.
        * intros rs ks [= <-] [= <-]. now constructor.
      + exists None. split; [|discriminate]. intros d k root st K. cbn [mser_kids]. rewrite E.
        destruct (text_error o t x); [apply K|reflexivity].
    - destruct (shown_own _ H fs) as (ow & Ww & Cw).
      destruct (shown_flat id ident root nss fs vs E H fs (incl_refl _)) as (ofl & Wf & Cf).
      exists (both ow ofl). split.
      + intros d. eapply writes_ext; [|apply writes_app; [apply Ww|apply Wf]].
        intros k. cbn [mser_kids]. rewrite E. reflexivity.
      + intros l ks Ha B. apply both_inv in B. destruct B as (x & y & Bx & By & ->).
        cbn [mser_attrs] in Ha. rewrite E, ask_namespaces, ask_a_then in Ha.
        destruct (ask_a (a_each is_attribute _ vs fs) ([] ++ mappings nss)) as [l1|] eqn:A; [|discriminate].
        destruct (shown_attrs _ _ _ _ A) as (rs & -> & At). destruct (Cf _ _ _ Ha By) as (rs' & -> & Fl).
        cbn [app]. rewrite <- app_assoc. eapply mco_struct; eauto.
    - destruct (nth_error (sorted_variants ws) i) as [w|] eqn:Ei;
        [|apply None_; intros d k; cbn [mser_kids]; rewrite E, Ei; reflexivity].
      destruct (v_ty w) as [[kd t]|] eqn:Et, p as [x|];
        try (apply None_; intros d k; cbn [mser_kids]; rewrite E, Ei, Et; reflexivity).
      + destruct (shown_field (expanded (v_name w)) t kd x (H x eq_refl)) as (ow & Ww & Cw).
        exists ow. split.
        * intros d. eapply writes_ext; [|apply Ww]. intros k0. cbn [mser_kids]. rewrite E, Ei, Et. reflexivity.
        * intros rs ks A B. cbn [mser_attrs] in A. rewrite E, ask_namespaces in A. cbn in A. injection A as <-.
          destruct (Cw _ B) as (l & I & El). eapply mco_payload; eauto.
      + exists (Some [RElem (expanded (v_name w)) [] []]). split.
        * intros d k root0 st K. cbn [mser_kids]. rewrite E, Ei, Et. cbn. destruct (add_kid _ root0 st). reflexivity.
        * intros rs ks A [= <-]. cbn [mser_attrs] in A. rewrite E, ask_namespaces in A. cbn in A. injection A as <-.
          eapply mco_unit; eauto.
    - destruct sk; [|apply None_; intros d k; cbn [mser_kids]; rewrite E; reflexivity].
      exists (Some []). split.
      + intros d. eapply writes_ext; [|apply writes_nil]. intros k0. cbn [mser_kids]. rewrite E. reflexivity.
      + intros rs ks A [= <-]. cbn [mser_attrs] in A. rewrite E, ask_namespaces in A. cbn in A. injection A as <-.
        eapply mco_skipped; eauto.
  Qed.

  (** *** The content is what is asked for *)

  Lemma distinct_tree_ok : forall t, distinct_attrs t -> tree_ok t = true.
  Proof.
    fix rec 1. intros [n rs ks|s] H; cbn [tree_ok]; [|reflexivity].
    rewrite (add_reqs_NoDup rs [] (H n rs ks (sub_self _))).
    revert H. induction ks as [|k ks IH]; intros H; [reflexivity|]. cbn [forallb].
    rewrite (rec k); [cbn [andb]; apply IH|].
    - intros n' rs' ks' S. inversion S; subst.
      + apply (H n rs (k :: ks)). constructor.
      + eapply H. eapply sub_kid; [right; eassumption|eassumption].
    - intros n' rs' ks' S. eapply H. eapply sub_kid; [now left|exact S].
  Qed.

  Lemma tree_ok_distinct : forall t, tree_ok t = true -> distinct_attrs t.
  Proof.
    fix rec 1. intros [n rs ks|s] H; [|apply distinct_text]. cbn [tree_ok] in H.
    destruct (add_reqs [] rs) as [x|] eqn:R; [|discriminate]. apply distinct_elem.
    - destruct (add_reqs_inv rs [] ltac:(constructor)) as [[_ N]|[N _]]; [exact N|congruence].
    - induction ks as [|k ks IH]; [constructor|]. cbn in H. apply andb_prop in H. destruct H. constructor; auto.
  Qed.

  Definition masks (v : value) : Prop := forall t rs ks, mcontent t v rs ks ->
    ask_a (mattrs v t) [] = add_reqs [] rs.

  Lemma mask_flattened id ident root nss fs0 fs vs rs ks : env id = Some (TDStruct ident root nss fs0) -> incl fs fs0 ->
    Forall (below masks) vs -> flattened mcontent fs vs rs ks -> forall l,
    ask_a (a_each is_flatten (fun f v => match f_mode f with
                         | MFlatten id => mattrs v (ERef id)
                         | _ => APanic ill_typed
                         end) vs fs) l = add_reqs l rs.
  Proof.
    intros E0 Hi Hb H. revert Hi Hb.
    induction H as [|f fs id' v vs r k r2 k2 M C _ IH|f fs v vs r l M _ IH]; intros Hi Hb l0.
    - reflexivity.
    - inversion Hb as [|v' vs' [Hv _] Hb']; subst.
      cbn [a_each]. unfold is_flatten at 1. rewrite M, ask_a_then.
      rewrite (hands_on_reqs _ r (flat_hands_on id ident root nss fs0 f id' v E0 (Hi f (or_introl eq_refl)) M) (Hv _ _ _ C)), add_reqs_app.
      destruct (add_reqs l0 r); [|reflexivity]. apply IH; auto. intros g Hg. apply Hi. now right.
    - inversion Hb as [|v' vs' _ Hb']; subst. cbn [a_each]. rewrite M. apply IH; auto. intros g Hg. apply Hi. now right.
  Qed.

  Lemma mask_attrs v : masks v.
  Proof.
    assert (Hand : forall v id h rs, env id = None -> hand id = Some h -> ask_a (s_attrs (h v)) [] = Some rs ->
      ask_a (mattrs v (ERef id)) [] = add_reqs [] rs).
    { intros x id h rs E Eh A.
      replace (mattrs x (ERef id)) with (s_attrs (h x)) by (destruct x; cbn [mser_attrs]; now rewrite E, Eh).
      rewrite A. symmetry. apply (add_reqs_NoDup rs []). eapply ask_a_distinct; [|exact A]. constructor. }
    induction v using value_ind''; intros t rs ks C; inversion C; subst; try (eapply Hand; eassumption); cbn [mser_attrs].
    - reflexivity.
    - rewrite_env; rewrite ask_namespaces, ask_a_then, add_reqs_app, add_mappings, add_reqs_app.
      erewrite ask_attr_fields; [|intros ? ?; reflexivity|eassumption].
      destruct (add_reqs ([] ++ mappings nss) attrs); [|reflexivity].
      eapply mask_flattened; eauto. apply incl_refl.
    - rewrite_env; rewrite ask_namespaces, add_mappings. reflexivity.
    - rewrite_env; rewrite ask_namespaces, add_mappings. reflexivity.
    - rewrite_env; rewrite ask_namespaces, add_mappings. reflexivity.
  Qed.

  Definition mputs_kids (v : value) : Prop := forall t rs ks, mcontent t v rs ks ->
    forall d, puts (fun k : option serr -> wprog d => mkids v t k) ks.

  Lemma mputs_elem d n t v rs ks : mputs_kids v -> mcontent t v rs ks ->
    puts (fun k : option serr -> wprog d => write_one n (mattrs v t) (fun k' => mkids v t k') k) [RElem n rs ks].
  Proof. intros H C. apply puts_one; [eapply mask_attrs; eauto|]. eapply H; eauto. Qed.

  Lemma mputs_own {d} fs vs ks : Forall (below mputs_kids) vs -> own_kids mcontent fs vs ks ->
    puts (w_each is_element (fun f v (k : option serr -> wprog d) => match f_mode f with
       | MElement kd t => write_field (fun v k => write_one (expanded (f_name f)) (mattrs v t)
                                                     (fun k' => mkids v t k') k) kd v k
       | _ => WPanic ill_typed
       end) vs fs) ks.
  Proof.
    intros Hb H. revert Hb.
    induction H as [|f fs k t v xs l vs l2 M I E _ IH|f fs v vs l M _ IH]; intros Hb.
    - apply puts_nil.
    - inversion Hb as [|v' vs' Hv Hb']; subst. eapply puts_ext; [|apply puts_app].
      + intros k0. cbn [w_each]. unfold is_element at 1. rewrite M. reflexivity.
      + eapply puts_field; eauto. intros x rs ks Hx C. apply mputs_elem; auto.
        pose proof (below_items _ _ _ _ Hv I) as F. rewrite Forall_forall in F. auto.
      + now apply IH.
    - inversion Hb as [|v' vs' Hv Hb']; subst. eapply puts_ext; [|now apply IH].
      intros k0. cbn [w_each]. now rewrite M.
  Qed.

  Lemma mputs_flat {d} fs vs rs ks : Forall (below mputs_kids) vs -> flattened mcontent fs vs rs ks ->
    puts (w_each is_flatten (fun f v (k : option serr -> wprog d) => match f_mode f with
       | MFlatten id => mkids v (ERef id) k
       | _ => WPanic ill_typed
       end) vs fs) ks.
  Proof.
    intros Hb H. revert Hb.
    induction H as [|f fs id v vs r k r2 k2 M C _ IH|f fs v vs r l M _ IH]; intros Hb.
    - apply puts_nil.
    - inversion Hb as [|v' vs' [Hv _] Hb']; subst. eapply puts_ext; [|apply puts_app].
      + intros k0. cbn [w_each]. unfold is_flatten at 1. rewrite M. reflexivity.
      + eapply Hv; eauto.
      + now apply IH.
    - inversion Hb as [|v' vs' Hv Hb']; subst. eapply puts_ext; [|now apply IH].
      intros k0. cbn [w_each]. now rewrite M.
  Qed.

  Lemma mask_kids v : mputs_kids v.
  Proof.
    assert (Hand : forall v id h ks, env id = None -> hand id = Some h -> ask_w (s_kids (h v)) [] [] = Some ks ->
      forall d, puts (fun k : option serr -> wprog d => mkids v (ERef id) k) ks).
    { intros y id h ks E Eh A d k root st K.
      replace (mkids y (ERef id) k) with (graft (s_kids (h y)) k) by (destruct y; cbn [mser_kids]; now rewrite E, Eh).
      etransitivity; [exact (graft_kids (s_kids (h y)) k root st K)|]. rewrite A.
      replace (forallb tree_ok ks) with true; [reflexivity|]. symmetry. apply forallb_forall.
      pose proof (proj1 ask_distinct _ _ _ _ _ (Forall_nil _) (Forall_nil _) A) as D. rewrite Forall_forall in D.
      intros x Hx. apply distinct_tree_ok. auto. }
    induction v using value_ind''; intros t rs ks C d; inversion C; subst; try (eapply Hand; eassumption).
    - intros k root0 st Hk. cbn [mser_kids]. rewrite_env. cbn. destruct (add_kid (RText s) root0 st). reflexivity.
    - eapply puts_ext; [|apply puts_app].
      + intros k. cbn [mser_kids]. rewrite_env. reflexivity.
      + eapply mputs_own; eauto.
      + eapply mputs_flat; eauto.
    - intros k root0 st Hk. cbn [mser_kids]. rewrite_env. cbn. destruct (add_kid _ root0 st). reflexivity.
    - eapply puts_ext; [intros k0; cbn [mser_kids]; rewrite_env; reflexivity|].
      eapply puts_field; eauto. intros y rs' ks' Hy C'. apply mputs_elem; auto.
      pose proof (below_items _ _ _ _ (H x eq_refl) ltac:(eassumption)) as F. rewrite Forall_forall in F. auto.
    - eapply puts_ext; [intros k; cbn [mser_kids]; rewrite_env; reflexivity|]. apply puts_nil.
  Qed.

  Lemma masked_content t v rs ks n : mcontent t v rs ks ->
    asked n (mser_value o env hand t v) = if tree_ok (RElem n rs ks) then Some (RElem n rs ks) else None.
  Proof.
    intros C. unfold asked, mser_value. cbn [s_attrs s_kids]. rewrite (mask_attrs _ _ _ _ C). cbn [tree_ok].
    destruct (add_reqs [] rs) as [l|] eqn:E; [|reflexivity]. apply add_reqs_Some in E. cbn in E. subst.
    rewrite (mask_kids _ _ _ _ C) by (intros e r s; reflexivity).
    destruct (forallb tree_ok ks); [|reflexivity]. now rewrite add_kids_root.
  Qed.

  Theorem masked_iff t v n T :
    asked n (mser_value o env hand t v) = Some T <->
    exists rs ks, mcontent t v rs ks /\ T = RElem n rs ks /\ distinct_attrs T.
  Proof.
    split.
    - intros A. assert (D := asked_distinct _ _ _ A). destruct (value_shown v t) as (oks & W & C).
      unfold asked, mser_value in A. cbn [s_attrs s_kids] in A.
      destruct (ask_a (mattrs v t) []) as [rs|]; [|discriminate].
      rewrite (W 0 WRet [] []) in A by (intros e r s; reflexivity).
      destruct oks as [ks|]; [|discriminate]. rewrite add_kids_root in A. cbn in A. injection A as <-.
      exists rs, ks. split; [now apply C|]. split; [reflexivity|exact D].
    - intros (rs & ks & C & -> & D). rewrite (masked_content t v rs ks n C). now rewrite distinct_tree_ok.
  Qed.

  (** *** There is only one content *)

  Definition one_mcontent (v : value) : Prop :=
    forall t r k r' k', mcontent t v r k -> mcontent t v r' k' -> r = r' /\ k = k'.

  Lemma melems_det n t l : Forall one_mcontent l -> forall ks ks',
    elems_are mcontent n t l ks -> elems_are mcontent n t l ks' -> ks = ks'.
  Proof.
    induction 1 as [|v l Hv _ IH]; intros ks ks' H H'.
    - inversion H; inversion H'; now subst.
    - inversion H as [|v1 l1 r1 k1 m1 C1 E1]; inversion H' as [|v2 l2 r2 k2 m2 C2 E2]; subst.
      destruct (Hv _ _ _ _ _ C1 C2) as [-> ->]. f_equal. now apply IH.
  Qed.

  Lemma mown_det fs vs l : Forall (below one_mcontent) vs -> own_kids mcontent fs vs l ->
    forall l', own_kids mcontent fs vs l' -> l = l'.
  Proof.
    intros Hb H. revert Hb.
    induction H as [|f fs k t v xs l vs l2 M I E _ IH|f fs v vs l M _ IH]; intros Hb l' H'.
    - now inversion H'.
    - inversion Hb as [|v' vs' Hv Hb']; subst.
      inversion H' as [|f1 fs1 k1 t1 v1 xs1 l1 vs1 l3 M1 I1 E1 H1|f1 fs1 v1 vs1 l1 M1 H1]; subst.
      + rewrite M in M1. injection M1 as <- <-. rewrite (items_det _ _ _ _ I1 I) in *.
        rewrite (melems_det _ _ _ (below_items _ _ _ _ Hv I) _ _ E E1). f_equal. now apply IH.
      + unfold is_element in M1. rewrite M in M1. discriminate.
    - inversion Hb as [|v' vs' Hv Hb']; subst.
      inversion H' as [|f1 fs1 k1 t1 v1 xs1 l1 vs1 l3 M1 I1 E1 H1|f1 fs1 v1 vs1 l1 M1 H1]; subst.
      + unfold is_element in M. rewrite M1 in M. discriminate.
      + now apply IH.
  Qed.

  Lemma mflat_det fs vs r l : Forall (below one_mcontent) vs -> flattened mcontent fs vs r l ->
    forall r' l', flattened mcontent fs vs r' l' -> r = r' /\ l = l'.
  Proof.
    intros Hb H. revert Hb.
    induction H as [|f fs id v vs r k r2 k2 M C _ IH|f fs v vs r l M _ IH]; intros Hb r' l' H'.
    - now inversion H'.
    - inversion Hb as [|v' vs' Hv Hb']; subst.
      inversion H' as [|f1 fs1 id1 v1 vs1 r1 k1 r3 k3 M1 C1 H1|f1 fs1 v1 vs1 r1 l1 M1 H1]; subst.
      + rewrite M in M1. injection M1 as <-. destruct Hv as [Hv _].
        destruct (Hv _ _ _ _ _ C C1) as [-> ->]. destruct (IH Hb' _ _ H1) as [-> ->]. auto.
      + unfold is_flatten in M1. rewrite M in M1. discriminate.
    - inversion Hb as [|v' vs' Hv Hb']; subst.
      inversion H' as [|f1 fs1 id1 v1 vs1 r1 k1 r3 k3 M1 C1 H1|f1 fs1 v1 vs1 r1 l1 M1 H1]; subst.
      + unfold is_flatten in M. rewrite M1 in M. discriminate.
      + now apply IH.
  Qed.

  Theorem mcontent_det v : one_mcontent v.
  Proof.
    induction v using value_ind''; intros t r k r' k' C C'; inversion C; subst; inversion C'; subst;
      repeat match goal with
        | E : ?x = _, E' : ?x = _ |- _ => rewrite E in E'; try discriminate E'; injection E' as E'; subst
        end; auto.
    - split; [|f_equal].
      + f_equal. f_equal; [eapply attrs_det; eassumption|eapply mflat_det; eassumption].
      + eapply mown_det; eassumption.
      + eapply mflat_det; eassumption.
    - split; [reflexivity|].
      match goal with I : items _ _ ?a, J : items _ _ ?b |- _ => assert (a = b) by (eapply items_det; eassumption); subst end.
      eapply melems_det; [|eassumption|eassumption]. eapply below_items; [apply H; reflexivity|eassumption].
  Qed.

  (** *** Serialization *)

  Theorem mixed_written dbg w t v n k : to dbg w n (mser_value o env hand t v) = inl (None, k) ->
    exists rs ks, mcontent t v rs ks /\ distinct_attrs (RElem n rs ks) /\
      map ev_sev (k_out k) = tree_sevs (tree_of (RElem n rs ks)).
  Proof.
    intros H. destruct (to_writes dbg w n _ k H) as (t' & A & E & _).
    apply masked_iff in A. destruct A as (rs & ks & C & -> & D). eauto.
  Qed.

  Theorem no_content_fails dbg w t v n k : (forall rs ks, ~ mcontent t v rs ks) ->
    to dbg w n (mser_value o env hand t v) <> inl (None, k).
  Proof. intros N H. destruct (mixed_written _ _ _ _ _ _ H) as (rs & ks & C & _). exact (N _ _ C). Qed.

  Theorem mixed_succeeds dbg w t v n rs ks : mcontent t v rs ks -> distinct_attrs (RElem n rs ks) ->
    ScopeSpec.declared nothing_declared False (RElem n rs ks) -> (forall i, w i = None) ->
    exists k, to dbg w n (mser_value o env hand t v) = inl (None, k) /\
      map ev_sev (k_out k) = tree_sevs (tree_of (RElem n rs ks)).
  Proof.
    intros C D S Io. assert (A := masked_content t v rs ks n C). rewrite distinct_tree_ok in A by exact D.
    destruct (declared_to dbg w n _ _ A Io S) as (k & H). exists k. split; [exact H|].
    destruct (to_writes dbg w n _ k H) as (t' & A' & E & _). rewrite A in A'. injection A' as <-. exact E.
  Qed.
End Mixed.

(** ** If every type is derived *)

Lemma mcontent_content o env v : forall t rs ks, mcontent o env (fun _ => None) t v rs ks -> content o env t v rs ks.
Proof.
  induction v using value_ind''; intros t rs ks C; inversion C; subst; try discriminate.
  - now constructor.
  - eapply co_struct; eauto.
    + match goal with F : own_kids _ _ _ _ |- _ => clear - F H; rename F into F0 end.
      induction F0 as [|f fs k t v xs l vs l2 M I E _ IH|f fs v vs l M _ IH]; [constructor| |];
        inversion H as [|v' vs' Hv Hb]; subst.
      * eapply ok_here; eauto. pose proof (below_items _ _ _ _ Hv I) as F. clear - E F.
        induction E; [constructor|]. inversion F; subst. constructor; auto.
      * apply ok_other; auto.
    + match goal with F : flattened _ _ _ _ _ |- _ => clear - F H; rename F into F0 end.
      induction F0 as [|f fs id v vs r k r2 k2 M C _ IH|f fs v vs r l M _ IH]; [constructor| |];
        inversion H as [|v' vs' [Hv _] Hb]; subst.
      * eapply fl_here; eauto.
      * apply fl_other; auto.
  - eapply co_unit; eauto.
  - eapply co_payload; eauto. pose proof (below_items _ _ _ _ (H x eq_refl) ltac:(eassumption)) as F.
    match goal with E : elems_are _ _ _ _ _ |- _ => clear - E F; rename E into E0 end.
    induction E0; [constructor|]. inversion F; subst. constructor; auto.
  - eapply co_skipped; eauto.
Qed.

Lemma asks_for_content o env t v n T : asked n (ser_value o env t v) = Some T ->
  exists rs ks, content o env t v rs ks /\ T = RElem n rs ks.
Proof.
  intros A. change (ser_value o env t v) with (mser_value o env (fun _ => None) t v) in A.
  apply masked_iff in A; [|intros id ident root nss fs f id' h x _ _ _ _; discriminate].
  destruct A as (rs & ks & C & -> & _). exists rs, ks. split; [now apply mcontent_content|reflexivity].
Qed.

(** [struct A { #[attribute] id: bool, #[flatten] x: X }]: [X] writes an attribute [id], too, and ignores
    the error. *)
Lemma ignored_error : exists env hand v,
  let o := {| o_debug := fun s => s;
    o_std_parse := fun _ _ => Err "no"%string; o_std_show := fun _ _ => ""%string;
    o_float_parse := fun _ _ => Err "no"%string; o_float_show := fun _ _ => ""%string;
  o_hand_parse := fun _ _ => Err "no"%string; o_hand_show := fun _ _ => inl ""%string |} in
  mtyped o env hand (ERef 0) v /\
  (forall dbg, exists k, to dbg (fun _ => None) (XName "" "a") (mser_value o env hand (ERef 0) v) = inl (None, k) /\
     map ev_sev (k_out k) = [SStart "a" [("id", "true")]%string; SEnd]) /\
  forall rs ks, mcontent o env hand (ERef 0) v rs ks -> ~ distinct_attrs (RElem (XName "" "a") rs ks).
Proof.
  exists (fun id => match id with
    | 0 => Some (TDStruct "A" (DName None "a") [] [Field (DName None "id") (MAttribute false TBool) None;
                                                   Field (DName None "x") (MFlatten 1) None])
    | _ => None end).
  exists (fun id => match id with
    | 1 => Some (fun _ => Ser (AAttr (XName "" "id") "other" (fun _ => ARet None)) (WRet None))
    | _ => None end).
  exists (VStruct [VText (TVBool true); VNone]). cbv zeta. split; [|split].
  - eapply mty_struct; [reflexivity|]. constructor; [|constructor; [|constructor]].
    + eapply tf_attribute; [reflexivity|discriminate].
    + eapply tf_flatten; [reflexivity|]. eapply mty_hand; reflexivity.
  - intros []; eexists; (split; [vm_compute; reflexivity|]); vm_compute; reflexivity.
  - intros rs ks C D.
    inversion C as [|id ident root nss fs vs at1 k1 r1 k2 E A O F| | | |id h v r k E]; subst; [|discriminate].
    injection E as <- <- <- <-.
    inversion A as [|f1 fs1 opt1 t1 x1 s1 vs1 l1 M1 T1 A1|f1 fs1 t1 vs1 l1 M1 A1|f1 fs1 v1 vs1 l1 M1 A1]; subst; [|discriminate].
    inversion F as [|g1 gs1 id1 w1 ws1 r2 q2 r3 q3 M2 C2 F2|g1 gs1 w1 ws1 r2 q2 M2 F2]; subst; [discriminate|].
    inversion F2 as [|g2 gs2 id2 w2 ws2 r4 q4 r5 q5 M3 C3 F3|g2 gs2 w2 ws2 r4 q4 M3 F3]; subst; [|discriminate].
    injection M3 as <-. inversion C3 as [| | | | |id h v r k E4 E5 A4 W4]; subst. injection E5 as <-.
    injection A4 as <-. specialize (D _ _ _ (sub_self _)). cbn in D. inversion D as [|? ? N _]; subst. apply N.
    rewrite req_attrs_app. cbn. rewrite map_app. apply in_or_app. right. now left.
Qed.
