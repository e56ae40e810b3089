(** Running a program writes the layout of the tree it asks for. *)
From Verif Require Import Base Find FindProofs BMap Ser SerSpec SerProofs.
From Coq Require Import Lia.

(** ** Layout: the events for a tree *)

Definition apply_req (dbg : bool) (b : nsbuilder) (r : req) : nsbuilder + abort :=
  match r with
  | ReqNs p u => nb_insert dbg p u b
  | ReqAttr n _ => inl (nb_attribute (xn_ns n) b)
  end.

Fixpoint apply_reqs (dbg : bool) (l : list req) (b : nsbuilder) : nsbuilder + abort :=
  match l with
  | [] => inl b
  | r :: l' => match apply_req dbg b r with inl b' => apply_reqs dbg l' b' | inr x => inr x end
  end.

Lemma apply_reqs_app dbg l1 : forall l2 b,
  apply_reqs dbg (l1 ++ l2) b =
  match apply_reqs dbg l1 b with inl b' => apply_reqs dbg l2 b' | inr x => inr x end.
Proof.
  induction l1 as [|r l1 IH]; intros l2 b; cbn; [reflexivity|].
  destruct (apply_req dbg b r); [apply IH|reflexivity].
Qed.

(** The start tag. *)
Definition begin_tag (dbg : bool) (base : nsbuilder) (n : xname) (reqs : list req)
  : (wevent * namespaces) + abort :=
  match apply_reqs dbg reqs base with
  | inr x => inr x
  | inl b =>
      match finalize b with
      | None => inr Diverge
      | Some m =>
          match resolve_element m n with
          | inr x => inr x
          | inl p =>
              match resolve_attributes m (req_attrs reqs) with
              | inr x => inr x
              | inl attrs => inl (WStart p attrs (by_prefix m), m)
              end
          end
      end
  end.

Fixpoint layout (dbg : bool) (base : string -> nsbuilder) (t : rtree) : list wevent + abort :=
  match t with
  | RText s => inl [WChars s]
  | RElem n reqs kids =>
      match begin_tag dbg (base (xn_ns n)) n reqs with
      | inr x => inr x
      | inl (ev, m) =>
          match (fix go (l : list rtree) : list wevent + abort :=
                   match l with
                   | [] => inl []
                   | t :: l' =>
                       match layout dbg (ns_child m) t with
                       | inr x => inr x
                       | inl e1 => match go l' with inl e2 => inl (e1 ++ e2) | inr x => inr x end
                       end
                   end) kids with
          | inr x => inr x
          | inl evs => inl (ev :: evs ++ [WEnd])
          end
      end
  end.

Fixpoint layouts (dbg : bool) (m : namespaces) (l : list rtree) : list wevent + abort :=
  match l with
  | [] => inl []
  | t :: l' =>
      match layout dbg (ns_child m) t with
      | inr x => inr x
      | inl e1 => match layouts dbg m l' with inl e2 => inl (e1 ++ e2) | inr x => inr x end
      end
  end.

Lemma layout_elem dbg base n reqs kids :
  layout dbg base (RElem n reqs kids) =
  match begin_tag dbg (base (xn_ns n)) n reqs with
  | inr x => inr x
  | inl (ev, m) =>
      match layouts dbg m kids with inr x => inr x | inl evs => inl (ev :: evs ++ [WEnd]) end
  end.
Proof.
  cbn [layout]. destruct (begin_tag dbg (base (xn_ns n)) n reqs) as [[ev m]|]; [|reflexivity].
  match goal with |- match ?f kids with _ => _ end = _ =>
    assert (E : f kids = layouts dbg m kids) end.
  { induction kids as [|t l IH]; cbn; [reflexivity|]. rewrite IH. reflexivity. }
  rewrite E. reflexivity.
Qed.

Lemma layouts_snoc dbg m l t evs ev : layouts dbg m l = inl evs -> layout dbg (ns_child m) t = inl ev ->
  layouts dbg m (l ++ [t]) = inl (evs ++ ev).
Proof.
  revert evs. induction l as [|t0 l IH]; intros evs H1 H2; cbn in *.
  - inversion H1; subst. rewrite H2. now rewrite app_nil_r.
  - destruct (layout dbg (ns_child m) t0) as [e1|]; [|discriminate].
    destruct (layouts dbg m l) as [e2|]; [|discriminate]. inversion H1; subst.
    rewrite (IH _ eq_refl H2). now rewrite app_assoc.
Qed.

(** Induction over trees. *)
Fixpoint rtree_ind' (P : rtree -> Prop)
  (Hel : forall n reqs kids, Forall P kids -> P (RElem n reqs kids))
  (Htx : forall s, P (RText s)) (t : rtree) : P t :=
  match t with
  | RElem n reqs kids =>
      Hel n reqs kids ((fix go l := match l return Forall P l with
                                    | [] => Forall_nil _
                                    | x :: l' => Forall_cons _ (rtree_ind' P Hel Htx x) (go l')
                                    end) kids)
  | RText s => Htx s
  end.

Lemma resolve_attributes_local m l : forall l', resolve_attributes m l = inl l' ->
  map (fun a => (pn_local (fst a), snd a)) l' = map (fun a => (xn_local (fst a), snd a)) l.
Proof.
  induction l as [|[n v] l IH]; cbn [resolve_attributes]; intros l' H; [inversion H; reflexivity|].
  destruct (resolve_attribute m n) as [p|] eqn:E; [|discriminate].
  destruct (resolve_attributes m l) as [l''|]; [|discriminate]. inversion H; subst. cbn.
  rewrite (IH _ eq_refl). repeat f_equal. unfold resolve_attribute in E.
  destruct (String.eqb (xn_ns n) ""); [inversion E; reflexivity|].
  destruct (bm_get (xn_ns n) (by_url m)) as [e|].
  - destruct (q_assigned e) as [p0|]; [|discriminate].
    destruct (String.eqb p0 ""); [discriminate|]. inversion E; reflexivity.
  - destruct (String.eqb (xn_ns n) XML_NS); [|discriminate]. inversion E; reflexivity.
Qed.

Lemma resolve_element_local m n p : resolve_element m n = inl p -> pn_local p = xn_local n.
Proof.
  unfold resolve_element.
  destruct (bm_get (xn_ns n) (by_url m)) as [[q [a|] [|] nd]|];
    repeat match goal with
           | |- context [if ?c then _ else _] => destruct c
           | |- context [match bm_get ?a ?b with _ => _ end] => destruct (bm_get a b)
           end; intros [= <-]; reflexivity.
Qed.

Lemma begin_tag_local dbg base n reqs ev m : begin_tag dbg base n reqs = inl (ev, m) ->
  ev_sev ev = SStart (xn_local n) (map (fun a => (xn_local (fst a), snd a)) (req_attrs reqs)).
Proof.
  unfold begin_tag. destruct (apply_reqs dbg reqs base) as [b|]; [|discriminate].
  destruct (finalize b) as [m0|]; [|discriminate].
  destruct (resolve_element m0 n) as [p|] eqn:E; [|discriminate].
  destruct (resolve_attributes m0 (req_attrs reqs)) as [l|] eqn:A; [|discriminate].
  intros [= <- <-]. cbn. rewrite (resolve_attributes_local _ _ _ A).
  now rewrite (resolve_element_local _ _ _ E).
Qed.

Lemma layout_sevs dbg t : forall base evs, layout dbg base t = inl evs ->
  map ev_sev evs = tree_sevs (tree_of t).
Proof.
  induction t as [n reqs kids IH | s] using rtree_ind'; intros base evs H.
  - rewrite layout_elem in H.
    destruct (begin_tag dbg (base (xn_ns n)) n reqs) as [[ev m]|] eqn:B; [|discriminate].
    destruct (layouts dbg m kids) as [e|] eqn:L; [|discriminate]. inversion H; subst. clear H.
    cbn [map tree_of tree_sevs]. rewrite (begin_tag_local _ _ _ _ _ _ B). f_equal.
    rewrite map_app. cbn [map ev_sev]. f_equal.
    revert e L. induction IH as [|t l Ht Hl IHl]; intros e L; cbn in L; [inversion L; reflexivity|].
    destruct (layout dbg (ns_child m) t) as [e1|] eqn:E1; [|discriminate].
    destruct (layouts dbg m l) as [e2|] eqn:E2; [|discriminate]. inversion L; subst.
    rewrite map_app. cbn [map flat_map]. rewrite (Ht _ _ E1), (IHl _ eq_refl). reflexivity.
  - inversion H; subst. reflexivity.
Qed.

(** ** Builders *)

Lemma xn_eqb_eq' a b : xn_eqb a b = true <-> a = b.
Proof.
  unfold xn_eqb. rewrite andb_true_iff, !String.eqb_eq. destruct a, b; cbn; split; [intros [-> ->]|intros [= -> ->]]; auto.
Qed.

Lemma req_attrs_app l1 l2 : req_attrs (l1 ++ l2) = req_attrs l1 ++ req_attrs l2.
Proof. induction l1 as [|[p u|n v] l1 IH]; cbn; congruence. Qed.

(** The builder after the requests [l], from [base]. *)
Definition built (dbg : bool) (base : nsbuilder) (n : xname) (l : list req) (b : bstate) : Prop :=
  b_name b = n /\ apply_reqs dbg l base = inl (b_ns b) /\ b_attrs b = req_attrs l /\
  (forall x, In x (b_seen b) <-> In x (map fst (req_attrs l))).

Lemma built_new dbg base n : built dbg base n [] (BState n base [] []).
Proof. repeat split; cbn; auto. Qed.

Lemma built_ns dbg base n l b p u b' : built dbg base n l b -> builder_namespace dbg p u b = inl b' ->
  built dbg base n (l ++ [ReqNs p u]) b'.
Proof.
  intros (Hn & Hr & Ha & Hs). unfold builder_namespace.
  destruct (nb_insert dbg p u (b_ns b)) as [nb|] eqn:E; [|discriminate]. intros [= <-].
  unfold built. rewrite apply_reqs_app, Hr, req_attrs_app. cbn. rewrite E, app_nil_r. auto.
Qed.

Lemma built_attr dbg base n l b a v : built dbg base n l b ->
  exists b', builder_attribute a v b = inl (fst (add_attr a v l), b') /\
  built dbg base n (snd (add_attr a v l)) b'.
Proof.
  intros (Hn & Hr & Ha & Hs). unfold builder_attribute, add_attr, attr_value. rewrite Ha.
  destruct (existsb (xn_eqb a) (b_seen b)) eqn:E.
  - apply existsb_exists in E. destruct E as (x & Hx & Ex). apply xn_eqb_eq' in Ex. subst x.
    apply Hs in Hx. apply in_map_iff in Hx. destruct Hx as ([a' w] & Ea & Hin). cbn in Ea. subst a'.
    destruct (List.find (fun a0 => xn_eqb (fst a0) a) (req_attrs l)) as [[a' old]|] eqn:F.
    + cbn [option_map snd]. exists b. split; [reflexivity|]. repeat split; auto; apply Hs.
    + exfalso. apply (List.find_none _ _ F) in Hin. cbn in Hin.
      rewrite (proj2 (xn_eqb_eq' a a) eq_refl) in Hin. discriminate.
  - destruct (List.find (fun a0 => xn_eqb (fst a0) a) (req_attrs l)) as [[a' old]|] eqn:F.
    + exfalso. apply List.find_some in F. destruct F as [Hin Ea]. cbn in Ea. apply xn_eqb_eq' in Ea. subst a'.
      assert (Hx : In a (b_seen b)) by (apply Hs, in_map_iff; now exists (a, old)).
      assert (T : existsb (xn_eqb a) (b_seen b) = true)
        by (apply existsb_exists; exists a; split; [assumption|now apply xn_eqb_eq']).
      congruence.
    + cbn [option_map]. eexists. split; [reflexivity|]. unfold built.
      cbn [b_name b_ns b_attrs b_seen fst snd].
      rewrite apply_reqs_app, Hr, req_attrs_app, map_app. cbn. repeat split; auto.
      * intros [<- | Hx]; apply in_app_iff; cbn; [auto|]. apply Hs in Hx. auto.
      * rewrite in_app_iff. cbn. intros [Hx | [<- | []]]; [right; now apply Hs | now left].
Qed.

Lemma built_start dbg o base n l b k : built dbg base n l b ->
  builder_start o b k =
  match begin_tag dbg base n l with
  | inr x => inr x
  | inl (ev, m) => match write o ev k with
                   | (None, k') => inl (inl m, k')
                   | (Some e, k') => inl (inr e, k')
                   end
  end.
Proof.
  intros (Hn & Hr & Ha & Hs). unfold builder_start, begin_tag. rewrite Hr, Hn, Ha.
  destruct (finalize (b_ns b)); [|reflexivity].
  destruct (resolve_element n0 n); [|reflexivity].
  destruct (resolve_attributes n0 (req_attrs l)); reflexivity.
Qed.

Lemma run_a_ask dbg a : forall base n l b b', built dbg base n l b -> run_a dbg a b = inl (None, b') ->
  exists l', ask_a a l = Some l' /\ built dbg base n l' b'.
Proof.
  induction a as [r | p u a IH | x v f IH | m]; cbn [run_a ask_a]; intros base n l b b' B R.
  - inversion R; subst. eauto.
  - destruct (builder_namespace dbg p u b) as [b1|] eqn:E; [|discriminate].
    eapply IH; [|exact R]. eapply built_ns; eauto.
  - destruct (built_attr dbg base n l b x v B) as (b1 & E & B1). rewrite E in R.
    destruct (add_attr x v l) as [r l1]. cbn in *. eapply IH; eauto.
  - discriminate.
Qed.

Lemma ask_run_a dbg a : forall base n l b l' r b', built dbg base n l b -> ask_a a l = Some l' ->
  run_a dbg a b = inl (r, b') -> r = None /\ built dbg base n l' b'.
Proof.
  induction a as [r | p u a IH | x v f IH | m]; cbn [run_a ask_a]; intros base n l b l' r0 b' B A R.
  - inversion R; subst. destruct r0; [discriminate|]. inversion A; subst. auto.
  - destruct (builder_namespace dbg p u b) as [b1|] eqn:E; [|discriminate].
    eapply IH; [|exact A|exact R]. eapply built_ns; eauto.
  - destruct (built_attr dbg base n l b x v B) as (b1 & E & B1). rewrite E in R.
    destruct (add_attr x v l) as [r l1]. cbn in *. eapply IH; eauto.
  - discriminate.
Qed.

(** ** Simulation *)

Section Sim.
  Context (dbg : bool) (o : io) (m0 : namespaces) (pre : list wevent).

  (** What has been written so far is the layout of what has been asked for so far. *)
  Inductive laid (root : list rtree) : list frame -> list namespaces -> list wevent -> Prop :=
  | laid_root : forall evs, layouts dbg m0 root = inl evs -> laid root [] [m0] (pre ++ evs)
  | laid_open : forall st m1 nss out n reqs kids ev m2 evs,
      laid root st (m1 :: nss) out ->
      begin_tag dbg (ns_child m1 (xn_ns n)) n reqs = inl (ev, m2) ->
      layouts dbg m2 kids = inl evs ->
      laid root (Frame n reqs kids :: st) (m2 :: m1 :: nss) (out ++ ev :: evs).

  Lemma laid_nonempty root st nss out : laid root st nss out -> exists m nss', nss = m :: nss'.
  Proof. destruct 1; eauto. Qed.

  Lemma laid_add root st m nss out t evs : laid root st (m :: nss) out -> layout dbg (ns_child m) t = inl evs ->
    laid (fst (add_kid t root st)) (snd (add_kid t root st)) (m :: nss) (out ++ evs).
  Proof.
    intros L T. remember (m :: nss) as ms eqn:Em.
    destruct L as [e He | st m1 nss1 out n reqs kids ev m2 e L B K]; inversion Em; subst.
    - cbn [add_kid fst snd]. rewrite <- app_assoc. constructor. now apply layouts_snoc.
    - cbn [add_kid fst snd fr_name fr_reqs fr_kids]. rewrite <- app_assoc. cbn [app].
      eapply laid_open; eauto. now apply layouts_snoc.
  Qed.

  Lemma laid_close root f st m nss out : laid root (f :: st) (m :: nss) out ->
    laid (fst (add_kid (RElem (fr_name f) (fr_reqs f) (fr_kids f)) root st))
         (snd (add_kid (RElem (fr_name f) (fr_reqs f) (fr_kids f)) root st)) nss (out ++ [WEnd]).
  Proof.
    intro L. remember (f :: st) as fs eqn:Ef. remember (m :: nss) as ms eqn:Em.
    destruct L as [e He | st' m1 nss1 out n reqs kids ev m2 e L B K]; inversion Ef; inversion Em; subst.
    cbn [fr_name fr_reqs fr_kids]. rewrite <- app_assoc. cbn [app].
    apply laid_add; [assumption|]. rewrite layout_elem, B, K. reflexivity.
  Qed.

  Lemma add_kid_length t root st : List.length (snd (add_kid t root st)) = List.length st.
  Proof. destruct st; reflexivity. Qed.

  (** A run that ends unpoisoned with [Ok] did what was asked. *)
  Lemma run_asked :
    (forall d (p : wprog d) root st nss k k', laid root st nss (k_out k) -> sink_ok o k ->
       k_poison k = None -> List.length st = d -> run_w dbg o p nss k = inl (None, k') ->
       k_poison k' = None ->
       exists kids, ask_w p root st = Some kids /\ laid kids [] [m0] (k_out k')) /\
    (forall d (q : bprog d) root st m nss k n l b k', laid root st (m :: nss) (k_out k) -> sink_ok o k ->
       k_poison k = None -> List.length st = d -> built dbg (ns_child m (xn_ns n)) n l b ->
       run_b dbg o q b (m :: nss) k = inl (None, k') -> k_poison k' = None ->
       exists kids, ask_b q n l root st = Some kids /\ laid kids [] [m0] (k_out k')).
  Proof.
    apply prog_mut; cbn [run_w run_b ask_w ask_b].
    - intros r root st nss k k' L K P D R P'. inversion R; subst. destruct st; [|discriminate].
      exists root. split; [reflexivity|].
      remember [] as st eqn:E. destruct L as [e He|]; [now constructor|discriminate].
    - intros d s f IH root st nss k k' L K P D R P'.
      pose proof (alive_write o (WChars s) k K P) as W.
      destruct (write o (WChars s) k) as [[e|] k1].
      + destruct W as (P1 & _). apply (proj1 (dead_run dbg o)) with (e := e) in R; [|assumption].
        destruct R as (R & _). congruence.
      + destruct W as (P1 & O1 & K1).
        destruct (laid_nonempty _ _ _ _ L) as (m & nss' & ->).
        pose proof (laid_add root st m nss' (k_out k) (RText s) [WChars s] L eq_refl) as L1.
        pose proof (add_kid_length (RText s) root st) as Len.
        destruct (add_kid (RText s) root st) as [root' st'] eqn:A. cbn in L1, Len.
        rewrite <- O1 in L1.
        eapply IH; eauto. congruence.
    - intros d n b IH root st nss k k' L K P D R P'.
      destruct (laid_nonempty _ _ _ _ L) as (m & nss' & ->).
      eapply IH; eauto. apply built_new.
    - intros d f IH root st nss k k' L K P D R P'.
      destruct st as [|fr st]; [discriminate|].
      pose proof (alive_write o WEnd k K P) as W.
      destruct (write o WEnd k) as [[e|] k1].
      + destruct W as (P1 & _). apply (proj1 (dead_run dbg o)) with (e := e) in R; [|assumption].
        destruct R as (R & _). congruence.
      + destruct W as (P1 & O1 & K1).
        destruct (laid_nonempty _ _ _ _ L) as (m & nss' & ->).
        pose proof (laid_close root fr st m nss' (k_out k) L) as L1.
        pose proof (add_kid_length (RElem (fr_name fr) (fr_reqs fr) (fr_kids fr)) root st) as Len.
        destruct (add_kid (RElem (fr_name fr) (fr_reqs fr) (fr_kids fr)) root st) as [root' st'] eqn:A.
        cbn in L1, Len, R. rewrite <- O1 in L1.
        eapply IH; eauto. cbn in D. congruence.
    - intros d p IH root st nss k k' L K P D R P'.
      destruct (alive_poison o writer_dropped k K P) as (P1 & _).
      apply (proj1 (dead_run dbg o)) with (e := writer_dropped) in R; [|assumption].
      destruct R as (R & _). congruence.
    - discriminate.
    - intros d p u q IH root st m nss k n l b k' L K P D B R P'.
      destruct (builder_namespace dbg p u b) as [b1|] eqn:E; [|discriminate].
      eapply IH; eauto. eapply built_ns; eauto.
    - intros d a v f IH root st m nss k n l b k' L K P D B R P'.
      destruct (built_attr _ _ _ _ _ a v B) as (b1 & E & B1). rewrite E in R.
      destruct (add_attr a v l) as [r l1]. cbn in *. eapply IH; eauto.
    - intros d p IH root st m nss k n l b k' L K P D B R P'.
      destruct (alive_poison o builder_dropped k K P) as (P1 & _).
      apply (proj1 (dead_run dbg o)) with (e := builder_dropped) in R; [|assumption].
      destruct R as (R & _). congruence.
    - intros d p IHp pe IHe root st m nss k n l b k' L K P D B R P'.
      rewrite (built_start _ o _ _ _ _ k B) in R.
      destruct (begin_tag dbg (ns_child m (xn_ns n)) n l) as [[ev m2]|] eqn:T; [|discriminate].
      pose proof (alive_write o ev k K P) as W.
      destruct (write o ev k) as [[e|] k1].
      + destruct W as (P1 & _). apply (proj1 (dead_run dbg o)) with (e := e) in R; [|assumption].
        destruct R as (R & _). congruence.
      + destruct W as (P1 & O1 & K1).
        eapply IHp; [| | | |exact R|]; auto.
        * rewrite O1. eapply laid_open; eauto.
        * cbn. congruence.
    - discriminate.
  Qed.

  (** If everything asked for can be done and no write fails, the run succeeds. *)
  Lemma asked_run :
    (forall i, o i = None) ->
    (forall d (p : wprog d) root st nss k kids r k', laid root st nss (k_out k) -> sink_ok o k ->
       k_poison k = None -> List.length st = d -> ask_w p root st = Some kids ->
       run_w dbg o p nss k = inl (r, k') -> r = None /\ k_poison k' = None) /\
    (forall d (q : bprog d) root st m nss k n l b kids r k', laid root st (m :: nss) (k_out k) ->
       sink_ok o k -> k_poison k = None -> List.length st = d ->
       built dbg (ns_child m (xn_ns n)) n l b -> ask_b q n l root st = Some kids ->
       run_b dbg o q b (m :: nss) k = inl (r, k') -> r = None /\ k_poison k' = None).
  Proof.
    intro Io. apply prog_mut; cbn [run_w run_b ask_w ask_b].
    - intros r root st nss k kids r' k' L K P D A R. destruct r; [discriminate|]. inversion R; subst. auto.
    - intros d s f IH root st nss k kids r k' L K P D A R.
      pose proof (alive_write o (WChars s) k K P) as W.
      destruct (write o (WChars s) k) as [[e|] k1].
      + destruct W as (_ & _ & _ & x & Hx). rewrite Io in Hx. discriminate.
      + destruct W as (P1 & O1 & K1).
        destruct (laid_nonempty _ _ _ _ L) as (m & nss' & ->).
        pose proof (laid_add root st m nss' (k_out k) (RText s) [WChars s] L eq_refl) as L1.
        pose proof (add_kid_length (RText s) root st) as Len.
        destruct (add_kid (RText s) root st) as [root' st'] eqn:E. cbn in L1, Len.
        rewrite <- O1 in L1.
        eapply IH; eauto. congruence.
    - intros d n b IH root st nss k kids r k' L K P D A R.
      destruct (laid_nonempty _ _ _ _ L) as (m & nss' & ->).
      eapply IH; eauto. apply built_new.
    - intros d f IH root st nss k kids r k' L K P D A R.
      destruct st as [|fr st]; [discriminate|].
      pose proof (alive_write o WEnd k K P) as W.
      destruct (write o WEnd k) as [[e|] k1].
      + destruct W as (_ & _ & _ & x & Hx). rewrite Io in Hx. discriminate.
      + destruct W as (P1 & O1 & K1).
        destruct (laid_nonempty _ _ _ _ L) as (m & nss' & ->).
        pose proof (laid_close root fr st m nss' (k_out k) L) as L1.
        pose proof (add_kid_length (RElem (fr_name fr) (fr_reqs fr) (fr_kids fr)) root st) as Len.
        destruct (add_kid (RElem (fr_name fr) (fr_reqs fr) (fr_kids fr)) root st) as [root' st'] eqn:E.
        cbn in L1, Len, R. rewrite <- O1 in L1.
        eapply IH; eauto. cbn in D. congruence.
    - discriminate.
    - discriminate.
    - intros d p u q IH root st m nss k n l b kids r k' L K P D B A R.
      destruct (builder_namespace dbg p u b) as [b1|] eqn:E; [|discriminate].
      exact (IH _ _ _ _ _ _ _ _ _ _ _ L K P D (built_ns _ _ _ _ _ _ _ _ B E) A R).
    - intros d a v f IH root st m nss k n l b kids r k' L K P D B A R.
      destruct (built_attr _ _ _ _ _ a v B) as (b1 & E & B1). rewrite E in R.
      destruct (add_attr a v l) as [r0 l1]. cbn in *.
      exact (IH _ _ _ _ _ _ _ _ _ _ _ _ L K P D B1 A R).
    - discriminate.
    - intros d p IHp pe IHe root st m nss k n l b kids r k' L K P D B A R.
      rewrite (built_start _ o _ _ _ _ k B) in R.
      destruct (begin_tag dbg (ns_child m (xn_ns n)) n l) as [[ev m2]|] eqn:T; [|discriminate].
      pose proof (alive_write o ev k K P) as W.
      destruct (write o ev k) as [[e|] k1].
      + destruct W as (_ & _ & _ & x & Hx). rewrite Io in Hx. discriminate.
      + destruct W as (P1 & O1 & K1).
        eapply IHp; [| | | |exact A|exact R]; auto.
        * rewrite O1. eapply laid_open; eauto.
        * cbn. congruence.
    - discriminate.
  Qed.
End Sim.

(** ** Top level *)

Lemma to_asked dbg o n v k : to dbg o n v = inl (None, k) ->
  exists t, asked n v = Some t /\ layout dbg (fun _ => []) t = inl (k_out k) /\
  k_log k = map NWrote (k_out k) /\ (forall i, i < List.length (k_out k) -> o i = None).
Proof.
  intro H. pose proof (to_sink_ok _ _ _ _ _ _ H) as K.
  unfold to in H. unfold asked.
  destruct (run_a dbg (s_attrs v) (BState n [] [] [])) as [[[e|] b]|] eqn:A; [discriminate| |discriminate].
  destruct (run_a_ask dbg _ _ _ _ _ _ (built_new dbg [] n) A) as (l & Al & B). rewrite Al.
  rewrite (built_start _ o _ _ _ _ sink0 B) in H.
  destruct (begin_tag dbg [] n l) as [[ev m]|] eqn:T; [|discriminate].
  pose proof (alive_write o ev sink0 (sink0_ok o) eq_refl) as W.
  destruct (write o ev sink0) as [[e|] k0]; [discriminate|]. destruct W as (P0 & O0 & K0).
  destruct (run_w dbg o (s_kids v) [m] k0) as [[[e|] k1]|] eqn:R; [discriminate| |discriminate].
  inversion H as [H']. clear H.
  assert (P1 : k_poison k1 = None).
  { destruct (k_poison k1) as [e|] eqn:E; [|reflexivity].
    destruct (dead_write o e WEnd k1 E) as [F _]. rewrite H' in F. discriminate. }
  pose proof (proj1 (run_sink_ok dbg o) _ _ _ _ _ _ K0 R) as K1.
  pose proof (alive_write o WEnd k1 K1 P1) as W. rewrite H' in W. destruct W as (P & O & _).
  destruct (proj1 (run_asked dbg o m [ev]) 0 (s_kids v) [] [] [m] k0 k1) as (kids & Ak & Lk); auto.
  { rewrite O0. cbn [sink0 k_out app]. change [ev] with ([ev] ++ []) at 2. now constructor. }
  rewrite Ak. cbn [option_map]. eexists. split; [reflexivity|].
  remember (@nil frame) as st eqn:Est. remember [m] as ms eqn:Ems. remember (k_out k1) as out1 eqn:Eo.
  destruct Lk as [evs Hl|]; [|discriminate].
  destruct K as (_ & _ & Hio & Ht). destruct (Ht P) as [_ Lg].
  repeat split; auto.
  rewrite layout_elem, T, Hl, O. reflexivity.
Qed.

Lemma asked_to dbg o n v t r k : asked n v = Some t -> (forall i, o i = None) ->
  to dbg o n v = inl (r, k) -> r = None.
Proof.
  intros A Io H. unfold to in H. unfold asked in A.
  destruct (ask_a (s_attrs v) []) as [l|] eqn:Al; [|discriminate].
  destruct (ask_w (s_kids v) [] []) as [kids|] eqn:Ak; [|discriminate].
  destruct (run_a dbg (s_attrs v) (BState n [] [] [])) as [[r0 b]|] eqn:E; [|discriminate].
  destruct (ask_run_a dbg _ _ _ _ _ _ _ _ (built_new dbg [] n) Al E) as [-> B].
  rewrite (built_start _ o _ _ _ _ sink0 B) in H.
  destruct (begin_tag dbg [] n l) as [[ev m]|] eqn:T; [|discriminate].
  pose proof (alive_write o ev sink0 (sink0_ok o) eq_refl) as W.
  destruct (write o ev sink0) as [[e|] k0].
  { destruct W as (_ & _ & _ & x & Hx). rewrite Io in Hx. discriminate. }
  destruct W as (P0 & O0 & K0).
  destruct (run_w dbg o (s_kids v) [m] k0) as [[r1 k1]|] eqn:R; [|discriminate].
  pose proof (proj1 (run_sink_ok dbg o) _ _ _ _ _ _ K0 R) as K1.
  destruct (proj1 (asked_run dbg o m [ev] Io) 0 (s_kids v) [] [] [m] k0 kids r1 k1) as [-> P1]; auto.
  { rewrite O0. cbn [sink0 k_out app]. change [ev] with ([ev] ++ []) at 2. now constructor. }
  inversion H as [H']. pose proof (alive_write o WEnd k1 K1 P1) as W. rewrite H' in W.
  destruct r as [e|]; [|reflexivity].
  destruct W as (_ & _ & _ & x & Hx). rewrite Io in Hx. discriminate.
Qed.
