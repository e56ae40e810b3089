(** What a document that cannot be read makes a struct with flattened fields lose is determined by the document. *)
From Verif Require Import Base Normalize Text Find FindProofs Types Reader ReaderSpec DeSpec DeriveDe DeriveMixed
  DeriveFlat FlatSpec FlatProofs MixedLeak FlatLeak FlatLeakSpec FlatLeakProofs.
From Coq Require Import Lia.

Lemma cut_twice {A} : forall (a1 b1 a2 b2 : list A) a b, a1 ++ a :: a2 = b1 ++ b :: b2 ->
  (a1 = b1 /\ a = b /\ a2 = b2) \/ (exists r, b1 = a1 ++ a :: r) \/ (exists r, a1 = b1 ++ b :: r).
Proof.
  induction a1 as [|x a1 IH]; intros [|y b1] a2 b2 a b; cbn; intros E.
  - injection E as -> ->. auto.
  - injection E as E1 E2. subst. right. left. eauto.
  - injection E as E1 E2. subst. right. right. eauto.
  - injection E as -> E. destruct (IH _ _ _ _ _ E) as [(-> & -> & ->)|[(r & ->)|(r & ->)]]; [auto|right; left; eauto|right; right; eauto].
Qed.

Lemma fields_apart sel fs f g : NoDup (field_names sel fs) -> In f fs -> In g fs -> sel f = true -> sel g = true ->
  expanded (f_name f) = expanded (f_name g) -> f = g.
Proof.
  intros N Hf Hg Sf Sg E. apply In_nth_error in Hf as (p & Hp). apply In_nth_error in Hg as (q & Hq).
  assert (L1 : lookup Bisect sel fs (expanded (f_name f)) = Some p) by (apply lookup_spec; eauto).
  assert (L2 : lookup Bisect sel fs (expanded (f_name f)) = Some q) by (apply lookup_spec; eauto).
  congruence.
Qed.

Section Det.
  Context {St : Type} (o : oracles) (alg : bs_alg) (P : fuser St) (L : losses St).
  Notation V := (flat_visitors o alg P).
  Context (fs : list field) (fl0 : list St) (path : list selem).
  Hypothesis N : fine_names fs.
  Notation got := (got o V P path).
  Notation all_got := (all_got o V P L path).
  Notation got_until := (got_until o V P L path).
  Notation stopped := (stopped V P path).
  Notation reach := (reach V P path fs fl0).
  Notation flat_leaks := (flat_leaks o V P L path fs fl0).
  Notation gone := (gone L).
  Notation comes_to := (comes_to V P path).
  Notation gives := (gives V P path).

  (** ** Each part is determined *)

  Lemma comes_to_det t c r1 r2 : comes_to t c r1 -> comes_to t c r2 -> r1 = r2.
  Proof. unfold FlatLeakSpec.comes_to. destruct c; try contradiction. congruence. Qed.

  Lemma gives_det t c v1 v2 : gives t c v1 -> gives t c v2 -> v1 = v2.
  Proof. intros H1 H2. pose proof (comes_to_det _ _ _ _ H1 H2). congruence. Qed.

  Lemma all_gives_det t cs : forall v1 v2, Forall2 (gives t) cs v1 -> Forall2 (gives t) cs v2 -> v1 = v2.
  Proof.
    induction cs as [|c cs IH]; intros v1 v2 H1 H2; inversion H1; subst; inversion H2; subst; [reflexivity|]. f_equal; eauto using gives_det.
  Qed.

  Lemma occurs_det t k cs v1 v2 : occurs (gives t) k cs v1 -> occurs (gives t) k cs v2 -> v1 = v2.
  Proof.
    intros H1 H2. inversion H1; subst; inversion H2; subst; try f_equal; eauto using gives_det, all_gives_det.
  Qed.

  Lemma occurs_ne t k v : ~ occurs (gives t) k [] v.
  Proof. intros H. inversion H; congruence. Qed.

  Lemma got_det attrs kids f v1 v2 : got attrs kids f v1 -> got attrs kids f v2 -> v1 = v2.
  Proof.
    intros H1 H2. inversion H1 as [k1 t1 x1 M1 O1|k1 t1 M1 O1|p1 t1 s1 x1 M1 A1 P1|p1 t1 M1 A1]; subst;
      inversion H2 as [k2 t2 x2 M2 O2|k2 t2 M2 O2|p2 t2 s2 x2 M2 A2 P2|p2 t2 M2 A2]; subst; rewrite M1 in M2; try discriminate; try reflexivity.
    - injection M2 as -> ->. f_equal. eapply occurs_det; eauto.
    - rewrite O2 in O1. now apply occurs_ne in O1.
    - rewrite O1 in O2. now apply occurs_ne in O2.
    - injection M2 as -> ->. rewrite A1 in A2. injection A2 as ->. rewrite P1 in P2. now injection P2 as ->.
    - congruence.
    - congruence.
  Qed.

  Lemma all_got_det attrs kids l fl v1 : all_got attrs kids l fl v1 -> forall v2, all_got attrs kids l fl v2 -> v1 = v2.
  Proof.
    induction 1 as [|f l fl v vs E G A IH|f l s fl vs E A IH]; intros v2 H2; inversion H2; subst; try congruence; f_equal; eauto using got_det.
  Qed.

  Lemma absent_det f v1 v2 : absent f v1 -> absent f v2 -> v1 = v2.
  Proof. intros H1 H2. inversion H1; subst; inversion H2; subst; congruence. Qed.

  Lemma got_until_det attrs kids l fl v1 : got_until attrs kids l fl v1 -> forall v2, got_until attrs kids l fl v2 -> v1 = v2.
  Proof.
    induction 1 as [f l fl v vs E G A IH|f l s fl v vs E F A IH|f l fl vs E G X A|f l s fl e vs E F A]; intros v2 H2; inversion H2; subst; try congruence.
    - f_equal; [|now apply IH]. destruct G as [G|[G B]], H3 as [G'|[G' B']].
      + pose proof (got_det _ _ _ _ _ G G') as [= ->]. reflexivity.
      + pose proof (got_det _ _ _ _ _ G G'). discriminate.
      + pose proof (got_det _ _ _ _ _ G G'). discriminate.
      + eapply absent_det; eauto.
    - exfalso. destruct G as [G|[G B]]; [|now elim (H4 v)]. pose proof (got_det _ _ _ _ _ G H3). discriminate.
    - f_equal; [congruence|now apply IH].
    - exfalso. destruct H3 as [G'|[G' B']]; [|now elim (X v)]. pose proof (got_det _ _ _ _ _ G G'). discriminate.
    - eapply all_got_det; eauto.
    - f_equal. eapply all_got_det; eauto.
  Qed.

  Lemma fed_det s ps s1 r1 : fed V P path s ps s1 r1 -> forall s2 r2, fed V P path s ps s2 r2 -> s1 = s2 /\ r1 = r2.
  Proof.
    induction 1; intros s2 r2 H2.
    - inversion H2; auto.
    - inversion H2; subst; [|congruence]. match goal with X : fu_attribute _ _ _ _ = (Ok None, ?s), Y : fu_attribute _ _ _ _ = (Ok None, ?t) |- _ => assert (s = t) by congruence; subst end. eauto.
    - inversion H2; subst; [congruence|]. match goal with X : fu_attribute _ _ _ _ = (Ok (Some ?a), ?s), Y : fu_attribute _ _ _ _ = (Ok (Some ?b), ?t) |- _ => assert (s = t /\ a = b) as [-> ->] by (split; congruence) end.
      edestruct IHfed as [-> ->]; eauto.
    - inversion H2; subst; [|congruence]. match goal with X : fu_characters _ _ _ _ = (Ok None, ?s), Y : fu_characters _ _ _ _ = (Ok None, ?t) |- _ => assert (s = t) by congruence; subst end. eauto.
    - inversion H2; subst; [congruence|]. match goal with X : fu_characters _ _ _ _ = (Ok (Some ?a), ?s), Y : fu_characters _ _ _ _ = (Ok (Some ?b), ?t) |- _ => assert (s = t /\ a = b) as [-> ->] by (split; congruence) end.
      edestruct IHfed as [-> ->]; eauto.
    - inversion H2 as [| | | | |? ? ? ? ? ? ? act' ? ? ? ? c' path'' E' R' F'|? ? ? ? ? ? ? ? ? ? ? c' path'' E' F']; subst; subst path'' path'; [|congruence].
      rewrite H in E'. injection E' as <-. subst c c'. rewrite H0 in R'. injection R' as <-. eauto.
    - inversion H2 as [| | | | |? ? ? ? ? ? ? act' ? ? ? ? c' path'' E' R' F'|? ? ? ? ? ? ? ? ? ? ? c' path'' E' F']; subst; subst path'' path'; [congruence|].
      rewrite H in E'. injection E' as <-. edestruct IHfed as [-> ->]; eauto.
  Qed.

  Lemma fed_all_det fl : forall ps f1 r1 f2 r2, fed_all V P path fl ps f1 r1 -> fed_all V P path fl ps f2 r2 -> f1 = f2 /\ r1 = r2.
  Proof.
    induction fl as [|s fl IH]; intros ps f1 r1 f2 r2 H1 H2; inversion H1; subst; inversion H2; subst; [auto|].
    match goal with X : fed _ _ _ s ps ?a ?b, Y : fed _ _ _ s ps ?c ?d |- _ => destruct (fed_det _ _ _ _ X _ _ Y) as [-> ->] end.
    match goal with X : fed_all _ _ _ fl ?q ?a ?b, Y : fed_all _ _ _ fl ?q ?c ?d |- _ => destruct (IH _ _ _ _ _ X Y) as [-> ->] end.
    auto.
  Qed.

  Lemma reach_det attrs kids f1 f2 : reach attrs kids f1 -> reach attrs kids f2 -> f1 = f2.
  Proof. intros (r1 & H1) (r2 & H2). now destruct (fed_all_det _ _ _ _ _ _ H1 H2). Qed.

  Lemma stopped_det fl x f1 : stopped fl x f1 -> forall f2, stopped fl x f2 -> f1 = f2.
  Proof.
    induction 1 as [s n v e s1 fl E|s n v v1 s1 fl fl' E H IH|s str p e s1 fl E|s str p v1 s1 fl fl' E H IH|s name attrs ns p kids pe act e s1 fl c path' E R|s name attrs ns p kids pe s1 fl fl' c path' E H IH]; intros f2 H2;
      inversion H2 as [? ? ? ? ? ? E2|? ? ? ? ? ? fl2 E2 H2'|? ? ? ? ? ? E2|? ? ? ? ? ? fl2 E2 H2'|? ? ? ? ? ? ? ? ? ? ? c2 path2 E2 R2|? ? ? ? ? ? ? ? ? fl2 c2 path2 E2 H2']; subst; try subst path' path2; try subst c; try subst c2;
      rewrite E in E2; try discriminate.
    - now injection E2 as _ ->.
    - injection E2 as <- <-. f_equal. now apply IH.
    - now injection E2 as _ ->.
    - injection E2 as <- <-. f_equal. now apply IH.
    - injection E2 as <-. rewrite R in R2. now injection R2 as _ ->.
    - injection E2 as <-. f_equal. now apply IH.
  Qed.

  Lemma stopped_fed fl x f1 : stopped fl x f1 -> forall f2 r, ~ fed_all V P path fl [x] f2 r.
  Proof.
    induction 1 as [s n v e s1 fl E|s n v v1 s1 fl fl' E H IH|s str p e s1 fl E|s str p v1 s1 fl fl' E H IH|s name attrs ns p kids pe act e s1 fl c path' E R|s name attrs ns p kids pe s1 fl fl' c path' E H IH]; intros f2 r H2; inversion H2 as [|? ? ? s' r1 ? ? F A]; subst;
      inversion F as [|? ? ? ? ? ? ? E2 F2|? ? ? ? ? ? ? ? E2 F2|? ? ? ? ? ? ? E2 F2|? ? ? ? ? ? ? ? E2 F2|? ? ? ? ? ? ? act' ? ? ? ? c2 path2 E2 R2 F2|? ? ? ? ? ? ? ? ? ? ? c2 path2 E2 F2];
      subst; try subst path' path2; try subst c; try subst c2; rewrite E in E2; try discriminate.
    - injection E2 as <- <-. inversion F2; subst. now apply IH in A.
    - injection E2 as <- <-. inversion F2; subst. now apply IH in A.
    - injection E2 as <-. rewrite R in R2. discriminate.
    - injection E2 as <-. inversion F2; subst. now apply IH in A.
  Qed.

  (** ** Parts without a fault *)

  Definition clean (attrs : list attr) (kids : list node) : Prop :=
    (exists fl, reach attrs kids fl) /\ forall f, In f fs -> is_flatten f = false -> exists v, got attrs kids f v.

  Lemma all_got_each attrs kids l fl vs : all_got attrs kids l fl vs -> forall f, In f l -> is_flatten f = false -> exists v, got attrs kids f v.
  Proof.
    induction 1; intros f' []; subst; eauto. congruence.
  Qed.

  Lemma got_until_each attrs kids l fl vs : got_until attrs kids l fl vs -> forall f, In f l -> is_flatten f = false -> exists v, got attrs kids f v.
  Proof.
    induction 1 as [f l fl v vs E G A IH|f l s fl v vs E F A IH|f l fl vs E G X A|f l s fl e vs E F A]; intros f' [<-|Hi] Hf; eauto using all_got_each; try congruence.
    destruct G as [G|[G B]]; eauto.
  Qed.

  Lemma own_attr f opt t : f_mode f = MAttribute opt t -> is_flatten f = false /\ is_attribute f = true.
  Proof. unfold is_flatten, is_attribute. now intros ->. Qed.
  Lemma own_elem f k t : f_mode f = MElement k t -> is_flatten f = false /\ is_element f = true.
  Proof. unfold is_flatten, is_element. now intros ->. Qed.

  (** ** Faults *)

  Inductive attr_fault (a1 : list attr) (a : attr) : list value -> Prop :=
  | af_own : forall f opt t fl vs, reach a1 [] fl -> In f fs -> f_mode f = MAttribute opt t ->
      expanded (f_name f) = from_xml_name (a_name a) ->
      attr_values (expanded (f_name f)) a1 <> [] \/ (exists m, parse_text o t (a_value a) = Err m) ->
      all_got a1 [] fs fl vs -> attr_fault a1 a (vs ++ gone fl)
  | af_flat : forall fl fl' vs, reach a1 [] fl -> ~ In (from_xml_name (a_name a)) (field_names is_attribute fs) ->
      stopped fl (attr_piece a) fl' -> all_got a1 [] fs fl' vs -> attr_fault a1 a (vs ++ gone fl').

  Inductive kid_fault (attrs : list attr) (k1 : list node) (c : node) : list value -> Prop :=
  | kf_dup : forall f k t fl vs, reach attrs k1 fl -> In f fs -> f_mode f = MElement k t -> k <> KVec -> has_name (expanded (f_name f)) c = true ->
      named (expanded (f_name f)) k1 <> [] -> all_got attrs k1 fs fl vs -> kid_fault attrs k1 c (vs ++ gone fl)
  | kf_own : forall f k t fl vs e inner, reach attrs k1 fl -> In f fs -> f_mode f = MElement k t -> has_name (expanded (f_name f)) c = true ->
      k = KVec \/ named (expanded (f_name f)) k1 = [] -> comes_to t c (Err e, inner) ->
      all_got attrs k1 fs fl vs -> kid_fault attrs k1 c (vs ++ inner ++ gone fl)
  | kf_flat : forall x fl fl' vs, reach attrs k1 fl -> name_in (field_names is_element fs) c = false -> kid_piece c = [x] ->
      stopped fl x fl' -> all_got attrs k1 fs fl' vs -> kid_fault attrs k1 c (vs ++ gone fl').

  Lemma faults attrs kids vs : flat_leaks attrs kids vs ->
    (exists a1 a a2, attrs = a1 ++ a :: a2 /\ attr_fault a1 a vs) \/
    (exists k1 c k2, kids = k1 ++ c :: k2 /\ kid_fault attrs k1 c vs) \/
    (exists fl vs', reach attrs kids fl /\ got_until attrs kids fs fl vs' /\ vs = vs' ++ gone fl).
  Proof.
    intros H. inversion H; subst.
    - left. do 3 eexists. split; [reflexivity|]. eapply af_own; eauto.
    - left. do 3 eexists. split; [reflexivity|]. eapply af_flat; eauto.
    - right. left. do 3 eexists. split; [reflexivity|]. eapply kf_dup; eauto.
    - right. left. do 3 eexists. split; [reflexivity|]. eapply kf_own; eauto.
    - right. left. do 3 eexists. split; [reflexivity|]. eapply kf_flat; eauto.
    - right. right. eauto.
  Qed.

  Lemma reach_attr_more a1 a r kids fl : ~ In (from_xml_name (a_name a)) (field_names is_attribute fs) -> reach (a1 ++ a :: r) kids fl ->
    exists fl1 fl2 rest, reach a1 [] fl1 /\ fed_all V P path fl1 [attr_piece a] fl2 rest.
  Proof.
    intros Ha (rest & H). unfold pieces, spare_attrs in H. rewrite filter_app, map_app in H. cbn [filter] in H.
    assert (E : existsb (xn_eqb (from_xml_name (a_name a))) (field_names is_attribute fs) = false).
    { destruct (existsb _ _) eqn:E; [|reflexivity]. apply existsb_exists in E as (n & Hi & He). apply xn_eqb_eq in He as <-. contradiction. }
    rewrite E in H. cbn [negb map] in H. rewrite <- app_assoc in H. apply fed_all_app in H as (fl1 & r1 & r2 & H1 & H2 & ->).
    cbn [app] in H2. change (attr_piece a :: ?l) with ([attr_piece a] ++ l) in H2.
    apply (fed_all_app _ _ _ _ _ [attr_piece a]) in H2 as (fl2 & q1 & q2 & H2 & _ & _).
    exists fl1, fl2, q1. split; [|exact H2]. exists r1. unfold pieces, spare_attrs, spare_kids. cbn [filter flat_map]. now rewrite app_nil_r.
  Qed.

  Lemma reach_kid_more attrs k1 c x r fl : name_in (field_names is_element fs) c = false -> kid_piece c = [x] -> reach attrs (k1 ++ c :: r) fl ->
    exists fl1 fl2 rest, reach attrs k1 fl1 /\ fed_all V P path fl1 [x] fl2 rest.
  Proof.
    intros Hc Hx (rest & H). unfold pieces, spare_kids in H. rewrite filter_app, flat_map_app in H. cbn [filter] in H.
    rewrite Hc in H. cbn [negb flat_map] in H. rewrite Hx, app_assoc in H. apply fed_all_app in H as (fl1 & r1 & r2 & H1 & H2 & ->).
    apply fed_all_app in H2 as (fl2 & q1 & q2 & H2 & _ & _). exists fl1, fl2, q1. split; [|exact H2]. now exists r1.
  Qed.

  Lemma attr_fault_clean a1 a vs r kids : attr_fault a1 a vs -> ~ clean (a1 ++ a :: r) kids.
  Proof.
    intros F [(fl2 & R) G]. inversion F as [f opt t fl vs' HR Hf Hm He Hbad HG|fl fl' vs' HR Hno Hs HG]; subst.
    - destruct (own_attr _ _ _ Hm) as [Ef _]. destruct (G f Hf Ef) as (v & Hg). inversion Hg as [k2 t2 x2 M2 O2|k2 t2 M2 O2|p2 t2 s2 x2 M2 A2 P2|p2 t2 M2 A2]; subst; try congruence.
      + rewrite Hm in M2. injection M2 as <- <-. unfold attr_values in *. rewrite filter_app, map_app in A2. cbn [filter] in A2.
        rewrite <- He, (proj2 (xn_eqb_eq _ _) eq_refl) in A2. cbn [map] in A2.
        destruct (map a_value _) as [|s l] in A2, Hbad; cbn in A2.
        * destruct Hbad as [B|(m & B)]; [congruence|]. injection A2 as A2 _. congruence.
        * destruct l; discriminate.
      + unfold attr_values in A2. rewrite filter_app, map_app in A2. cbn [filter] in A2.
        rewrite <- He, (proj2 (xn_eqb_eq _ _) eq_refl) in A2. now destruct (map a_value _) in A2.
    - destruct (reach_attr_more _ _ _ _ _ Hno R) as (fl1 & fl3 & rest & R1 & H). rewrite (reach_det _ _ _ _ R1 HR) in H.
      exact (stopped_fed _ _ _ Hs _ _ H).
  Qed.

  Lemma kid_fault_clean attrs k1 c vs r : kid_fault attrs k1 c vs -> ~ clean attrs (k1 ++ c :: r).
  Proof.
    intros F [(fl2 & R) G]. inversion F as [f k t fl vs' HR Hf Hm Hk Hh Hd HG|f k t fl vs' e inner HR Hf Hm Hh Hk Hc HG|x fl fl' vs' HR Hno Hx Hs HG]; subst.
    - destruct (own_elem _ _ _ Hm) as [Ef _]. destruct (G f Hf Ef) as (v & Hg). inversion Hg as [k2 t2 x2 M2 O2|k2 t2 M2 O2|p2 t2 s2 x2 M2 A2 P2|p2 t2 M2 A2]; subst; try congruence.
      + rewrite Hm in M2. injection M2 as <- <-. unfold named in *. rewrite filter_app in O2. cbn [filter] in O2. rewrite Hh in O2.
        destruct (filter _ k1) as [|y l] in O2, Hd; [congruence|]. inversion O2; subst; try congruence; destruct l; discriminate.
      + unfold named in *. rewrite filter_app in O2. cbn [filter] in O2. rewrite Hh in O2. now destruct (filter _ k1) in O2.
    - destruct (own_elem _ _ _ Hm) as [Ef _]. destruct (G f Hf Ef) as (v & Hg). inversion Hg as [k2 t2 x2 M2 O2|k2 t2 M2 O2|p2 t2 s2 x2 M2 A2 P2|p2 t2 M2 A2]; subst; try congruence.
      + rewrite Hm in M2. injection M2 as <- <-. unfold named in *. rewrite filter_app in O2. cbn [filter] in O2. rewrite Hh in O2.
        assert (X : exists w, gives t c w).
        { inversion O2 as [c' w Hw E1 E2|c' w Hw E1 E2|cs ws Hne HF E1 E2]; subst.
          - destruct (filter _ k1) as [|y [|]] in E2; cbn in E2; try discriminate. injection E2 as -> _. eauto.
          - destruct (filter _ k1) as [|y [|]] in E2; cbn in E2; try discriminate. injection E2 as -> _. eauto.
          - apply Forall2_app_inv_l in HF as (w1 & w2 & _ & HF & _). inversion HF; subst. eauto. }
        destruct X as (w & Hw). pose proof (comes_to_det _ _ _ _ Hc Hw). discriminate.
      + unfold named in *. rewrite filter_app in O2. cbn [filter] in O2. rewrite Hh in O2. now destruct (filter _ k1) in O2.
    - destruct (reach_kid_more _ _ _ _ _ _ Hno Hx R) as (fl1 & fl3 & rest & R1 & H). rewrite (reach_det _ _ _ _ R1 HR) in H.
      exact (stopped_fed _ _ _ Hs _ _ H).
  Qed.

  Lemma attr_fault_before a1 a vs : attr_fault a1 a vs -> clean a1 [].
  Proof. intros F. inversion F; subst; split; eauto using all_got_each. Qed.

  Lemma kid_fault_before attrs k1 c vs : kid_fault attrs k1 c vs -> clean attrs k1.
  Proof. intros F. inversion F; subst; split; eauto using all_got_each. Qed.

  Lemma attr_fault_det a1 a v1 v2 : attr_fault a1 a v1 -> attr_fault a1 a v2 -> v1 = v2.
  Proof.
    intros F1 F2. inversion F1 as [f opt t fl vs' HR Hf Hm He Hbad HG|fl fl' vs' HR Hno Hs HG]; subst;
      inversion F2 as [g opt2 t2 fl2 vs2 HR2 Hf2 Hm2 He2 Hbad2 HG2|fl2 fl2' vs2 HR2 Hno2 Hs2 HG2]; subst; rewrite (reach_det _ _ _ _ HR2 HR) in *.
    - now rewrite (all_got_det _ _ _ _ _ HG _ HG2).
    - elim Hno2. rewrite <- He. apply in_map_iff. exists f. split; [reflexivity|]. apply filter_In. split; [assumption|]. eapply own_attr; eauto.
    - elim Hno. rewrite <- He2. apply in_map_iff. exists g. split; [reflexivity|]. apply filter_In. split; [assumption|]. eapply own_attr; eauto.
    - rewrite (stopped_det _ _ _ Hs2 _ Hs) in *. now rewrite (all_got_det _ _ _ _ _ HG _ HG2).
  Qed.

  Lemma named_one f g c : In f fs -> In g fs -> is_element f = true -> is_element g = true ->
    has_name (expanded (f_name f)) c = true -> has_name (expanded (f_name g)) c = true -> f = g.
  Proof.
    intros Hf Hg Sf Sg Ef Eg. destruct c; try discriminate. cbn in Ef, Eg. apply xn_eqb_eq in Ef, Eg.
    eapply fields_apart; eauto; [apply N|congruence].
  Qed.

  Lemma named_field f c : In f fs -> is_element f = true -> has_name (expanded (f_name f)) c = true -> name_in (field_names is_element fs) c = true.
  Proof.
    intros Hf Sf E. apply existsb_exists. exists (expanded (f_name f)). split; [|exact E]. apply in_map_iff. exists f. split; [reflexivity|].
    now apply filter_In.
  Qed.

  Lemma kid_fault_det attrs k1 c v1 v2 : kid_fault attrs k1 c v1 -> kid_fault attrs k1 c v2 -> v1 = v2.
  Proof.
    intros F1 F2. inversion F1 as [f k t fl vs' HR Hf Hm Hk Hh Hd HG|f k t fl vs' e inner HR Hf Hm Hh Hk Hc HG|x fl fl' vs' HR Hno Hx Hs HG]; subst;
      inversion F2 as [f2 k2 t2 fl2 vs2 HR2 Hf2 Hm2 Hk2 Hh2 Hd2 HG2|f2 k2 t2 fl2 vs2 e2 inner2 HR2 Hf2 Hm2 Hh2 Hk2 Hc2 HG2|x2 fl2 fl2' vs2 HR2 Hno2 Hx2 Hs2 HG2]; subst;
      rewrite (reach_det _ _ _ _ HR2 HR) in *;
      try (assert (f = f2) as <- by (eapply named_one; eauto; eapply own_elem; eauto); rewrite Hm in Hm2; injection Hm2 as <- <-);
      try (exfalso; rewrite (named_field f c) in *; [discriminate|assumption|eapply own_elem; eauto|assumption]);
      try (exfalso; rewrite (named_field f2 c) in *; [discriminate|assumption|eapply own_elem; eauto|assumption]).
    - now rewrite (all_got_det _ _ _ _ _ HG _ HG2).
    - destruct Hk2; contradiction.
    - destruct Hk; contradiction.
    - pose proof (comes_to_det _ _ _ _ Hc Hc2) as [= _ <-]. now rewrite (all_got_det _ _ _ _ _ HG _ HG2).
    - rewrite Hx in Hx2. injection Hx2 as <-. rewrite (stopped_det _ _ _ Hs2 _ Hs) in *. now rewrite (all_got_det _ _ _ _ _ HG _ HG2).
  Qed.

  Theorem flat_leaks_det attrs kids v1 v2 : flat_leaks attrs kids v1 -> flat_leaks attrs kids v2 -> v1 = v2.
  Proof.
    intros H1 H2.
    assert (X : forall a1 a r k vs, attr_fault a1 a vs -> clean (a1 ++ a :: r) k -> False) by (intros; eapply attr_fault_clean; eauto).
    assert (Y : forall at1 k1 c r vs, kid_fault at1 k1 c vs -> clean at1 (k1 ++ c :: r) -> False) by (intros; eapply kid_fault_clean; eauto).
    apply faults in H1 as [(a1 & a & a2 & -> & F1)|[(k1 & c & k2 & -> & F1)|(fl & vs & R & G & ->)]].
    - apply faults in H2 as [(b1 & b & b2 & E & F2)|[(k1 & c & k2 & -> & F2)|(fl & vs & R & G & ->)]].
      + apply cut_twice in E as [(-> & -> & ->)|[(r & ->)|(r & ->)]].
        * eapply attr_fault_det; eauto.
        * elim (X _ _ _ _ _ F1 (attr_fault_before _ _ _ F2)).
        * elim (X _ _ _ _ _ F2 (attr_fault_before _ _ _ F1)).
      + elim (X _ _ _ _ _ F1 (kid_fault_before _ _ _ _ F2)).
      + elim (X _ _ a2 kids _ F1). split; eauto using got_until_each.
    - apply faults in H2 as [(b1 & b & b2 & -> & F2)|[(k3 & c2 & k4 & E & F2)|(fl & vs & R & G & ->)]].
      + elim (X _ _ _ _ _ F2 (kid_fault_before _ _ _ _ F1)).
      + apply cut_twice in E as [(-> & -> & ->)|[(r & ->)|(r & ->)]].
        * eapply kid_fault_det; eauto.
        * elim (Y _ _ _ _ _ F1 (kid_fault_before _ _ _ _ F2)).
        * elim (Y _ _ _ _ _ F2 (kid_fault_before _ _ _ _ F1)).
      + elim (Y _ _ _ k2 _ F1). split; eauto using got_until_each.
    - apply faults in H2 as [(b1 & b & b2 & -> & F2)|[(k3 & c2 & k4 & -> & F2)|(fl2 & vs2 & R2 & G2 & ->)]].
      + elim (X _ _ b2 kids _ F2). split; eauto using got_until_each.
      + elim (Y _ _ _ k4 _ F2). split; eauto using got_until_each.
      + rewrite (reach_det _ _ _ _ R2 R) in *. now rewrite (got_until_det _ _ _ _ _ G _ G2).
  Qed.
End Det.
