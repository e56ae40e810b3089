(** Derived deserializers implement [reads]. *)
From Coq Require Import Lia.
From Verif Require Import Base Normalize Text Find FindProofs Types Reader ReaderSpec ReaderProofs ReaderMore DeriveDe DeSpec.

(** ** Lists *)

Lemma filter_app_one {A} (f : A -> bool) l c :
  filter f (l ++ [c]) = filter f l ++ (if f c then [c] else []).
Proof. rewrite filter_app. cbn. now destruct (f c). Qed.

Lemma snoc_not_nil {A} (l : list A) c : l ++ [c] <> [].
Proof. destruct l; discriminate. Qed.

Lemma snoc_single {A} (l : list A) c d : l ++ [c] = [d] -> l = [] /\ c = d.
Proof. destruct l as [|x [|y l]]; cbn; intros [=]; auto. Qed.

Lemma filter_snoc_prefix {A} (f g : A -> bool) l c :
  filter f (l ++ [c]) = filter g (l ++ [c]) -> (forall x, g x = true -> f x = true) ->
  filter f l = filter g l.
Proof.
  rewrite !filter_app_one. intros H Hgf.
  destruct (f c) eqn:Ef, (g c) eqn:Eg.
  - apply app_inj_tail in H. tauto.
  - exfalso. apply (f_equal (@List.length A)) in H. rewrite !app_length in H. cbn [List.length] in H.
    assert (L : List.length (filter g l) <= List.length (filter f l)); [|lia].
    clear H. induction l as [|x l IH]; cbn; [lia|].
    destruct (f x) eqn:Fx, (g x) eqn:Gx; cbn; try lia. apply Hgf in Gx. congruence.
  - apply Hgf in Eg. congruence.
  - now rewrite !app_nil_r in H.
Qed.

Lemma Forall2_snoc {A B} (R : A -> B -> Prop) l a m b :
  Forall2 R l m -> R a b -> Forall2 R (l ++ [a]) (m ++ [b]).
Proof. intros. apply Forall2_app; auto. Qed.

Lemma Forall2_snoc_inv {A B} (R : A -> B -> Prop) l a m :
  Forall2 R (l ++ [a]) m -> exists m' b, m = m' ++ [b] /\ Forall2 R l m' /\ R a b.
Proof.
  intro H. apply Forall2_app_inv_l in H as (m1 & m2 & H1 & H2 & ->).
  inversion H2 as [|x y l1 l2 H3 H4 E1 E2]; subst. inversion H4; subst. eauto.
Qed.

Lemma set_nth_spec {A} (l : list A) p x q :
  nth_error (set_nth p x l) q =
  if Nat.eqb q p then (match nth_error l q with Some _ => Some x | None => None end) else nth_error l q.
Proof.
  revert p q. induction l as [|y l IH]; intros [|p] [|q]; cbn; auto.
  destruct (Nat.eqb q p); auto.
Qed.

(** ** Names *)

Lemma has_name_elem n name attrs ns p kids pe :
  has_name n (NElem name attrs ns p kids pe) = true <-> from_xml_name name = n.
Proof. cbn. apply xn_eqb_eq. Qed.

Lemma name_in_spec ns k : name_in ns k = true <-> exists n, In n ns /\ has_name n k = true.
Proof. unfold name_in. rewrite existsb_exists. reflexivity. Qed.

Lemma name_in_elem ns name attrs nss p kids pe :
  name_in ns (NElem name attrs nss p kids pe) = true <-> In (from_xml_name name) ns.
Proof.
  rewrite name_in_spec. split.
  - intros (n & H & E). apply has_name_elem in E. now subst.
  - intro H. exists (from_xml_name name). split; auto. now apply has_name_elem.
Qed.

Lemma name_in_is_elem ns k : name_in ns k = true -> is_elem k = true.
Proof. rewrite name_in_spec. intros (n & _ & H). destruct k; try discriminate. reflexivity. Qed.

Lemma has_name_inj n m k : has_name n k = true -> has_name m k = true -> n = m.
Proof. destruct k; cbn; try discriminate. rewrite !xn_eqb_eq. congruence. Qed.

Lemma before_first_hit ns l c : (exists k, In k l /\ name_in ns k = true) ->
  before_first ns (l ++ [c]) = before_first ns l.
Proof.
  induction l as [|x l IH]; cbn; [intros (k & [] & _)|].
  intros (k & [->|Hk] & E); [now rewrite E|]. destruct (name_in ns x); auto. f_equal. eauto.
Qed.

Lemma before_first_miss ns l : filter (name_in ns) l = [] -> before_first ns l = l.
Proof. induction l as [|x l IH]; cbn; auto. destruct (name_in ns x); [discriminate|]. intro. f_equal. auto. Qed.

Lemma before_first_new ns l c : filter (name_in ns) l = [] -> name_in ns c = true ->
  before_first ns (l ++ [c]) = l.
Proof.
  induction l as [|x l IH]; cbn; intros H E; [now rewrite E|].
  destruct (name_in ns x); [discriminate|]. f_equal. auto.
Qed.

Lemma filter_not_nil {A} (f : A -> bool) l : filter f l <> [] -> exists k, In k l /\ f k = true.
Proof.
  intro H. destruct (filter f l) as [|k l'] eqn:E; [congruence|].
  exists k. apply filter_In. rewrite E. now left.
Qed.

(** ** Running actions *)

Section Run.
  Context {St : Type} (rd : St -> (res error endinfo * St) * place) (path : list selem)
    (p : position) (kids : list node) (pe : position).

  Definition run {A} (act : action St A) : A + abort := fst (sem_act rd path p kids pe act).

  Definition inl_map {A B C} (f : A -> B) (x : A + C) : B + C :=
    match x with inl a => inl (f a) | inr c => inr c end.

  Lemma run_amap {A B} (f : A -> B) (act : action St A) : run (amap f act) = inl_map f (run act).
  Proof.
    unfold run. destruct act; cbn; auto.
    - destruct (sem_string _ _ _ _) as [[|? |?] ?]; reflexivity.
    - destruct (rd s0) as [[[]] ]; reflexivity.
  Qed.

  Lemma run_noread {A} (a : A) : run (ANoRead a) = inl a.
  Proof. reflexivity. Qed.
End Run.

(** ** Fields *)

Section Fields.
  Context (o : oracles) (alg : bs_alg) (env : tenv).
  Context (rd : vstate -> (res error endinfo * vstate) * place) (path : list selem)
    (p : position) (kids : list node) (pe : position).
  Context (R : ety -> node -> value -> Prop).
  (** The child at hand. *)
  Context (c : node) (i : einfo).
  Notation name := (from_xml_name (ei_name i)).
  Notation run := (run rd path p kids pe).

  Hypothesis Hc : forall n, has_name n c = xn_eqb name n.

  (** An action succeeds exactly if some value satisfies [P], and then returns such a value. *)
  Definition computes {A B} (act : action vstate A) (get : A -> option B) (P : B -> Prop) : Prop :=
    (forall a b, run act = inl a -> get a = Some b -> P b) /\
    ((exists b, P b) -> exists a b, run act = inl a /\ get a = Some b).

  Definition get_ok {A C} (x : res verr A * C) : option A :=
    match fst x with Ok a => Some a | _ => None end.
  Definition get_ok2 {A B C} (x : res verr A * B * C) : option B :=
    match x with (Ok _, b, _) => Some b | _ => None end.

  Lemma computes_amap {A B C D} (act : action vstate A) (get : A -> option B) (P : B -> Prop)
    (f : A -> C) (get' : C -> option D) (Q : D -> Prop) :
    computes act get P ->
    (forall a d, get' (f a) = Some d -> exists b, get a = Some b /\ (P b -> Q d)) ->
    (forall a b, get a = Some b -> P b -> exists d, get' (f a) = Some d) ->
    ((exists d, Q d) -> exists b, P b) ->
    computes (amap f act) get' Q.
  Proof.
    intros [H1 H2] H3 H4 H5. split.
    - intros c' d. rewrite run_amap. destruct (run act) as [a|] eqn:E; [|discriminate].
      cbn. intros [= <-] Hd. apply H3 in Hd as (b & Hb & Hq). eauto.
    - intros Hq. destruct (H2 (H5 Hq)) as (a & b & Hr & Hb). rewrite run_amap, Hr. cbn.
      destruct (H4 a b Hb) as (d & Hd); eauto.
  Qed.

  Lemma computes_err {A B} (a : A) (get : A -> option B) P :
    get a = None -> (forall b, ~ P b) -> computes (ANoRead a) get P.
  Proof.
    intros Hg HP. split.
    - intros a' b [= <-]. rewrite Hg. discriminate.
    - intros (b & Hb). now apply HP in Hb.
  Qed.

  Lemma computes_ok {A B} (a : A) (get : A -> option B) (P : B -> Prop) b :
    get a = Some b -> P b -> computes (ANoRead a) get P.
  Proof.
    intros Hg HP. split.
    - intros a' b' [= <-]. rewrite Hg. now intros [= <-].
    - intros _. exists a, b. auto.
  Qed.

  Hypothesis HR : forall t, computes (deserialize o env t i) get_ok (R t c).

  (** The state of an element field whose occurrences so far are [occ]. *)
  Definition field_after (k : fkind) (t : ety) (occ : list node) (present : bool) (mem : option value) : Prop :=
    (occ = [] /\ present = false /\ mem = None) \/
    (present = true /\ exists v, mem = Some v /\ occurs (R t) k occ v).

  Lemma init_step k t : computes (field_init o env k t i) get_ok (occurs (R t) k [c]).
  Proof.
    eapply computes_amap; [apply HR|..].
    - intros [[x| |] l] d; cbn; try discriminate. intros [= <-]. exists x. split; auto.
      intro Hx. destruct k; constructor; auto; discriminate.
    - intros [[x| |] l] b; cbn; try discriminate. eauto.
    - intros (d & Hd). inversion Hd; subst; try congruence; eauto.
      inversion H0; subst. eauto.
  Qed.

  Lemma update_step k t occ old : occurs (R t) k occ old ->
    computes (field_update o env k t old i) get_ok (occurs (R t) k (occ ++ [c])).
  Proof.
    intros Ho. inversion Ho; subst; cbn [field_update].
    - apply computes_err; [reflexivity|]. intros b Hb. inversion Hb.
    - apply computes_err; [reflexivity|]. intros b Hb. inversion Hb.
    - eapply computes_amap; [apply HR|..].
      + intros [[x| |] l] d; cbn; try discriminate. intros [= <-]. exists x. split; auto.
        intro Hx. constructor; [apply snoc_not_nil|]. now apply Forall2_snoc.
      + intros [[x| |] l] b; cbn; try discriminate. eauto.
      + intros (d & Hd). inversion Hd as [| |cs' vs' Hn HF]; subst.
        apply Forall2_snoc_inv in HF as (? & x & _ & _ & Hx). eauto.
  Qed.

  Definition slot_is (P : bool -> option value -> Prop) (s : slot) : Prop :=
    match s with SField pr mem => P pr mem | SFlat _ => False end.

  Lemma element_field_step k t occ present mem : field_after k t occ present mem ->
    computes (element_field o env k t present mem i) get_ok2
      (slot_is (field_after k t (occ ++ [c]))).
  Proof.
    intros [(-> & -> & ->)|(-> & v & -> & Ho)]; cbn [element_field].
    - eapply computes_amap; [apply (init_step k t)|..].
      + intros [[x| |] l] d; cbn; try discriminate. intros [= <-]. exists x. split; auto.
        intro Hx. right. split; auto. eauto.
      + intros [[x| |] l] b; cbn; try discriminate. eauto.
      + intros ([pr m|e] & Hd); [|contradiction]. destruct Hd as [(Hn & _)|(_ & v & _ & Hv)]; [discriminate|eauto].
    - eapply computes_amap; [apply (update_step k t occ v Ho)|..].
      + intros [[x| |] l] d; cbn; try discriminate. intros [= <-]. exists x. split; auto.
        intro Hx. right. split; auto. eauto.
      + intros [[x| |] l] b; cbn; try discriminate. eauto.
      + intros ([pr m|e] & Hd); [|contradiction].
        destruct Hd as [(Hn & _)|(_ & w & _ & Hv)]; [now apply snoc_not_nil in Hn|eauto].
  Qed.

  (** ** Enums *)

  (** The state of an enum visitor that was offered [l] so far. *)
  Definition estate_after (vs : list variant) (l : list node) (e : estate) : Prop :=
    e_variants e = vs /\
    ((filter (name_in (variant_names vs)) l = [] /\ e_init e = false /\ e_mem e = None) \/
     (e_init e = true /\ exists v, e_mem e = Some v /\ choice R vs l v)).

  (** Every enum has a state after every list that its choice rules accept or that says nothing. *)
  Lemma estate_possible vs l e : estate_after vs l e ->
    filter (name_in (variant_names vs)) l = [] \/ exists v, choice R vs l v.
  Proof. intros [_ [(H & _)|(_ & v & _ & H)]]; eauto. Qed.

  Section Enum.
    Context (vs : list variant) (Hns : no_empty_ns vs) (Hnd : NoDup (variant_names vs)).

    Lemma c_name_in ns : name_in ns c = true <-> In name ns.
    Proof.
      rewrite name_in_spec. split.
      - intros (n & H & E). rewrite Hc in E. apply xn_eqb_eq in E. now subst.
      - intro H. exists name. split; auto. rewrite Hc. now apply xn_eqb_eq.
    Qed.

    Lemma find_variant j : find alg name (variant_table vs) = Some j <->
      exists v, nth_error (sorted_variants vs) j = Some v /\ expanded (v_name v) = name.
    Proof. apply (vlookup_spec alg vs name j Hns Hnd). Qed.

    Lemma find_no_variant : find alg name (variant_table vs) = None <-> name_in (variant_names vs) c = false.
    Proof.
      pose proof (vlookup_none alg vs name Hns Hnd) as H. unfold vlookup in H. rewrite H.
      pose proof (c_name_in (variant_names vs)) as Hn.
      destruct (name_in (variant_names vs) c); split; intro K.
      - exfalso. apply K, Hn. reflexivity.
      - discriminate.
      - reflexivity.
      - intro K'. apply Hn in K'. discriminate.
    Qed.

    Lemma variant_in j v : nth_error (sorted_variants vs) j = Some v -> In (expanded (v_name v)) (variant_names vs).
    Proof.
      intro H. apply nth_error_In in H. unfold variant_names. apply in_map_iff. exists v. split; auto.
      eapply Permutation.Permutation_in; [|exact H]. apply sort_perm.
    Qed.

    Lemma variant_name_inj j j' v v' : nth_error (sorted_variants vs) j = Some v ->
      nth_error (sorted_variants vs) j' = Some v' -> expanded (v_name v) = expanded (v_name v') -> j = j'.
    Proof.
      intros H H' E.
      assert (N : NoDup (variant_table vs)).
      { eapply Permutation.Permutation_NoDup; [symmetry; apply variant_table_perm|exact Hnd]. }
      unfold variant_table in N. rewrite NoDup_nth_error in N. apply N.
      - rewrite map_length. apply nth_error_Some. rewrite H. discriminate.
      - rewrite !nth_error_map, H, H'. cbn. now rewrite E.
    Qed.

    Lemma recognized_snoc l : name_in (variant_names vs) c = true ->
      filter (name_in (variant_names vs)) (l ++ [c]) = filter (name_in (variant_names vs)) l ++ [c].
    Proof. intro H. now rewrite filter_app_one, H. Qed.

    Lemma recognized_same l : name_in (variant_names vs) c = false ->
      filter (name_in (variant_names vs)) (l ++ [c]) = filter (name_in (variant_names vs)) l.
    Proof. intro H. now rewrite filter_app_one, H, app_nil_r. Qed.

    Lemma named_snoc n l : name = n -> named n (l ++ [c]) = named n l ++ [c].
    Proof. intros <-. unfold named. rewrite filter_app_one, Hc. now rewrite (proj2 (xn_eqb_eq name name) eq_refl). Qed.

    Lemma named_same n l : name <> n -> named n (l ++ [c]) = named n l.
    Proof.
      intro H. unfold named. rewrite filter_app_one, Hc.
      destruct (xn_eqb name n) eqn:E; [apply xn_eqb_eq in E; contradiction|apply app_nil_r].
    Qed.

    Lemma unrecognized_name j v : name_in (variant_names vs) c = false ->
      nth_error (sorted_variants vs) j = Some v -> name <> expanded (v_name v).
    Proof.
      intros Hn Hj E. apply variant_in in Hj. rewrite <- E in Hj. apply c_name_in in Hj. congruence.
    Qed.

    Lemma choice_same l x : name_in (variant_names vs) c = false -> choice R vs (l ++ [c]) x <-> choice R vs l x.
    Proof.
      intro Hn. split; intro H; inversion H; subst.
      - pose proof (unrecognized_name _ _ Hn H0) as Hd. rewrite recognized_same in * by auto.
        rewrite named_same in * by auto. now apply choice_unit with v.
      - pose proof (unrecognized_name _ _ Hn H0) as Hd. rewrite recognized_same in * by auto.
        rewrite named_same in * by auto. now apply choice_field with v k t.
      - pose proof (unrecognized_name _ _ Hn H0) as Hd.
        apply choice_unit with v; rewrite ?recognized_same, ?named_same by auto; auto.
      - pose proof (unrecognized_name _ _ Hn H0) as Hd.
        apply choice_field with v k t; rewrite ?recognized_same, ?named_same by auto; auto.
    Qed.

    (** All recognised children carry the name of the chosen variant. *)
    Lemma choice_name l x : choice R vs (l ++ [c]) x -> name_in (variant_names vs) c = true ->
      exists j v, find alg name (variant_table vs) = Some j /\ nth_error (sorted_variants vs) j = Some v /\
        expanded (v_name v) = name /\
        filter (name_in (variant_names vs)) l = named name l /\
        match v_ty v with
        | None => x = VEnum j None
        | Some (k, t) => exists y, x = VEnum j (Some y) /\ occurs (R t) k (named name l ++ [c]) y
        end.
    Proof.
      intros H Hn.
      assert (G : forall j v, nth_error (sorted_variants vs) j = Some v ->
        filter (name_in (variant_names vs)) (l ++ [c]) = named (expanded (v_name v)) (l ++ [c]) ->
        expanded (v_name v) = name /\ filter (name_in (variant_names vs)) l = named name l).
      { intros j v Hj E.
        assert (Hh : has_name (expanded (v_name v)) c = true).
        { assert (Hin : In c (named (expanded (v_name v)) (l ++ [c]))).
          { rewrite <- E. apply filter_In. split; auto. apply in_or_app. right. now left. }
          unfold named in Hin. apply filter_In in Hin. tauto. }
        rewrite Hc in Hh. apply xn_eqb_eq in Hh. split; auto. rewrite Hh.
        rewrite recognized_snoc, named_snoc in E by auto. apply app_inj_tail in E. tauto. }
      inversion H as [j v Hj Hty Hne E|j v k t y Hj Hty E Ho]; subst; destruct (G j v Hj E) as [Hname Hp].
      - exists j, v. repeat split; auto; [apply find_variant; eauto|]. rewrite Hty. reflexivity.
      - exists j, v. repeat split; auto; [apply find_variant; eauto|]. rewrite Hty.
        exists y. split; auto. rewrite Hname, named_snoc in Ho by auto. exact Ho.
    Qed.

    Definition estate_is (P : estate -> Prop) (e : estate) : Prop := P e.

    Lemma enum_pass l e : estate_after vs l e -> enum_element o alg env e i = None <->
      filter (name_in (variant_names vs)) l = [] /\ name_in (variant_names vs) c = false.
    Proof.
      intros [Hv He]. unfold enum_element. rewrite Hv. destruct He as [(Hf & -> & Hm)|(-> & v & Hm & Hch)].
      - destruct (find alg name (variant_table vs)) as [j|] eqn:E.
        + split; [discriminate|]. intros [_ Hn]. apply find_no_variant in Hn. congruence.
        + split; auto. intros _. split; auto. now apply find_no_variant.
      - split; [discriminate|]. intros [Hf _]. exfalso. inversion Hch; subst; auto.
        rewrite Hf in H1. rewrite <- H1 in H2. inversion H2. congruence.
    Qed.

    Lemma estate_after_pass l e : estate_after vs l e -> enum_element o alg env e i = None ->
      estate_after vs (l ++ [c]) e.
    Proof.
      intros He Hp. pose proof He as He'. apply (enum_pass l e He) in Hp as [Hf Hn].
      split; [apply He'|]. destruct He' as [_ [(_ & Hi & Hm)|(Hi & v & Hm & Hch)]].
      - left. rewrite recognized_same by auto. auto.
      - right. split; auto. exists v. split; auto. now apply choice_same.
    Qed.

    Lemma enum_step l e act : estate_after vs l e -> enum_element o alg env e i = Some act ->
      computes act get_ok2 (estate_after vs (l ++ [c])).
    Proof.
      intros [Hv He]. unfold enum_element. rewrite Hv.
      destruct He as [(Hf & Hi & Hm)|(Hi & x & Hm & Hch)]; rewrite Hi.
      - (* nothing recognised so far *)
        destruct (find alg name (variant_table vs)) as [j|] eqn:E; [|discriminate].
        assert (Hrec : name_in (variant_names vs) c = true).
        { destruct (name_in (variant_names vs) c) eqn:En; auto. apply find_no_variant in En. congruence. }
        pose proof E as E'. apply find_variant in E' as (v & Hj & Hname). rewrite Hj, Hm.
        assert (Hnl : named name l = []).
        { destruct (named name l) as [|k l'] eqn:En; auto. exfalso.
          assert (Hin : In k (named name l)) by (rewrite En; now left).
          unfold named in Hin. apply filter_In in Hin as [Hin Hk].
          assert (In k (filter (name_in (variant_names vs)) l)); [|rewrite Hf in H; contradiction].
          apply filter_In. split; auto. apply name_in_spec. exists name. split; auto. now apply c_name_in. }
        assert (Hall : filter (name_in (variant_names vs)) (l ++ [c]) = named (expanded (v_name v)) (l ++ [c])).
        { rewrite recognized_snoc by auto. rewrite Hname, named_snoc by auto. now rewrite Hf, Hnl. }
        destruct (v_ty v) as [[k t]|] eqn:Hty; intros [= <-].
        + eapply computes_amap; [apply (init_step k t)|..].
          * intros [[y| |] l'] d; cbn; try discriminate. intros [= <-]. exists y. split; auto.
            intro Hy. split; [exact Hv|]. right. split; auto. eexists. split; [reflexivity|].
            apply choice_field with v k t; auto. rewrite Hname, named_snoc by auto. now rewrite Hnl.
          * intros [[y| |] l'] b; cbn; try discriminate. eauto.
          * intros (d & Hd). apply estate_possible in Hd as [Hd|(y & Hd)].
            { rewrite recognized_snoc in Hd by auto. now apply snoc_not_nil in Hd. }
            apply choice_name in Hd as (j' & v' & Hj' & Hv' & Hn' & _ & Hd); auto.
            rewrite E in Hj'. inversion Hj'; subst j'. rewrite Hj in Hv'. inversion Hv'; subst v'.
            rewrite Hty, Hnl in Hd. destruct Hd as (z & _ & Hz). eauto.
        + eapply computes_ok; [reflexivity|]. split; [exact Hv|]. right. split; auto.
          eexists. split; [reflexivity|]. apply choice_unit with v; auto.
          rewrite recognized_snoc by auto. apply snoc_not_nil.
      - (* initialized *)
        assert (Hx : exists j v q, x = VEnum j q /\ nth_error (sorted_variants vs) j = Some v /\
          filter (name_in (variant_names vs)) l <> [] /\
          filter (name_in (variant_names vs)) l = named (expanded (v_name v)) l /\
          match v_ty v with
          | None => q = None
          | Some (k, t) => exists y, q = Some y /\ occurs (R t) k (named (expanded (v_name v)) l) y
          end).
        { inversion Hch as [j v Hj Hty Hne E|j v k t y Hj Hty E Ho]; subst.
          - exists j, v, None. rewrite Hty. auto.
          - exists j, v, (Some y). rewrite Hty. repeat split; auto; [|eauto].
            rewrite E. intro K. rewrite K in Ho. inversion Ho. congruence. }
        destruct Hx as (j & v & q & -> & Hj & Hne & Hall & Hq). rewrite Hm, Hj. intros [= <-].
        destruct (find alg name (variant_table vs)) as [j'|] eqn:E.
        + assert (Hrec : name_in (variant_names vs) c = true).
          { destruct (name_in (variant_names vs) c) eqn:En; auto. apply find_no_variant in En. congruence. }
          pose proof E as E'. apply find_variant in E' as (v' & Hj' & Hname').
          destruct (Nat.eqb j' j) eqn:Ej.
          * apply Nat.eqb_eq in Ej. subst j'. rewrite Hj in Hj'. inversion Hj'; subst v'.
            assert (Hall' : filter (name_in (variant_names vs)) (l ++ [c]) = named (expanded (v_name v)) (l ++ [c])).
            { rewrite recognized_snoc by auto. rewrite named_snoc by auto. now rewrite Hall. }
            destruct (v_ty v) as [[k t]|] eqn:Hty.
            -- destruct Hq as (y & -> & Hy). cbn iota beta.
               eapply computes_amap; [apply (update_step k t _ y Hy)|..].
               ++ intros [[z| |] l'] d; cbn; try discriminate. intros [= <-]. exists z. split; auto.
                  intro Hz. split; [exact Hv|]. right. split; auto. eexists. split; [reflexivity|].
                  apply choice_field with v k t; auto. rewrite named_snoc by auto. exact Hz.
               ++ intros [[z| |] l'] b; cbn; try discriminate. eauto.
               ++ intros (d & Hd). apply estate_possible in Hd as [Hd|(z & Hd)].
                  { rewrite recognized_snoc in Hd by auto. now apply snoc_not_nil in Hd. }
                  apply choice_name in Hd as (j' & v' & Hj'' & Hv' & Hn' & _ & Hd); auto.
                  rewrite E in Hj''. inversion Hj''; subst j'. rewrite Hj in Hv'. inversion Hv'; subst v'.
                  rewrite Hty in Hd. destruct Hd as (w & _ & Hw). rewrite Hname'. eauto.
            -- subst q. eapply computes_ok; [reflexivity|].
               split; [exact Hv|]. right. split; auto. eexists. split; [exact Hm|].
               apply choice_unit with v; auto. rewrite recognized_snoc by auto. apply snoc_not_nil.
          * apply computes_err; [reflexivity|]. intros d Hd.
            apply estate_possible in Hd as [Hd|(z & Hd)].
            { rewrite recognized_snoc in Hd by auto. now apply snoc_not_nil in Hd. }
            apply choice_name in Hd as (j'' & v'' & Hj'' & Hv'' & Hn'' & Hp & _); auto.
            rewrite E in Hj''. inversion Hj''; subst j''. rewrite Hj' in Hv''. inversion Hv''; subst v''.
            (* the children so far name [v], the new one names [v'] *)
            assert (Hk : exists k, In k (filter (name_in (variant_names vs)) l)).
            { destruct (filter (name_in (variant_names vs)) l) as [|k l']; [congruence|]. exists k. now left. }
            destruct Hk as (k & Hk). pose proof Hk as Hk'. rewrite Hall in Hk. rewrite Hp in Hk'.
            unfold named in Hk, Hk'. apply filter_In in Hk as [_ Hk]. apply filter_In in Hk' as [_ Hk'].
            assert (expanded (v_name v) = expanded (v_name v')).
            { rewrite Hn''. eapply has_name_inj; eauto. }
            assert (j = j') by (eapply variant_name_inj; eauto). subst.
            rewrite Nat.eqb_refl in Ej. discriminate.
        + assert (Hn : name_in (variant_names vs) c = false) by now apply find_no_variant.
          eapply computes_ok; [reflexivity|]. split; [exact Hv|]. right. split; auto.
          exists (VEnum j q). split; auto. now apply choice_same.
    Qed.
  End Enum.

  (** ** Structs *)

  Definition attr_after (opt : bool) (t : tty) (values : list string) (present : bool) (mem : option value) : Prop :=
    (values = [] /\ present = false /\ mem = None) \/
    (present = true /\ exists s x, values = [s] /\ parse_text o t s = Ok x /\
       mem = Some (if opt then VSome (VText x) else VText x)).

  (** The state of a struct's visitor: attributes [attrs] and children [ks] were seen, the children
      [l] were offered to the next flattened field. *)
  Inductive slots_after (attrs : list attr) (ks : list node) : list node -> list field -> list slot -> Prop :=
  | sa_nil : forall l, slots_after attrs ks l [] []
  | sa_element : forall l f fs k t pr mem ss, f_mode f = MElement k t ->
      field_after k t (named (expanded (f_name f)) ks) pr mem ->
      slots_after attrs ks l fs ss -> slots_after attrs ks l (f :: fs) (SField pr mem :: ss)
  | sa_attribute : forall l f fs opt t pr mem ss, f_mode f = MAttribute opt t ->
      attr_after opt t (attr_values (expanded (f_name f)) attrs) pr mem ->
      slots_after attrs ks l fs ss -> slots_after attrs ks l (f :: fs) (SField pr mem :: ss)
  | sa_flatten : forall l f fs id ident root nss vs sk e ss, f_mode f = MFlatten id ->
      env id = Some (TDEnum ident root nss vs sk) -> estate_after vs l e ->
      slots_after attrs ks (before_first (variant_names vs) l) fs ss ->
      slots_after attrs ks l (f :: fs) (SFlat e :: ss).

  Lemma slots_after_length attrs ks l fs ss : slots_after attrs ks l fs ss -> List.length ss = List.length fs.
  Proof. induction 1; cbn; auto. Qed.

  (** Only the occurrences of the fields' own names matter. *)
  Lemma slots_after_kids attrs ks1 ks2 l fs ss :
    (forall f, In f fs -> is_element f = true -> named (expanded (f_name f)) ks1 = named (expanded (f_name f)) ks2) ->
    slots_after attrs ks1 l fs ss -> slots_after attrs ks2 l fs ss.
  Proof.
    intros Hn H. induction H.
    - constructor.
    - apply sa_element with k t; auto.
      + rewrite <- Hn; auto; [now left|]. unfold is_element. now rewrite H.
      + apply IHslots_after. intros f' Hf'. apply Hn. now right.
    - apply sa_attribute with opt t; auto. apply IHslots_after. intros f' Hf'. apply Hn. now right.
    - eapply sa_flatten; eauto. apply IHslots_after. intros f' Hf'. apply Hn. now right.
  Qed.

  (** A child for the element field at position [q]. *)
  Lemma slots_element attrs ks l fs ss q f k t :
    NoDup (field_names is_element fs) ->
    nth_error fs q = Some f -> f_mode f = MElement k t -> expanded (f_name f) = name ->
    slots_after attrs ks l fs ss ->
    exists pr mem, nth_error ss q = Some (SField pr mem) /\
      field_after k t (named name ks) pr mem /\
      (forall sl, slot_is (field_after k t (named name ks ++ [c])) sl ->
         slots_after attrs (ks ++ [c]) l fs (set_nth q sl ss)) /\
      (forall ss', slots_after attrs (ks ++ [c]) l fs ss' ->
         exists sl, slot_is (field_after k t (named name ks ++ [c])) sl).
  Proof.
    intros Hnd Hq Hm Hname Hs. revert q Hq. induction Hs; intros q Hq.
    - destruct q; discriminate.
    - assert (Hnd' : NoDup (field_names is_element fs)).
      { unfold field_names in *. cbn in Hnd. unfold is_element at 1 in Hnd. rewrite H in Hnd. now inversion Hnd. }
      destruct q as [|q]; cbn in Hq.
      + inversion Hq; subst f0. rewrite H in Hm. inversion Hm; subst k0 t0. rewrite Hname in *.
        exists pr, mem. cbn. repeat split; auto.
        * intros [pr' mem'|] Hsl; [|contradiction]. cbn in Hsl. apply sa_element with k t; auto.
          { rewrite Hname, named_snoc by auto. exact Hsl. }
          eapply slots_after_kids; [|exact Hs]. intros f' Hf' He'. symmetry. apply named_same.
          unfold field_names in Hnd. cbn in Hnd. unfold is_element at 1 in Hnd. rewrite H in Hnd. cbn in Hnd.
          inversion Hnd as [|? ? Hni _]. subst. intro E. apply Hni. rewrite Hname, E.
          apply in_map_iff. exists f'. split; auto. now apply filter_In.
        * intros ss' Hss'. inversion Hss' as [|? ? ? k' t' pr' mem' ss0 Hm' Hf'|? ? ? opt' t' pr' mem' ss0 Hm'|? ? ? id' ident' root' nss' vs' sk' e' ss0 Hm']; subst; try congruence.
          rewrite H in Hm'. inversion Hm'; subst.
          rewrite Hname, named_snoc in Hf' by auto. exists (SField pr' mem'). exact Hf'.
      + destruct (IHHs Hnd' q Hq) as (pr' & mem' & G1 & G2 & G3 & G4).
        exists pr', mem'. cbn. repeat split; auto.
        * intros sl Hsl. apply sa_element with k0 t0; auto. rewrite named_same; auto.
          intro E. unfold field_names in Hnd. cbn in Hnd. unfold is_element at 1 in Hnd. rewrite H in Hnd. cbn in Hnd.
          inversion Hnd as [|? ? Hni _]. subst. apply Hni. rewrite <- E.
          apply in_map_iff. exists f. split; auto. apply filter_In. split; [eapply nth_error_In; eauto|].
          unfold is_element. now rewrite Hm.
        * intros ss' Hss'. inversion Hss'; subst; try congruence; eauto.
    - assert (Hnd' : NoDup (field_names is_element fs)).
      { unfold field_names in *. cbn in Hnd. unfold is_element at 1 in Hnd. rewrite H in Hnd. exact Hnd. }
      destruct q as [|q]; cbn in Hq.
      + inversion Hq; subst. congruence.
      + destruct (IHHs Hnd' q Hq) as (pr' & mem' & G1 & G2 & G3 & G4).
        exists pr', mem'. cbn. repeat split; auto.
        * intros sl Hsl. apply sa_attribute with opt t0; auto.
        * intros ss' Hss'. inversion Hss'; subst; try congruence; eauto.
    - assert (Hnd' : NoDup (field_names is_element fs)).
      { unfold field_names in *. cbn in Hnd. unfold is_element at 1 in Hnd. rewrite H in Hnd. exact Hnd. }
      destruct q as [|q]; cbn in Hq.
      + inversion Hq; subst. congruence.
      + destruct (IHHs Hnd' q Hq) as (pr' & mem' & G1 & G2 & G3 & G4).
        exists pr', mem'. cbn. repeat split; auto.
        * intros sl Hsl. eapply sa_flatten; eauto.
        * intros ss' Hss'. inversion Hss'; subst; try congruence; eauto.
          assert (vs0 = vs) by congruence. subst. eauto.
  Qed.

  (** A child no own field claims. *)
  Lemma slots_delegate attrs ks l fs ss :
    names_ok env ->
    (forall f, In f fs -> is_element f = true -> name <> expanded (f_name f)) ->
    slots_after attrs ks l fs ss ->
    match delegate_element o alg env ss i with
    | None => slots_after attrs (ks ++ [c]) (l ++ [c]) fs ss
    | Some act => computes act get_ok2 (slots_after attrs (ks ++ [c]) (l ++ [c]) fs)
    end.
  Proof.
    intros Hok Hn Hs. induction Hs.
    - constructor.
    - assert (E : named (expanded (f_name f)) (ks ++ [c]) = named (expanded (f_name f)) ks).
      { apply named_same. apply Hn; [now left|]. unfold is_element. now rewrite H. }
      assert (IH : match delegate_element o alg env ss i with
        | None => slots_after attrs (ks ++ [c]) (l ++ [c]) fs ss
        | Some act => computes act get_ok2 (slots_after attrs (ks ++ [c]) (l ++ [c]) fs) end).
      { apply IHHs. intros f' Hf'. apply Hn. now right. }
      cbn. destruct (delegate_element o alg env ss i) as [act|]; cbn.
      + eapply computes_amap; [exact IH|..].
        * intros [[[[]| |] ss''] l'] d; cbn; try discriminate. intros [= <-]. exists ss''. split; auto.
          intro G. apply sa_element with k t; auto. now rewrite E.
        * intros [[[[]| |] ss''] l'] b; cbn; try discriminate. intros _ _. eauto.
        * intros (d & Hd). inversion Hd; subst; try congruence; eauto.
      + apply sa_element with k t; auto. now rewrite E.
    - assert (IH : match delegate_element o alg env ss i with
        | None => slots_after attrs (ks ++ [c]) (l ++ [c]) fs ss
        | Some act => computes act get_ok2 (slots_after attrs (ks ++ [c]) (l ++ [c]) fs) end).
      { apply IHHs. intros f' Hf'. apply Hn. now right. }
      cbn. destruct (delegate_element o alg env ss i) as [act|]; cbn.
      + eapply computes_amap; [exact IH|..].
        * intros [[[[]| |] ss''] l'] d; cbn; try discriminate. intros [= <-]. exists ss''. split; auto.
          intro G. apply sa_attribute with opt t; auto.
        * intros [[[[]| |] ss''] l'] b; cbn; try discriminate. intros _ _. eauto.
        * intros (d & Hd). inversion Hd; subst; try congruence; eauto.
      + apply sa_attribute with opt t; auto.
    - destruct (Hok id _ H0) as [Hns Hnd].
      assert (Hrest : slots_after attrs (ks ++ [c]) (before_first (variant_names vs) l) fs ss).
      { eapply slots_after_kids; [|exact Hs]. intros f' Hf' He'. symmetry. apply named_same. apply Hn; auto. now right. }
      cbn. destruct (enum_element o alg env e i) as [act|] eqn:Ee.
      + assert (Hb : before_first (variant_names vs) (l ++ [c]) = before_first (variant_names vs) l).
        { pose proof H1 as [Hv [(Hf & Hi & Hm)|(Hi & x & Hm & Hch)]].
          - destruct (name_in (variant_names vs) c) eqn:En.
            + rewrite before_first_new by auto. now rewrite before_first_miss.
            + exfalso. assert (Ep : enum_element o alg env e i = None) by (apply (enum_pass vs Hns Hnd l e H1); auto). congruence.
          - apply before_first_hit. apply filter_not_nil. inversion Hch as [? ? ? ? Hne ?|? ? ? ? ? ? ? Hall Ho]; subst; auto.
            rewrite Hall. intro K. rewrite K in Ho. inversion Ho. congruence. }
        eapply computes_amap; [apply (enum_step vs Hns Hnd l e act H1 Ee)|..].
        * intros [[[[]| |] e'] l'] d; cbn; try discriminate. intros [= <-]. exists e'. split; auto.
          intro G. eapply sa_flatten; eauto. now rewrite Hb.
        * intros [[[[]| |] e'] l'] b; cbn; try discriminate. eauto.
        * intros (d & Hd). inversion Hd; subst; try congruence. exists e0.
          assert (vs0 = vs) by congruence. now subst.
      + apply (enum_pass vs Hns Hnd l e H1) in Ee as Hp. destruct Hp as [Hf Hnm].
        assert (IH : match delegate_element o alg env ss i with
          | None => slots_after attrs (ks ++ [c]) (before_first (variant_names vs) l ++ [c]) fs ss
          | Some act => computes act get_ok2 (slots_after attrs (ks ++ [c]) (before_first (variant_names vs) l ++ [c]) fs) end).
        { apply IHHs. intros f' Hf'. apply Hn. now right. }
        assert (Hb : before_first (variant_names vs) (l ++ [c]) = before_first (variant_names vs) l ++ [c]).
        { rewrite !before_first_miss; auto. rewrite recognized_same; auto. }
        assert (He' : estate_after vs (l ++ [c]) e) by (apply estate_after_pass; auto).
        rewrite <- Hb in IH.
        destruct (delegate_element o alg env ss i) as [act|]; cbn.
        * eapply computes_amap; [exact IH|..].
          -- intros [[[[]| |] ss''] l'] d; cbn; try discriminate. intros [= <-]. exists ss''. split; auto.
             intro G. eapply sa_flatten; eauto.
          -- intros [[[[]| |] ss''] l'] b; cbn; try discriminate. intros _ _. eauto.
          -- intros (d & Hd). inversion Hd; subst; try congruence.
             assert (vs0 = vs) by congruence. subst. eauto.
        * eapply sa_flatten; eauto.
  Qed.
End Fields.
