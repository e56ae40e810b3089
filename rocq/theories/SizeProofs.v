(** Values are no larger than the document and the types allow. *)
From Coq Require Import Lia.
From Verif Require Import Base Normalize NormalizeSpec NormalizeProofs Text Find FindProofs Types Reader ReaderSpec
  ReaderProofs ReaderProps ReaderOk DeriveDe DeSpec DeProofs DeMain DeDet DeProps SizeSpec.

Lemma sum_cons x l : list_sum (x :: l) = x + list_sum l.
Proof. reflexivity. Qed.
Lemma sum_nil : list_sum [] = 0.
Proof. reflexivity. Qed.
Lemma max_cons x l : list_max (x :: l) = Nat.max x (list_max l).
Proof. reflexivity. Qed.

Ltac sums := cbn [negb orb join map filter String.length List.length app value_size text_size text_cost tags bytes] in *; rewrite ?sum_cons, ?sum_nil, ?max_cons in *; lia.

Lemma append_length (a b : string) : String.length (a ++ b) = String.length a + String.length b.
Proof. induction a; cbn; auto. Qed.

(** ** Text *)

Lemma pieces_length {A} ws (s : list A) :
  list_sum (map (fun w => S (List.length w)) (pieces ws s)) = S (List.length s).
Proof.
  induction s as [|c s IH]; cbn [pieces]; [reflexivity|]. destruct (ws c).
  - sums.
  - destruct (pieces ws s); sums.
Qed.

Lemma join_length {A} (sp : A) l : List.length (join sp l) <= pred (list_sum (map (fun w => S (List.length w)) l)).
Proof.
  induction l as [|w l IH]; [sums|]. destruct l as [|w' l]; [sums|].
  change (join sp (w :: w' :: l)) with (w ++ sp :: join sp (w' :: l)). rewrite app_length. sums.
Qed.

Lemma sum_filter {A} (f : A -> nat) p l : list_sum (map f (filter p l)) <= list_sum (map f l).
Proof. induction l as [|x l IH]; [sums|]. cbn [filter]. destruct (p x); sums. Qed.

Lemma str_length l : String.length (str_of l) = List.length l.
Proof. induction l; cbn; auto. Qed.

Lemma bytes_length s : List.length (bytes_of s) = String.length s.
Proof. induction s; cbn; auto. Qed.

Lemma normalize_shorter s w s' : normalize s w = Ok s' -> String.length s' <= String.length s.
Proof.
  destruct w.
  - rewrite normalize_preserve. intros [= <-]. lia.
  - rewrite normalize_replace. intros [= <-]. rewrite str_length. unfold spec_replace. rewrite map_length, bytes_length. lia.
  - rewrite normalize_collapse. intros [= <-]. rewrite str_length. unfold spec_collapse.
    etransitivity; [apply join_length|].
    unfold words. match goal with |- context [filter _ ?l] =>
      pose proof (sum_filter (fun w => S (List.length w)) nonempty l) as H; rewrite pieces_length, bytes_length in H end.
    lia.
Qed.

Lemma gen_normalize_shorter w s s' : gen_normalize w s = Ok s' -> String.length s' <= String.length s.
Proof.
  unfold gen_normalize. destruct (normalize s w) as [x|[]|] eqn:E; intros [= <-]. eauto using normalize_shorter.
Qed.

Lemma list_max_in {A} (f : A -> nat) l x : In x l -> f x <= list_max (map f l).
Proof.
  intros H. pose proof (proj1 (list_max_le (map f l) (list_max (map f l))) (le_n _)) as Hf.
  rewrite Forall_forall in Hf. apply Hf. now apply in_map.
Qed.

Lemma parse_size o : forall t s x, parse_text o t s = Ok x -> text_size x <= text_cost t + String.length s.
Proof.
  fix IH 1. intros t s x H.
  destruct t as [| |k|w|name ws vs|name ws vs|id ws|id]; cbn [parse_text] in H.
  - injection H as <-. sums.
  - destruct (parse_bool o s); cbn in H; try discriminate. injection H as <-. sums.
  - destruct (parse_int k s); cbn in H; try discriminate. injection H as <-. sums.
  - destruct (o_float_parse o w (trim s)); cbn in H; try discriminate. injection H as <-. sums.
  - destruct (gen_normalize ws s) as [s'| |] eqn:E; cbn [bind] in H; try discriminate.
    apply gen_normalize_shorter in E. unfold parse_restr in H.
    destruct (find_index (known_is s') vs); [injection H as <-; sums|].
    destruct (existsb is_unknown vs); [injection H as <-; sums|discriminate].
  - destruct (gen_normalize ws s) as [s'| |] eqn:E; cbn [bind] in H; try discriminate.
    apply gen_normalize_shorter in E.
    assert (G : forall i errs, (fix attempts (i : nat) (errs : list string) (vs : list tty) : res string tval :=
           match vs with
           | [] => Err (union_error name errs)
           | t :: vs' =>
               match parse_text o t s' with
               | Ok r => Ok (TVUnion i r)
               | Err e => attempts (S i) (errs ++ [e]) vs'
               | Abort x => Abort x
               end
           end) i errs vs = Ok x -> text_size x <= S (list_max (map text_cost vs)) + String.length s').
    { clear H E. induction vs as [|t vs IHv]; intros i errs H; [discriminate|].
      destruct (parse_text o t s') as [r|e|a] eqn:Ep; [|apply IHv in H; sums|discriminate].
      apply IH in Ep. injection H as <-. sums. }
    apply G in H. cbn [text_cost]. lia.
  - destruct (gen_normalize ws s) as [s'| |] eqn:E; cbn [bind] in H; try discriminate.
    destruct (o_std_parse o id s'); cbn in H; try discriminate. injection H as <-. sums.
  - destruct (o_hand_parse o id s); cbn in H; try discriminate. injection H as <-. sums.
Qed.

(** ** Nodes *)

Definition attrs_bytes (attrs : list attr) : nat := list_sum (map (fun a => String.length (a_value a)) attrs).

Definition weight (K : nat) (src : list (xevent * position)) : nat := K * tags src + bytes src.

Lemma tags_app a b : tags (a ++ b) = tags a + tags b.
Proof. induction a as [|[[] p] a IH]; cbn; auto; lia. Qed.

Lemma bytes_app a b : bytes (a ++ b) = bytes a + bytes b.
Proof. induction a as [|[[] p] a IH]; cbn; auto; lia. Qed.

Lemma weight_app K a b : weight K (a ++ b) = weight K a + weight K b.
Proof. unfold weight. rewrite tags_app, bytes_app. lia. Qed.

Section Size.
  Context (o : oracles) (env : tenv) (K : nat).
  Hypothesis HK : forall id d, env id = Some d -> type_cost d <= K.

  Definition wt (n : node) : nat := weight K (events n).
  Definition wts (l : list node) : nat := list_sum (map wt l).

  Lemma wts_events l : weight K (List.flat_map events l) = wts l.
  Proof. induction l as [|n l IH]; [unfold weight, wts; cbn; lia|]. cbn [List.flat_map]. rewrite weight_app, IH. reflexivity. Qed.

  Lemma wt_elem name attrs ns p kids pe : wt (NElem name attrs ns p kids pe) = K + attrs_bytes attrs + wts kids.
  Proof.
    unfold wt. cbn [events]. change ((?a, p) :: ?l ++ ?m) with ([(a, p)] ++ l ++ m). rewrite !weight_app, wts_events.
    unfold weight, attrs_bytes. sums.
  Qed.

  Lemma wts_split p l : wts (filter p l) + wts (filter (fun k => negb (p k)) l) = wts l.
  Proof. unfold wts. induction l as [|n l IH]; [sums|]. cbn [filter]. destruct (p n); sums. Qed.

  Lemma wts_imp (p q : node -> bool) l : (forall k, p k = true -> q k = true) -> wts (filter p l) <= wts (filter q l).
  Proof.
    intros H. unfold wts. induction l as [|n l IH]; [sums|]. cbn [filter]. specialize (H n).
    destruct (p n); [rewrite H by auto; sums|]. destruct (q n); sums.
  Qed.

  Lemma text_bytes kids : String.length (text_of kids) <= wts kids.
  Proof.
    unfold text_of. induction kids as [|k kids IH]; [cbn; lia|].
    assert (Hc : forall l x, String.length (String.concat "" (x :: l)) = String.length x + String.length (String.concat "" l)).
    { intros l x. destruct l as [|y l]; [cbn; lia|].
      change (String.concat "" (x :: y :: l)) with (x ++ String.concat "" (y :: l))%string. now rewrite append_length. }
    cbn [map]. rewrite Hc. change (wts (k :: kids)) with (wt k + wts kids).
    enough (String.length match k with NText _ s _ => s | _ => ""%string end <= wt k) by lia.
    destruct k as [| c s p | |]; cbn; try lia. destruct c; unfold wt, weight; cbn; lia.
  Qed.

  (** [R] on nodes is bounded. *)
  Definition bounded (R : ety -> node -> value -> Prop) (n : node) : Prop :=
    forall t v, ety_cost t <= K -> R t n v -> value_size v <= wt n.

  Lemma occurs_size (R : node -> value -> Prop) k cs v :
    (forall c w, In c cs -> R c w -> value_size w <= wt c) -> occurs R k cs v -> value_size v <= 1 + wts cs.
  Proof.
    intros H Ho. destruct Ho as [c v Hr|c v Hr|cs vs _ Hr].
    - specialize (H c v (or_introl eq_refl) Hr). unfold wts. sums.
    - specialize (H c v (or_introl eq_refl) Hr). unfold wts. sums.
    - cbn [value_size]. enough (list_sum (map value_size vs) <= wts cs) by lia.
      induction Hr as [|c w cs vs Hw Hr IH]; [sums|].
      pose proof (H c w (or_introl eq_refl) Hw). assert (list_sum (map value_size vs) <= wts cs) by (apply IH; intros; eapply H; [right|]; eauto).
      unfold wts in *. sums.
  Qed.

  Lemma sorted_variants_in vs i v : nth_error (sorted_variants vs) i = Some v -> In v vs.
  Proof.
    intros H. apply nth_error_In in H. eapply Permutation.Permutation_in; [|exact H].
    unfold sorted_variants. apply sort_perm.
  Qed.

  Lemma choice_size R ident root nss vs sk l v : Forall (bounded R) l -> type_cost (TDEnum ident root nss vs sk) <= K ->
    choice R vs l v -> value_size v <= 2 + wts (filter (name_in (variant_names vs)) l).
  Proof.
    intros Hb Hc H. destruct H as [i v Hn Ht Hne He|i v k t x Hn Ht He Ho]; [sums|].
    cbn [value_size]. apply occurs_size in Ho.
    - rewrite <- He in Ho. lia.
    - intros c w Hin Hr. apply filter_In in Hin as [Hin _]. rewrite Forall_forall in Hb. eapply Hb; eauto.
      apply sorted_variants_in in Hn. cbn [type_cost] in Hc.
      pose proof (list_max_in variant_text vs v Hn) as Hm. unfold variant_text at 1 in Hm. rewrite Ht in Hm. lia.
  Qed.

  Lemma before_first_split ns l : wts (filter (name_in ns) l) + wts (before_first ns l) <= wts l.
  Proof.
    induction l as [|k l IH]; [unfold wts; cbn; lia|]. cbn [filter before_first]. destruct (name_in ns k) eqn:E.
    - change (wts (k :: filter (name_in ns) l)) with (wt k + wts (filter (name_in ns) l)).
      change (wts (k :: l)) with (wt k + wts l). change (wts []) with 0.
      pose proof (wts_split (name_in ns) l). lia.
    - change (wts (k :: before_first ns l)) with (wt k + wts (before_first ns l)).
      change (wts (k :: l)) with (wt k + wts l). lia.
  Qed.

  Lemma named_split n ns kids : ~ In n ns ->
    wts (named n kids) + wts (filter (name_in ns) kids) = wts (filter (name_in (n :: ns)) kids).
  Proof.
    intros Hn. unfold named. induction kids as [|k kids IH]; [reflexivity|].
    cbn [filter]. change (name_in (n :: ns) k) with (has_name n k || name_in ns k).
    destruct (has_name n k) eqn:E1.
    - assert (E2 : name_in ns k = false).
      { apply Bool.not_true_iff_false. intros E. unfold name_in in E. apply existsb_exists in E as (m & Hm & Em).
        destruct k as [name attrs nss p ks pe| | |]; try discriminate. cbn in E1, Em.
        apply xn_eqb_eq in E1. apply xn_eqb_eq in Em. congruence. }
      rewrite E2. unfold wts in *. sums.
    - cbn [orb]. destruct (name_in ns k); unfold wts in *; sums.
  Qed.

  Definition attr_in (ns : list xname) (a : attr) : bool := existsb (xn_eqb (from_xml_name (a_name a))) ns.

  Lemma attr_split n ns attrs : ~ In n ns ->
    list_sum (map String.length (attr_values n attrs)) + attrs_bytes (filter (attr_in ns) attrs) =
    attrs_bytes (filter (attr_in (n :: ns)) attrs).
  Proof.
    intros Hn. unfold attr_values, attrs_bytes. induction attrs as [|a attrs IH]; [reflexivity|].
    cbn [filter]. change (attr_in (n :: ns) a) with (xn_eqb (from_xml_name (a_name a)) n || attr_in ns a).
    destruct (xn_eqb (from_xml_name (a_name a)) n) eqn:E1.
    - assert (E2 : attr_in ns a = false).
      { apply Bool.not_true_iff_false. intros E. unfold attr_in in E. apply existsb_exists in E as (m & Hm & Em).
        apply xn_eqb_eq in E1. apply xn_eqb_eq in Em. congruence. }
      rewrite E2. sums.
    - cbn [orb]. destruct (attr_in ns a); sums.
  Qed.

  Lemma absent_size f v : absent f v -> value_size v <= field_cost f.
  Proof.
    unfold field_cost. intros [w H|t H Hm|t H Hm|t H Hm]; rewrite H, ?Hm; sums.
  Qed.

  Lemma fields_size R attrs kids l fs vs : Forall (bounded R) kids -> Forall (bounded R) l ->
    NoDup (field_names is_element fs) -> NoDup (field_names is_attribute fs) ->
    list_max (map field_text fs) <= K ->
    fields_hold o env R attrs kids l fs vs ->
    list_sum (map value_size vs) <=
    list_sum (map field_cost fs) + wts (filter (name_in (field_names is_element fs)) kids) +
    attrs_bytes (filter (attr_in (field_names is_attribute fs)) attrs) + wts l.
  Proof.
    intros Hk. intros Hl Hne Hna Ht H.
    induction H as [l|l f fs v vs Hf Hh Hr IH|l f fs id ident root nss variants sk v vs Hm Hid Hc Hr IH].
    - sums.
    - assert (Ht' : list_max (map field_text fs) <= K) by sums.
      assert (Htf : field_text f <= K) by sums.
      unfold field_names in Hne, Hna. cbn [filter map] in Hne, Hna.
      cbn [map list_sum fold_right]. 
      change (fold_right Nat.add 0 ?x) with (list_sum x).
      unfold field_names. cbn [filter].
      inversion Hh as [k t w Hm Ho|k t w Hm He Ha|opt t s x Hm He Hp|opt t w Hm He Ha]; subst.
      + assert (E1 : is_element f = true) by (unfold is_element; now rewrite Hm).
        assert (E2 : is_attribute f = false) by (unfold is_attribute; now rewrite Hm).
        rewrite E1 in *. rewrite E2 in *. cbn [map] in *. inversion Hne as [|? ? Hni Hnd]; subst.
        specialize (IH Hl Hnd Hna Ht'). rewrite <- (named_split _ _ kids Hni).
        apply occurs_size in Ho.
        * unfold field_cost at 1. rewrite Hm. unfold field_names in IH. lia.
        * intros c w' Hin Hw. apply filter_In in Hin as [Hin _]. rewrite Forall_forall in Hk. eapply Hk; eauto.
          unfold field_text in Htf. rewrite Hm in Htf. exact Htf.
      + assert (E1 : is_element f = true) by (unfold is_element; now rewrite Hm).
        assert (E2 : is_attribute f = false) by (unfold is_attribute; now rewrite Hm).
        rewrite E1 in *. rewrite E2 in *. cbn [map] in *. inversion Hne as [|? ? Hni Hnd]; subst.
        specialize (IH Hl Hnd Hna Ht'). rewrite <- (named_split _ _ kids Hni).
        apply absent_size in Ha. unfold field_names in IH. lia.
      + assert (E1 : is_element f = false) by (unfold is_element; now rewrite Hm).
        assert (E2 : is_attribute f = true) by (unfold is_attribute; now rewrite Hm).
        rewrite E1 in *. rewrite E2 in *. cbn [map] in *. inversion Hna as [|? ? Hni Hnd]; subst.
        specialize (IH Hl Hne Hnd Ht'). rewrite <- (attr_split _ _ attrs Hni). rewrite He. cbn [map list_sum fold_right].
        apply parse_size in Hp. unfold field_cost at 1. rewrite Hm. unfold field_names in IH.
        destruct opt; cbn [value_size]; lia.
      + assert (E1 : is_element f = false) by (unfold is_element; now rewrite Hm).
        assert (E2 : is_attribute f = true) by (unfold is_attribute; now rewrite Hm).
        rewrite E1 in *. rewrite E2 in *. cbn [map] in *. inversion Hna as [|? ? Hni Hnd]; subst.
        specialize (IH Hl Hne Hnd Ht'). rewrite <- (attr_split _ _ attrs Hni).
        apply absent_size in Ha. unfold field_names in IH. lia.
    - assert (Ht' : list_max (map field_text fs) <= K) by sums.
      assert (E1 : is_element f = false) by (unfold is_element; now rewrite Hm).
      assert (E2 : is_attribute f = false) by (unfold is_attribute; now rewrite Hm).
      unfold field_names in *. cbn [filter map] in *. rewrite E1 in *. rewrite E2 in *.
      cbn [map list_sum fold_right]. change (fold_right Nat.add 0 ?x) with (list_sum x).
      assert (Hl' : Forall (bounded R) (before_first (variant_names variants) l)).
      { rewrite Forall_forall in *. intros x Hx. apply Hl. eapply before_first_incl; eauto. }
      specialize (IH Hl' Hne Hna Ht').
      pose proof (choice_size R ident root nss variants sk l v Hl (HK _ _ Hid) Hc) as Hv.
      pose proof (before_first_split (variant_names variants) l) as Hb.
      unfold field_cost at 1. rewrite Hm. lia.
  Qed.

  Theorem reads_size : names_ok env -> forall n t v, ety_cost t <= K -> reads o env t n v -> value_size v <= wt n.
  Proof.
    intros Hok n. induction n as [name attrs ns p kids pe IH| | |] using node_ind'; intros t v Ht H;
      try now inversion H.
    assert (Hb : Forall (bounded (reads o env)) kids).
    { eapply Forall_impl; [|exact IH]. intros c Hc t' v'. apply Hc. }
    rewrite wt_elem. inversion H; subst.
    - cbn [value_size]. match goal with Hp : parse_text _ _ _ = Ok _ |- _ => apply parse_size in Hp end.
      pose proof (text_bytes kids). cbn in Ht. lia.
    - match goal with Hi : env _ = Some _ |- _ => pose proof (HK _ _ Hi) as Hc; destruct (Hok _ _ Hi) as [Hn1 Hn2] end.
      cbn [type_cost] in Hc. cbn [value_size].
      match goal with Hf : fields_hold _ _ _ _ _ _ _ _ |- _ => apply fields_size in Hf; auto; [|now apply Forall_filter|lia] end.
      assert (wts (unclaimed fs kids) <= wts (filter (fun k => negb (name_in (field_names is_element fs) k)) kids)).
      { unfold unclaimed. apply wts_imp. intros k Hkk. now apply andb_prop in Hkk. }
      pose proof (wts_split (name_in (field_names is_element fs)) kids).
      assert (attrs_bytes (filter (attr_in (field_names is_attribute fs)) attrs) <= attrs_bytes attrs) by apply sum_filter.
      lia.
    - match goal with Hi : env _ = Some _ |- _ => pose proof (HK _ _ Hi) as Hc end.
      match goal with Hf : choice _ _ _ _ |- _ => eapply choice_size in Hf; eauto end.
      cbn [type_cost] in Hc.
      assert (wts (filter (name_in (variant_names variants)) kids) <= wts kids) by apply sum_filter. lia.
  Qed.

  Lemma misc_weight l : weight K (misc_events l) = 0.
  Proof.
    assert (tags (misc_events l) = 0 /\ bytes (misc_events l) = 0) as [H1 H2].
    { induction l as [|[[] p] l IH]; [now split|exact IH|exact IH]. }
    unfold weight. rewrite H1, H2. lia.
  Qed.

  Theorem read_size alg dbg t src fin v : names_ok env -> ety_cost t <= K -> deliverable src fin ->
    read_as o alg env dbg t src fin = Ok v -> value_size v <= K * tags src + bytes src.
  Proof.
    intros Hok Ht Hd H. pose proof (read_ok_complete _ _ _ _ _ _ _ _ H) as Hc.
    destruct (complete_stream_doc src fin Hd Hc) as (d & pe & -> & ->).
    apply read_as_iff in H; [|exact Hok]. apply reads_size in H; auto.
    change (value_size v <= weight K (doc_events d)). unfold doc_events.
    change ((?a, ?p) :: ?l) with ([(a, p)] ++ l). rewrite !weight_app, !misc_weight. unfold wt in H. lia.
  Qed.
End Size.
