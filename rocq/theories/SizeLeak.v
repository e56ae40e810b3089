(** What is lost when reading fails is no larger than the document and the types allow. *)
From Coq Require Import Lia.
From Verif Require Import Base Normalize Text TextProofs Find FindProofs Types Reader ReaderSpec ReaderProofs ReaderProps ReaderOk
  DeriveDe DeSpec DeProofs DeMain DeDet DeTotal DeProps ErrSpec LeakSpec LeakProofs LeakCutSpec LeakCut SizeSpec SizeProofs.

Section Leak.
  Context (o : oracles) (env : tenv) (K : nat).
  Hypothesis HK : forall id d, env id = Some d -> type_cost d <= K.
  Hypothesis Hok : names_ok env.
  Notation wt := (wt K).
  Notation wts := (wts K).
  Notation sizes vs := (list_sum (map value_size vs)).

  Lemma sizes_app a b : sizes (a ++ b) = sizes a + sizes b.
  Proof. rewrite map_app. apply list_sum_app. Qed.

  Lemma wts_app a b : wts (a ++ b) = wts a + wts b.
  Proof. unfold SizeProofs.wts. rewrite map_app. apply list_sum_app. Qed.

  Lemma all_bounded l : Forall (bounded K (reads o env)) l.
  Proof. apply Forall_forall. intros n _ t v Ht H. eapply reads_size; eauto. Qed.

  (** What an element or attribute field gets. *)
  Definition share (attrs : list attr) (kids : list node) (f : field) : nat :=
    match f_mode f with
    | MElement _ _ => wts (named (expanded (f_name f)) kids)
    | MAttribute _ _ => list_sum (map String.length (attr_values (expanded (f_name f)) attrs))
    | _ => 0
    end.

  Lemma shares attrs kids fs : NoDup (field_names is_element fs) -> NoDup (field_names is_attribute fs) ->
    list_sum (map (share attrs kids) fs) <=
    wts (filter (name_in (field_names is_element fs)) kids) +
    attrs_bytes (filter (attr_in (field_names is_attribute fs)) attrs).
  Proof.
    induction fs as [|f fs IH]; intros H1 H2; [cbn; lia|].
    unfold field_names in *. cbn [filter map] in *. rewrite sum_cons. unfold share at 1.
    destruct (f_mode f) eqn:Hm; unfold is_element, is_attribute in H1, H2 |- *; rewrite Hm in *; cbn [map] in *.
    - inversion H1; subst. rewrite <- named_split by auto. specialize (IH ltac:(auto) H2). unfold is_element, is_attribute in IH. lia.
    - inversion H2; subst. rewrite <- attr_split by auto. specialize (IH H1 ltac:(auto)). unfold is_element, is_attribute in IH. lia.
    - specialize (IH H1 H2). unfold is_element, is_attribute in IH. lia.
    - specialize (IH H1 H2). unfold is_element, is_attribute in IH. lia.
  Qed.

  Lemma occurs_share t k kids n v : ety_cost t <= K -> occurs (reads o env t) k (named n kids) v ->
    value_size v <= 1 + wts (named n kids).
  Proof.
    intros Ht H. eapply occurs_size; [|exact H]. intros c w _ Hr. eapply reads_size; eauto.
  Qed.

  Lemma so_far_field attrs kids f vs : field_text f <= K -> field_so_far o env attrs kids f vs ->
    sizes vs <= field_cost f + share attrs kids f.
  Proof.
    intros Ht H. unfold field_cost, share, field_text in *. destruct H; rewrite H in *; cbn [map]; rewrite ?sum_cons, ?sum_nil; try lia.
    - match goal with Ho : occurs _ _ _ _ |- _ => apply occurs_share in Ho; [|exact Ht] end. lia.
    - match goal with Hp : parse_text _ _ _ = Ok _, He : attr_values _ _ = _ |- _ => apply parse_size in Hp; rewrite He end.
      cbn [map]. rewrite sum_cons, sum_nil. destruct opt; cbn [value_size]; lia.
  Qed.

  Lemma holds_field attrs kids f v : field_text f <= K -> field_holds o (reads o env) attrs kids f v ->
    value_size v <= field_cost f + share attrs kids f.
  Proof.
    intros Ht H. inversion H as [k t w Hm Ho|k t w Hm He Ha|opt t s x Hm He Hp|opt t w Hm He Ha]; subst.
    - unfold field_text in Ht. rewrite Hm in Ht. apply occurs_share in Ho; [|exact Ht].
      unfold field_cost, share. rewrite Hm. lia.
    - apply absent_size in Ha. lia.
    - apply parse_size in Hp. unfold field_cost, share. rewrite Hm, He. cbn [map]. rewrite sum_cons, sum_nil.
      destruct opt; cbn [value_size]; lia.
    - apply absent_size in Ha. lia.
  Qed.

  Lemma so_far_choice ident root nss variants sk l vs : type_cost (TDEnum ident root nss variants sk) <= K ->
    choice_so_far o env variants l vs -> sizes vs <= 2 + wts (filter (name_in (variant_names variants)) l).
  Proof.
    intros Hc H. destruct H as [v H|H]; cbn [map]; rewrite ?sum_cons, ?sum_nil; [|lia].
    pose proof (choice_size K (reads o env) ident root nss variants sk l v (all_bounded l) Hc H). lia.
  Qed.

  Lemma so_far_fields attrs kids l fs vs : list_max (map field_text fs) <= K ->
    fields_so_far o env attrs kids l fs vs ->
    sizes vs <= list_sum (map field_cost fs) + list_sum (map (share attrs kids) fs) + wts l.
  Proof.
    intros Ht H. induction H as [l|l f fs v vs Hf Hh Hr IH|l f fs id ident root nss variants sk v vs Hm Hid Hc Hr IH];
      cbn [map] in *; rewrite ?max_cons, ?sum_cons in *; rewrite ?sizes_app.
    - rewrite !sum_nil. lia.
    - apply so_far_field in Hh; [|lia]. specialize (IH ltac:(lia)). lia.
    - specialize (IH ltac:(lia)). pose proof (so_far_choice ident root nss variants sk l v (HK _ _ Hid) Hc).
      pose proof (before_first_split K (variant_names variants) l). unfold field_cost at 1. rewrite Hm. lia.
  Qed.

  Lemma until_fields attrs kids l fs vs : list_max (map field_text fs) <= K ->
    fields_until o env attrs kids l fs vs ->
    sizes vs <= list_sum (map field_cost fs) + list_sum (map (share attrs kids) fs) + wts l.
  Proof.
    intros Ht H. induction H as [l f fs vs Hn Hs|l f fs v vs Hf Hh Hr IH|l f fs id ident root nss variants sk v vs Hm Hid Hc Hr IH].
    - now apply so_far_fields.
    - cbn [map] in *; rewrite ?max_cons, ?sum_cons in *. apply holds_field in Hh; [|lia]. specialize (IH ltac:(lia)). lia.
    - cbn [map] in *; rewrite ?max_cons, ?sum_cons in *.
      specialize (IH ltac:(lia)).
      pose proof (choice_size K (reads o env) ident root nss variants sk l v (all_bounded l) (HK _ _ Hid) Hc).
      pose proof (before_first_split K (variant_names variants) l). unfold field_cost at 1. rewrite Hm. lia.
  Qed.

  Lemma struct_total attrs kids fs n : NoDup (field_names is_element fs) -> NoDup (field_names is_attribute fs) ->
    n <= list_sum (map field_cost fs) + list_sum (map (share attrs kids) fs) + wts (unclaimed fs kids) ->
    n <= list_sum (map field_cost fs) + attrs_bytes attrs + wts kids.
  Proof.
    intros H1 H2 H. pose proof (shares attrs kids fs H1 H2).
    assert (wts (unclaimed fs kids) <= wts (filter (fun k => negb (name_in (field_names is_element fs) k)) kids)).
    { unfold unclaimed. apply wts_imp. intros k Hk. now apply andb_prop in Hk. }
    pose proof (wts_split K (name_in (field_names is_element fs)) kids).
    assert (attrs_bytes (filter (attr_in (field_names is_attribute fs)) attrs) <= attrs_bytes attrs) by apply sum_filter.
    lia.
  Qed.

  Lemma so_far_size id d attrs kids vs : env id = Some d -> so_far o env d attrs kids vs ->
    sizes vs <= K + attrs_bytes attrs + wts kids.
  Proof.
    intros Hd H. pose proof (HK _ _ Hd) as Hc. pose proof (Hok _ _ Hd) as Hn. destruct d as [i r n fs|i r n variants sk]; cbn [so_far] in H.
    - destruct Hn as [H1 H2]. cbn [type_cost] in Hc. apply so_far_fields in H; [|lia].
      apply struct_total in H; auto. lia.
    - pose proof (so_far_choice i r n variants sk kids vs Hc H). cbn [type_cost] in Hc.
      assert (wts (filter (name_in (variant_names variants)) kids) <= wts kids) by apply sum_filter. lia.
  Qed.

  Lemma until_size id d attrs kids vs : env id = Some d -> until_missing o env d attrs kids vs ->
    sizes vs <= K + attrs_bytes attrs + wts kids.
  Proof.
    intros Hd H. pose proof (HK _ _ Hd) as Hc. pose proof (Hok _ _ Hd) as Hn. destruct d as [i r n fs|i r n variants sk]; cbn [until_missing] in H.
    - destruct Hn as [H1 H2]. cbn [type_cost] in Hc. apply until_fields in H; [|lia].
      apply struct_total in H; auto. lia.
    - subst. cbn. lia.
  Qed.

  Lemma bytes_app2 a b : attrs_bytes (a ++ b) = attrs_bytes a + attrs_bytes b.
  Proof. unfold attrs_bytes. rewrite map_app. apply list_sum_app. Qed.

  Theorem leaks_size t n vs : leaks o env t n vs -> sizes vs <= wt n.
  Proof.
    induction 1; rewrite ?wt_elem; rewrite ?wts_app, ?bytes_app2.
    - cbn. lia.
    - cbn. lia.
    - match goal with Hs : so_far _ _ _ _ _ _ |- _ => eapply so_far_size in Hs; eauto end.
      change (wts []) with 0 in *. lia.
    - match goal with Hs : so_far _ _ _ _ _ _ |- _ => eapply so_far_size in Hs; eauto end. lia.
    - match goal with Hs : so_far _ _ _ _ _ _ |- _ => eapply so_far_size in Hs; eauto end.
      rewrite sizes_app. change (wts (c :: k2)) with (wt c + wts k2). lia.
    - match goal with Hs : until_missing _ _ _ _ _ _ |- _ => eapply until_size in Hs; eauto end. 
  Qed.

  Lemma tag_weight c : wt (tag_of c) <= weight K (partial_events c).
  Proof.
    destruct c; cbn [tag_of]; rewrite wt_elem; cbn [partial_events]; unfold weight, attrs_bytes; cbn; lia.
  Qed.

  Theorem cut_size t c vs : cut_leaks o env t c vs -> sizes vs <= weight K (partial_events c).
  Proof.
    assert (Hopen : forall name attrs ns (p : position) kids rest,
      weight K ((XStartElement name attrs ns, p) :: List.flat_map events kids ++ rest) =
      K + attrs_bytes attrs + wts kids + weight K rest).
    { intros. change ((?a, p) :: ?l ++ ?m) with ([(a, p)] ++ l ++ m). rewrite !weight_app, wts_events.
      unfold weight, attrs_bytes. cbn. lia. }
    induction 1.
    - cbn. lia.
    - eapply so_far_size in H0; eauto. cbn [partial_events]. specialize (Hopen name attrs ns p kids []).
      rewrite app_nil_r in Hopen. rewrite Hopen. lia.
    - eapply so_far_size in H1; eauto. cbn [partial_events]. rewrite Hopen. rewrite wts_app in H1.
      pose proof (tag_weight c). change (wts [tag_of c]) with (wt (tag_of c) + 0) in H1. lia.
    - eapply so_far_size in H1; eauto. cbn [partial_events]. rewrite Hopen, sizes_app. lia.
  Qed.
End Leak.

Lemma weight_firstn K n src : weight K (firstn n src) <= weight K src.
Proof. rewrite <- (firstn_skipn n src) at 2. rewrite weight_app. lia. Qed.

Lemma cut_weight K start prolog c : weight K (partial_events c) <= weight K (cut_events start prolog c).
Proof.
  unfold cut_events. change (?a :: ?l ++ ?m) with ([a] ++ l ++ m). rewrite !weight_app. lia.
Qed.

Lemma root_weight K d : wt K (d_root d) <= weight K (doc_events d).
Proof.
  unfold doc_events. change (?a :: ?l ++ ?m) with ([a] ++ l ++ m). rewrite !weight_app. unfold wt. lia.
Qed.

Theorem leak_size : forall o alg env dbg t d K n x,
  (forall id d, env id = Some d -> type_cost d <= K) ->
  names_ok env -> compiles env -> oracles_total o -> known_ty env t ->
  list_sum (map value_size (leaked_by o alg env dbg t (firstn n (doc_events d)) (FError x))) <=
  K * tags (doc_events d) + bytes (doc_events d).
Proof.
  intros o alg env dbg t d K n x HK Hn Hc Ho Ht. change (K * tags ?s + bytes ?s) with (weight K s).
  destruct (cut_anywhere o alg env dbg t d n x Hn Hc Ho Ht) as [H|[(c & Hpre & H)|(H & _)]].
  - eapply leaks_size in H; eauto. pose proof (root_weight K d). lia.
  - eapply cut_size in H; eauto. pose proof (cut_weight K (d_start d) (d_prolog d) c). rewrite <- Hpre in H0.
    pose proof (weight_firstn K n (doc_events d)). lia.
  - rewrite H. cbn. lia.
Qed.

Theorem leak_size_whole : forall o alg env dbg t d K pe e,
  (forall id d, env id = Some d -> type_cost d <= K) -> names_ok env -> compiles env ->
  read_as o alg env dbg t (doc_events d) (FEndDocument pe) = Err e ->
  list_sum (map value_size (leaked_by o alg env dbg t (doc_events d) (FEndDocument pe))) <=
  K * tags (doc_events d) + bytes (doc_events d).
Proof.
  intros o alg env dbg t d K pe e HK Hn Hc He. change (K * tags ?s + bytes ?s) with (weight K s).
  assert (H : leaks o env t (d_root d) (leaked_by o alg env dbg t (doc_events d) (FEndDocument pe)))
    by (eapply what_leaks; eauto).
  eapply leaks_size in H; eauto. pose proof (root_weight K d). lia.
Qed.
