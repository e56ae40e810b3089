(** What is written is no larger than the value. *)
From Coq Require Import Lia.
From Verif Require Import Base Normalize Text Find Types Ser SerSpec DSerSpec DeriveSer DSerProofs DSerProps SizeSpec SizeProofs.

Fixpoint tree_marks (t : wtree) : nat :=
  match t with
  | TElem _ attrs kids => S (List.length attrs + list_sum (map tree_marks kids))
  | TText _ => 1
  end.

Definition rmarks (reqs : list req) (kids : list rtree) : nat :=
  List.length (req_attrs reqs) + list_sum (map (fun k => tree_marks (tree_of k)) kids).

Definition sev_marks (l : list sev) : nat :=
  list_sum (map (fun e => match e with SStart _ attrs => S (List.length attrs) | SChars _ => 1 | SEnd => 0 end) l).

Lemma sev_marks_app a b : sev_marks (a ++ b) = sev_marks a + sev_marks b.
Proof. unfold sev_marks. rewrite map_app. apply list_sum_app. Qed.

Lemma tree_sev_marks : forall t, sev_marks (tree_sevs t) = tree_marks t.
Proof.
  fix IH 1. intros [n attrs kids|s]; [|reflexivity]. cbn [tree_sevs tree_marks].
  change (SStart ?l ?a :: ?x ++ ?y) with ([SStart l a] ++ x ++ y). rewrite !sev_marks_app.
  assert (H : sev_marks (flat_map tree_sevs kids) = list_sum (map tree_marks kids)).
  { induction kids as [|k kids IHk]; [reflexivity|]. cbn [flat_map map]. rewrite sev_marks_app, IH, IHk. reflexivity. }
  rewrite H. unfold sev_marks at 1 2. cbn [map]. rewrite !sum_cons, !sum_nil, map_length. lia.
Qed.

Lemma marks_sev out : marks out = sev_marks (map ev_sev out).
Proof.
  unfold sev_marks. induction out as [|e out IH]; [reflexivity|]. cbn [marks map]. rewrite sum_cons, IH.
  destruct e; cbn [ev_sev]; rewrite ?map_length; lia.
Qed.

Lemma req_attrs_app a b : req_attrs (a ++ b) = req_attrs a ++ req_attrs b.
Proof. induction a as [|[] a IH]; cbn; congruence. Qed.

Lemma rmarks_app a b k l : rmarks (a ++ b) (k ++ l) = rmarks a k + rmarks b l.
Proof. unfold rmarks. rewrite req_attrs_app, app_length, map_app, list_sum_app. lia. Qed.

Lemma rmarks_mappings nss k : rmarks (mappings nss) k = rmarks [] k.
Proof.
  unfold rmarks. replace (req_attrs (mappings nss)) with (@nil (xname * string)); [reflexivity|].
  unfold mappings. induction nss; [reflexivity|]. cbn. assumption.
Qed.

Lemma text_size_pos x : 1 <= text_size x.
Proof. destruct x; cbn; lia. Qed.

Lemma value_size_pos v : 1 <= value_size v.
Proof. destruct v as [x|vs|i [v|]| | |v|l]; cbn; try lia. apply text_size_pos. Qed.

Section Write.
  Context (o : oracles) (env : tenv).

  Notation sizes vs := (list_sum (map value_size vs)).

  (** At most two marks for everything in the value: its element, and what is in it. *)
  Definition small (R : ety -> value -> list req -> list rtree -> Prop) (v : value) : Prop :=
    forall t reqs kids, R t v reqs kids -> S (rmarks reqs kids) <= 2 * value_size v.

  Lemma items_sizes k v l : items k v l -> sizes l <= value_size v.
  Proof. intros H. destruct H; cbn [map value_size]; rewrite ?sum_cons, ?sum_nil; lia. Qed.

  Lemma attrs_marks fs vs l : attrs_are o fs vs l -> rmarks l [] <= list_sum (map (fun '(f, v) => if is_attribute f then value_size v else 0) (combine fs vs)).
  Proof.
    unfold rmarks. cbn [map]. rewrite sum_nil, Nat.add_0_r. intros H.
    induction H as [|f fs opt t x s vs l Hm Ht H IH|f fs t vs l Hm H IH|f fs v vs l Hm H IH];
      cbn [combine map req_attrs List.length]; rewrite ?sum_cons, ?sum_nil; [lia| | |lia].
    - unfold is_attribute at 1. rewrite Hm. pose proof (text_size_pos x). destruct opt; cbn [value_size]; lia.
    - unfold is_attribute at 1. rewrite Hm. lia.
  Qed.

  Lemma elems_marks R n t xs l : Forall (small R) xs -> elems_are R n t xs l -> rmarks [] l <= 2 * sizes xs.
  Proof.
    intros Hs H. induction H as [|v vs reqs kids l Hr H IH]; [cbn; lia|]. inversion Hs as [|? ? Hv Hvs]; subst.
    specialize (IH Hvs). apply Hv in Hr. unfold rmarks in *. cbn [map req_attrs List.length tree_of tree_marks] in *.
    rewrite ?sum_cons, map_map in *. lia.
  Qed.

  Lemma items_small R k v l : items k v l -> (forall w, value_size w <= value_size v -> small R w) -> Forall (small R) l.
  Proof.
    intros H Hs. apply Forall_forall. intros w Hw. apply Hs. pose proof (items_sizes k v l H).
    apply in_map with (f := value_size) in Hw. clear H Hs. revert H0 Hw. generalize (map value_size l) (value_size v) (value_size w).
    intros q. induction q as [|x q IH]; intros a b Ha Hb; [easy|]. rewrite sum_cons in Ha. destruct Hb as [->|Hb]; [lia|].
    eapply IH; [|exact Hb]. lia.
  Qed.

  Lemma own_marks R fs vs l : (forall v, In v vs -> forall w, value_size w <= value_size v -> small R w) -> own_kids R fs vs l ->
    rmarks [] l <= 2 * list_sum (map (fun '(f, v) => if is_element f then value_size v else 0) (combine fs vs)).
  Proof.
    intros Hs H. induction H as [|f fs k t v xs l vs l' Hm Hi He H IH|f fs v vs l Hm H IH]; cbn [combine map]; rewrite ?sum_cons, ?sum_nil.
    - cbn. lia.
    - specialize (IH (fun v Hv => Hs v (or_intror Hv))). change (@nil req) with (@nil req ++ @nil req). rewrite rmarks_app.
      apply elems_marks in He; [|eapply items_small; [exact Hi|apply Hs; now left]]. apply items_sizes in Hi.
      unfold is_element at 1. rewrite Hm. lia.
    - specialize (IH (fun v Hv => Hs v (or_intror Hv))). lia.
  Qed.

  Lemma flat_marks R fs vs reqs kids : (forall v, In v vs -> small R v) -> flattened R fs vs reqs kids ->
    rmarks reqs kids <= 2 * list_sum (map (fun '(f, v) => if is_flatten f then value_size v else 0) (combine fs vs)).
  Proof.
    intros Hs H. induction H as [|f fs id v vs reqs kids reqs' kids' Hm Hr H IH|f fs v vs reqs kids Hm H IH]; cbn [combine map]; rewrite ?sum_cons, ?sum_nil.
    - cbn. lia.
    - specialize (IH (fun v Hv => Hs v (or_intror Hv))). rewrite rmarks_app. apply Hs in Hr; [|now left].
      unfold is_flatten at 1. rewrite Hm. lia.
    - specialize (IH (fun v Hv => Hs v (or_intror Hv))). lia.
  Qed.

  Lemma three_parts (fs : list field) vs :
    list_sum (map (fun '(f, v) => if is_attribute f then value_size v else 0) (combine fs vs)) +
    list_sum (map (fun '(f, v) => if is_element f then value_size v else 0) (combine fs vs)) +
    list_sum (map (fun '(f, v) => if is_flatten f then value_size v else 0) (combine fs vs)) <= sizes vs.
  Proof.
    revert vs. induction fs as [|f fs IH]; intros [|v vs]; [cbn; lia|cbn [combine map]; rewrite ?sum_nil; lia|cbn; lia|].
    cbn [combine map]. rewrite !sum_cons. specialize (IH vs).
    unfold is_attribute at 1, is_element at 1, is_flatten at 1. destruct (f_mode f); lia.
  Qed.

  Lemma in_sizes (v : value) vs : In v vs -> value_size v <= sizes vs.
  Proof.
    induction vs as [|x vs IH]; [easy|]. cbn [map]. rewrite sum_cons. intros [->|H]; [lia|]. specialize (IH H). lia.
  Qed.

  Theorem content_small : forall n v, value_size v <= n -> small (content o env) v.
  Proof.
    induction n as [|n IH]; intros v Hn; [pose proof (value_size_pos v); lia|].
    intros t reqs kids H. destruct H.
    - unfold rmarks. cbn [req_attrs List.length map tree_of tree_marks value_size]. rewrite sum_cons, sum_nil.
      pose proof (text_size_pos x). lia.
    - cbn [value_size] in Hn |- *. rewrite <- (app_nil_l (kids ++ kids')), rmarks_app, rmarks_mappings.
      rewrite <- (app_nil_l (kids ++ kids')), rmarks_app.
      apply attrs_marks in H0.
      replace (rmarks reqs' (kids ++ kids')) with (rmarks [] kids + rmarks reqs' kids') by (rewrite <- rmarks_app; reflexivity).
      apply own_marks in H1; [|intros v Hv w Hw; apply IH; pose proof (in_sizes v vs Hv); lia].
      apply flat_marks in H2; [|intros v Hv; apply IH; pose proof (in_sizes v vs Hv); lia].
      pose proof (three_parts fs vs). change (rmarks [] []) with 0. lia.
    - rewrite rmarks_mappings. unfold rmarks. cbn. lia.
    - cbn [value_size] in *. rewrite rmarks_mappings. apply elems_marks in H3.
      + apply items_sizes in H2. lia.
      + eapply items_small; [exact H2|]. intros u Hw. apply IH. lia.
    - rewrite rmarks_mappings. cbn. lia.
  Qed.

  Theorem write_size dbg w t v n k : serialize_with_name o env dbg w t v n = inl (None, k) ->
    marks (k_out k) <= 2 * value_size v.
  Proof.
    intros H. apply success_content in H as (reqs & kids & Hc & _ & Hout). rewrite marks_sev, Hout, tree_sev_marks.
    apply (content_small (value_size v)) in Hc; [|lia]. unfold rmarks in Hc. cbn [tree_of tree_marks]. rewrite map_map. lia.
  Qed.
End Write.
