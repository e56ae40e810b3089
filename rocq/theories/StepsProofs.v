(** How much work the library does. *)
From Coq Require Import Lia Permutation.
From Verif Require Import Base Text Types Find FindProofs Reader ReaderSpec DeriveDe DepthDe BMap Steps StepsSpec.
From Verif Require Normalize NormalizeProofs Ser NsProofs.

(** ** Looking up names *)

Lemma fst_along {A B} (b : B) (x : A * list B) : fst (along b x) = fst x.
Proof. reflexivity. Qed.
Lemma snd_along {A B} (b : B) (x : A * list B) : snd (along b x) = b :: snd x.
Proof. reflexivity. Qed.

Lemma bisect_same {A} (cmp : A -> comparison) l fuel : forall left right,
  fst (bisect_c cmp l fuel left right) = bisect cmp l fuel left right.
Proof.
  induction fuel as [|fuel IH]; intros left right; cbn [bisect_c bisect]; auto.
  destruct (Nat.ltb left right); auto. destruct (nth_error l _) as [x|]; auto.
  rewrite fst_along. destruct (cmp x); auto.
Qed.

Lemma branchless_same {A} (cmp : A -> comparison) l fuel : forall base size,
  fst (branchless_c cmp l fuel base size) = branchless cmp l fuel base size.
Proof.
  induction fuel as [|fuel IH]; intros base size; cbn [branchless_c branchless]; auto.
  destruct (Nat.ltb 1 size).
  - destruct (nth_error l _) as [x|]; auto. rewrite fst_along. auto.
  - destruct (nth_error l base) as [x|]; auto.
Qed.

Lemma find_same alg n t : fst (find_c alg n t) = find alg n t.
Proof.
  unfold find_c, find, binary_search. destruct alg; [apply bisect_same|].
  destruct (Nat.eqb _ 0); auto. apply branchless_same.
Qed.

(** Names at other positions do not matter. *)
Lemma bisect_only {A} (cmp : A -> comparison) l l' fuel : List.length l' = List.length l -> forall left right, right <= List.length l ->
  (forall p, In p (snd (bisect_c cmp l fuel left right)) -> nth_error l' p = nth_error l p) ->
  bisect_c cmp l' fuel left right = bisect_c cmp l fuel left right.
Proof.
  intro Hl. induction fuel as [|fuel IH]; intros left right Hr; cbn [bisect_c]; auto.
  destruct (Nat.ltb_spec left right) as [H0|H0]; auto. set (mid := left + _).
  assert (Hm : mid < right).
  { assert (Nat.div2 (right - left) < right - left) by (apply div2_bounds; lia). subst mid. lia. }
  destruct (nth_error l mid) as [x|] eqn:E; [|apply nth_error_None in E; lia].
  rewrite snd_along. intros H. rewrite (H mid (or_introl eq_refl)), E.
  destruct (cmp x); auto; f_equal; apply IH; try lia; intros p Hp; apply H; now right.
Qed.

Lemma branchless_only {A} (cmp : A -> comparison) l l' fuel : List.length l' = List.length l -> forall base size,
  0 < size -> base + size <= List.length l ->
  (forall p, In p (snd (branchless_c cmp l fuel base size)) -> nth_error l' p = nth_error l p) ->
  branchless_c cmp l' fuel base size = branchless_c cmp l fuel base size.
Proof.
  intro Hl. induction fuel as [|fuel IH]; intros base size H0 Hs; cbn [branchless_c]; auto.
  destruct (Nat.ltb_spec 1 size) as [H1|H1].
  - assert (Nat.div2 size < size) by (apply div2_bounds; lia). set (mid := base + _).
    destruct (nth_error l mid) as [x|] eqn:E; [|apply nth_error_None in E; subst mid; lia].
    rewrite snd_along. intros Hp. rewrite (Hp mid (or_introl eq_refl)), E. f_equal. apply IH.
    + lia.
    + destruct (cmp x); subst mid; lia.
    + intros p H'. apply Hp. now right.
  - destruct (nth_error l base) as [x|] eqn:E; [|apply nth_error_None in E; lia].
    intros Hp. now rewrite (Hp base (or_introl eq_refl)), E.
Qed.

Lemma find_only alg n t t' : List.length t' = List.length t ->
  (forall p, In p (snd (find_c alg n t)) -> nth_error t' p = nth_error t p) -> find_c alg n t' = find_c alg n t.
Proof.
  intros Hl. unfold find_c. rewrite Hl. destruct alg; [intro H; apply bisect_only; auto|].
  destruct (List.length t) as [|k] eqn:E; auto. cbn [Nat.eqb]. intro H. apply branchless_only; auto; lia.
Qed.

Lemma log2_half n : 1 < n -> S (Nat.log2 (Nat.div2 n)) = Nat.log2 n.
Proof.
  intros H. pose proof (Nat.div2_odd n) as E. assert (0 < Nat.div2 n) by (destruct n as [|[|n]]; cbn; lia).
  rewrite E at 2. destruct (Nat.odd n); cbn [Nat.b2n].
  - rewrite Nat.log2_succ_double by lia. reflexivity.
  - rewrite Nat.add_0_r, Nat.log2_double by lia. reflexivity.
Qed.

Definition floor_lookups (n : nat) : nat := match n with O => 0 | _ => S (Nat.log2 n) end.

Lemma bisect_steps {A} (cmp : A -> comparison) l fuel : forall left right, left <= right ->
  List.length (snd (bisect_c cmp l fuel left right)) <= floor_lookups (right - left).
Proof.
  induction fuel as [|fuel IH]; intros left right H; cbn [bisect_c]; [cbn; lia|].
  destruct (Nat.ltb_spec left right) as [Hl|Hl]; [|cbn; lia].
  destruct (nth_error l _) as [x|]; [|cbn; lia]. rewrite snd_along; cbn [List.length].
  assert (Hd : right - left <> 0) by lia.
  assert (E : floor_lookups (right - left) = S (Nat.log2 (right - left))) by (unfold floor_lookups; destruct (right - left); lia).
  rewrite E. apply le_n_S.
  pose proof (Nat.div2_odd (right - left)) as Hh. set (h := Nat.div2 (right - left)) in *.
  assert (Hb : Nat.b2n (Nat.odd (right - left)) <= 1) by (destruct (Nat.odd _); cbn; lia).
  assert (G : forall m, m <= h -> floor_lookups m <= Nat.log2 (right - left)).
  { intros [|m] Hm; [cbn; lia|]. unfold floor_lookups. rewrite <- (log2_half (right - left)) by lia. apply le_n_S, Nat.log2_le_mono. exact Hm. }
  destruct (cmp x); cbn [snd List.length]; [lia| |].
  - etransitivity; [apply IH; lia|]. apply G. lia.
  - etransitivity; [apply IH; lia|]. apply G. lia.
Qed.

Lemma log2_up_half n : 1 < n -> S (Nat.log2_up (n - Nat.div2 n)) = Nat.log2_up n.
Proof.
  intros H. assert (Hh : 0 < Nat.div2 n) by (destruct n as [|[|n]]; cbn; lia).
  pose proof (Nat.div2_odd n) as E. destruct (Nat.odd n); cbn [Nat.b2n] in E.
  - replace (n - Nat.div2 n) with (S (Nat.div2 n)) by lia. rewrite (Nat.log2_up_eqn (S _)) by lia.
    cbn [pred]. change (S (S ?a)) with (2 + a). rewrite <- Nat.log2_up_succ_double by lia. f_equal. lia.
  - replace (n - Nat.div2 n) with (Nat.div2 n) by lia. rewrite <- Nat.log2_up_double by lia. f_equal. lia.
Qed.

Lemma branchless_steps {A} (cmp : A -> comparison) l fuel : forall base size,
  0 < size -> size < fuel \/ size <= fuel -> base + size <= List.length l ->
  List.length (snd (branchless_c cmp l fuel base size)) = S (Nat.log2_up size).
Proof.
  induction fuel as [|fuel IH]; intros base size H0 Hf Hb; [lia|]. cbn [branchless_c].
  assert (Hnth : forall i, i < List.length l -> exists x, nth_error l i = Some x).
  { intros i Hi. destruct (nth_error l i) eqn:E; eauto. apply nth_error_None in E. lia. }
  destruct (Nat.ltb_spec 1 size) as [Hs|Hs].
  - assert (Nat.div2 size < size) by (apply div2_bounds; lia).
    assert (0 < Nat.div2 size) by (destruct size as [|[|size]]; cbn; lia).
    destruct (Hnth (base + Nat.div2 size)) as [x ->]; [lia|]. rewrite snd_along; cbn [List.length]; rewrite IH; [now rewrite log2_up_half|lia|lia|].
    destruct (cmp x); lia.
  - assert (size = 1) as -> by lia. destruct (Hnth base) as [x ->]; [lia|]. reflexivity.
Qed.

(** The number of comparisons; with bisection it may be smaller. *)
Lemma find_steps alg n t :
  List.length (snd (find_c alg n t)) <= lookups (List.length t) /\
  (alg = Branchless -> List.length (snd (find_c alg n t)) = lookups (List.length t)).
Proof.
  unfold find_c, lookups. destruct alg.
  - split; [|discriminate]. etransitivity; [apply bisect_steps; lia|]. rewrite Nat.sub_0_r. unfold floor_lookups.
    destruct (List.length t); [lia|]. apply le_n_S. apply Nat.le_log2_log2_up.
  - destruct (List.length t) as [|k] eqn:E; cbn [Nat.eqb]; [split; cbn; auto|].
    rewrite branchless_steps by lia. split; auto.
Qed.

Lemma fst_once {A} (x : A * nat) : fst (once x) = fst x.
Proof. reflexivity. Qed.
Lemma snd_once {A} (x : A * nat) : snd (once x) = S (snd x).
Proof. reflexivity. Qed.

(** ** Normalizing *)

Lemma fst_cost {A} n (x : A * nat) : fst (cost n x) = fst x.
Proof. reflexivity. Qed.

Lemma andthen_same {E A B} (x : res E A * nat) (f : A -> res E B * nat) :
  fst (andthen x f) = bind (fst x) (fun a => fst (f a)).
Proof. unfold andthen. destruct (fst x) eqn:Ex; cbn; auto. Qed.

Lemma andthen_cost {E A B} (x : res E A * nat) (f : A -> res E B * nat) c d :
  snd x <= c -> (forall a, fst x = Ok a -> snd (f a) <= d) -> snd (andthen x f) <= c + d.
Proof. unfold andthen. intros Hc Hd. destruct (fst x) eqn:Ex; cbn; [|lia|lia]. specialize (Hd _ eq_refl). lia. Qed.

Lemma trim_same v e : fst (trim_n v e) = Normalize.trim_end v e.
Proof.
  induction e as [|e IH]; cbn [trim_n Normalize.trim_end]; auto. rewrite andthen_same. cbn [get_n fst].
  destruct (Normalize.get v e) as [b| |]; cbn [bind]; auto. destruct (Normalize.is_ws b); auto.
Qed.

Lemma count_same l : fst (count_n l) = Normalize.count_ws l.
Proof.
  induction l as [|b l IH]; cbn [count_n Normalize.count_ws]; auto. destruct (Normalize.is_ws b); auto.
  destruct (count_n l). cbn in *. auto.
Qed.

Lemma scan_same v e fuel : forall n, fst (scan_n fuel v e n) = Normalize.scan_ws fuel v e n.
Proof.
  induction fuel as [|fuel IH]; intro n; cbn [scan_n Normalize.scan_ws]; auto.
  destruct (Nat.ltb n e); auto. rewrite andthen_same. cbn [get_n fst].
  destruct (Normalize.get v n) as [b| |]; cbn [bind]; auto. destruct (Normalize.is_ws b); auto.
Qed.

Lemma main_same collapse e fuel : forall st, fst (main_n fuel collapse e st) = Normalize.main_loop fuel collapse e st.
Proof.
  induction fuel as [|fuel IH]; intros [[[v outp] cs] ce]; cbn [main_n Normalize.main_loop]; auto.
  destruct (Nat.ltb ce e); auto. rewrite andthen_same. cbn [get_n fst].
  destruct (Normalize.get v ce) as [b| |]; cbn [bind]; auto. destruct (Normalize.is_ws b); auto.
  rewrite andthen_same. cbn [put_n fst]. destruct (Normalize.put v ce Normalize.space) as [v'| |]; cbn [bind]; auto.
  destruct collapse; auto. rewrite andthen_same, scan_same.
  destruct (Normalize.scan_ws (S e) v' e (S ce)) as [ns| |]; cbn [bind]; auto.
  destruct (Nat.ltb (S ce) ns); auto. rewrite andthen_same. cbn [copy_n fst].
  destruct (Normalize.copy_within v' cs (S ce) outp) as [v''| |]; cbn [bind]; auto.
Qed.

Lemma normalize_same v w : fst (normalize_n v w) = Normalize.normalize_bytes v w.
Proof.
  unfold normalize_n, Normalize.normalize_bytes. destruct w; auto.
  - rewrite andthen_same. cbn [fst bind]. rewrite andthen_same, main_same.
    destruct (Normalize.main_loop _ _ _ _) as [[[[v' outp] cs] ce]| |]; cbn [bind]; auto.
    destruct (Nat.ltb outp cs); auto. rewrite andthen_same. reflexivity.
  - rewrite andthen_same, andthen_same, trim_same. destruct (Normalize.trim_end v _) as [e| |]; cbn [bind]; auto.
    rewrite <- count_same. destruct (count_n (firstn e v)) as [n k]. cbn [fst bind]. rewrite andthen_same, main_same.
    destruct (Normalize.main_loop _ _ _ _) as [[[[v' outp] cs] ce]| |]; cbn [bind]; auto.
    destruct (Nat.ltb outp cs); auto. rewrite andthen_same. reflexivity.
Qed.

Lemma trim_steps v e : snd (trim_n v e) <= match fst (trim_n v e) with Ok e' => S (e - e') | _ => e end /\
  forall e', fst (trim_n v e) = Ok e' -> e' <= e.
Proof.
  induction e as [|e IH]; cbn [trim_n]; [cbn; split; [lia|intros e' [= <-]; lia]|].
  unfold andthen. cbn [get_n fst snd]. destruct (Normalize.get v e) as [b| |]; cbn [fst snd]; try (split; [lia|discriminate]).
  destruct (Normalize.is_ws b).
  - cbn [cost fst snd]. destruct IH as [IH1 IH2]. destruct (trim_n v e) as [[e'| |] k]; cbn [fst snd] in *;
      try (split; [lia|discriminate]). specialize (IH2 _ eq_refl). split; [lia|]. intros e'' [= <-]. lia.
  - cbn. split; [lia|]. intros e' [= <-]. lia.
Qed.

Lemma count_steps l : snd (count_n l) <= S (fst (count_n l)) /\ fst (count_n l) <= List.length l.
Proof.
  induction l as [|b l IH]; cbn [count_n]; [cbn; lia|]. destruct (Normalize.is_ws b); [|cbn; lia].
  destruct (count_n l). cbn in *. lia.
Qed.

Lemma scan_steps v e fuel : forall n, n <= e ->
  snd (scan_n fuel v e n) <= e - n /\
  forall n', fst (scan_n fuel v e n) = Ok n' -> n <= n' <= e /\ snd (scan_n fuel v e n) <= S (n' - n).
Proof.
  induction fuel as [|fuel IH]; intros n H; cbn [scan_n]; [cbn; split; [lia|discriminate]|].
  destruct (Nat.ltb_spec n e); [|cbn; split; [lia|intros n' [= <-]; lia]].
  unfold andthen. cbn [get_n fst snd]. destruct (Normalize.get v n) as [b| |]; cbn [fst snd]; try (split; [lia|discriminate]).
  destruct (Normalize.is_ws b); [|cbn; split; [lia|intros n' [= <-]; lia]].
  destruct (IH (S n)) as [IH1 IH2]; [lia|]. cbn [cost fst snd]. split; [lia|]. intros n' E. destruct (IH2 n' E). lia.
Qed.

Definition pending (x : res Empty_set Normalize.nstate) : nat :=
  match x with Ok (_, _, cs, ce) => ce - cs | _ => 0 end.

Definition within (x : res Empty_set Normalize.nstate * nat) (n : nat) : Prop := snd x + pending (fst x) <= n.

Lemma within_then {A} (x : res Empty_set A * nat) (f : A -> res Empty_set Normalize.nstate * nat) n :
  snd x <= n -> (forall a, fst x = Ok a -> within (f a) (n - snd x)) -> within (andthen x f) n.
Proof.
  unfold within, andthen. intros H Hf. destruct (fst x) eqn:E; cbn [cost fst snd pending]; [|lia|lia].
  specialize (Hf _ eq_refl). lia.
Qed.

Lemma main_steps collapse e fuel : forall v outp cs ce, cs <= ce -> ce <= e ->
  within (main_n fuel collapse e (v, outp, cs, ce)) (4 * (e - ce) + (ce - cs)).
Proof.
  induction fuel as [|fuel IH]; intros v outp cs ce H1 H2; cbn [main_n]; [unfold within; cbn; lia|].
  destruct (Nat.ltb_spec ce e) as [Hl|Hl]; [|unfold within; cbn [fst snd pending]; lia].
  assert (G : forall v n, 4 * (e - S ce) + (S ce - cs) <= n -> within (main_n fuel collapse e (v, outp, cs, S ce)) n).
  { intros v0 n Hn. eapply Nat.le_trans; [apply IH; lia|exact Hn]. }
  apply within_then; cbn [get_n fst snd]; [lia|]. intros b _. destruct (Normalize.is_ws b); [|apply G; lia].
  apply within_then; cbn [put_n fst snd]; [lia|]. intros v' _. destruct collapse; [|apply G; lia].
  destruct (scan_steps v' e (S e) (S ce)) as [S1 S2]; [lia|].
  apply within_then; [lia|]. intros ns Hns. destruct (S2 ns Hns) as [S3 S4].
  destruct (Nat.ltb_spec (S ce) ns) as [Hn|Hn]; [|apply G; lia].
  apply within_then; cbn [copy_n fst snd]; [lia|]. intros v'' _.
  eapply Nat.le_trans; [apply IH; lia|]. lia.
Qed.

Lemma finish_steps e x n : within x n ->
  snd (andthen x (fun '(v, outp, cs, ce) =>
         if Nat.ltb outp cs
         then andthen (copy_n v cs ce outp) (fun v => (Ok (firstn (outp + (ce - cs)) v), 0))
         else (Ok (firstn e v), 0))) <= n.
Proof.
  unfold within, andthen at 1. destruct x as [[[[[v outp] cs] ce]| |] k]; cbn [fst snd pending cost]; try lia.
  destruct (Nat.ltb outp cs); [|cbn [snd]; lia]. unfold andthen. cbn [copy_n fst snd].
  destruct (Normalize.copy_within v cs ce outp); cbn [cost snd]; lia.
Qed.

Lemma normalize_steps v w : snd (normalize_n v w) <= 4 * List.length v + 2.
Proof.
  unfold normalize_n. destruct w; [cbn; lia| |].
  - unfold andthen at 1. cbn [fst cost snd]. etransitivity; [|apply Nat.le_add_r].
    etransitivity; [apply finish_steps, main_steps; lia|]. lia.
  - destruct (trim_steps v (List.length v)) as [T1 T2].
    assert (G : forall e n k, e <= List.length v -> n <= e -> k <= S n -> snd (andthen (main_n (S e) true e (v, 0, n, n))
      (fun '(v, outp, cs, ce) =>
         if Nat.ltb outp cs
         then andthen (copy_n v cs ce outp) (fun v => (Ok (firstn (outp + (ce - cs)) v), 0))
         else (Ok (firstn e v), 0))) <= 4 * (e - n)).
    { intros e n k He Hn Hk. etransitivity; [apply finish_steps, main_steps; lia|]. lia. }
    destruct (trim_n v (List.length v)) as [[e| |] t]; cbn [fst snd] in *; try (cbn; lia).
    specialize (T2 _ eq_refl). destruct (count_steps (firstn e v)) as [C1 C2]. rewrite firstn_length_le in C2 by exact T2.
    unfold andthen at 2. cbn [fst snd]. destruct (count_n (firstn e v)) as [n k]. cbn [fst snd] in *.
    unfold andthen at 1. cbn [cost fst snd]. specialize (G e n k T2 C2 C1). lia.
Qed.

(** No byte is left out. *)
Lemma trim_least v e e' : fst (trim_n v e) = Ok e' -> e <= e' + snd (trim_n v e).
Proof.
  revert e'. induction e as [|e IH]; intro e'; cbn [trim_n]; [intros [= <-]; lia|].
  unfold andthen. cbn [get_n fst snd]. destruct (Normalize.get v e) as [b| |]; cbn [fst snd]; try discriminate.
  destruct (Normalize.is_ws b).
  - cbn [cost fst snd]. intro H. specialize (IH _ H). lia.
  - cbn. intros [= <-]. lia.
Qed.

Lemma count_least l : fst (count_n l) <= snd (count_n l).
Proof.
  induction l as [|b l IH]; cbn [count_n]; [cbn; lia|]. destruct (Normalize.is_ws b); [|cbn; lia].
  destruct (count_n l). cbn in *. lia.
Qed.

Lemma scan_least v e fuel : forall n n', fst (scan_n fuel v e n) = Ok n' -> n' <= n + snd (scan_n fuel v e n).
Proof.
  induction fuel as [|fuel IH]; intros n n'; cbn [scan_n]; [discriminate|].
  destruct (Nat.ltb n e); [|intros [= <-]; lia].
  unfold andthen. cbn [get_n fst snd]. destruct (Normalize.get v n) as [b| |]; cbn [fst snd]; try discriminate.
  destruct (Normalize.is_ws b); [|intros [= <-]; lia].
  cbn [cost fst snd]. intro H. specialize (IH _ _ H). lia.
Qed.

Lemma andthen_ok {E A B} (x : res E A * nat) (f : A -> res E B * nat) b : fst (andthen x f) = Ok b ->
  exists a, fst x = Ok a /\ fst (f a) = Ok b /\ snd (andthen x f) = snd x + snd (f a).
Proof. unfold andthen. destruct (fst x) as [a| |] eqn:Ex; try discriminate. cbn [cost fst snd]. eauto. Qed.

Lemma main_least collapse e fuel : forall v outp cs ce st, fst (main_n fuel collapse e (v, outp, cs, ce)) = Ok st ->
  e <= ce + snd (main_n fuel collapse e (v, outp, cs, ce)).
Proof.
  induction fuel as [|fuel IH]; intros v outp cs ce st H; cbn [main_n] in *; [discriminate|].
  destruct (Nat.ltb_spec ce e) as [Hl|Hl]; [|lia].
  apply andthen_ok in H. destruct H as (b & _ & H & ->). cbn [get_n snd].
  destruct (Normalize.is_ws b); [|apply IH in H; lia].
  apply andthen_ok in H. destruct H as (v' & _ & H & ->). cbn [put_n snd].
  destruct collapse; [|apply IH in H; lia].
  apply andthen_ok in H. destruct H as (ns & Hs & H & ->). apply scan_least in Hs.
  destruct (Nat.ltb (S ce) ns); [|apply IH in H; lia].
  apply andthen_ok in H. destruct H as (v'' & _ & H & ->). apply IH in H. lia.
Qed.

Lemma normalize_least v w : w <> Normalize.Preserve -> List.length v <= snd (normalize_n v w).
Proof.
  intro Hw. pose proof (normalize_same v w) as E. rewrite NormalizeProofs.normalize_bytes_spec in E.
  unfold normalize_n in *. destruct w; [congruence| |].
  - apply andthen_ok in E. destruct E as ([e st] & [= <- <-] & E & ->). apply andthen_ok in E.
    destruct E as ([[[v' outp] cs] ce] & E & _ & ->). apply main_least in E. lia.
  - apply andthen_ok in E. destruct E as ([e n] & E0 & E & ->). apply andthen_ok in E0. destruct E0 as (e' & T & C & ->).
    apply trim_least in T. pose proof (count_least (firstn e' v)) as L. destruct (count_n (firstn e' v)) as [n' k].
    cbn [fst snd] in *. injection C as -> ->. apply andthen_ok in E. destruct E as ([[[v' outp] cs] ce] & E & _ & ->).
    apply main_least in E. lia.
Qed.

(** ** Choosing prefixes *)

Lemma pick_same fuel : forall p i u m, fst (pick_n fuel p i u m) = Ser.pick fuel p i u m.
Proof.
  induction fuel as [|fuel IH]; intros p i u m; cbn [pick_n Ser.pick]; auto. rewrite fst_once.
  destruct (Ser.ns_put (Ser.numbered p i) u m) as [[|] m']; auto.
Qed.

Lemma required_same l : forall m, fst (required_n l m) = Ser.assign_required l m.
Proof.
  induction l as [|[u e] l IH]; intro m; cbn [required_n Ser.assign_required]; auto.
  assert (G : forall e' m', fst match required_n l m' with
                                | (Some (l'', m''), n) => (Some ((u, e') :: l'', m''), n)
                                | (None, n) => (None, n)
                                end = match Ser.assign_required l m' with Some (l'', m'') => Some ((u, e') :: l'', m'') | None => None end).
  { intros e' m'. specialize (IH m'). destruct (required_n l m') as [[[l'' m'']|] n]; cbn in IH; rewrite <- IH; reflexivity. }
  destruct (Ser.q_required e); [|apply G].
  destruct (if String.eqb (Ser.q_prefix e) "" then ("ns"%string, 1) else (Ser.q_prefix e, 2)) as [p i].
  assert (P : fst match pick_n (S (List.length m)) p i u m with
                  | (Some (p', m'), n) => cost n match required_n l m' with
                       | (Some (l'', m''), n) => (Some ((u, Ser.NsEntry (Ser.q_prefix e) (Some p') true (Ser.q_needs e)) :: l'', m''), n)
                       | (None, n) => (None, n)
                       end
                  | (None, n) => (None, n)
                  end = match Ser.pick (S (List.length m)) p i u m with
                        | Some (p', m') => match Ser.assign_required l m' with
                            | Some (l'', m'') => Some ((u, Ser.NsEntry (Ser.q_prefix e) (Some p') true (Ser.q_needs e)) :: l'', m'')
                            | None => None
                            end
                        | None => None
                        end).
  { rewrite <- pick_same. destruct (pick_n (S (List.length m)) p i u m) as [[[p' m']|] n]; cbn [fst]; auto. rewrite fst_cost. apply G. }
  destruct (Ser.q_needs e && String.eqb (Ser.q_prefix e) ""); [apply P|]. rewrite fst_once.
  destruct (Ser.ns_put (Ser.q_prefix e) u m) as [[|] m']; [apply G|apply P].
Qed.

Lemma optional_same l : forall m, fst (optional_n l m) = Ser.assign_optional l m.
Proof.
  induction l as [|[u e] l IH]; intro m; cbn [optional_n Ser.assign_optional]; auto.
  assert (G : forall e' m' n, fst (let '((l'', m''), k) := optional_n l m' in (((u, e') :: l'', m''), n + k)) =
    let '(l'', m'') := Ser.assign_optional l m' in ((u, e') :: l'', m'')).
  { intros e' m' n. rewrite <- IH. destruct (optional_n l m') as [[l'' m''] k]. reflexivity. }
  destruct (Ser.q_required e); [apply G|]. destruct (Ser.ns_put (Ser.q_prefix e) u m) as [[|] m']; apply G.
Qed.

Lemma finalize_same b : fst (finalize_n b) = Ser.finalize b.
Proof.
  unfold finalize_n, Ser.finalize. rewrite <- required_same. destruct (required_n b []) as [[[b1 m1]|] n]; cbn [fst]; auto.
  rewrite <- optional_same. destruct (optional_n b1 m1) as [[b2 m2] k]. reflexivity.
Qed.

Lemma pick_fuel fuel : forall p i u m, snd (pick_n fuel p i u m) <= fuel.
Proof.
  induction fuel as [|fuel IH]; intros p i u m; cbn [pick_n]; [cbn; lia|]. rewrite snd_once.
  destruct (Ser.ns_put (Ser.numbered p i) u m) as [[|] m']; cbn [snd]; [lia|]. specialize (IH p (S i) u m). lia.
Qed.

Lemma pick_taken fuel : forall p i u m j, i <= j -> S j < i + snd (pick_n fuel p i u m) -> In (Ser.numbered p j) (keys m).
Proof.
  induction fuel as [|fuel IH]; intros p i u m j H; cbn [pick_n]; [cbn; lia|]. rewrite snd_once.
  destruct (Ser.ns_put (Ser.numbered p i) u m) as [[|] m'] eqn:E; cbn [snd]; [lia|]. intros Hj.
  apply NsProofs.ns_put_false in E. destruct (Nat.eq_dec i j) as [-> | Hne]; [now apply bm_mem_keys|].
  eapply (IH p (S i) u m j); lia.
Qed.

Lemma append_len (a b : string) : String.length (a ++ b) = String.length a + String.length b.
Proof. induction a; cbn; auto. Qed.

Lemma numbered_ne p i : Ser.numbered p i <> p.
Proof.
  intro H. pose proof (NsProofs.numbered_nonempty "" i) as N. apply N. unfold Ser.numbered in *. cbn [String.append].
  apply (f_equal String.length) in H. rewrite append_len in H. destruct (str_of _); [reflexivity|]. cbn in H. lia.
Qed.

(** When the prefix itself is taken already, it is not among those tried next. *)
Lemma pick_after fuel p q i u m : In q (keys m) -> (forall j, Ser.numbered p j <> q) ->
  snd (pick_n fuel p i u m) <= List.length m.
Proof.
  intros H Hq. destruct (snd (pick_n fuel p i u m)) as [|k] eqn:E; [lia|].
  assert (Hi : incl (q :: map (Ser.numbered p) (seq i k)) (keys m)).
  { intros x [<-|Hx]; auto. apply in_map_iff in Hx. destruct Hx as (j & <- & Hj). apply in_seq in Hj.
    eapply (pick_taken fuel p i u); lia. }
  apply NoDup_incl_length in Hi.
  - unfold keys in Hi. cbn in Hi. rewrite !map_length, seq_length in Hi. lia.
  - constructor.
    + intros Hx. apply in_map_iff in Hx. destruct Hx as (j & Hj & _). now apply Hq in Hj.
    + apply FinFun.Injective_map_NoDup; [intros a b; apply NsProofs.numbered_inj | apply seq_NoDup].
Qed.

Lemma pick_length fuel p i u m p' m' : fst (pick_n fuel p i u m) = Some (p', m') -> List.length m' = S (List.length m).
Proof.
  rewrite pick_same. intro H. apply NsProofs.pick_Some in H. destruct H as (j & _ & _ & Hm & ->). now apply insert_length.
Qed.

(** The number of URLs that need a prefix. *)
Definition needed (b : Ser.nsbuilder) : nat := count (fun x => Ser.q_required (snd x)) b.

Lemma required_steps l : forall m, 2 * snd (required_n l m) <= needed l * (needed l + 2 * List.length m + 1).
Proof.
  unfold needed, count.
  induction l as [|[u e] l IH]; intro m; cbn [required_n filter snd]; [cbn; lia|].
  assert (G : forall e' m', snd match required_n l m' with
                                | (Some (l'', m''), n) => (Some ((u, e') :: l'', m''), n)
                                | (None, n) => (None, n)
                                end = snd (required_n l m')).
  { intros e' m'. destruct (required_n l m') as [[[l'' m'']|] n]; reflexivity. }
  destruct (Ser.q_required e) eqn:Er; [|rewrite G; apply IH]. cbn [List.length].
  set (r := List.length _) in *.
  assert (IH' : forall m', List.length m' = S (List.length m) -> 2 * snd (required_n l m') <= r * (r + 2 * List.length m + 3)).
  { intros m' Hm. specialize (IH m'). rewrite Hm in IH. lia. }
  destruct (if String.eqb (Ser.q_prefix e) "" then ("ns"%string, 1) else (Ser.q_prefix e, 2)) as [p i] eqn:Ep.
  assert (P : forall c, snd (pick_n (S (List.length m)) p i u m) <= c -> c <= S (List.length m) ->
            2 * (snd match pick_n (S (List.length m)) p i u m with
                  | (Some (p', m'), n) => cost n match required_n l m' with
                       | (Some (l'', m''), n) => (Some ((u, Ser.NsEntry (Ser.q_prefix e) (Some p') true (Ser.q_needs e)) :: l'', m''), n)
                       | (None, n) => (None, n)
                       end
                  | (None, n) => (None, n)
                  end) <= 2 * c + r * (r + 2 * List.length m + 3)).
  { intros c Hc Hc'. pose proof (pick_length (S (List.length m)) p i u m) as Hl.
    destruct (pick_n (S (List.length m)) p i u m) as [[[p' m']|] n]; cbn [fst snd cost] in *; [|lia].
    rewrite G. specialize (IH' m' (Hl _ _ eq_refl)). lia. }
  destruct (Ser.q_needs e && String.eqb (Ser.q_prefix e) "") eqn:En.
  - specialize (P (S (List.length m)) (pick_fuel _ _ _ _ _) (le_n _)). lia.
  - rewrite snd_once. destruct (Ser.ns_put (Ser.q_prefix e) u m) as [[|] m'] eqn:E.
    + rewrite G. apply NsProofs.ns_put_true in E. destruct E as [E ->]. specialize (IH' _ (insert_length _ u _ E)). lia.
    + apply NsProofs.ns_put_false in E. apply bm_mem_keys in E.
      destruct (String.eqb_spec (Ser.q_prefix e) "") as [E0|E0]; injection Ep as <- <-.
      * rewrite E0 in E. specialize (P _ (pick_after _ _ _ 1 u m E (NsProofs.numbered_nonempty _))). lia.
      * specialize (P _ (pick_after _ _ _ 2 u m E (numbered_ne _))). lia.
Qed.

Lemma required_flags l : forall m l' m', Ser.assign_required l m = Some (l', m') ->
  map (fun x => Ser.q_required (snd x)) l' = map (fun x => Ser.q_required (snd x)) l.
Proof.
  induction l as [|[u e] l IH]; intros m l' m' H; cbn [Ser.assign_required] in H; [injection H as <- <-; reflexivity|].
  assert (G : forall e' m0, Ser.q_required e' = Ser.q_required e ->
    match Ser.assign_required l m0 with Some (l'', m'') => Some ((u, e') :: l'', m'') | None => None end = Some (l', m') ->
    map (fun x => Ser.q_required (snd x)) l' = map (fun x => Ser.q_required (snd x)) ((u, e) :: l)).
  { intros e' m0 He. destruct (Ser.assign_required l m0) as [[l'' m'']|] eqn:E; [|discriminate]. intros [= <- <-].
    cbn [map snd]. now rewrite He, (IH _ _ _ E). }
  destruct (Ser.q_required e) eqn:Er; [|eapply G; [|exact H]; exact Er].
  destruct (if String.eqb (Ser.q_prefix e) "" then ("ns"%string, 1) else (Ser.q_prefix e, 2)) as [p i].
  assert (P : match Ser.pick (S (List.length m)) p i u m with
                        | Some (p', m') => match Ser.assign_required l m' with
                            | Some (l'', m'') => Some ((u, Ser.NsEntry (Ser.q_prefix e) (Some p') true (Ser.q_needs e)) :: l'', m'')
                            | None => None
                            end
                        | None => None
                        end = Some (l', m') ->
    map (fun x => Ser.q_required (snd x)) l' = map (fun x => Ser.q_required (snd x)) ((u, e) :: l)).
  { destruct (Ser.pick _ _ _ _ _) as [[p' m1]|]; [|discriminate]. apply G. reflexivity. }
  destruct (Ser.q_needs e && String.eqb (Ser.q_prefix e) ""); [now apply P|].
  destruct (Ser.ns_put (Ser.q_prefix e) u m) as [[|] m1]; [eapply G; [|exact H]; reflexivity|now apply P].
Qed.

Lemma optional_steps l : forall m, snd (optional_n l m) = List.length l - needed l /\ needed l <= List.length l.
Proof.
  unfold needed, count. induction l as [|[u e] l IH]; intro m; cbn [optional_n filter snd]; [cbn; lia|].
  assert (G : forall e' m' n, snd (let '((l'', m''), k) := optional_n l m' in (((u, e') :: l'', m''), n + k)) = n + snd (optional_n l m')).
  { intros e' m' n. destruct (optional_n l m') as [[l'' m''] k]. reflexivity. }
  destruct (Ser.q_required e); [|destruct (Ser.ns_put (Ser.q_prefix e) u m) as [[|] m']]; rewrite G; cbn [List.length];
    match goal with |- context [optional_n l ?x] => destruct (IH x) as [-> ?] end; lia.
Qed.

Lemma needed_flags a b : map (fun x : string * Ser.nsentry => Ser.q_required (snd x)) a = map (fun x => Ser.q_required (snd x)) b ->
  needed a = needed b /\ List.length a = List.length b.
Proof.
  unfold needed, count. revert b. induction a as [|x a IH]; intros [|y b]; cbn [map filter]; try discriminate; auto.
  intros [= E1 E2]. destruct (IH b E2) as [H1 H2]. rewrite E1. cbn [List.length].
  destruct (Ser.q_required (snd y)); cbn [List.length]; auto.
Qed.

Lemma finalize_steps b : 2 * snd (finalize_n b) <= List.length b * (List.length b + 1).
Proof.
  unfold finalize_n. pose proof (required_steps b []) as R. pose proof (required_same b []) as E. cbn [List.length] in R.
  destruct (optional_steps b []) as [_ Hb].
  destruct (required_n b []) as [[[b1 m1]|] n]; cbn [fst snd] in *; [|nia].
  symmetry in E. apply required_flags in E. apply needed_flags in E. destruct E as [E1 E2].
  destruct (optional_steps b1 m1) as [O _]. destruct (optional_n b1 m1) as [[b2 m2] k]. cbn [snd] in *. rewrite O, E1, E2.
  assert (exists s, List.length b = needed b + s) as [s Hs] by (exists (List.length b - needed b); lia).
  rewrite Hs. replace (needed b + s - needed b) with s by lia. destruct s; nia.
Qed.

Lemma required_least l : forall m, fst (required_n l m) <> None -> needed l <= snd (required_n l m).
Proof.
  unfold needed, count.
  induction l as [|[u e] l IH]; intros m H; cbn [required_n filter snd] in *; [cbn; lia|].
  assert (G : forall e' m' n, fst (cost n match required_n l m' with
                                | (Some (l'', m''), n) => (Some ((u, e') :: l'', m''), n)
                                | (None, n) => (None, n)
                                end) <> None ->
                List.length (filter (fun x => Ser.q_required (snd x)) l) + n <= snd (cost n match required_n l m' with
                                | (Some (l'', m''), n) => (Some ((u, e') :: l'', m''), n)
                                | (None, n) => (None, n)
                                end)).
  { intros e' m' n. specialize (IH m'). destruct (required_n l m') as [[[l'' m'']|] k]; cbn [cost fst snd] in *; [|congruence].
    intros _. assert (G := IH ltac:(discriminate)). lia. }
  destruct (Ser.q_required e); [|specialize (G _ _ 0 H); cbn [cost snd Nat.add] in G; lia].
  destruct (if String.eqb (Ser.q_prefix e) "" then ("ns"%string, 1) else (Ser.q_prefix e, 2)) as [p i].
  assert (P : forall x, x = match pick_n (S (List.length m)) p i u m with
                  | (Some (p', m'), n) => cost n match required_n l m' with
                       | (Some (l'', m''), n) => (Some ((u, Ser.NsEntry (Ser.q_prefix e) (Some p') true (Ser.q_needs e)) :: l'', m''), n)
                       | (None, n) => (None, n)
                       end
                  | (None, n) => (None, n)
                  end -> fst x <> None -> S (List.length (filter (fun x => Ser.q_required (snd x)) l)) <= snd x).
  { intros x ->. cbn [pick_n]. set (r := once _). assert (1 <= snd r) by (subst r; rewrite snd_once; lia).
    destruct r as [[[p' m']|] n]; cbn [fst snd] in *; [|congruence]. intro F. specialize (G _ _ _ F). lia. }
  cbn [List.length].
  destruct (Ser.q_needs e && String.eqb (Ser.q_prefix e) ""); [exact (P _ eq_refl H)|]. rewrite snd_once. rewrite fst_once in H.
  destruct (Ser.ns_put (Ser.q_prefix e) u m) as [[|] m']; [|apply le_S; exact (P _ eq_refl H)].
  specialize (G _ _ 0 H). rewrite Nat.add_0_r in G. apply le_n_S. exact G.
Qed.

Lemma finalize_least b : Ser.finalize b <> None -> List.length b <= snd (finalize_n b).
Proof.
  unfold finalize_n, Ser.finalize. pose proof (required_least b []) as R. pose proof (required_same b []) as E. rewrite <- E.
  destruct (required_n b []) as [[[b1 m1]|] n]; cbn [fst snd] in *; [|congruence]. intros _.
  assert (R' := R ltac:(discriminate)).
  symmetry in E. apply required_flags in E. apply needed_flags in E. destruct E as [E1 E2].
  destruct (optional_steps b1 m1) as [O ?]. destruct (optional_n b1 m1) as [[b2 m2] k]. cbn [snd] in *. lia.
Qed.

(** ** The bound is reached *)

Lemma pick_exact c : forall fuel p i u m, (forall j, i <= j < i + c -> bm_mem (Ser.numbered p j) m = true) ->
  bm_mem (Ser.numbered p (i + c)) m = false -> c < fuel ->
  pick_n fuel p i u m = (Some (Ser.numbered p (i + c), bm_insert (Ser.numbered p (i + c)) u m), S c).
Proof.
  induction c as [|c IH]; intros [|fuel] p i u m Ht Hf Hc; try lia; cbn [pick_n]; unfold Ser.ns_put.
  - rewrite Nat.add_0_r in *. now rewrite Hf.
  - rewrite (Ht i) by lia. rewrite (IH fuel p (S i) u m).
    + cbn. now rewrite <- plus_n_Sm.
    + intros j Hj. apply Ht. lia.
    + now rewrite <- plus_n_Sm in Hf.
    + lia.
Qed.

(** The prefix [p] and those derived from it up to number [k]. *)
Definition taken (p : string) (k : nat) (m : bmap string) : Prop :=
  List.length m = k /\ forall x, bm_mem x m = true <-> (k > 0 /\ x = p) \/ exists j, 2 <= j <= k /\ x = Ser.numbered p j.

Lemma required_exact p l : p <> ""%string ->
  (forall u e, In (u, e) l -> Ser.q_prefix e = p /\ Ser.q_required e = true) -> forall k m, taken p k m ->
  2 * snd (required_n l m) = List.length l * (List.length l + 2 * k + 1).
Proof.
  intros Hp. induction l as [|[u e] l IH]; intros Hl k m [Hk Ht]; cbn [required_n]; [cbn; lia|].
  destruct (Hl u e (or_introl eq_refl)) as [Ee Er]. rewrite Er, Ee. apply String.eqb_neq in Hp. rewrite Hp, andb_false_r.
  rewrite snd_once.
  assert (G : forall e' m', snd match required_n l m' with
                                | (Some (l'', m''), n) => (Some ((u, e') :: l'', m''), n)
                                | (None, n) => (None, n)
                                end = snd (required_n l m')).
  { intros e' m'. destruct (required_n l m') as [[[l'' m'']|] n]; reflexivity. }
  assert (IH' : forall m', taken p (S k) m' -> 2 * snd (required_n l m') = List.length l * (List.length l + 2 * k + 3)).
  { intros m' H. rewrite (IH (fun u' e' H' => Hl u' e' (or_intror H')) (S k) m' H). lia. }
  unfold Ser.ns_put at 1. destruct k as [|k].
  - assert (bm_mem p m = false) as E.
    { apply not_true_iff_false. rewrite Ht. intros [[H _]|(j & H & _)]; lia. }
    rewrite E, G. rewrite Nat.mul_succ_r, IH'; [cbn [List.length]; lia|]. split.
    + rewrite insert_length; auto.
    + intro x. rewrite bm_mem_insert, orb_true_iff, String.eqb_eq, Ht.
      split; [intros [->|[[? ?]|(j & ? & ?)]]; try lia; left; split; auto|].
      intros [[_ ->]|(j & ? & ?)]; [auto|lia].
  - assert (bm_mem p m = true) as E by (apply Ht; left; split; auto; lia).
    rewrite E. assert (F : bm_mem (Ser.numbered p (2 + k)) m = false).
    { apply not_true_iff_false. rewrite Ht. intros [[_ H]|(j & H & H')]; [now apply numbered_ne in H|].
      apply NsProofs.numbered_inj in H'. lia. }
    rewrite (pick_exact k); [|intros j Hj; apply Ht; right; exists j; split; auto; lia|exact F|lia].
    cbn [cost fst snd]. rewrite G. enough (2 * snd (required_n l (bm_insert (Ser.numbered p (2 + k)) u m)) =
      List.length l * (List.length l + 2 * S k + 3)) by (cbn [List.length]; lia).
    apply IH'. split.
    + rewrite insert_length; auto.
    + intro x. rewrite bm_mem_insert, orb_true_iff, String.eqb_eq, Ht. split.
      * intros [->|[[_ ->]|(j & ? & ->)]]; [right; exists (2 + k)|left|right; exists j]; split; auto; lia.
      * intros [[_ ->]|(j & ? & ->)]; [right; left; split; auto; lia|].
        destruct (Nat.eq_dec j (2 + k)) as [-> | Hne]; auto. right. right. exists j. split; auto; lia.
Qed.

Lemma finalize_exact p b : p <> ""%string ->
  (forall u e, In (u, e) b -> Ser.q_prefix e = p /\ Ser.q_required e = true) ->
  2 * snd (finalize_n b) = List.length b * (List.length b + 1).
Proof.
  intros Hp Hb. pose proof (required_exact p b Hp Hb 0 []) as R. unfold finalize_n.
  pose proof (required_same b []) as E.
  assert (Hn : needed b = List.length b).
  { clear R E. unfold needed, count. induction b as [|[u e] b IH]; cbn [filter snd]; auto.
    destruct (Hb u e (or_introl eq_refl)) as [_ ->]. cbn [List.length]. rewrite IH; auto. intros u' e' H. apply (Hb u' e'). now right. }
  assert (T : taken p 0 []).
  { split; auto. intro x. cbn. split; [discriminate|]. intros [[H _]|(j & H & _)]; lia. }
  specialize (R T). destruct (required_n b []) as [[[b1 m1]|] n]; cbn [fst snd] in *; [|lia].
  symmetry in E. apply required_flags in E. apply needed_flags in E. destruct E as [E1 E2].
  destruct (optional_steps b1 m1) as [O _]. destruct (optional_n b1 m1) as [[b2 m2] k]. cbn [snd] in *. lia.
Qed.

Lemma In_insert {V} k (v : V) m x : In x (bm_insert k v m) -> x = (k, v) \/ In x m.
Proof.
  induction m as [|[k' v'] m IH]; cbn [bm_insert]; [intros [<-|[]]; auto|].
  destruct (String.compare k k'); cbn; intuition.
Qed.

Lemma requests_spec p urls : NoDup urls -> List.length (requests p urls) = List.length urls /\
  (forall u e, In (u, e) (requests p urls) -> In u urls /\ Ser.q_prefix e = p /\ Ser.q_required e = true).
Proof.
  induction 1 as [|u urls Hu Hn [IH1 IH2]]; [split; [reflexivity|intros u e []]|].
  cbn [requests fold_right]. fold (requests p urls). unfold Ser.nb_insert. cbn [andb].
  destruct (bm_get u (requests p urls)) as [e0|] eqn:Eg.
  - apply bm_get_In in Eg. destruct (IH2 _ _ Eg) as [H _]. contradiction.
  - split.
    + rewrite insert_length; [cbn; auto|]. unfold bm_mem. now rewrite Eg.
    + intros u' e H. apply In_insert in H. destruct H as [H|H]; [injection H as -> ->; cbn; auto|].
      destruct (IH2 _ _ H) as (H1 & H2 & H3). cbn. auto.
Qed.

Lemma requests_exact p urls : p <> ""%string -> NoDup urls ->
  2 * snd (finalize_n (requests p urls)) = List.length urls * (List.length urls + 1).
Proof.
  intros Hp Hn. destruct (requests_spec p urls Hn) as [H1 H2]. rewrite <- H1. apply (finalize_exact p); auto.
  intros u e H. apply (H2 u e H).
Qed.

(** ** Calling visitors *)

Section Same.
  Context {St : Type} (dbg : bool) (V : visitors St).

  Lemma attrs_same stack p attrs : forall s, fst (attrs_c V stack p attrs s) = attrs_loop V stack p attrs s.
  Proof.
    induction attrs as [|a attrs IH]; intro s; cbn [attrs_c attrs_loop]; auto.
    destruct (v_attribute V s _ _) as [[x|x|x] s']; auto. specialize (IH s').
    destruct (attrs_c V stack p attrs s') as [r l]. exact IH.
  Qed.

  Lemma run_same {A} body body' sp attrs ns (act : action St A) r :
    (forall sp ns s r, fst (body' sp ns s r) = body sp ns s r) ->
    fst (run_c dbg V body' sp attrs ns act r) = run_action dbg V body sp attrs ns act r.
  Proof.
    intro H. destruct act as [a|k|s0 k]; cbn [run_c run_action]; auto.
    - destruct (read_string dbg sp r) as [[x|x|x] r']; auto.
    - destruct (nth_error _ _) as [el|]; auto. rewrite <- attrs_same.
      destruct (attrs_c V _ _ attrs s0) as [[[x|x|x] s1] l]; auto. cbn [fst]. rewrite <- H.
      destruct (body' sp ns s1 r) as [[[[x'|x'|x'] s2] r'] l']; auto.
  Qed.

  Lemma loop_same fuel : forall sp ns s r, fst (loop_c dbg V fuel sp ns s r) = read_loop dbg V fuel sp ns s r.
  Proof.
    induction fuel as [|fuel IH]; intros sp ns s r; cbn [loop_c read_loop]; auto.
    destruct (stack_check dbg sp r); auto. destruct (next dbg r) as [[[[attrs ns'|n|str] p]|x|x] r1]; auto.
    - destruct (nth_error _ _) as [el|]; auto. rewrite <- (run_same (read_loop dbg V fuel) (loop_c dbg V fuel)) by exact IH.
      destruct (run_c dbg V (loop_c dbg V fuel) (S sp) attrs ns' _ r1) as [[[[[b|e|x] s']|x] r2] l]; auto. cbn [fst].
      destruct (return_to_depth dbg (S sp) r2) as [[u|e|x] r3]; auto. specialize (IH sp ns s' r3).
      destruct (loop_c dbg V fuel sp ns s' r3) as [x l']. exact IH.
    - destruct (v_characters V s str p) as [[x|m|x] s']; auto. specialize (IH sp ns s' r1).
      destruct (loop_c dbg V fuel sp ns s' r1) as [y l]. exact IH.
  Qed.

  Lemma read_same {T} (D : einfo -> action St (res verr T)) r : fst (read_c dbg V D r) = read dbg V D r.
  Proof.
    unfold read_c, read. destruct (root dbg r) as [[[attrs ns]|e|x] r1]; auto. destruct (nth_error _ _) as [el|]; auto.
    rewrite <- (run_same (read_loop dbg V (S (List.length (r_src r1)))) (loop_c dbg V (S (List.length (r_src r1))))) by apply loop_same.
    destruct (run_c dbg V _ 0 attrs ns _ r1) as [[[[v|e|x]|x] r2] l]; auto.
  Qed.
End Same.

(** Only the calls that are made matter. *)
Section Only.
  Context {St : Type} (dbg : bool) (V V' : visitors St).

  Definition all_agree (l : list (call St)) : Prop := forall c, In c l -> agree V V' c.

  Lemma all_cons c l : all_agree (c :: l) -> agree V V' c /\ all_agree l.
  Proof. intro H. split; [apply H; now left|intros x Hx; apply H; now right]. Qed.
  Lemma all_app a b : all_agree (a ++ b) -> all_agree a /\ all_agree b.
  Proof. intro H. split; intros x Hx; apply H, in_or_app; auto. Qed.

  Lemma attrs_only stack p attrs : forall s, all_agree (snd (attrs_c V stack p attrs s)) ->
    attrs_c V' stack p attrs s = attrs_c V stack p attrs s.
  Proof.
    induction attrs as [|a attrs IH]; intros s H; cbn [attrs_c] in *; auto.
    assert (E : v_attribute V' s (from_xml_name (a_name a)) (a_value a) = v_attribute V s (from_xml_name (a_name a)) (a_value a)).
    { apply (H (CAttribute s (from_xml_name (a_name a)) (a_value a))). destruct (v_attribute V s _ _) as [[x|x|x] s']; try now left.
      destruct (attrs_c V stack p attrs s') as [r l]. now left. }
    rewrite E. destruct (v_attribute V s _ _) as [[x|x|x] s']; auto. specialize (IH s').
    destruct (attrs_c V stack p attrs s') as [r l]. cbn [snd] in *. rewrite IH; auto. now apply all_cons in H.
  Qed.

  Lemma run_only {A} body body' sp attrs ns (act : action St A) r :
    (forall sp ns s r, all_agree (snd (body sp ns s r)) -> body' sp ns s r = body sp ns s r) ->
    all_agree (snd (run_c dbg V body sp attrs ns act r)) ->
    run_c dbg V' body' sp attrs ns act r = run_c dbg V body sp attrs ns act r.
  Proof.
    intro B. destruct act as [a|k|s0 k]; cbn [run_c]; auto. destruct (nth_error _ _) as [el|]; auto.
    pose proof (attrs_only (r_stack r) (se_pos el) attrs s0) as Ha.
    destruct (attrs_c V _ _ attrs s0) as [[[x|x|x] s1] l]; cbn [snd] in *; try (intro H; now rewrite Ha).
    specialize (B sp ns s1 r). destruct (body sp ns s1 r) as [[[[x'|x'|x'] s2] r'] l']; cbn [snd] in *; intro H;
      apply all_app in H; destruct H as [H1 H2]; now rewrite (Ha H1), (B H2).
  Qed.

  Lemma loop_only fuel : forall sp ns s r, all_agree (snd (loop_c dbg V fuel sp ns s r)) ->
    loop_c dbg V' fuel sp ns s r = loop_c dbg V fuel sp ns s r.
  Proof.
    induction fuel as [|fuel IH]; intros sp ns s r H; cbn [loop_c] in *; auto.
    destruct (stack_check dbg sp r); auto. destruct (next dbg r) as [[[[attrs ns'|n|str] p]|x|x] r1]; auto.
    - destruct (nth_error _ _) as [el|]; auto. set (child := EInfo _ _ _) in *.
      assert (E : v_element V' s child = v_element V s child).
      { apply (H (CElement s child)).
        destruct (run_c dbg V (loop_c dbg V fuel) (S sp) attrs ns' _ r1) as [[[[[b|e|x] s']|x] r2] l]; try now left.
        destruct (return_to_depth dbg (S sp) r2) as [[u|e|x] r3]; try now left.
        destruct (loop_c dbg V fuel sp ns s' r3) as [x l']. now left. }
      rewrite E. rewrite (run_only (loop_c dbg V fuel) (loop_c dbg V' fuel) (S sp) attrs ns' (v_element V s child) r1 IH).
      + destruct (run_c dbg V (loop_c dbg V fuel) (S sp) attrs ns' _ r1) as [[[[[b|e|x] s']|x] r2] l]; auto.
        destruct (return_to_depth dbg (S sp) r2) as [[u|e|x] r3]; auto. specialize (IH sp ns s' r3).
        destruct (loop_c dbg V fuel sp ns s' r3) as [x l']. cbn [snd] in *. rewrite IH; auto.
        apply all_cons in H. destruct H as [_ H]. now apply all_app in H.
      + destruct (run_c dbg V (loop_c dbg V fuel) (S sp) attrs ns' _ r1) as [[[[[b|e|x] s']|x] r2] l]; cbn [snd] in *;
          try now apply all_cons in H.
        destruct (return_to_depth dbg (S sp) r2) as [[u|e|x] r3]; try now apply all_cons in H.
        destruct (loop_c dbg V fuel sp ns s' r3) as [x l']. cbn [snd] in H. apply all_cons in H. destruct H as [_ H].
        now apply all_app in H.
    - assert (E : v_characters V' s str p = v_characters V s str p).
      { apply (H (CCharacters s str p)). destruct (v_characters V s str p) as [[x|m|x] s']; try now left.
        destruct (loop_c dbg V fuel sp ns s' r1) as [y l]. now left. }
      rewrite E. destruct (v_characters V s str p) as [[x|m|x] s']; auto. specialize (IH sp ns s' r1).
      destruct (loop_c dbg V fuel sp ns s' r1) as [y l]. cbn [snd] in *. rewrite IH; auto. now apply all_cons in H.
  Qed.

  Lemma read_only {T} (D : einfo -> action St (res verr T)) r : all_agree (snd (read_c dbg V D r)) ->
    read_c dbg V' D r = read_c dbg V D r.
  Proof.
    unfold read_c. destruct (root dbg r) as [[[attrs ns]|e|x] r1]; auto. destruct (nth_error _ _) as [el|]; auto. intro H.
    rewrite (run_only (loop_c dbg V (S (List.length (r_src r1)))) _ _ _ _ _ _ (loop_only _)); auto.
    destruct (run_c dbg V _ 0 attrs ns _ r1) as [[[[v|e|x]|x] r2] l]; auto.
  Qed.
End Only.

(** What a reading action may do, given an invariant of the visitors. *)
Definition act_inv {St A} (Inv : St -> Prop) (P : A -> Prop) (act : action St A) : Prop :=
  match act with
  | ANoRead a => P a
  | AReadString k => forall x, P (k x)
  | AReadTo s0 k => Inv s0 /\ forall x s, Inv s -> P (k x s)
  end.

Lemma act_inv_amap {St A C} (Inv : St -> Prop) (P : A -> Prop) (Q : C -> Prop) (f : A -> C) act :
  act_inv Inv P act -> (forall a, P a -> Q (f a)) -> act_inv Inv Q (amap f act).
Proof. destruct act; cbn; auto. intros (? & ?) ?. auto. Qed.

Section Cost.
  Context {St : Type} (dbg : bool) (V : visitors St) (Inv : St -> Prop) (f : call St -> nat) (ce ca ct : nat).
  Hypothesis Hattr : forall s n v, Inv s -> Inv (snd (v_attribute V s n v)).
  Hypothesis Hchars : forall s str p, Inv s -> Inv (snd (v_characters V s str p)).
  Hypothesis Helem : forall s i, Inv s -> act_inv Inv (fun a => Inv (snd a)) (v_element V s i).
  Hypothesis Fattr : forall s n v, Inv s -> f (CAttribute s n v) <= ca.
  Hypothesis Felem : forall s i, Inv s -> f (CElement s i) <= ce.
  Hypothesis Fchars : forall s str p, Inv s -> f (CCharacters s str p) <= ct.

  Definition total (l : list (call St)) : nat := list_sum (map f l).
  Definition wsrc (src : list (xevent * position)) : nat := ce * start_tags src + ca * attributes src + ct * texts src.
  Definition wr (r : rstate) : nat := wsrc (r_src r).

  Lemma total_cons c l : total (c :: l) = f c + total l.
  Proof. reflexivity. Qed.
  Lemma total_app a b : total (a ++ b) = total a + total b.
  Proof. unfold total. now rewrite map_app, list_sum_app. Qed.

  Lemma attrs_cost stack p attrs : forall s, Inv s ->
    total (snd (attrs_c V stack p attrs s)) <= ca * List.length attrs /\ Inv (snd (fst (attrs_c V stack p attrs s))).
  Proof.
    induction attrs as [|a attrs IH]; intros s H; cbn [attrs_c]; [cbn; split; [lia|exact H]|].
    pose proof (Hattr s (from_xml_name (a_name a)) (a_value a) H) as H'.
    pose proof (Fattr s (from_xml_name (a_name a)) (a_value a) H) as F. cbn [List.length].
    destruct (v_attribute V s _ _) as [[x|x|x] s']; cbn [snd fst] in *; try (rewrite total_cons; cbn; split; [lia|exact H']).
    specialize (IH s' H'). destruct (attrs_c V stack p attrs s') as [r l]. cbn [fst snd] in *. rewrite total_cons.
    split; [lia|apply IH].
  Qed.

  (** Reading an event. *)
  Definition ev_weight (x : res error (event * position)) : nat :=
    match x with
    | Ok (EvStart attrs _, _) => ce + ca * List.length attrs
    | Ok (EvChars _, _) => ct
    | _ => 0
    end.

  Lemma next_weight r : ev_weight (fst (next dbg r)) + wr (snd (next dbg r)) <= wr r.
  Proof.
    unfold next. destruct (dbg && _); [cbn; lia|]. destruct r as [src fin pos d st]. unfold wr. cbn [r_src r_fin r_depth r_stack].
    induction src as [|[e p] src IH]; cbn [next_loop]; [destruct fin; cbn; lia|].
    destruct e; cbn [fst snd r_src ev_weight start_tags attributes texts]; unfold wsrc in *; cbn [start_tags attributes texts] in *; try lia.
    destruct d; [cbn; lia|]. destruct dbg; [|cbn; lia]. destruct (nth_error st d); [destruct (oname_eqb _ _)|]; cbn; lia.
  Qed.

  Lemma skip_weight fuel target : forall r, wr (snd (skip_loop fuel dbg target r)) <= wr r.
  Proof.
    induction fuel as [|fuel IH]; intro r; cbn [skip_loop]; [cbn; lia|]. destruct (Nat.ltb _ _); [|cbn; unfold wr; cbn; lia].
    pose proof (next_weight r) as N. destruct (next dbg r) as [[x|x|x] r']; cbn [fst snd] in *; try lia.
    specialize (IH (truncate r')). unfold wr in *. cbn [truncate r_src] in *. lia.
  Qed.

  Lemma return_weight target r : wr (snd (return_to_depth dbg target r)) <= wr r.
  Proof. unfold return_to_depth. destruct (dbg && _); [cbn; lia|]. apply skip_weight. Qed.

  Lemma string_weight fuel sp : forall out r, wr (snd (read_string_loop fuel dbg sp out r)) <= wr r.
  Proof.
    induction fuel as [|fuel IH]; intros out r; cbn [read_string_loop]; [cbn; lia|]. destruct (stack_check dbg sp r); [|cbn; lia].
    pose proof (next_weight r) as N. destruct (next dbg r) as [[[[attrs ns'|n|str] p]|x|x] r1]; cbn [fst snd] in *; try lia.
    - destruct (nth_error _ _); cbn [snd]; lia.
    - specialize (IH (if String.eqb out "" then str else (out ++ str)%string) r1). lia.
  Qed.

  Definition body_cost (body : nat -> nsmap -> St -> rstate -> res error endinfo * St * rstate * list (call St)) : Prop :=
    forall sp ns s r, Inv s ->
      let '(_, s', r', l) := body sp ns s r in Inv s' /\ total l + wr r' <= wr r.

  Lemma run_cost {A} (P : A -> Prop) body sp attrs ns (act : action St A) r :
    body_cost body -> act_inv Inv P act ->
    let '(x, r', l) := run_c dbg V body sp attrs ns act r in
    total l + wr r' <= wr r + ca * List.length attrs /\ match x with inl a => P a | inr _ => True end.
  Proof.
    intros Hb Ha. destruct act as [a|k|s0 k]; cbn [run_c act_inv] in *.
    - split; [cbn; lia|exact Ha].
    - unfold read_string. pose proof (string_weight (S (List.length (r_src r))) sp "" r) as W.
      destruct (read_string_loop _ dbg sp "" r) as [[x|x|x] r']; cbn [snd] in W; split; auto; cbn; lia.
    - destruct Ha as [H0 Hk]. destruct (nth_error _ _) as [el|]; [|split; auto; cbn; lia].
      destruct (attrs_cost (r_stack r) (se_pos el) attrs s0 H0) as [C1 C2].
      destruct (attrs_c V _ _ attrs s0) as [[[x|x|x] s1] l]; cbn [fst snd] in *; try (split; auto; lia).
      specialize (Hb sp ns s1 r C2). destruct (body sp ns s1 r) as [[[x' s2] r'] l']. destruct Hb as [B1 B2].
      destruct x' as [x'|x'|x']; rewrite total_app; split; auto; lia.
  Qed.

  Lemma loop_cost fuel : body_cost (loop_c dbg V fuel).
  Proof.
    induction fuel as [|fuel IH]; intros sp ns s r H; cbn [loop_c]; [cbn; split; auto|].
    destruct (stack_check dbg sp r); [|cbn; split; auto]. pose proof (next_weight r) as N.
    destruct (next dbg r) as [[[[attrs ns'|n|str] p]|x|x] r1]; cbn [fst snd ev_weight] in N; try (cbn; split; [auto|lia]).
    - destruct (nth_error _ _) as [el|]; [|cbn; split; [auto|lia]].
      set (child := EInfo _ _ _). pose proof (Felem s child H) as F.
      pose proof (run_cost (fun a => Inv (snd a)) (loop_c dbg V fuel) (S sp) attrs ns' (v_element V s child) r1 IH (Helem s child H)) as R.
      destruct (run_c dbg V _ _ attrs ns' _ r1) as [[[[[b|e|x] s']|x] r2] l]; destruct R as [R1 R2]; cbn [snd] in R2;
        try (rewrite total_cons; split; auto; lia).
      pose proof (return_weight (S sp) r2) as W.
      destruct (return_to_depth dbg (S sp) r2) as [[u|e|x] r3]; cbn [snd] in W; try (rewrite total_cons; split; auto; lia).
      specialize (IH sp ns s' r3 R2). destruct (loop_c dbg V fuel sp ns s' r3) as [[[x s3] r4] l']. destruct IH as [I1 I2].
      split; auto. rewrite total_cons, total_app. lia.
    - pose proof (Hchars s str p H) as H'. pose proof (Fchars s str p H) as F.
      destruct (v_characters V s str p) as [[x|m|x] s']; cbn [snd] in H'; try (rewrite total_cons; cbn; split; auto; lia).
      specialize (IH sp ns s' r1 H'). destruct (loop_c dbg V fuel sp ns s' r1) as [[[x' s3] r4] l']. destruct IH as [I1 I2].
      split; auto. rewrite total_cons. lia.
  Qed.

  Lemma root_weight r attrs ns r1 : root dbg r = (Ok (attrs, ns), r1) -> ce + ca * List.length attrs + wr r1 <= wr r.
  Proof.
    unfold root, inner_next. destruct r as [src fin pos d st]. cbn [r_src r_fin].
    destruct src as [|[e p] src]; [destruct fin; discriminate|]. destruct e; try discriminate.
    set (r' := set_src _ _ _). pose proof (next_weight r') as N.
    destruct (next dbg r') as [[[[attrs' ns'|n|str] p']|x|x] r2]; try discriminate. intros [= <- <- <-].
    cbn [fst snd ev_weight] in N. exact N.
  Qed.

  (** The root element is not offered to a visitor: one start tag is left over. *)
  Lemma read_cost {T} (D : einfo -> action St (res verr T)) r : (forall i, act_inv Inv (fun _ => True) (D i)) ->
    total (snd (read_c dbg V D r)) <= wr r - ce.
  Proof.
    intro HD. unfold read_c. destruct (root dbg r) as [[[attrs ns]|e|x] r1] eqn:Er; try (cbn; lia).
    apply root_weight in Er. destruct (nth_error _ _) as [el|]; [|cbn; lia].
    pose proof (run_cost (fun _ => True) (loop_c dbg V (S (List.length (r_src r1)))) 0 attrs ns (D (EInfo (se_name el) ns 1)) r1
      (loop_cost _) (HD _)) as R.
    destruct (run_c dbg V _ 0 attrs ns _ r1) as [[[[v|e|x]|x] r2] l]; destruct R as [R _]; cbn [snd]; lia.
  Qed.
End Cost.

(** ** Derived visitors *)

Definition slot_work (s : slot) : nat := match s with SField _ _ => 0 | SFlat e => lookups (List.length (e_variants e)) end.

Section Derived.
  Context (o : oracles) (alg : bs_alg) (env : tenv) (W A : nat).
  Hypothesis HW : forall id d, env id = Some d -> element_work env d <= W /\ attribute_work d <= A.

  Definition winv (s : vstate) : Prop :=
    match vs_kind s with
    | VkStruct fs ss => lookups (count is_element fs) + list_sum (map slot_work ss) <= W /\ lookups (count is_attribute fs) <= A
    | VkEnum e => lookups (List.length (e_variants e)) <= W
    end.

  Lemma variants_work ss ss' : map slot_variants ss' = map slot_variants ss -> map slot_work ss' = map slot_work ss.
  Proof.
    revert ss'. induction ss as [|s ss IH]; intros [|s' ss'] H; cbn in *; try discriminate; auto. injection H as H1 H2.
    rewrite (IH _ H2). f_equal. destruct s, s'; cbn in *; try discriminate; auto. now injection H1 as ->.
  Qed.

  Lemma winv_put fs ss lk ss' l : winv (VState (VkStruct fs ss) lk) -> map slot_variants ss' = map slot_variants ss ->
    winv (put (VState (VkStruct fs ss) lk) ss' l).
  Proof. intros H E. apply variants_work in E. unfold winv in *. cbn in *. now rewrite E. Qed.

  Lemma new_slots_work fs : forall ss, new_slots env fs = Some ss -> list_sum (map slot_work ss) = list_sum (map (flat_work env) fs).
  Proof.
    induction fs as [|f fs IH]; cbn [new_slots]; intros ss H; [injection H as <-; reflexivity|].
    destruct (new_slots env fs) as [ss'|]; [|discriminate]. specialize (IH _ eq_refl).
    assert (G : forall x, slot_work x = flat_work env f -> list_sum (map slot_work (x :: ss')) = list_sum (map (flat_work env) (f :: fs))).
    { intros x Hx. cbn. unfold list_sum in IH. now rewrite Hx, IH. }
    unfold flat_work at 1 in G. destruct (f_mode f) as [k t|opt t|fid|t]; try discriminate.
    - injection H as <-. now apply G.
    - injection H as <-. now apply G.
    - destruct (env fid) as [[|ident root nss vs' sk]|]; try discriminate. injection H as <-. now apply G.
  Qed.

  Lemma new_visitor_work id s : new_visitor env id = Some s -> winv s.
  Proof.
    unfold new_visitor. destruct (env id) as [[ident root nss fs|ident root nss vs sk]|] eqn:E; try discriminate.
    - destruct (HW id _ E) as [H1 H2]. cbn in H1, H2. destruct (new_slots env fs) as [ss|] eqn:Es; [|discriminate]. cbn.
      intros [= <-]. unfold winv. cbn [vs_kind]. rewrite (new_slots_work _ _ Es). auto.
    - destruct (HW id _ E) as [H1 H2]. intros [= <-]. exact H1.
  Qed.

  Lemma deserialize_work t i : act_inv winv (fun _ => True) (deserialize o env t i).
  Proof.
    destruct t as [t|id]; cbn [deserialize].
    - eapply (act_inv_amap winv (fun _ => True)); auto. unfold deserialize_text. cbn. auto.
    - destruct (new_visitor env id) as [s0|] eqn:En; cbn; auto. split; auto. eapply new_visitor_work; exact En.
  Qed.

  Lemma field_init_work k t i : act_inv winv (fun _ => True) (field_init o env k t i).
  Proof. eapply act_inv_amap; [apply deserialize_work|auto]. Qed.

  Lemma field_update_work k t old i : act_inv winv (fun _ => True) (field_update o env k t old i).
  Proof. destruct k; cbn [field_update act_inv]; auto. eapply act_inv_amap; [apply deserialize_work|auto]. Qed.

  Lemma enum_work e i act : enum_element o alg env e i = Some act ->
    act_inv winv (fun a => e_variants (snd (fst a)) = e_variants e) act.
  Proof.
    unfold enum_element. destruct (e_init e).
    - intros [= <-]. destruct (e_mem e) as [[| |j p| | | |]|]; cbn [act_inv]; auto.
      destruct (nth_error (sorted_variants (e_variants e)) j) as [v|] eqn:Hj; cbn [act_inv]; auto.
      destruct (find _ _ _) as [j'|]; cbn [act_inv]; auto. destruct (Nat.eqb j' j); cbn [act_inv]; auto.
      destruct (v_ty v) as [[k t]|] eqn:Ht; cbn [act_inv]; auto. destruct p as [f|]; cbn [act_inv]; auto.
      eapply act_inv_amap; [eapply field_update_work|]. intros [[x|x|x] l] _; reflexivity.
    - destruct (find _ _ _) as [j|]; [|discriminate]. intros [= <-].
      destruct (nth_error (sorted_variants (e_variants e)) j) as [v|] eqn:Hj; cbn [act_inv]; auto.
      destruct (v_ty v) as [[k t]|] eqn:Ht.
      + eapply act_inv_amap; [eapply field_init_work|]. intros [[x|x|x] l] _; try reflexivity. destruct (e_mem e); reflexivity.
      + cbn. destruct (e_mem e); reflexivity.
  Qed.

  Lemma delegate_work i : forall ss act, delegate_element o alg env ss i = Some act ->
    act_inv winv (fun a => map slot_variants (snd (fst a)) = map slot_variants ss) act.
  Proof.
    induction ss as [|s ss IH]; intros act; cbn [delegate_element]; [discriminate|].
    assert (Hrest : forall act, option_map (amap (fun '(r, ss'', l) => (r, s :: ss'', l))) (delegate_element o alg env ss i) = Some act ->
      act_inv winv (fun a => map slot_variants (snd (fst a)) = map slot_variants (s :: ss)) act).
    { intros act0. destruct (delegate_element o alg env ss i) as [a|]; cbn; [|discriminate]. intros [= <-].
      eapply act_inv_amap; [apply IH; reflexivity|]. intros [[r s'] l] G. cbn in *. now rewrite G. }
    destruct s as [pr m|e]; auto. destruct (enum_element o alg env e i) eqn:E; auto. intros [= <-].
    apply enum_work in E. eapply act_inv_amap; [exact E|]. intros [[r s'] l] G. cbn in *. now rewrite G.
  Qed.

  Lemma element_field_work k t pr m i : act_inv winv (fun a => slot_variants (snd (fst a)) = None) (element_field o env k t pr m i).
  Proof.
    unfold element_field. destruct pr.
    - destruct m as [old|]; cbn [act_inv]; auto.
      eapply act_inv_amap; [eapply field_update_work|]. intros [[x|x|x] l] _; reflexivity.
    - eapply act_inv_amap; [eapply field_init_work|]. intros [[x|x|x] l] _; cbn; auto. destruct m; reflexivity.
  Qed.

  Lemma attr_work s x v : winv s -> winv (snd (v_attribute (derived o alg env) s x v)).
  Proof.
    destruct s as [[fs ss|e] lk]; cbn [derived v_attribute vs_kind]; auto. intro H. unfold struct_attribute.
    destruct (find_field _ _ _ _) as [p|].
    - destruct (nth_error fs p) as [[fn [k t|opt t|id|t] fd]|]; auto.
      destruct (nth_error ss p) as [[pr m|e]|] eqn:Es; auto.
      assert (G : slot_variants (snd (attribute_field o x opt t pr m v)) = None).
      { unfold attribute_field. destruct pr; auto. destruct (bind _ _); auto. }
      destruct (attribute_field o x opt t pr m v) as [r sl]. cbn [snd] in *. apply winv_put; auto.
      eapply set_nth_map; [exact Es|]. now rewrite G.
    - pose proof (delegate_variants (fun e v => enum_attribute e x v) (fun e a => eq_refl) ss v) as G.
      destruct (delegate _ ss v) as [r ss']. cbn [snd] in *. now apply winv_put.
  Qed.

  Lemma chars_work s str p : winv s -> winv (snd (v_characters (derived o alg env) s str p)).
  Proof.
    destruct s as [[fs ss|e] lk]; cbn [derived v_characters vs_kind]; auto. intro H. unfold struct_characters.
    pose proof (delegate_variants (fun e str => enum_characters e str p) (fun e a => eq_refl) ss str) as G.
    destruct (delegate _ ss str) as [r ss']. cbn [snd] in *. now apply winv_put.
  Qed.

  Lemma elem_work s i : winv s -> act_inv winv (fun a => winv (snd a)) (v_element (derived o alg env) s i).
  Proof.
    destruct s as [[fs ss|e] lk]; cbn [derived v_element vs_kind]; intro H.
    - unfold struct_element. destruct (find_field _ _ _ _) as [p|].
      + destruct (nth_error fs p) as [[fn [k t|opt t|id|t] fd]|] eqn:Ef; cbn [act_inv]; auto.
        destruct (nth_error ss p) as [[pr m|e]|] eqn:Es; cbn [act_inv]; auto.
        eapply act_inv_amap; [apply element_field_work|].
        intros [[r sl] l] G. cbn [fst snd] in *. apply winv_put; auto. eapply set_nth_map; [exact Es|]. now rewrite G.
      + destruct (delegate_element o alg env ss i) as [act|] eqn:Ed; cbn [act_inv]; auto. apply delegate_work in Ed.
        eapply act_inv_amap; [exact Ed|]. intros [[r ss'] l] G. cbn [fst snd] in *. now apply winv_put.
    - destruct (enum_element o alg env e i) as [act|] eqn:Ee; cbn [act_inv]; auto. apply enum_work in Ee.
      eapply act_inv_amap; [exact Ee|]. intros [[r e'] l] G. cbn in *. unfold winv in *. cbn in *. now rewrite G.
  Qed.

  Lemma variant_table_length vs : List.length (variant_table vs) = List.length vs.
  Proof. rewrite (Permutation_length (variant_table_perm vs)). unfold variant_names. now rewrite map_length. Qed.

  Lemma table_length sel fs : List.length (table (sorted_fields sel fs)) = count sel fs.
  Proof. rewrite (Permutation_length (table_perm sel fs)). unfold field_names, count. now rewrite map_length. Qed.

  Lemma sum_cons a l : list_sum (a :: l) = a + list_sum l.
  Proof. reflexivity. Qed.

  Definition compared (x : xname * list xname) : nat := let '(n, t) := x in List.length (snd (find_c alg n t)).

  Lemma enum_compared e n : compared (n, enum_table e) <= lookups (List.length (e_variants e)).
  Proof. unfold compared. etransitivity; [apply find_steps|]. unfold enum_table. now rewrite variant_table_length. Qed.

  Lemma asked_work ss n : list_sum (map compared (asked alg ss n)) <= list_sum (map slot_work ss).
  Proof.
    induction ss as [|[pr m|e] ss IH]; cbn [asked map slot_work]; auto; rewrite !sum_cons.
    pose proof (enum_compared e n). destruct (takes alg e n); [cbn [map]; change (list_sum []) with 0; lia|lia].
  Qed.

  Lemma call_elem_work s i : winv s -> comparisons alg (CElement s i) <= W.
  Proof.
    unfold comparisons. change (fun '(n, t) => _) with compared.
    destruct s as [[fs ss|e] lk]; cbn [looked_up vs_kind map]; unfold winv; cbn [vs_kind]; intro H; rewrite sum_cons.
    - destruct (find_steps alg (from_xml_name (ei_name i)) (table (sorted_fields is_element fs))) as [F _].
      rewrite table_length in F. unfold compared at 1. destruct (find alg _ _); [cbn [map]; change (list_sum []) with 0; lia|].
      pose proof (asked_work ss (from_xml_name (ei_name i))). lia.
    - pose proof (enum_compared e (from_xml_name (ei_name i))). change (list_sum []) with 0. lia.
  Qed.

  Lemma call_attr_work s n v : winv s -> comparisons alg (CAttribute s n v) <= A.
  Proof.
    unfold comparisons. destruct s as [[fs ss|e] lk]; cbn [looked_up vs_kind map]; unfold winv; cbn [vs_kind]; intro H; [|cbn; lia].
    rewrite sum_cons. change (list_sum []) with 0.
    destruct (find_steps alg n (table (sorted_fields is_attribute fs))) as [F _]. rewrite table_length in F. lia.
  Qed.

  Lemma read_work dbg t src fin :
    list_sum (map (comparisons alg) (snd (read_c dbg (derived o alg env) (de_root o env t) (reader_new src fin)))) <=
      W * (start_tags src - 1) + A * attributes src.
  Proof.
    pose proof (read_cost dbg (derived o alg env) winv (comparisons alg) W A 0 (fun s n v => attr_work s n v) (fun s str p => chars_work s str p)
      (fun s i => elem_work s i) (fun s n v => call_attr_work s n v) (fun s i => call_elem_work s i) (fun s str p _ => le_n _)
      (de_root o env t) (reader_new src fin)) as R.
    unfold total, wr, wsrc in R. cbn [reader_new r_src] in R.
    etransitivity; [apply R|].
    - intro i. unfold de_root. eapply act_inv_amap; [apply deserialize_work|auto].
    - destruct (start_tags src) as [|n] eqn:E; [|replace (S n - 1) with n by lia; rewrite Nat.mul_succ_r; lia].
      replace (attributes src) with 0; [change (0 - 1) with 0; rewrite ?Nat.mul_0_r; lia|].
      clear R. induction src as [|[[] p] src IH]; cbn in *; try discriminate; auto.
  Qed.
End Derived.

(** No other tables matter. *)
Lemma enum_only o alg alg' env e i : find alg' (from_xml_name (ei_name i)) (enum_table e) = find alg (from_xml_name (ei_name i)) (enum_table e) ->
  enum_element o alg' env e i = enum_element o alg env e i.
Proof. unfold enum_table, enum_element. intros ->. reflexivity. Qed.

Lemma takes_spec o alg env e i : takes alg e (from_xml_name (ei_name i)) = true <-> enum_element o alg env e i <> None.
Proof.
  unfold takes, enum_table, enum_element. destruct (e_init e); cbn [orb]; [split; [discriminate|reflexivity]|].
  destruct (find _ _ _); split; congruence.
Qed.

Lemma delegate_only o alg alg' env i : forall ss,
  (forall n t, In (n, t) (asked alg ss (from_xml_name (ei_name i))) -> find alg' n t = find alg n t) ->
  delegate_element o alg' env ss i = delegate_element o alg env ss i.
Proof.
  induction ss as [|[pr m|e] ss IH]; intro H; cbn [delegate_element asked] in *; auto; [now rewrite IH|].
  rewrite (enum_only o alg alg' env e i) by (apply H; now left).
  pose proof (takes_spec o alg env e i) as T. destruct (enum_element o alg env e i); auto.
  destruct (takes alg e _); [destruct T as [T _]; now destruct (T eq_refl)|]. rewrite IH; auto.
  intros n t Hin. apply H. now right.
Qed.

Lemma derived_only o alg alg' env c : (forall n t, In (n, t) (looked_up alg c) -> find alg' n t = find alg n t) ->
  agree (derived o alg env) (derived o alg' env) c.
Proof.
  intro H. destruct c as [s n v|s i|s str p]; cbn [agree derived v_attribute v_element v_characters looked_up] in *; auto;
    destruct s as [[fs ss|e] lk]; cbn [vs_kind] in *; auto.
  - unfold struct_attribute, find_field. now rewrite (H n _ (or_introl eq_refl)).
  - unfold struct_element, find_field. rewrite (H _ _ (or_introl eq_refl)). destruct (find alg _ _) as [p|] eqn:E.
    + destruct (nth_error (sorted_fields is_element fs) p) as [x|] eqn:Ex; cbn [option_map]; auto.
      exfalso. apply find_sound in E. unfold table in E. rewrite nth_error_map, Ex in E. discriminate.
    + rewrite (delegate_only o alg alg' env i ss); auto. intros n t Hin. apply H. now right.
  - rewrite (enum_only o alg alg' env e i); auto. apply H. now left.
Qed.

(** ** Calls *)

Lemma read_calls {St T} dbg (V : visitors St) (D : einfo -> action St (res verr T)) src fin :
  count is_element_call (snd (read_c dbg V D (reader_new src fin))) <= start_tags src - 1 /\
  count is_attribute_call (snd (read_c dbg V D (reader_new src fin))) <= attributes src /\
  count is_text_call (snd (read_c dbg V D (reader_new src fin))) <= texts src.
Proof.
  assert (C : forall (p : call St -> bool) l, count p l = list_sum (map (fun c => if p c then 1 else 0) l)).
  { intros p l. unfold count. induction l as [|c l IH]; cbn [filter map]; auto.
    change (list_sum (?a :: ?l)) with (a + list_sum l). rewrite <- IH. destruct (p c); reflexivity. }
  assert (K : forall s i, act_inv (fun _ => True) (fun _ => True) (v_element V s i)).
  { intros s i. destruct (v_element V s i); cbn; auto. }
  assert (R : forall p ce ca ct, (forall s n v, p (CAttribute s n v) = true -> ca = 1) -> (forall s i, p (CElement s i) = true -> ce = 1) ->
    (forall s str x, p (CCharacters s str x) = true -> ct = 1) ->
    count p (snd (read_c dbg V D (reader_new src fin))) <= ce * start_tags src + ca * attributes src + ct * texts src - ce).
  { intros p ce ca ct H1 H2 H3. rewrite C. apply (read_cost dbg V (fun _ => True)); auto.
    - intros s n v _. destruct (p _) eqn:E; [|lia]. rewrite (H1 _ _ _ E). lia.
    - intros s i _. destruct (p _) eqn:E; [|lia]. rewrite (H2 _ _ E). lia.
    - intros s str x _. destruct (p _) eqn:E; [|lia]. rewrite (H3 _ _ _ E). lia.
    - intro i. destruct (D i); cbn; auto. }
  repeat split.
  - etransitivity; [apply (R is_element_call 1 0 0); cbn; congruence|]. lia.
  - etransitivity; [apply (R is_attribute_call 0 1 0); cbn; congruence|]. lia.
  - etransitivity; [apply (R is_text_call 0 0 1); cbn; congruence|]. lia.
Qed.
