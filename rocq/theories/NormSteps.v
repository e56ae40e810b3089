(** How many bytes are read, written and moved in normalizing white space, exactly. *)
From Coq Require Import Lia.
From Verif Require Import Base Steps StepsSpec StepsProofs.
From Verif Require Import Normalize NormalizeProofs.

Lemma white_ws b : white b = is_ws b.
Proof. destruct b as [[] [] [] [] [] [] [] []]; reflexivity. Qed.

(** Runs of white space; [b] says whether one has begun. *)
Fixpoint runs (b : bool) (l : list ascii) : nat :=
  match l with
  | [] => 0
  | c :: l' => (if is_ws c && negb b then 1 else 0) + runs (is_ws c) l'
  end.

Lemma runs_true l : runs true l = runs false (drop_ws l).
Proof. induction l as [|c l IH]; cbn; auto. destruct (is_ws c) eqn:E; cbn; auto. now rewrite E. Qed.

Lemma runs_words l : ends_ok l ->
  word_count_ false l = runs false l /\ (l <> [] -> word_count_ true l = S (runs true l)).
Proof.
  induction l as [|c l IH]; intro H; [cbn; split; congruence|].
  destruct (IH (ends_ok_tail _ _ H)) as [I1 I2]. cbn [word_count_ runs].
  rewrite white_ws. destruct (is_ws c) eqn:E; cbn [andb negb].
  - assert (Hn : l <> []). { intros ->. specialize (H [] c eq_refl). congruence. }
    rewrite (I2 Hn). split; intros; lia.
  - split; intros; rewrite I1; lia.
Qed.

Lemma snd_andthen {E A B} (x : res E A * nat) (f : A -> res E B * nat) a : fst x = Ok a ->
  snd (andthen x f) = snd x + snd (f a) /\ fst (andthen x f) = fst (f a).
Proof. intro H. unfold andthen. rewrite H. cbn. auto. Qed.

Lemma trim_exact v e e' : fst (trim_n v e) = Ok e' ->
  e' <= e /\ snd (trim_n v e) = (e - e') + (if Nat.eqb e' 0 then 0 else 1).
Proof.
  revert e'. induction e as [|e IH]; intros e'; cbn [trim_n].
  - cbn. intros [= <-]. auto.
  - intro H. destruct (andthen_ok _ _ _ H) as (b & Hb & Hf & _).
    destruct (snd_andthen (get_n v e) (fun b => if is_ws b then trim_n v e else (Ok (S e), 0)) b Hb) as [-> Hg].
    cbn [get_n snd]. destruct (is_ws b).
    + rewrite Hg in H. destruct (IH _ H) as [H1 ->]. split; lia.
    + rewrite Hg in H. cbn in H. injection H as <-. cbn. lia.
Qed.

Lemma count_exact l : snd (count_n l) = fst (count_n l) + (if Nat.ltb (fst (count_n l)) (List.length l) then 1 else 0).
Proof.
  induction l as [|b l IH]; cbn [count_n]; auto. destruct (is_ws b); [|reflexivity].
  destruct (count_n l) as [n k]. cbn [fst snd List.length] in *. change (Nat.ltb (S n) (S (List.length l))) with (Nat.ltb n (List.length l)). lia.
Qed.

Lemma scan_exact v e fuel : forall n m, n <= e -> fst (scan_n fuel v e n) = Ok m ->
  n <= m <= e /\ snd (scan_n fuel v e n) = (m - n) + (if Nat.ltb m e then 1 else 0).
Proof.
  induction fuel as [|fuel IH]; intros n m Hn; cbn [scan_n]; [discriminate|].
  destruct (Nat.ltb_spec n e) as [Hl|Hl].
  - intro H. destruct (andthen_ok _ _ _ H) as (b & Hb & Hf & _).
    destruct (snd_andthen (get_n v n) (fun b => if is_ws b then scan_n fuel v e (S n) else (Ok n, 0)) b Hb) as [-> Hg].
    rewrite Hg in H. cbn [get_n snd]. destruct (is_ws b).
    + destruct (IH _ _ Hl H) as [H1 ->]. split; lia.
    + cbn in H. injection H as <-. cbn [snd]. destruct (Nat.ltb_spec n e); lia.
  - cbn [fst snd]. intros [= <-]. destruct (Nat.ltb_spec n e); lia.
Qed.

Lemma nth_skip {A} (w : list A) : forall k i, k <= i -> nth_error w i = nth_error (skipn k w) (i - k).
Proof.
  induction w as [|x w IH]; intros k i H.
  - rewrite skipn_nil. transitivity (@None A); [destruct i|destruct (i - k)]; reflexivity.
  - destruct k as [|k]; [cbn [skipn]; now rewrite Nat.sub_0_r|]. destruct i as [|i]; [lia|]. cbn. apply IH. lia.
Qed.

Lemma nth_first {A} (w : list A) : forall k i, i < k -> nth_error (firstn k w) i = nth_error w i.
Proof.
  induction w as [|x w IH]; intros [|k] i H; try lia; auto. destruct i as [|i]; auto. cbn. apply IH. lia.
Qed.

Definition last_ok (v : list ascii) (e : nat) := forall b, nth_error v (e - 1) = Some b -> is_ws b = false.

Lemma last_ok_skip v v' e k : k < e -> skipn k v' = skipn k v -> last_ok v e -> last_ok v' e.
Proof.
  intros Hk Hs H b Hb. apply H. rewrite <- Hb.
  rewrite (nth_skip v k), (nth_skip v' k), Hs by lia. reflexivity.
Qed.

Lemma main_exact e n : e <= n -> forall fuel v outp cs ce, List.length v = n ->
  outp <= cs -> cs <= ce -> ce <= e -> (outp = cs -> outp = 0) -> last_ok v e -> e - ce < fuel ->
  exists v' o s, fst (main_n fuel true e (v, outp, cs, ce)) = Ok (v', o, s, e) /\
    o <= s /\ s <= e /\ (o = s -> o = 0) /\
    snd (main_n fuel true e (v, outp, cs, ce)) + outp = (e - ce) + 2 * runs false (sub ce e v) + o.
Proof.
  intros Hen. induction fuel as [|fuel IH]; intros v outp cs ce Hl Ho Hc He Hz Hk Hf; [lia|]. cbn [main_n].
  destruct (Nat.ltb_spec ce e) as [Hlt|Hge].
  2:{ assert (ce = e) by lia. subst ce. exists v, outp, cs. cbn [fst snd]. rewrite sub_same. cbn [runs].
      split; auto. repeat split; auto. lia. }
  destruct (sub_head v ce e) as (b & Hb & Hs); [lia|lia|].
  match goal with |- context [andthen (get_n v ce) ?f] => destruct (snd_andthen (get_n v ce) f b) as [-> ->] end.
  { cbn [get_n fst]. unfold get. now rewrite Hb. }
  cbn [get_n snd]. rewrite Hs. cbn [runs].
  destruct (is_ws b) eqn:Eb; cbn [andb negb].
  - set (v1 := set_nth ce space v).
    match goal with |- context [andthen (put_n v ce space) ?f] => destruct (snd_andthen (put_n v ce space) f v1) as [-> ->] end.
    { cbn [put_n fst]. unfold put. replace (ce <? List.length v) with true by (symmetry; apply Nat.ltb_lt; lia). reflexivity. }
    cbn [put_n snd].
    assert (Hce : S ce < e).
    { destruct (Nat.eq_dec (S ce) e) as [<-|]; [|lia]. unfold last_ok in Hk. replace (S ce - 1) with ce in Hk by lia.
      specialize (Hk b Hb). congruence. }
    assert (L1 : List.length v1 = n) by (unfold v1; rewrite set_nth_length; auto).
    assert (K1 : skipn (S ce) v1 = skipn (S ce) v) by (apply skipn_set_nth_gt; lia).
    assert (Hk1 : last_ok v1 e) by (apply (last_ok_skip v v1 e (S ce)); auto).
    assert (S2 : sub (S ce) e v1 = sub (S ce) e v) by (apply sub_ext; auto).
    destruct (scan_ws_spec v1 e ltac:(lia) (S e) (S ce)) as (m & Hm & Hmr & Hd); [lia|lia|].
    rewrite <- scan_same in Hm. destruct (scan_exact v1 e (S e) (S ce) m ltac:(lia) Hm) as [_ Hsn].
    match goal with |- context [andthen (scan_n (S e) v1 e (S ce)) ?f] => destruct (snd_andthen (scan_n (S e) v1 e (S ce)) f m Hm) as [-> ->] end.
    rewrite Hsn. rewrite runs_true, <- S2, Hd.
    assert (Hme : m < e).
    { destruct (Nat.eq_dec m e) as [->|]; [|lia]. exfalso. rewrite sub_same in Hd.
      assert (A : forall l, drop_ws l = [] -> forall i x, nth_error l i = Some x -> is_ws x = true).
      { clear. induction l as [|c l IHl]; intros H i x Hx; [destruct i; discriminate|]. cbn in H. destruct (is_ws c) eqn:E; [|discriminate].
        destruct i; cbn in Hx; [congruence|eauto]. }
      destruct (nth_error v1 (e - 1)) as [x|] eqn:Ex; [|apply nth_error_None in Ex; lia].
      assert (is_ws x = true); [|specialize (Hk1 x Ex); congruence].
      apply (A _ Hd (e - 1 - S ce)). unfold sub.
      rewrite nth_first by lia. rewrite <- nth_skip by lia. exact Ex. }
    destruct (Nat.ltb_spec m e); [|lia].
    destruct (Nat.ltb_spec (S ce) m).
    + destruct (copy_within_spec v1 cs (S ce) outp) as (v2 & Hv2 & L2 & F2 & K2); [lia|lia|lia|].
      match goal with |- context [andthen (copy_n v1 cs (S ce) outp) ?f] => destruct (snd_andthen (copy_n v1 cs (S ce) outp) f v2) as [-> ->] end.
      { exact Hv2. }
      cbn [copy_n snd].
      destruct (IH v2 (outp + (S ce - cs)) m m) as (v' & o & s & R1 & R2 & R3 & R4 & R5); try lia.
      { apply (last_ok_skip v1 v2 e (S ce)); auto; try lia. }
      exists v', o, s. repeat split; auto.
      rewrite (sub_ext v2 v1 m e) in R5 by (apply K2; lia). lia.
    + assert (m = S ce) by lia. subst m.
      destruct (IH v1 outp cs (S ce)) as (v' & o & s & R1 & R2 & R3 & R4 & R5); auto; try lia.
      exists v', o, s. repeat split; auto. lia.
  - destruct (IH v outp cs (S ce)) as (v' & o & s & R1 & R2 & R3 & R4 & R5); auto; try lia.
    exists v', o, s. repeat split; auto. lia.
Qed.

Lemma main_len e collapse : forall fuel v outp cs ce v' o s c, fst (main_n fuel collapse e (v, outp, cs, ce)) = Ok (v', o, s, c) ->
  List.length v' = List.length v.
Proof.
  induction fuel as [|fuel IH]; intros v outp cs ce v' o s c; cbn [main_n]; [discriminate|].
  destruct (Nat.ltb ce e); [|cbn; congruence].
  intro H. destruct (andthen_ok _ _ _ H) as (b & Hb & Hf & _). destruct (is_ws b); [|eauto].
  destruct (andthen_ok _ _ _ Hf) as (v1 & H1 & Hf1 & _). cbn [put_n fst] in H1. unfold put in H1.
  destruct (ce <? List.length v); [|discriminate]. injection H1 as <-. rewrite <- (set_nth_length ce space v).
  destruct collapse; [|eauto]. destruct (andthen_ok _ _ _ Hf1) as (m & H2 & Hf2 & _). destruct (Nat.ltb (S ce) m); [|eauto].
  destruct (andthen_ok _ _ _ Hf2) as (v2 & H3 & Hf3 & _). rewrite (IH _ _ _ _ _ _ _ _ Hf3). cbn [copy_n fst] in H3. unfold copy_within in H3.
  destruct (_ && _ && _) eqn:G in H3; [|discriminate]. injection H3 as <-. apply andb_true_iff in G as [G G3]. apply andb_true_iff in G as [G1 G2].
  apply Nat.leb_le in G1, G2, G3. rewrite !app_length, !firstn_length, !skipn_length. destruct cs; lia.
Qed.

Lemma main_replace e : forall fuel v outp cs ce, e <= List.length v -> ce <= e -> e - ce < fuel ->
  exists v', fst (main_n fuel false e (v, outp, cs, ce)) = Ok (v', outp, cs, e) /\
    snd (main_n fuel false e (v, outp, cs, ce)) = (e - ce) + count is_ws (sub ce e v).
Proof.
  induction fuel as [|fuel IH]; intros v outp cs ce Hl He Hf; [lia|]. cbn [main_n].
  destruct (Nat.ltb_spec ce e) as [Hlt|Hge].
  2:{ assert (ce = e) by lia. subst ce. exists v. cbn [fst snd]. rewrite sub_same, Nat.sub_diag. split; reflexivity. }
  destruct (sub_head v ce e) as (b & Hb & Hs); [lia|lia|].
  match goal with |- context [andthen (get_n v ce) ?f] => destruct (snd_andthen (get_n v ce) f b) as [-> ->] end.
  { cbn [get_n fst]. unfold get. now rewrite Hb. }
  cbn [get_n snd]. rewrite Hs. unfold count. cbn [filter].
  destruct (is_ws b) eqn:Eb.
  - set (v1 := set_nth ce space v).
    match goal with |- context [andthen (put_n v ce space) ?f] => destruct (snd_andthen (put_n v ce space) f v1) as [-> ->] end.
    { cbn [put_n fst]. unfold put. replace (ce <? List.length v) with true by (symmetry; apply Nat.ltb_lt; lia). reflexivity. }
    cbn [put_n snd List.length].
    destruct (IH v1 outp cs (S ce)) as (v' & R1 & R2); try lia.
    { unfold v1. rewrite set_nth_length. auto. }
    exists v'. split; auto. rewrite R2. rewrite (sub_ext v1 v (S ce) e) by (apply skipn_set_nth_gt; lia). unfold count. lia.
  - destruct (IH v outp cs (S ce)) as (v' & R1 & R2); try lia. exists v'. split; auto. rewrite R2. unfold count. lia.
Qed.

Lemma trimmed_app_ws l t : forallb is_ws t = true -> trimmed (l ++ t) = trimmed l.
Proof.
  intro Ht. induction l as [|c l IH]; cbn [app trimmed].
  - induction t as [|c t IH]; cbn; auto. cbn in Ht. apply andb_true_iff in Ht as [Hc Ht]. rewrite (IH Ht), white_ws, Hc. reflexivity.
  - now rewrite IH.
Qed.

Lemma trimmed_last l b : is_ws b = false -> trimmed (l ++ [b]) = S (List.length l).
Proof. intro Hb. induction l as [|c l IH]; cbn; [now rewrite white_ws, Hb|now rewrite IH]. Qed.

Lemma words_app l t b : forallb is_ws t = true -> word_count_ b (l ++ t) = word_count_ b l.
Proof.
  intro Ht. revert b. induction l as [|c l IH]; intro b; cbn [app word_count_].
  - revert b. induction t as [|c t IH]; intro b; cbn; auto. cbn in Ht. apply andb_true_iff in Ht as [Hc Ht].
    rewrite (IH Ht), white_ws, Hc. destruct b; reflexivity.
  - now rewrite IH.
Qed.

Lemma words_drop_ws l : word_count_ true (drop_ws l) = word_count_ true l.
Proof.
  induction l as [|c l IH]; cbn [drop_ws word_count_]; auto. rewrite white_ws. destruct (is_ws c) eqn:E; cbn [andb negb]; auto.
  cbn [word_count_]. rewrite white_ws, E. reflexivity.
Qed.

Lemma filter_ws l : filter white l = filter is_ws l.
Proof. apply filter_ext, white_ws. Qed.

Lemma normalize_exact v w out : fst (normalize_n v w) = Ok out -> snd (normalize_n v w) = normalize_work v w out.
Proof.
  unfold normalize_n, normalize_work. destruct w; [reflexivity| |].
  - intros _. unfold andthen at 1. cbn [fst snd cost Nat.add].
    destruct (main_replace (List.length v) (S (List.length v)) v 0 0 0) as (v' & R1 & R2); try lia.
    match goal with |- context [andthen ?x ?f] => destruct (snd_andthen x f _ R1) as [E _] end.
    rewrite E, R2. cbn [Nat.ltb Nat.leb snd]. unfold sub. rewrite Nat.sub_0_r. cbn [skipn]. rewrite firstn_all.
    unfold count. rewrite filter_ws. lia.
  - destruct (trim_end_spec v (List.length v)) as (e & He & Hle & (t & Ht & Hws) & Hlast); [lia|].
    rewrite firstn_all in Ht. rewrite <- trim_same in He. destruct (trim_exact _ _ _ He) as [_ Hsn].
    assert (Lf : List.length (firstn e v) = e) by (rewrite firstn_length; lia).
    assert (Hcount : exists n, count_n (firstn e v) = (n, n + (if Nat.eqb e 0 then 0 else 1)) /\ n = count_ws (firstn e v) /\ n <= e).
    { pose proof (count_exact (firstn e v)) as C. pose proof (count_same (firstn e v)) as D.
      assert (B : forall l, count_ws l <= List.length l) by (induction l as [|a l IH]; cbn; [lia|]; destruct (is_ws a); lia).
      specialize (B (firstn e v)). rewrite Lf in *.
      destruct (count_n (firstn e v)) as [n k]. cbn [fst snd] in *. exists n. subst n k. split; [|auto]. f_equal. f_equal.
      destruct (Nat.eqb_spec e 0) as [->|He0]; [now destruct (count_ws _)|].
      destruct (Nat.ltb_spec (count_ws (firstn e v)) e); auto. exfalso.
      assert (A : forall l, List.length l <= count_ws l -> forallb is_ws l = true).
      { induction l as [|a l IHl]; cbn; auto. destruct (is_ws a); [intro; apply IHl; lia|lia]. }
      destruct (nth_error v (e - 1)) as [x|] eqn:Ex; [|apply nth_error_None in Ex; lia].
      specialize (Hlast x He0 eq_refl). assert (Hin : In x (firstn e v)).
      { apply (nth_error_In _ (e - 1)). rewrite <- Ex. rewrite Ht at 2. rewrite nth_error_app1; auto. lia. }
      specialize (A (firstn e v)). rewrite Lf in A. pose proof (proj1 (forallb_forall _ _) (A H) x Hin). congruence. }
    destruct Hcount as (n & Hc & Hn & Hne).
    match goal with |- context [andthen (andthen (trim_n v ?k) ?f) ?g] => destruct (snd_andthen (trim_n v k) f _ He) as [E1 E2]; destruct (snd_andthen (andthen (trim_n v k) f) g (e, n)) as [E3 E4] end.
    { rewrite E2, Hc. reflexivity. }
    rewrite E3, E4, E1, Hsn. rewrite Hc. cbn [snd]. clear E1 E2 E3 E4.
    assert (Hte : trimmed v = e /\ (forall b, word_count_ b v = word_count_ b (firstn e v)) /\ ends_ok (firstn e v)).
    { assert (EO : ends_ok (firstn e v)).
      { intros l' b E. assert (L : List.length l' = e - 1 /\ e <> 0) by (rewrite E, app_length in Lf; cbn in Lf; lia).
        apply Hlast; [lia|]. rewrite Ht, E. destruct L as [<- _]. rewrite <- app_assoc, nth_error_app2 by lia. now rewrite Nat.sub_diag. }
      split; [|split]; auto.
      - rewrite Ht, trimmed_app_ws by auto. destruct e as [|e]; [reflexivity|].
        destruct (exists_last (l := firstn (S e) v)) as (l' & b & E); [intro E; rewrite E in Lf; discriminate|].
        rewrite E in *. rewrite trimmed_last by (now apply (EO l' b)). rewrite app_length in Lf. cbn in Lf. lia.
      - intro b. rewrite Ht at 1. now apply words_app. }
    destruct Hte as (Hte & Hwc & EO). unfold word_count. rewrite Hte, Hwc.
    destruct (Nat.eqb_spec e 0) as [->|He0].
    { assert (n = 0) by lia. rewrite H. cbn [main_n Nat.ltb Nat.leb]. unfold andthen. cbn. intros [= <-]. cbn. lia. }
    destruct (main_exact e (List.length v) Hle (S e) v 0 n n) as (v' & o & s & R1 & R2 & R3 & R4 & R5); auto; try lia.
    { intros b Hb. now apply Hlast. }
    match goal with |- context [andthen (main_n ?a ?b ?c ?d) ?g] => destruct (snd_andthen (main_n a b c d) g _ R1) as [E1 E2] end.
    rewrite E1, E2. clear E1 E2.
    assert (Hlen : List.length v' = List.length v).
    { apply main_len in R1. exact R1. }
    assert (Hmid : sub n e v = drop_ws (firstn e v)).
    { rewrite <- skipn_count_ws, <- Hn. unfold sub. now rewrite skipn_firstn_comm. }
    assert (Hdn : drop_ws (firstn e v) <> []).
    { rewrite <- Hmid. intro E. apply (f_equal (@List.length _)) in E. rewrite sub_length in E by lia. cbn in E.
      assert (n = e) by lia. subst n. rewrite <- count_same in H. pose proof (count_exact (firstn e v)) as C. rewrite Hc, Lf in C. cbn [fst snd] in C.
      destruct (Nat.eqb_spec e 0); [lia|]. rewrite Hc in H. cbn in H. destruct (Nat.ltb_spec (count_ws (firstn e v)) e); lia. }
    assert (EO' : ends_ok (drop_ws (firstn e v))).
    { destruct (drop_ws_suffix (firstn e v)) as [p Hp]. intros l' b E. apply (EO (p ++ l') b). rewrite Hp, E, app_assoc. reflexivity. }
    rewrite <- words_drop_ws. rewrite (proj2 (runs_words _ EO') Hdn).
    assert (Hrt : runs true (drop_ws (firstn e v)) = runs false (drop_ws (firstn e v))).
    { pose proof (drop_ws_no (firstn e v)) as D. destruct (drop_ws (firstn e v)) as [|c l]; auto. cbn. now rewrite D. }
    rewrite Hrt. rewrite Hmid in R5.
    destruct (Nat.ltb_spec o s) as [Hos|Hos].
    + destruct (copy_within_spec v' s e o) as (v2 & Hv2 & L2 & F2 & K2); [lia|lia|lia|].
      match goal with |- context [andthen (copy_n v' s e o) ?f] => destruct (snd_andthen (copy_n v' s e o) f v2 Hv2) as [-> ->] end.
      cbn [copy_n fst snd]. intros [= <-]. rewrite firstn_length.
      destruct (Nat.eqb_spec (Nat.min (o + (e - s)) (List.length v2)) e); lia.
    + cbn [fst snd]. intros [= <-]. rewrite firstn_length.
      destruct (Nat.eqb_spec (Nat.min e (List.length v')) e); lia.
Qed.

Lemma normalize_counted v w : exists out, Normalize.normalize_bytes v w = Ok out /\ snd (normalize_n v w) = normalize_work v w out.
Proof.
  exists (norm_spec w v). split; [apply normalize_bytes_spec|]. apply normalize_exact. rewrite normalize_same. apply normalize_bytes_spec.
Qed.
