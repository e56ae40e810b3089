(** The buffer algorithm computes the specification; consequences. *)
From Verif Require Import Base Normalize NormalizeSpec.
From Coq Require Import Lia Arith.

(** ** Lists *)

Definition sub {A} (s e : nat) (v : list A) := firstn (e - s) (skipn s v).

Lemma firstn_plus {A} n m (l : list A) :
  firstn (n + m) l = firstn n l ++ firstn m (skipn n l).
Proof.
  revert l; induction n; intro l; cbn; [reflexivity|].
  destruct l; cbn; [now rewrite firstn_nil|]. now rewrite IHn.
Qed.

Lemma skipn_plus {A} n m (l : list A) : skipn (n + m) l = skipn m (skipn n l).
Proof. revert l; induction n; intro l; cbn; [reflexivity|]. destruct l; cbn; auto using skipn_nil. Qed.

Lemma skipn_app_exact {A} (l1 l2 : list A) n : n = length l1 -> skipn n (l1 ++ l2) = l2.
Proof. intros ->. rewrite skipn_app, skipn_all, Nat.sub_diag. reflexivity. Qed.

Lemma firstn_app_exact {A} (l1 l2 : list A) n : n = length l1 -> firstn n (l1 ++ l2) = l1.
Proof. intros ->. rewrite firstn_app, firstn_all, Nat.sub_diag. cbn. now rewrite app_nil_r. Qed.

Lemma set_nth_length {A} i (x : A) l : length (set_nth i x l) = length l.
Proof. revert i; induction l; intros [|i]; cbn; auto. Qed.

Lemma set_nth_split {A} i (x : A) l : i < length l ->
  set_nth i x l = firstn i l ++ x :: skipn (S i) l.
Proof.
  revert i; induction l; intros [|i] H; cbn in *; try lia; auto.
  f_equal. apply IHl. lia.
Qed.

Lemma nth_skipn {A} (v : list A) i b : nth_error v i = Some b -> skipn i v = b :: skipn (S i) v.
Proof.
  revert i; induction v; intros [|i] H; cbn in *; try discriminate.
  - now inversion H.
  - now rewrite (IHv i H).
Qed.

Lemma skipn_set_nth_gt {A} i j (x : A) l : i < j -> skipn j (set_nth i x l) = skipn j l.
Proof.
  revert i j; induction l; intros [|i] [|j] H; cbn; try lia; auto.
  apply IHl; lia.
Qed.

Lemma firstn_set_nth {A} i j (x : A) l : j <= i -> firstn j (set_nth i x l) = firstn j l.
Proof.
  revert i j; induction l; intros [|i] [|j] H; cbn; try lia; auto.
  f_equal. apply IHl; lia.
Qed.

Lemma nth_set_nth {A} i (x : A) l : i < length l -> nth_error (set_nth i x l) i = Some x.
Proof. revert i; induction l; intros [|i] H; cbn in *; try lia; auto. apply IHl; lia. Qed.

Lemma sub_S {A} (v : list A) s e b : s <= e -> nth_error v e = Some b -> sub s (S e) v = sub s e v ++ [b].
Proof.
  intros H Hb. unfold sub. replace (S e - s) with ((e - s) + 1) by lia.
  rewrite firstn_plus, <- skipn_plus. replace (s + (e - s)) with e by lia.
  now rewrite (nth_skipn _ _ _ Hb).
Qed.

Lemma sub_same {A} (v : list A) s : sub s s v = [].
Proof. unfold sub. now rewrite Nat.sub_diag. Qed.

Lemma firstn_sub {A} (v : list A) s e : s <= e -> firstn e v = firstn s v ++ sub s e v.
Proof. intro H. unfold sub. rewrite <- firstn_plus. f_equal. lia. Qed.

Lemma sub_length {A} (v : list A) s e : s <= e -> e <= length v -> length (sub s e v) = e - s.
Proof. intros. unfold sub. rewrite firstn_length, skipn_length. lia. Qed.

(** ** Squeezing runs of white space *)

Fixpoint drop_ws (l : list ascii) : list ascii :=
  match l with
  | b :: l' => if is_ws b then drop_ws l' else l
  | [] => []
  end.

Lemma skipn_count_ws l : skipn (count_ws l) l = drop_ws l.
Proof. induction l; cbn; auto. destruct (is_ws a); cbn; auto. Qed.

(** [squeeze_ b l]: each run of white space becomes one space; [b] says whether a run is being
    skipped. *)
Fixpoint squeeze_ (skip : bool) (l : list ascii) : list ascii :=
  match l with
  | [] => []
  | b :: l' =>
      if is_ws b then if skip then squeeze_ true l' else space :: squeeze_ true l'
      else b :: squeeze_ false l'
  end.

Definition squeeze := squeeze_ false.

Lemma squeeze_true l : squeeze_ true l = squeeze (drop_ws l).
Proof.
  unfold squeeze. induction l; cbn; auto. destruct (is_ws a) eqn:E; auto.
  cbn. now rewrite E.
Qed.

Definition tail_spec (collapse : bool) (l : list ascii) : list ascii :=
  if collapse then squeeze l else spec_replace is_ws space l.

(** ** The loops *)

Lemma trim_end_spec v e : e <= length v ->
  exists e', trim_end v e = Ok e' /\ e' <= e /\
    (exists t, firstn e v = firstn e' v ++ t /\ forallb is_ws t = true) /\
    (forall b, e' <> 0 -> nth_error v (e' - 1) = Some b -> is_ws b = false).
Proof.
  induction e as [|e IH]; intro H.
  - exists 0. cbn. repeat split; auto. exists []. auto. congruence.
  - cbn [trim_end]. unfold get.
    destruct (nth_error v e) eqn:Hn.
    2:{ apply nth_error_None in Hn. lia. }
    cbn [bind]. destruct (is_ws a) eqn:Ea.
    + destruct IH as (e' & H1 & H2 & (t & H3 & H4) & H5); [lia|].
      exists e'. split; [exact H1|]. split; [lia|]. split; [|exact H5].
      exists (t ++ [a]). split.
      * rewrite app_assoc, <- H3. replace (S e) with (e + 1) by lia.
        rewrite firstn_plus. rewrite (nth_skipn _ _ _ Hn). reflexivity.
      * rewrite forallb_app, H4. cbn. now rewrite Ea.
    + exists (S e). repeat split; auto.
      * exists []. rewrite app_nil_r. auto.
      * intros b _ Hb. cbn in Hb. rewrite Nat.sub_0_r, Hn in Hb. congruence.
Qed.

Lemma scan_ws_spec v e : e <= length v -> forall fuel n, n <= e -> e - n < fuel ->
  exists m, scan_ws fuel v e n = Ok m /\ n <= m <= e /\ drop_ws (sub n e v) = sub m e v.
Proof.
  intros He. induction fuel; intros n Hn Hf; [lia|].
  cbn [scan_ws]. destruct (Nat.ltb_spec n e).
  - unfold get. destruct (nth_error v n) eqn:En.
    2:{ apply nth_error_None in En. lia. }
    cbn [bind].
    assert (Hs : sub n e v = a :: sub (S n) e v).
    { unfold sub. replace (e - n) with (S (e - S n)) by lia.
      rewrite (nth_skipn _ _ _ En). reflexivity. }
    destruct (is_ws a) eqn:Ea.
    + destruct (IHfuel (S n)) as (m & H1 & H2 & H3); [lia|lia|].
      exists m. split; auto. split; [lia|]. rewrite Hs. cbn. now rewrite Ea.
    + exists n. split; auto. split; [lia|]. rewrite Hs. cbn. now rewrite Ea.
  - exists n. split; auto. split; [lia|]. replace n with e by lia.
    now rewrite sub_same.
Qed.

Lemma copy_within_spec v s e d : d <= s -> s <= e -> e <= length v ->
  exists v', copy_within v s e d = Ok v' /\ length v' = length v /\
    firstn (d + (e - s)) v' = firstn d v ++ sub s e v /\
    (forall k, e <= k -> skipn k v' = skipn k v).
Proof.
  intros H1 H2 H3. unfold copy_within.
  replace (_ && _ && _) with true.
  2:{ symmetry. repeat (apply andb_true_intro; split); apply Nat.leb_le; lia. }
  eexists; split; [reflexivity|].
  assert (L1 : length (firstn d v) = d) by (rewrite firstn_length; lia).
  assert (L2 : length (firstn (e - s) (skipn s v)) = e - s)
    by (rewrite firstn_length, skipn_length; lia).
  split.
  { rewrite !app_length, L1, L2, skipn_length. lia. }
  split.
  { rewrite app_assoc. apply firstn_app_exact. unfold sub. rewrite app_length, L1, L2. reflexivity. }
  intros k Hk. rewrite app_assoc.
  replace k with ((d + (e - s)) + (k - (d + (e - s)))) by lia.
  rewrite skipn_plus, skipn_app_exact; [|rewrite app_length; lia].
  now rewrite <- skipn_plus.
Qed.

Definition inv (collapse : bool) (n e : nat) (target : list ascii) (st : nstate) : Prop :=
  let '(v, outp, cs, ce) := st in
  length v = n /\ e <= n /\ outp <= cs /\ cs <= ce /\ ce <= e /\
  (firstn outp v ++ sub cs ce v) ++ tail_spec collapse (sub ce e v) = target.

Lemma sub_head {A} (v : list A) s e : s < e -> e <= length v ->
  exists b, nth_error v s = Some b /\ sub s e v = b :: sub (S s) e v.
Proof.
  intros H1 H2. destruct (nth_error v s) eqn:En.
  2:{ apply nth_error_None in En. lia. }
  exists a. split; auto. unfold sub. replace (e - s) with (S (e - S s)) by lia.
  now rewrite (nth_skipn _ _ _ En).
Qed.

Lemma sub_ext {A} (v v' : list A) s e : skipn s v = skipn s v' -> sub s e v = sub s e v'.
Proof. unfold sub. now intros ->. Qed.

Lemma main_loop_spec collapse n e target : forall fuel st,
  inv collapse n e target st -> e - snd st < fuel ->
  exists v outp cs, main_loop fuel collapse e st = Ok (v, outp, cs, e) /\
    inv collapse n e target (v, outp, cs, e).
Proof.
  induction fuel; intros [[[v outp] cs] ce] Hinv Hf; [lia|].
  cbn [snd] in Hf. cbn [main_loop].
  destruct (Nat.ltb_spec ce e).
  2:{ destruct Hinv as (? & ? & ? & ? & ? & ?). replace ce with e in * by lia.
      exists v, outp, cs. repeat split; auto. }
  destruct Hinv as (Hl & Hen & Ho & Hc & Hce & Ht).
  destruct (sub_head v ce e) as (b & Hb & Hs); [lia|lia|].
  unfold get. rewrite Hb. cbn [bind].
  destruct (is_ws b) eqn:Eb.
  - unfold put. replace (ce <? length v) with true by (symmetry; apply Nat.ltb_lt; lia).
    cbn [bind].
    set (v1 := set_nth ce space v).
    assert (L1 : length v1 = n) by (unfold v1; rewrite set_nth_length; auto).
    assert (Hb1 : nth_error v1 ce = Some space) by (apply nth_set_nth; lia).
    assert (F1 : firstn outp v1 = firstn outp v) by (apply firstn_set_nth; lia).
    assert (S1 : sub cs ce v1 = sub cs ce v).
    { apply (app_inv_head (firstn cs v)).
      rewrite <- (firstn_sub v cs ce) by lia.
      rewrite <- (firstn_set_nth ce cs space v) by lia. fold v1.
      rewrite <- firstn_sub by lia. apply firstn_set_nth. lia. }
    assert (S2 : sub (S ce) e v1 = sub (S ce) e v).
    { apply sub_ext. apply skipn_set_nth_gt. lia. }
    destruct collapse.
    + destruct (scan_ws_spec v1 e ltac:(lia) (S e) (S ce)) as (m & Hm & Hmr & Hd); [lia|lia|].
      rewrite Hm. cbn [bind].
      cbn [tail_spec] in Ht. rewrite Hs in Ht. unfold squeeze in Ht. cbn [squeeze_] in Ht.
      rewrite Eb, squeeze_true in Ht.
      rewrite S2 in Hd. rewrite Hd in Ht.
      destruct (Nat.ltb_spec (S ce) m).
      * destruct (copy_within_spec v1 cs (S ce) outp) as (v2 & Hv2 & L2 & F2 & K2); [lia|lia|lia|].
        rewrite Hv2. cbn [bind].
        apply IHfuel; [|cbn [snd]; lia].
        repeat split; try lia.
        rewrite F2, sub_same, app_nil_r, F1.
        rewrite (sub_S v1 cs ce space) by (auto; lia). rewrite S1.
        cbn [tail_spec]. rewrite (sub_ext v2 v m e).
        2:{ rewrite K2 by lia. apply skipn_set_nth_gt. lia. }
        rewrite (sub_ext v1 v m e) in Ht.
        2:{ apply skipn_set_nth_gt. lia. }
        rewrite <- Ht. rewrite <- !app_assoc. reflexivity.
      * assert (m = S ce) by lia. subst m.
        apply IHfuel; [|cbn [snd]; lia].
        repeat split; try lia.
        rewrite F1, (sub_S v1 cs ce space) by (auto; lia). rewrite S1.
        cbn [tail_spec]. rewrite <- Ht. rewrite <- !app_assoc. reflexivity.
    + apply IHfuel; [|cbn [snd]; lia].
      repeat split; try lia.
      rewrite F1, (sub_S v1 cs ce space) by (auto; lia). rewrite S1, S2.
      cbn [tail_spec] in *. rewrite <- Ht, Hs. cbn [spec_replace map]. rewrite Eb.
      rewrite <- !app_assoc. reflexivity.
  - apply IHfuel; [|cbn [snd]; lia].
    repeat split; try lia.
    rewrite (sub_S v cs ce b) by (auto; lia). rewrite <- Ht, Hs.
    destruct collapse; cbn [tail_spec].
    + unfold squeeze. cbn [squeeze_]. rewrite Eb. rewrite <- !app_assoc. reflexivity.
    + cbn [spec_replace map]. rewrite Eb. rewrite <- !app_assoc. reflexivity.
Qed.

(** ** Squeezing a trimmed string is joining its words *)

Lemma pieces_ne {A} ws (s : list A) : pieces ws s <> [].
Proof. destruct s; cbn; [discriminate|]. destruct (ws a); [discriminate|]. destruct (pieces ws s); discriminate. Qed.

Lemma words_ws {A} ws (c : A) s : ws c = true -> words ws (c :: s) = words ws s.
Proof. intro H. unfold words. cbn. rewrite H. reflexivity. Qed.

Lemma words_drop s : words is_ws (drop_ws s) = words is_ws s.
Proof. induction s; cbn [drop_ws]; auto. destruct (is_ws a) eqn:E; auto. now rewrite words_ws. Qed.

Lemma words_nil_iff {A} ws (s : list A) : words ws s = [] <-> forallb ws s = true.
Proof.
  induction s as [|a s IH]; [cbn; tauto|]. cbn [forallb].
  destruct (ws a) eqn:E; cbn [andb].
  - rewrite words_ws; auto.
  - unfold words. cbn. rewrite E. destruct (pieces ws s); cbn; split; discriminate.
Qed.

(** Words of a string starting with a non-white-space character. *)
Lemma words_cons {A} ws (c : A) s : ws c = false ->
  words ws (c :: s) =
    match s with
    | [] => [[c]]
    | d :: s' => if ws d then [c] :: words ws s'
                 else match words ws s with w :: r => (c :: w) :: r | [] => [[c]] end
    end.
Proof.
  intro H. unfold words. cbn. rewrite H. destruct s as [|d s']; [reflexivity|].
  cbn. destruct (ws d) eqn:Ed; cbn; [reflexivity|].
  destruct (pieces ws s'); reflexivity.
Qed.

Definition ends_ok (l : list ascii) := forall l' b, l = l' ++ [b] -> is_ws b = false.

Lemma ends_ok_tail c l : ends_ok (c :: l) -> ends_ok l.
Proof. intros H l' b ->. apply (H (c :: l') b). reflexivity. Qed.

Lemma ends_ok_words c l : ends_ok (c :: l) -> words is_ws (c :: l) <> [].
Proof.
  intros H W. apply words_nil_iff in W.
  destruct (exists_last (l := c :: l)) as (l' & b & E); [discriminate|].
  specialize (H _ _ E). rewrite E, forallb_app in W. apply andb_true_iff in W as [_ W].
  cbn in W. rewrite H in W. discriminate.
Qed.

Lemma join_cons {A} (sp : A) w r : r <> [] -> join sp (w :: r) = w ++ sp :: join sp r.
Proof. destruct r; [congruence|reflexivity]. Qed.

Lemma squeeze_words l : ends_ok l ->
  squeeze_ true l = join space (words is_ws l) /\
  (match l with b :: _ => is_ws b = false | [] => True end ->
   squeeze_ false l = join space (words is_ws l)).
Proof.
  induction l as [|c l IH]; intro H; [cbn; auto|].
  pose proof (IH (ends_ok_tail _ _ H)) as [IH1 IH2].
  cbn [squeeze_].
  destruct (is_ws c) eqn:Ec.
  - rewrite words_ws by auto. split; [exact IH1|discriminate].
  - cut (c :: squeeze_ false l = join space (words is_ws (c :: l))); [auto|].
    rewrite words_cons by auto. destruct l as [|d l']; [reflexivity|].
    cbn [squeeze_] in *. destruct (is_ws d) eqn:Ed.
    + rewrite words_ws in IH1 by auto. rewrite IH1.
      assert (words is_ws l' <> []).
      { rewrite <- (words_ws is_ws d l' Ed). apply ends_ok_words. now apply ends_ok_tail in H. }
      destruct (words is_ws l') eqn:E; [congruence|reflexivity].
    + rewrite IH2 by auto.
      destruct (words is_ws (d :: l')) as [|w r]; [reflexivity|].
      destruct r; reflexivity.
Qed.

(** White space at the end does not matter to the words. *)
Lemma pieces_app_ws {A} ws (s t : list A) : forallb ws t = true ->
  filter nonempty (pieces ws (s ++ t)) = filter nonempty (pieces ws s).
Proof.
  intro Ht. induction s as [|c s IH]; cbn [app pieces].
  - change (words ws t = []). now apply words_nil_iff.
  - destruct (ws c) eqn:E; [exact IH|].
    destruct s as [|d s'].
    + destruct t as [|u t]; [reflexivity|]. cbn in Ht. apply andb_true_iff in Ht as [Hu Ht].
      cbn. rewrite Hu. cbn. f_equal. change (words ws t = []). now apply words_nil_iff.
    + destruct (ws d) eqn:Ed.
      * cbn in IH |- *. rewrite Ed in IH |- *. cbn in IH |- *. f_equal. exact IH.
      * cbn in IH |- *. rewrite Ed in IH |- *.
        destruct (pieces ws (s' ++ t)), (pieces ws s'); cbn in *; congruence.
Qed.

Lemma words_app_ws {A} ws (s t : list A) : forallb ws t = true -> words ws (s ++ t) = words ws s.
Proof. exact (pieces_app_ws ws s t). Qed.

Lemma drop_ws_no l : match drop_ws l with b :: _ => is_ws b = false | [] => True end.
Proof. induction l; cbn; auto. destruct (is_ws a) eqn:E; auto. Qed.

Lemma drop_ws_suffix l : exists p, l = p ++ drop_ws l.
Proof.
  induction l as [|b l [p IH]]; [exists []; auto|]. cbn. destruct (is_ws b).
  - exists (b :: p). cbn. now rewrite <- IH.
  - exists []. reflexivity.
Qed.

(** ** Main theorem *)

Definition norm_spec (w : whitespace) (s : list ascii) : list ascii :=
  match w with
  | Preserve => s
  | Replace => spec_replace is_ws space s
  | Collapse => spec_collapse is_ws space s
  end.

Lemma finish_spec collapse n e target v outp cs :
  inv collapse n e target (v, outp, cs, e) ->
  (if Nat.ltb outp cs
   then bind (copy_within v cs e outp) (fun v => Ok (firstn (outp + (e - cs)) v))
   else Ok (firstn e v)) = (Ok target : nres _).
Proof.
  intros (H1 & H2 & H3 & H4 & H5 & H6).
  rewrite sub_same in H6.
  replace (tail_spec collapse []) with (@nil ascii) in H6 by (destruct collapse; reflexivity).
  rewrite app_nil_r in H6.
  destruct (Nat.ltb_spec outp cs).
  - destruct (copy_within_spec v cs e outp) as (v' & Hv & _ & F & _); [lia|lia|lia|].
    rewrite Hv. cbn [bind]. now rewrite F, H6.
  - replace cs with outp in * by lia. now rewrite (firstn_sub v outp e), H6 by lia.
Qed.

Theorem normalize_bytes_spec v w : normalize_bytes v w = Ok (norm_spec w v).
Proof.
  destruct w; cbn [normalize_bytes norm_spec]; [reflexivity| |].
  - cbn [bind].
    destruct (main_loop_spec false (length v) (length v) (spec_replace is_ws space v)
                (S (length v)) (v, 0, 0, 0)) as (v' & outp & cs & Hm & Hi).
    + repeat split; try lia. cbn [firstn]. rewrite sub_same. cbn [app tail_spec].
      unfold sub. rewrite Nat.sub_0_r. cbn [skipn]. now rewrite firstn_all.
    + cbn [snd]; lia.
    + rewrite Hm. cbn [bind]. eapply finish_spec; eauto.
  - destruct (trim_end_spec v (length v)) as (e & He & Hle & (t & Ht & Hws) & Hlast); [lia|].
    rewrite He. cbn [bind]. rewrite firstn_all in Ht.
    set (start := count_ws (firstn e v)).
    assert (Hst : start <= e).
    { unfold start. assert (forall l, count_ws l <= length l) as C.
      { induction l; cbn; [lia|]. destruct (is_ws a); lia. }
      specialize (C (firstn e v)). rewrite firstn_length in C. lia. }
    assert (Hmid : sub start e v = drop_ws (firstn e v)).
    { rewrite <- skipn_count_ws. fold start. unfold sub. now rewrite skipn_firstn_comm. }
    destruct (main_loop_spec true (length v) e (spec_collapse is_ws space v)
                (S e) (v, 0, start, start)) as (v' & outp & cs & Hm & Hi).
    + repeat split; try lia. cbn [firstn]. rewrite sub_same. cbn [app tail_spec].
      rewrite Hmid. unfold squeeze, spec_collapse.
      rewrite Ht at 2. rewrite words_app_ws by auto.
      rewrite <- words_drop.
      apply squeeze_words; [|apply drop_ws_no].
      intros l' b E. destruct (drop_ws_suffix (firstn e v)) as [p Hp].
      rewrite E in Hp. rewrite app_assoc in Hp.
      assert (e <> 0). { intros ->. cbn in Hp. destruct (p ++ l'); discriminate. }
      apply Hlast; [auto|].
      assert (L : e - 1 = length (p ++ l')).
      { assert (length (firstn e v) = e) by (rewrite firstn_length; lia).
        rewrite Hp, app_length in H0. cbn in H0. lia. }
      rewrite Ht, Hp. rewrite nth_error_app1, nth_error_app2.
      * rewrite L, Nat.sub_diag. reflexivity.
      * lia.
      * rewrite app_length. cbn. lia.
    + cbn [snd]; lia.
    + rewrite Hm. cbn [bind]. eapply finish_spec; eauto.
Qed.

Theorem normalize_spec s w : normalize s w = Ok (str_of (norm_spec w (bytes_of s))).
Proof. unfold normalize. rewrite normalize_bytes_spec. reflexivity. Qed.

(** ** UTF-8 *)

Lemma ascii_N n : (n < 256)%N -> N_of_ascii (ascii_of_N n) = n.
Proof. apply N_ascii_embedding. Qed.

Lemma is_ws_N b : is_ws b = ws_char (N_of_ascii b).
Proof. destruct b as [[] [] [] [] [] [] [] []]; reflexivity. Qed.

Lemma is_ws_byte n : (n < 256)%N -> is_ws (byte n) = ws_char n.
Proof. intro H. rewrite is_ws_N. unfold byte. now rewrite ascii_N. Qed.

Lemma utf8_char_ws c : ws_char c = true -> utf8_char c = [byte c] /\ is_ws (byte c) = true.
Proof.
  unfold ws_char. intro H.
  assert (c = 9 \/ c = 10 \/ c = 13 \/ c = 32)%N as [-> | [-> | [-> | ->]]] by
    (rewrite !orb_true_iff, !N.eqb_eq in H; tauto); split; reflexivity.
Qed.

Lemma ws_char_big n : (128 <= n)%N -> ws_char n = false.
Proof.
  intro H. unfold ws_char.
  rewrite !orb_false_iff, !N.eqb_neq. repeat split; lia.
Qed.

Lemma is_ws_big n : (128 <= n)%N -> (n < 256)%N -> is_ws (byte n) = false.
Proof. intros. rewrite is_ws_byte by auto. now apply ws_char_big. Qed.

Lemma byte_mod k : is_ws (byte (128 + k mod 64)) = false.
Proof.
  pose proof (N.mod_lt k 64 ltac:(discriminate)) as H. revert H.
  generalize (k mod 64)%N. intros. apply is_ws_big; lia.
Qed.

Lemma byte_lead a b q : (q < b -> 128 <= a -> a + b <= 256 -> is_ws (byte (a + q)) = false)%N.
Proof. intros. apply is_ws_big; lia. Qed.

Lemma utf8_char_nonws c : is_scalar c = true -> ws_char c = false ->
  utf8_char c <> [] /\ forallb (fun b => negb (is_ws b)) (utf8_char c) = true.
Proof.
  intros Hs Hw. unfold is_scalar in Hs. unfold utf8_char.
  assert (c <= 0x10FFFF)%N.
  { rewrite orb_true_iff, andb_true_iff, N.ltb_lt, !N.leb_le in Hs. lia. }
  destruct (N.ltb_spec c 128).
  { split; [discriminate|]. cbn [forallb]. rewrite is_ws_byte by lia. now rewrite Hw. }
  destruct (N.ltb_spec c 2048).
  { split; [discriminate|]. cbn [forallb]. rewrite !byte_mod.
    rewrite (byte_lead _ 32); [reflexivity|apply N.div_lt_upper_bound; lia|lia|lia]. }
  destruct (N.ltb_spec c 65536).
  { split; [discriminate|]. cbn [forallb]. rewrite !byte_mod.
    rewrite (byte_lead _ 16); [reflexivity|apply N.div_lt_upper_bound; lia|lia|lia]. }
  split; [discriminate|]. cbn [forallb]. rewrite !byte_mod.
  rewrite (byte_lead _ 8); [reflexivity|apply N.div_lt_upper_bound; lia|lia|lia].
Qed.

Lemma utf8_app a b : utf8 (a ++ b) = utf8 a ++ utf8 b.
Proof. unfold utf8. apply flat_map_app. Qed.

Lemma utf8_replace cs : forallb is_scalar cs = true ->
  spec_replace is_ws space (utf8 cs) = utf8 (spec_replace ws_char 32%N cs).
Proof.
  induction cs as [|c cs IH]; cbn [forallb]; [reflexivity|].
  intro H. apply andb_true_iff in H as [Hc H].
  cbn [spec_replace map]. unfold utf8 in *. cbn [flat_map].
  unfold spec_replace in *. rewrite map_app, IH by auto. f_equal.
  destruct (ws_char c) eqn:Ew.
  - destruct (utf8_char_ws c Ew) as [-> E]. cbn. now rewrite E.
  - destruct (utf8_char_nonws c Hc Ew) as [_ F].
    revert F. generalize (utf8_char c). induction l; cbn; auto.
    intro F. apply andb_true_iff in F as [F1 F2]. rewrite (IHl F2).
    destruct (is_ws a); [discriminate|reflexivity].
Qed.

Lemma pieces_nonws_app (l s : list ascii) : forallb (fun b => negb (is_ws b)) l = true ->
  pieces is_ws (l ++ s) =
  match pieces is_ws s with w :: r => (l ++ w) :: r | [] => [l] end.
Proof.
  induction l; cbn; intro H.
  - destruct (pieces is_ws s) eqn:E; [now apply pieces_ne in E|reflexivity].
  - apply andb_true_iff in H as [H1 H2]. rewrite (IHl H2).
    destruct (is_ws a); [discriminate|].
    destruct (pieces is_ws s); reflexivity.
Qed.

Lemma utf8_pieces cs : forallb is_scalar cs = true ->
  pieces is_ws (utf8 cs) = map utf8 (pieces ws_char cs).
Proof.
  induction cs as [|c cs IH]; cbn [forallb]; [reflexivity|].
  intro H. apply andb_true_iff in H as [Hc H].
  unfold utf8 at 1. cbn [flat_map]. fold (utf8 cs). cbn [pieces].
  destruct (ws_char c) eqn:Ew.
  - destruct (utf8_char_ws c Ew) as [-> E]. cbn. rewrite E, IH by auto. reflexivity.
  - destruct (utf8_char_nonws c Hc Ew) as [_ F].
    rewrite pieces_nonws_app by auto. rewrite IH by auto.
    destruct (pieces ws_char cs) eqn:E; [now apply pieces_ne in E|reflexivity].
Qed.

Lemma pieces_scalar cs : forallb is_scalar cs = true ->
  Forall (fun w => forallb is_scalar w = true /\ forallb (fun c => negb (ws_char c)) w = true)
    (pieces ws_char cs).
Proof.
  induction cs as [|c cs IH]; cbn [forallb pieces]; intro H.
  - repeat constructor.
  - apply andb_true_iff in H as [Hc H]. specialize (IH H).
    destruct (ws_char c) eqn:E; [constructor; auto|].
    destruct (pieces ws_char cs); inversion IH; subst; constructor; auto; cbn.
    + rewrite Hc, E. auto.
    + rewrite Hc, E. auto.
Qed.

Lemma utf8_words cs : forallb is_scalar cs = true ->
  words is_ws (utf8 cs) = map utf8 (words ws_char cs).
Proof.
  intro H. unfold words. rewrite utf8_pieces by auto.
  pose proof (pieces_scalar cs H) as F. induction F as [|w r [W1 W2] _ IH]; [reflexivity|].
  cbn [map filter]. destruct w as [|c w]; cbn [map filter nonempty utf8 flat_map]; [exact IH|].
  cbn in W1, W2. apply andb_true_iff in W1 as [W1 _]. apply andb_true_iff in W2 as [W2 _].
  apply negb_true_iff in W2. destruct (utf8_char_nonws c W1 W2) as [N _].
  fold (utf8 w). rewrite <- IH. unfold utf8 at 2. cbn [flat_map].
  destruct (utf8_char c); [congruence|reflexivity].
Qed.

Lemma utf8_join l : utf8 (join 32%N l) = join space (map utf8 l).
Proof.
  induction l as [|w r IH]; [reflexivity|].
  destruct r as [|w' r]; [reflexivity|].
  change (join 32%N (w :: w' :: r)) with (w ++ [32%N] ++ join 32%N (w' :: r)).
  change (join space (map utf8 (w :: w' :: r)))
    with (utf8 w ++ [space] ++ join space (map utf8 (w' :: r))).
  now rewrite !utf8_app, IH.
Qed.

Definition norm_spec_chars (w : whitespace) (s : list N) : list N :=
  match w with
  | Preserve => s
  | Replace => spec_replace ws_char 32%N s
  | Collapse => spec_collapse ws_char 32%N s
  end.

Theorem normalize_utf8 cs w : forallb is_scalar cs = true ->
  normalize_bytes (utf8 cs) w = Ok (utf8 (norm_spec_chars w cs)).
Proof.
  intro H. rewrite normalize_bytes_spec. f_equal.
  destruct w; cbn; [reflexivity|now apply utf8_replace|].
  unfold spec_collapse. now rewrite utf8_words, utf8_join.
Qed.

Theorem norm_chars_scalar cs w : forallb is_scalar cs = true ->
  forallb is_scalar (norm_spec_chars w cs) = true.
Proof.
  intro H. destruct w; cbn; [auto| |].
  - unfold spec_replace. rewrite forallb_forall in *. intros x Hx.
    apply in_map_iff in Hx as (c & Hx & Hin). destruct (ws_char c); subst; auto.
  - unfold spec_collapse, words. pose proof (pieces_scalar cs H) as F.
    induction F as [|p r [W1 W2] _ IH]; [reflexivity|].
    cbn. destruct (nonempty p); [|exact IH].
    destruct (filter nonempty r) eqn:E; [exact W1|].
    rewrite join_cons by discriminate. rewrite forallb_app, W1. cbn [forallb andb].
    exact IH.
Qed.

(** ** Normal form and idempotence *)

(** No tab/LF/CR, no leading or trailing or double space. *)
Fixpoint no_double (l : list ascii) : bool :=
  match l with
  | a :: (b :: _) as l' => negb (is_ws a && is_ws b) && no_double l'
  | _ => true
  end.

Lemma words_words {A} ws (s : list A) : Forall (fun w => w <> [] /\ forallb (fun c => negb (ws c)) w = true) (words ws s).
Proof.
  assert (F : Forall (fun w => forallb (fun c => negb (ws c)) w = true) (pieces ws s)).
  { induction s; cbn; [repeat constructor|]. destruct (ws a) eqn:E; [constructor; auto|].
    destruct (pieces ws s); inversion IHs; subst; constructor; auto; cbn; now rewrite E. }
  unfold words. induction F; cbn; [constructor|]. destruct x; cbn; auto. constructor; auto.
  split; [discriminate|auto].
Qed.

Lemma words_word_app {A} ws sp (w s : list A) : ws sp = true -> w <> [] ->
  forallb (fun c => negb (ws c)) w = true ->
  words ws (w ++ sp :: s) = w :: words ws s.
Proof.
  intros Hsp. induction w as [|c w IH]; [congruence|]. intros _ H. cbn in H.
  apply andb_true_iff in H as [Hc H]. apply negb_true_iff in Hc.
  destruct w as [|d w].
  - unfold words. cbn. rewrite Hc, Hsp. reflexivity.
  - cbn [app]. rewrite words_cons by auto.
    assert (ws d = false) as Hd by (cbn in H; apply andb_true_iff in H as [H _]; now apply negb_true_iff in H).
    rewrite Hd. change (d :: w ++ sp :: s) with ((d :: w) ++ sp :: s).
    rewrite IH by (auto; discriminate). reflexivity.
Qed.

Lemma words_word {A} ws (w : list A) : w <> [] -> forallb (fun c => negb (ws c)) w = true ->
  words ws w = [w].
Proof.
  induction w as [|c w IH]; [congruence|]. intros _ H. cbn in H.
  apply andb_true_iff in H as [Hc H]. apply negb_true_iff in Hc.
  rewrite words_cons by auto. destruct w as [|d w]; [reflexivity|].
  assert (ws d = false) as Hd by (cbn in H; apply andb_true_iff in H as [H _]; now apply negb_true_iff in H).
  rewrite Hd, IH by (auto; discriminate). reflexivity.
Qed.

Lemma words_join {A} ws (sp : A) l : ws sp = true ->
  Forall (fun w => w <> [] /\ forallb (fun c => negb (ws c)) w = true) l ->
  words ws (join sp l) = l.
Proof.
  intros Hsp F. induction F as [|w r [W1 W2] F IH]; [reflexivity|].
  destruct r as [|w' r]; [now apply words_word|].
  rewrite join_cons by discriminate. rewrite words_word_app by auto. now rewrite IH.
Qed.

Lemma collapse_idem s : spec_collapse is_ws space (spec_collapse is_ws space s) = spec_collapse is_ws space s.
Proof. unfold spec_collapse at 1. unfold spec_collapse at 1. rewrite words_join; [reflexivity|reflexivity|apply words_words]. Qed.

Lemma is_ws_replace c : is_ws (if is_ws c then space else c) = is_ws c.
Proof. destruct (is_ws c) eqn:E; auto. Qed.

Lemma replace_idem s : spec_replace is_ws space (spec_replace is_ws space s) = spec_replace is_ws space s.
Proof. unfold spec_replace. rewrite map_map. apply map_ext. intro c. rewrite is_ws_replace. destruct (is_ws c); auto. Qed.

Lemma words_replace s : words is_ws (spec_replace is_ws space s) = words is_ws s.
Proof.
  unfold words. f_equal. induction s; cbn; [reflexivity|].
  rewrite is_ws_replace. unfold spec_replace in IHs. rewrite IHs.
  destruct (is_ws a); reflexivity.
Qed.

Lemma collapse_replace s : spec_collapse is_ws space (spec_replace is_ws space s) = spec_collapse is_ws space s.
Proof. unfold spec_collapse. now rewrite words_replace. Qed.

(** Words and separators never outnumber the input. *)
Lemma join_pieces_length {A} ws (sp : A) s : length (join sp (words ws s)) <= length s.
Proof.
  assert (L : length (join sp (pieces ws s)) = length s).
  { induction s; cbn; [reflexivity|]. pose proof (pieces_ne ws s) as N.
    destruct (ws a); [rewrite join_cons by auto; cbn; now rewrite IHs|].
    destruct (pieces ws s) as [|w r]; [congruence|]. destruct r; cbn in *; auto. }
  rewrite <- L. unfold words. clear L. induction (pieces ws s) as [|w r IH]; cbn [filter]; [cbn; lia|].
  assert (L2 : length (join sp r) <= length (join sp (w :: r))).
  { destruct r; cbn; [lia|]. rewrite app_length. cbn. lia. }
  destruct (nonempty w); [|lia].
  destruct (filter nonempty r) eqn:E.
  - destruct r; cbn; [lia|]. rewrite app_length. lia.
  - destruct r as [|w' r]; [discriminate E|].
    rewrite (join_cons sp w (l :: l0)), (join_cons sp w (w' :: r)) by discriminate.
    rewrite !app_length. cbn [length]. lia.
Qed.

Lemma join_form l : Forall (fun w => w <> [] /\ forallb (fun c => negb (is_ws c)) w = true) l ->
  let r := join space l in
  Forall (fun c => is_ws c = true -> c = space) r /\
  (forall c r', r = c :: r' -> is_ws c = false) /\
  (forall c r', r = r' ++ [c] -> is_ws c = false) /\
  (forall a b p q, r = p ++ a :: b :: q -> is_ws a && is_ws b = false).
Proof.
  assert (NW : forall w, forallb (fun c => negb (is_ws c)) w = true -> forall c, In c w -> is_ws c = false).
  { intros w H c Hc. rewrite forallb_forall in H. specialize (H _ Hc). now apply negb_true_iff in H. }
  intro F. induction F as [|w r [W1 W2] F IH]; cbn zeta in *.
  { cbn. repeat split; [constructor| | |]; intros; try discriminate.
    - destruct r'; discriminate.
    - destruct p; discriminate. }
  pose proof (NW w W2) as Hw.
  destruct r as [|w' r].
  { cbn. repeat split.
    - apply Forall_forall. intros c Hc E. rewrite Hw in E by auto. discriminate.
    - intros c r' ->. apply Hw. now left.
    - intros c r' ->. apply Hw. apply in_or_app. right. now left.
    - intros a b p q ->. rewrite Hw; [reflexivity|]. apply in_or_app. right. now left. }
  rewrite join_cons by discriminate. set (t := join space (w' :: r)) in *.
  destruct IH as (I1 & I2 & I3 & I4).
  assert (T : t <> []).
  { unfold t. inversion F as [|? ? [N _] _]; subst. destruct w'; [congruence|]. destruct r; discriminate. }
  clearbody t.
  repeat split.
  - apply Forall_app. split.
    + apply Forall_forall. intros c Hc E. rewrite Hw in E by auto. discriminate.
    + constructor; auto.
  - intros c r' E. destruct w; [congruence|]. inversion E; subst. apply Hw. now left.
  - intros c r' E. destruct (exists_last T) as (t' & c' & Et).
    rewrite Et in E. rewrite app_comm_cons, app_assoc in E. apply app_inj_tail in E as [_ ->].
    apply (I3 _ t'). exact Et.
  - intros a b p q E.
    assert (D : (exists p', p = w ++ p') \/ In a w).
    { clear - E. revert w E. induction p as [|x p IH]; intros w E.
      - destruct w as [|y w]; [left; exists []; reflexivity|]. right. inversion E. now left.
      - destruct w as [|y w]; [left; exists (x :: p); reflexivity|].
        cbn in E. inversion E; subst. destruct (IH w H1) as [[p' ->]|Hin].
        + left. exists p'. reflexivity.
        + right. now right. }
    destruct D as [[p' ->]|Hin].
    + rewrite <- app_assoc in E. apply app_inv_head in E.
      destruct p' as [|x p']; cbn in E; inversion E; subst.
      * rewrite (I2 b q eq_refl). apply andb_false_r.
      * eapply I4. reflexivity.
    + now rewrite (Hw a Hin).
Qed.

(** ** Statements about [normalize] itself *)

From Verif Require Import TextSpec.

Lemma ws_byte_ext b : ws_byte b = is_ws b.
Proof. unfold ws_byte. now rewrite is_ws_N. Qed.

Lemma pieces_ext {A} (f g : A -> bool) s : (forall a, f a = g a) -> pieces f s = pieces g s.
Proof. intro H. induction s; cbn; auto. rewrite H, IHs. reflexivity. Qed.

Lemma words_ext {A} (f g : A -> bool) s : (forall a, f a = g a) -> words f s = words g s.
Proof. intro H. unfold words. now rewrite (pieces_ext f g). Qed.

Lemma normalize_preserve s : normalize s Preserve = Ok s.
Proof. rewrite normalize_spec. cbn. now rewrite string_of_list_ascii_of_string. Qed.

Lemma normalize_replace s : normalize s Replace = Ok (str_of (spec_replace ws_byte " "%char (bytes_of s))).
Proof.
  rewrite normalize_spec. cbn. do 2 f_equal. unfold spec_replace. apply map_ext. intro b.
  now rewrite ws_byte_ext.
Qed.

Lemma normalize_collapse s : normalize s Collapse = Ok (str_of (spec_collapse ws_byte " "%char (bytes_of s))).
Proof.
  rewrite normalize_spec. cbn. do 2 f_equal. unfold spec_collapse. f_equal.
  symmetry. apply words_ext, ws_byte_ext.
Qed.

Lemma words_are_words s w : In w (words ws_byte s) -> w <> [] /\ forall b, In b w -> ws_byte b = false.
Proof.
  intro H. pose proof (words_words ws_byte s) as F. rewrite Forall_forall in F.
  destruct (F w H) as [H1 H2]. split; auto. intros b Hb. rewrite forallb_forall in H2.
  specialize (H2 b Hb). now apply negb_true_iff in H2.
Qed.

Lemma words_complete s : concat (words ws_byte s) = filter (fun b => negb (ws_byte b)) s.
Proof.
  assert (C : forall l : list (list ascii), concat (filter nonempty l) = concat l).
  { induction l as [|w l IH]; cbn; auto. destruct w; cbn; auto. now rewrite IH. }
  unfold words. rewrite C. induction s; cbn; auto. destruct (ws_byte a); cbn; auto.
  pose proof (pieces_ne ws_byte s). destruct (pieces ws_byte s); [congruence|]. cbn in *. now rewrite IHs.
Qed.

Lemma normalize_utf8_valid cs w : forallb is_scalar cs = true ->
  normalize_bytes (utf8 cs) w = Ok (utf8 (norm_spec_chars w cs)) /\
  forallb is_scalar (norm_spec_chars w cs) = true.
Proof. intro H. split; [now apply normalize_utf8|now apply norm_chars_scalar]. Qed.

Lemma bytes_str l : bytes_of (str_of l) = l.
Proof. apply list_ascii_of_string_of_list_ascii. Qed.

Lemma normalize_idempotent w s t : normalize s w = Ok t -> normalize t w = Ok t.
Proof.
  rewrite !normalize_spec. intro H. inversion H; subst; clear H. rewrite bytes_str. do 2 f_equal.
  destruct w; cbn; [reflexivity|apply replace_idem|apply collapse_idem].
Qed.

Lemma normalize_collapse_replace s t : normalize s Replace = Ok t -> normalize t Collapse = normalize s Collapse.
Proof.
  rewrite !normalize_spec. intro H. inversion H; subst; clear H. rewrite bytes_str. do 2 f_equal.
  apply collapse_replace.
Qed.

Lemma collapse_normal_form s t : normalize s Collapse = Ok t ->
  let l := bytes_of t in
  Forall (fun b => ws_byte b = true -> b = " "%char) l /\
  (forall b l', l = b :: l' -> b <> " "%char) /\
  (forall b l', l = l' ++ [b] -> b <> " "%char) /\
  (forall p q, l <> p ++ " "%char :: " "%char :: q) /\
  List.length l <= List.length (bytes_of s).
Proof.
  rewrite normalize_spec. intro H. inversion H; subst; clear H. cbn zeta. rewrite bytes_str.
  cbn [norm_spec]. unfold spec_collapse.
  destruct (join_form (words is_ws (bytes_of s)) (words_words _ _)) as (J1 & J2 & J3 & J4).
  repeat split.
  - eapply Forall_impl; [|exact J1]. intros b Hb. now rewrite ws_byte_ext.
  - intros b l' E ->. apply J2 in E. discriminate.
  - intros b l' E ->. apply J3 in E. discriminate.
  - intros p q E. apply J4 in E. discriminate.
  - apply join_pieces_length.
Qed.
