(** Integers are written as their canonical numerals. *)
From Verif Require Import Base Normalize Text TextSpec TextProofs.
From Coq Require Import Lia.

Lemma digit_range d : is_digit d = true -> (0 <= Z.of_N (N_of_ascii d) - 48 < 10)%Z.
Proof.
  unfold is_digit. intro H. apply andb_prop in H. destruct H as [A B].
  apply N.leb_le in A. apply N.leb_le in B. lia.
Qed.

Lemma digit_inj d e : is_digit d = true -> is_digit e = true ->
  (Z.of_N (N_of_ascii d) - 48 = Z.of_N (N_of_ascii e) - 48)%Z -> d = e.
Proof.
  intros _ _ H. assert (N_of_ascii d = N_of_ascii e) by lia.
  rewrite <- (ascii_N_embedding d), <- (ascii_N_embedding e). congruence.
Qed.

Lemma value_app a ds : forall acc, value acc (ds ++ [a]) = (10 * value acc ds + (Z.of_N (N_of_ascii a) - 48))%Z.
Proof. induction ds as [|d ds IH]; intro acc; cbn [app value]; [reflexivity|apply IH]. Qed.

Lemma value_ge ds : forall acc, (0 <= acc)%Z -> forallb is_digit ds = true -> (acc <= value acc ds)%Z.
Proof.
  induction ds as [|d ds IH]; intros acc H D; cbn [value]; [lia|].
  cbn [forallb] in D. apply andb_prop in D. destruct D as [D1 D2]. pose proof (digit_range d D1).
  etransitivity; [|apply IH; [lia|assumption]]. lia.
Qed.

Definition no_lead (ds : list ascii) : Prop := hd_error ds <> Some "0"%char.

Lemma no_lead_pos ds : ds <> [] -> forallb is_digit ds = true -> no_lead ds -> (0 < value 0 ds)%Z.
Proof.
  destruct ds as [|d ds]; [congruence|]. intros _ D L. cbn [forallb] in D. apply andb_prop in D. destruct D as [D1 D2].
  cbn [value]. pose proof (digit_range d D1) as R.
  assert (N_of_ascii d <> 48%N).
  { intro E. apply L. cbn. rewrite <- (ascii_N_embedding d), E. reflexivity. }
  pose proof (value_ge ds (10 * 0 + (Z.of_N (N_of_ascii d) - 48)) ltac:(lia) D2). lia.
Qed.

Lemma no_lead_app ds d : no_lead (ds ++ [d]) -> no_lead ds.
Proof. destruct ds; cbn; [discriminate|auto]. Qed.

Lemma no_lead_unique ds : forall es, forallb is_digit ds = true -> forallb is_digit es = true ->
  no_lead ds -> no_lead es -> value 0 ds = value 0 es -> ds = es.
Proof.
  induction ds as [|d ds IH] using rev_ind; intros es D E Ld Le H.
  - destruct es as [|e es]; [reflexivity|]. exfalso.
    pose proof (no_lead_pos (e :: es) ltac:(discriminate) E Le). cbn [value] in *. lia.
  - destruct es as [|e es _] using rev_ind.
    + exfalso. pose proof (no_lead_pos (ds ++ [d]) ltac:(now destruct ds) D Ld).
      change (value 0 []) with 0%Z in H. lia.
    + rewrite !value_app in H. rewrite forallb_app in D, E. apply andb_prop in D, E. destruct D as [D D'], E as [E E'].
      cbn [forallb] in D', E'. rewrite andb_true_r in D', E'.
      pose proof (digit_range d D'). pose proof (digit_range e E').
      assert (value 0 ds = value 0 es) by lia.
      rewrite (IH es); auto; [|eapply no_lead_app; eauto|eapply no_lead_app; eauto].
      f_equal. f_equal. apply digit_inj; auto. lia.
Qed.

Lemma canonical_unique s s' z : canonical s z -> canonical s' z -> s = s'.
Proof.
  intros (ds & [N D] & L & V & E) (ds' & [N' D'] & L' & V' & E').
  assert (Nl : forall l, l <> [] -> hd "x"%char l <> "0"%char -> no_lead l).
  { intros l Hn Hh. unfold no_lead. destruct l; cbn in *; congruence. }
  assert (Eq : ds = ds').
  { destruct (ascii_dec (hd "x"%char ds) "0"%char) as [H|H];
      destruct (ascii_dec (hd "x"%char ds') "0"%char) as [H'|H'].
    - destruct ds as [|d ds], ds' as [|d' ds']; try congruence. cbn in H, H'. subst.
      rewrite (L eq_refl), (L' eq_refl). reflexivity.
    - destruct ds as [|d ds]; [congruence|]. cbn in H. subst. rewrite (L eq_refl) in V. cbn in V.
      pose proof (no_lead_pos ds' N' D' (Nl _ N' H')). lia.
    - destruct ds' as [|d' ds']; [congruence|]. cbn in H'. subst. rewrite (L' eq_refl) in V'. cbn in V'.
      pose proof (no_lead_pos ds N D (Nl _ N H)). lia.
    - apply no_lead_unique; auto. congruence. }
  subst ds'. rewrite <- E' in E.
  rewrite <- (string_of_list_ascii_of_string s), <- (string_of_list_ascii_of_string s'). now f_equal.
Qed.

(** Printing writes no leading zeros. *)
Lemma show_loop_lead fuel : forall n acc, (n < 2 ^ N.of_nat fuel)%N -> (0 < n)%N -> no_lead (show_loop fuel n acc).
Proof.
  induction fuel; intros n acc Hn Hp; [cbn in Hn; lia|]. cbn [show_loop].
  assert (M : (n mod 10 < 10)%N) by (apply N.mod_lt; discriminate).
  pose proof (N.div_mod' n 10) as DM.
  destruct (N.eqb_spec (n / 10) 0) as [E|E].
  - unfold no_lead. cbn [hd_error]. intros [= H]. apply (f_equal N_of_ascii) in H. unfold digit in H.
    rewrite N_ascii_embedding in H by lia. change (N_of_ascii "0") with 48%N in H.
    revert H DM E. generalize (n mod 10)%N (n / 10)%N. intros. lia.
  - apply IHfuel; [|lia]. rewrite Nat2N.inj_succ, N.pow_succ_r' in Hn.
    eapply N.le_lt_trans; [apply (N.div_le_compat_l n 2 10); lia|]. apply N.div_lt_upper_bound; lia.
Qed.

Lemma show_N_lead n : hd_error (show_N n) = Some "0"%char -> show_N n = ["0"%char].
Proof.
  intro H. destruct n as [|p]; [reflexivity|]. exfalso. revert H. apply show_loop_lead; [|lia].
  rewrite Nat2N.inj_succ, N.pow_succ_r'. pose proof (size_nat_gt (Npos p)). lia.
Qed.

Lemma show_N_canonical n : canonical (str_of (show_N n)) (Z.of_N n).
Proof.
  destruct (show_N_spec n) as [V D]. exists (show_N n). repeat split; auto using show_N_lead; try apply D.
  - rewrite V. now rewrite Z.abs_eq by lia.
  - rewrite list_ascii_of_string_of_list_ascii. destruct (Z.ltb_spec (Z.of_N n) 0); [lia|reflexivity].
Qed.

Lemma show_int_canonical z : canonical (show_int z) z.
Proof.
  destruct z as [|p|p]; cbn [show_int].
  - apply (show_N_canonical 0).
  - rewrite <- (Z2N.id (Zpos p)) at 2 by lia. apply show_N_canonical.
  - destruct (show_N_spec (Npos p)) as [V D]. exists (show_N (Npos p)).
    split; [exact D|]. split; [apply show_N_lead|]. split; [exact V|].
    now rewrite list_ascii_of_string_of_list_ascii.
Qed.

Lemma show_int_text z s : show_int z = s <-> canonical s z.
Proof.
  split; [intros <-; apply show_int_canonical|]. intro H.
  eapply canonical_unique; [apply show_int_canonical|assumption].
Qed.
