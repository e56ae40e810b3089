From Verif Require Import Base Normalize NormalizeSpec NormalizeProofs Text TextSpec.
From Coq Require Import Lia ZifyBool.

(** ** Trimming *)

Lemma ws_byte_is_ws b : ws_byte b = is_ws b.
Proof. unfold ws_byte. now rewrite is_ws_N. Qed.

Lemma forallb_ws_byte l : forallb ws_byte l = forallb is_ws l.
Proof. induction l; cbn; [reflexivity|]. now rewrite ws_byte_is_ws, IHl. Qed.

Lemma trim_start_split l : exists a, l = a ++ trim_start l /\ forallb is_ws a = true.
Proof.
  induction l as [|b l (a & IH1 & IH2)]; [exists []; auto|].
  cbn. destruct (is_ws b) eqn:E.
  - exists (b :: a). cbn. rewrite E, <- IH1. auto.
  - exists []. auto.
Qed.

Lemma trim_start_app a l : forallb is_ws a = true -> trim_start (a ++ l) = trim_start l.
Proof.
  induction a; cbn; [auto|]. intro H. apply andb_true_iff in H as [-> H]. auto.
Qed.

Lemma trim_start_nonws b l : is_ws b = false -> trim_start (b :: l) = b :: l.
Proof. cbn. now intros ->. Qed.

Lemma forallb_rev {A} (f : A -> bool) l : forallb f (rev l) = forallb f l.
Proof.
  induction l; cbn; [reflexivity|]. rewrite forallb_app, IHl. cbn. rewrite andb_true_r. apply andb_comm.
Qed.

Lemma padded_trim l : padded (trim_bytes l) l.
Proof.
  destruct (trim_start_split l) as (a & H1 & H2).
  destruct (trim_start_split (rev (trim_start l))) as (b & H3 & H4).
  exists a, (rev b). unfold trim_bytes. rewrite !forallb_ws_byte, forallb_rev.
  repeat split; auto. rewrite <- rev_app_distr, <- H3, rev_involutive. exact H1.
Qed.

Definition ends_nonws (core : list ascii) : Prop :=
  (exists b t, core = b :: t /\ is_ws b = false) /\ (exists t b, core = t ++ [b] /\ is_ws b = false).

Lemma trim_padded core l : ends_nonws core -> padded core l -> trim_bytes l = core.
Proof.
  intros [(b1 & t1 & E1 & W1) (t2 & b2 & E2 & W2)] (a & b & -> & Ha & Hb).
  rewrite forallb_ws_byte in Ha, Hb.
  unfold trim_bytes. rewrite trim_start_app by auto.
  rewrite E1 at 1. cbn [app]. rewrite trim_start_nonws by auto.
  rewrite app_comm_cons, <- E1, rev_app_distr, trim_start_app by (now rewrite forallb_rev).
  rewrite E2, rev_app_distr. cbn [rev app]. rewrite trim_start_nonws by auto.
  cbn. now rewrite rev_involutive.
Qed.

(** ** Booleans *)

Lemma str_of_inj a b : str_of a = str_of b -> a = b.
Proof. intro H. rewrite <- (list_ascii_of_string_of_list_ascii a), H. apply list_ascii_of_string_of_list_ascii. Qed.

Lemma trim_eq text lit : ends_nonws (bytes_of lit) ->
  String.eqb (trim text) lit = true <-> padded (bytes_of lit) (bytes_of text).
Proof.
  intro E. rewrite String.eqb_eq. unfold trim. split.
  - intro H. rewrite <- H, list_ascii_of_string_of_list_ascii. apply padded_trim.
  - intro H. rewrite (trim_padded _ _ E H). apply string_of_list_ascii_of_string.
Qed.

Ltac ends := split; [eexists; eexists; split; reflexivity|];
  match goal with |- exists t b, ?l = _ /\ _ =>
    let t := eval cbv in (removelast l) in let b := eval cbv in (last l space) in
    exists t, b; split; reflexivity end.

Definition true_lex (text : string) : Prop :=
  padded (bytes_of "true") (bytes_of text) \/ padded (bytes_of "1") (bytes_of text).
Definition false_lex (text : string) : Prop :=
  padded (bytes_of "false") (bytes_of text) \/ padded (bytes_of "0") (bytes_of text).

Lemma parse_bool_spec o text :
  (parse_bool o text = Ok true <-> true_lex text) /\
  (parse_bool o text = Ok false <-> false_lex text) /\
  ((exists e, parse_bool o text = Err e) <-> ~ true_lex text /\ ~ false_lex text).
Proof.
  unfold true_lex, false_lex.
  rewrite <- !trim_eq by ends. unfold parse_bool. set (t := trim text).
  destruct (String.eqb_spec t "true") as [->|]; [cbn; intuition (try discriminate); destruct H; discriminate|].
  destruct (String.eqb_spec t "1") as [->|]; [cbn; intuition (try discriminate); destruct H; discriminate|].
  cbn [orb].
  destruct (String.eqb_spec t "false") as [->|]; [cbn; intuition (try discriminate); destruct H; discriminate|].
  destruct (String.eqb_spec t "0") as [->|]; [cbn; intuition (try discriminate); destruct H; discriminate|].
  cbn. intuition (try discriminate); eauto.
Qed.

Lemma parse_show_bool o b : parse_bool o (show_bool b) = Ok b.
Proof. destruct b; reflexivity. Qed.

(** ** Integers *)

Lemma to_digit_spec b : to_digit b = if is_digit b then Some (Z.of_N (N_of_ascii b) - 48)%Z else None.
Proof.
  unfold to_digit, is_digit.
  generalize (N_of_ascii b). intro n.
  destruct (Z.leb_spec 48 (Z.of_N n)), (Z.leb_spec (Z.of_N n) 57),
    (N.leb_spec 48 n), (N.leb_spec n 57); cbn [andb]; auto; lia.
Qed.

Lemma digit_range b : is_digit b = true -> (0 <= Z.of_N (N_of_ascii b) - 48 <= 9)%Z.
Proof. unfold is_digit. rewrite andb_true_iff, !N.leb_le. lia. Qed.

Lemma imin_le_0 k : (imin k <= 0)%Z.
Proof. destruct k; vm_compute; discriminate. Qed.
Lemma imax_ge_0 k : (0 <= imax k)%Z.
Proof. destruct k; vm_compute; discriminate. Qed.

Lemma in_range_iff k z : in_range k z = true <-> (imin k <= z <= imax k)%Z.
Proof. unfold in_range. rewrite andb_true_iff, !Z.leb_le. tauto. Qed.

Lemma value_ge acc ds : (0 <= acc)%Z -> forallb is_digit ds = true -> (acc <= value acc ds)%Z.
Proof.
  revert acc. induction ds as [|d ds IH]; intros acc Ha H; cbn [value]; [lia|].
  cbn in H. apply andb_true_iff in H as [Hd H]. pose proof (digit_range d Hd).
  etransitivity; [|apply IH; auto; lia]. lia.
Qed.

(** The digit loop with sign [s] (1 or -1) on magnitude [a]. *)
Lemma digit_loop_spec k (pos : bool) ds : forall a z,
  let s := (if pos then 1 else -1)%Z in
  (0 <= a)%Z -> in_range k (s * a) = true ->
  (digit_loop k pos (s * a) ds = Ok z <->
   forallb is_digit ds = true /\ z = (s * value a ds)%Z /\ in_range k z = true).
Proof.
  induction ds as [|d ds IH]; intros a z s Ha Hr; cbn [digit_loop value forallb].
  - split; [intro H; inversion H; subst; auto|]. intros (_ & -> & _). reflexivity.
  - rewrite to_digit_spec. destruct (is_digit d) eqn:Ed; cbn [andb].
    2:{ split; [discriminate|]. intros [H _]; discriminate. }
    pose proof (digit_range d Ed) as Hd. set (dv := (Z.of_N (N_of_ascii d) - 48)%Z) in *.
    pose proof (imin_le_0 k). pose proof (imax_ge_0 k).
    assert (E : (if pos then s * a * 10 + dv else s * a * 10 - dv)%Z = (s * (10 * a + dv))%Z)
      by (unfold s; destruct pos; lia).
    rewrite E.
    assert (Hout : forall x, (0 <= x)%Z -> (x <= 10 * a + dv)%Z -> in_range k (s * x) = false ->
             forall z', ~ (forallb is_digit ds = true /\ z' = (s * value (10 * a + dv) ds)%Z /\ in_range k z' = true)).
    { intros x Hx Hx2 Hf z' (Hds & -> & Hz). pose proof (value_ge (10 * a + dv) ds ltac:(lia) Hds).
      apply in_range_iff in Hz. rewrite <- not_true_iff_false, in_range_iff in Hf.
      unfold s in *. destruct pos; lia. }
    destruct (in_range k (s * a * 10)) eqn:E1.
    2:{ split; [discriminate|]. intro H'. exfalso.
        apply (Hout (a * 10)%Z) in H'; auto; try lia. rewrite Z.mul_assoc. exact E1. }
    destruct (in_range k (s * (10 * a + dv))) eqn:E2.
    2:{ split; [discriminate|]. intro H'. exfalso. eapply (Hout (10 * a + dv)%Z); eauto; lia. }
    specialize (IH (10 * a + dv)%Z z). cbn zeta in IH. fold s in IH.
    rewrite IH by (auto; lia). tauto.
Qed.

Lemma digit_loop_top k pos ds z :
  digit_loop k pos 0 ds = Ok z <->
   forallb is_digit ds = true /\ z = ((if pos then 1 else -1) * value 0 ds)%Z /\ in_range k z = true.
Proof.
  pose proof (digit_loop_spec k pos ds 0 z) as H. cbn zeta in H. rewrite Z.mul_0_r in H.
  apply H; [lia|]. apply in_range_iff. split; [apply imin_le_0|apply imax_ge_0].
Qed.

Lemma digit_loop_no_abort k pos ds : forall a x, digit_loop k pos a ds <> Abort x.
Proof.
  induction ds; intros acc x; cbn; [discriminate|].
  destruct (to_digit a); [|discriminate]. destruct (in_range _ _); [|discriminate].
  destruct (in_range _ _); [|discriminate]. apply IHds.
Qed.

Lemma int_from_str_no_abort k src x : int_from_str k src <> Abort x.
Proof.
  destruct src as [|b rest]; cbn [int_from_str]; [discriminate|].
  repeat match goal with |- context [if ?c then _ else _] => destruct c end;
    try discriminate; apply digit_loop_no_abort.
Qed.

Lemma digit_not_sign b : is_digit b = true -> Ascii.eqb b "+" = false /\ Ascii.eqb b "-" = false.
Proof. destruct b as [[] [] [] [] [] [] [] []]; cbn; try discriminate; auto. Qed.

Lemma sign_not_digit : is_digit "+" = false /\ is_digit "-" = false.
Proof. split; reflexivity. Qed.

Lemma int_from_str_spec k src z :
  int_from_str k src = Ok z <-> numeral (isigned k) src z /\ in_range k z = true.
Proof.
  split.
  - destruct src as [|b rest]; cbn [int_from_str]; [discriminate|].
    destruct ((Ascii.eqb b "+" || Ascii.eqb b "-") && _) eqn:E0; [discriminate|].
    destruct (Ascii.eqb_spec b "+") as [->|N1].
    { intro H. apply digit_loop_top in H as (H1 & -> & H2). rewrite Z.mul_1_l in *.
      split; auto. apply num_plus. split; auto. destruct rest; [discriminate E0|discriminate]. }
    destruct (Ascii.eqb_spec b "-") as [->|N2]; cbn [andb].
    { destruct (isigned k) eqn:Es.
      - intro H. apply digit_loop_top in H as (H1 & -> & H2).
        replace (-1 * value 0 rest)%Z with (- value 0 rest)%Z in * by lia.
        split; auto. apply num_minus; auto. split; auto. destruct rest; [discriminate E0|discriminate].
      - intro H. apply digit_loop_top in H as (H1 & _ & _). cbn in H1. discriminate. }
    intro H. apply digit_loop_top in H as (H1 & -> & H2). rewrite Z.mul_1_l in *.
    split; auto. apply num_plain. split; auto. discriminate.
  - intros [Hn Hr]. inversion Hn as [ds [D1 D2]|ds [D1 D2]|ds Hs [D1 D2]]; subst.
    + destruct src as [|b rest]; [congruence|]. cbn [int_from_str].
      assert (Hb : is_digit b = true) by (cbn in D2; now apply andb_true_iff in D2).
      destruct (digit_not_sign b Hb) as [-> ->]. cbn [orb andb].
      apply digit_loop_top. rewrite Z.mul_1_l. auto.
    + cbn [int_from_str]. destruct ds; [congruence|]. cbn [andb orb Ascii.eqb]. 
      replace (Ascii.eqb "+" "+") with true by reflexivity. cbn [andb orb].
      apply digit_loop_top. rewrite Z.mul_1_l. auto.
    + cbn [int_from_str]. destruct ds; [congruence|].
      replace (Ascii.eqb "-" "+") with false by reflexivity.
      replace (Ascii.eqb "-" "-") with true by reflexivity. cbn [andb orb].
      rewrite Hs. apply digit_loop_top. repeat split; auto; lia.
Qed.

Lemma digit_not_ws b : is_digit b = true -> is_ws b = false.
Proof. destruct b as [[] [] [] [] [] [] [] []]; cbn; try discriminate; auto. Qed.

Lemma numeral_ends s l z : numeral s l z -> ends_nonws l.
Proof.
  assert (D : forall ds, digits ds -> ends_nonws ds).
  { intros ds [N F]. split.
    - destruct ds as [|d ds]; [congruence|]. exists d, ds. split; auto. apply digit_not_ws.
      cbn in F. now apply andb_true_iff in F.
    - destruct (exists_last N) as (t & b & ->). exists t, b. split; auto. apply digit_not_ws.
      rewrite forallb_app in F. apply andb_true_iff in F as [_ F]. cbn in F. now apply andb_true_iff in F. }
  intros H. destruct H as [ds H|ds H|ds _ H]; apply D in H as H'; auto.
  - destruct H' as [_ (t & b & -> & W)]. split.
    + do 2 eexists. split; reflexivity.
    + exists ("+"%char :: t), b. auto.
  - destruct H' as [_ (t & b & -> & W)]. split.
    + do 2 eexists. split; reflexivity.
    + exists ("-"%char :: t), b. auto.
Qed.

Lemma parse_int_spec k text z :
  parse_int k text = Ok z <->
  (exists core, padded core (bytes_of text) /\ numeral (isigned k) core z) /\ (imin k <= z <= imax k)%Z.
Proof.
  unfold parse_int. rewrite int_from_str_spec, in_range_iff. split.
  - intros [H R]. split; auto. eexists. split; [apply padded_trim|exact H].
  - intros [(core & P & N) R]. split; auto. rewrite (trim_padded core); auto.
    eapply numeral_ends; eauto.
Qed.

Lemma parse_int_total k text : (exists z, parse_int k text = Ok z) \/ (exists e, parse_int k text = Err e).
Proof.
  destruct (parse_int k text) eqn:E; eauto. exfalso. eapply int_from_str_no_abort; eauto.
Qed.

(** Printing. *)
Lemma size_nat_gt n : (n < 2 ^ N.of_nat (N.size_nat n))%N.
Proof.
  destruct n; [cbn; lia|]. cbn [N.size_nat].
  induction p; cbn [Pos.size_nat]; rewrite ?Nat2N.inj_succ, ?N.pow_succ_r'; try lia.
Qed.

Lemma digit_value n : (n < 10)%N -> (Z.of_N (N_of_ascii (digit n)) - 48 = Z.of_N n)%Z /\ is_digit (digit n) = true.
Proof.
  intro H. unfold is_digit, digit. rewrite N_ascii_embedding by lia. split; [lia|].
  apply andb_true_intro. split; apply N.leb_le; lia.
Qed.

Lemma show_loop_value fuel : forall n acc, (n < 2 ^ N.of_nat fuel)%N -> fuel <> 0 ->
  value 0 (show_loop fuel n acc) = value (Z.of_N n) acc /\
  (forallb is_digit acc = true -> digits (show_loop fuel n acc)).
Proof.
  induction fuel; intros n acc Hn Hf; [congruence|]. cbn [show_loop].
  assert (M : (n mod 10 < 10)%N) by (apply N.mod_lt; discriminate).
  destruct (digit_value _ M) as [V1 V2].
  pose proof (N.div_mod' n 10) as DM.
  destruct (N.eqb_spec (n / 10) 0) as [E|E].
  - cbn [value forallb]. rewrite V1. split; [f_equal; lia|].
    intro H. split; [discriminate|]. cbn. now rewrite V2, H.
  - assert (fuel <> 0).
    { intros ->. cbn in Hn. assert (n / 10 = 0)%N by (apply N.div_small; lia). congruence. }
    destruct (IHfuel (n / 10)%N (digit (n mod 10) :: acc)) as [I1 I2]; auto.
    { rewrite Nat2N.inj_succ, N.pow_succ_r' in Hn.
      eapply N.le_lt_trans; [apply (N.div_le_compat_l n 2 10); lia|].
      apply N.div_lt_upper_bound; lia. }
    split.
    + rewrite I1. cbn [value]. rewrite V1. f_equal. lia.
    + intro H'. apply I2. cbn. now rewrite V2, H'.
Qed.

Lemma show_N_spec n : value 0 (show_N n) = Z.of_N n /\ digits (show_N n).
Proof.
  unfold show_N. destruct (show_loop_value (S (N.size_nat n)) n []) as [H1 H2]; auto.
  rewrite Nat2N.inj_succ, N.pow_succ_r'. pose proof (size_nat_gt n). lia.
Qed.

Lemma numeral_eq b l z z' : numeral b l z -> z = z' -> numeral b l z'.
Proof. now intros H ->. Qed.

Lemma show_int_numeral z : numeral (Z.ltb z 0) (bytes_of (show_int z)) z.
Proof.
  destruct z as [|p|p]; unfold show_int; rewrite list_ascii_of_string_of_list_ascii.
  - destruct (show_N_spec (Z.to_N 0)) as [H1 H2].
    eapply numeral_eq; [apply num_plain; exact H2|exact H1].
  - destruct (show_N_spec (Z.to_N (Zpos p))) as [H1 H2].
    eapply numeral_eq; [apply num_plain; exact H2|exact H1].
  - destruct (show_N_spec (Npos p)) as [H1 H2].
    eapply numeral_eq; [apply num_minus; [reflexivity|exact H2]|]. rewrite H1. reflexivity.
Qed.

Lemma numeral_mono l z b : numeral b l z -> forall b', (b = true -> b' = true) -> numeral b' l z.
Proof. intros H b' Hb. destruct H; constructor; auto. Qed.

Lemma padded_refl l : padded l l.
Proof. exists [], []. cbn. now rewrite app_nil_r. Qed.

Lemma parse_show_int k z : (imin k <= z <= imax k)%Z -> parse_int k (show_int z) = Ok z.
Proof.
  intro H. apply parse_int_spec. split; auto. eexists. split; [apply padded_refl|].
  apply (numeral_mono _ _ (Z.ltb z 0)); [apply show_int_numeral|].
  intro E. apply Z.ltb_lt in E. unfold imin in H. destruct (isigned k); auto. lia.
Qed.

Lemma int_range_eq k : int_range k = (isigned k, imin k, imax k).
Proof. destruct k; vm_compute; reflexivity. Qed.

Lemma parse_int_range k signed lo hi : int_range k = (signed, lo, hi) -> forall text z,
  parse_int k text = Ok z <->
  (exists core, padded core (bytes_of text) /\ numeral signed core z) /\ (lo <= z <= hi)%Z.
Proof. rewrite int_range_eq. intros [= <- <- <-]. apply parse_int_spec. Qed.

Lemma show_int_range k signed lo hi : int_range k = (signed, lo, hi) -> forall z,
  (lo <= z <= hi)%Z -> parse_int k (show_int z) = Ok z.
Proof. rewrite int_range_eq. intros [= <- <- <-]. apply parse_show_int. Qed.


(** Errors. *)
Lemma digit_loop_err k (pos : bool) ds : forall a e,
  let s := (if pos then 1 else -1)%Z in
  (0 <= a)%Z -> in_range k (s * a) = true ->
  (digit_loop k pos (s * a) ds = Err e <->
   (exists d1 b r, ds = d1 ++ b :: r /\ forallb is_digit d1 = true /\ is_digit b = false /\
      in_range k (s * value a d1) = true /\ e = msg_invalid) \/
   (exists d1 r, ds = d1 ++ r /\ forallb is_digit d1 = true /\ in_range k (s * value a d1) = false /\
      e = if pos then msg_pos else msg_neg)).
Proof.
  induction ds as [|d ds IH]; intros a e s Ha Hr; cbn [digit_loop].
  - split; [discriminate|]. intros [(d1 & b & r & E & _)|(d1 & r & E & _ & F & _)].
    + destruct d1; discriminate.
    + destruct d1; [|discriminate]. cbn in F. congruence.
  - rewrite to_digit_spec. destruct (is_digit d) eqn:Ed.
    2:{ split.
        - intros [= <-]. left. exists [], d, ds. repeat split; auto.
        - intros [(d1 & b & r & E & F & Hb & _ & ->)|(d1 & r & E & F & G & _)]; [reflexivity|].
          destruct d1 as [|x d1]; [cbn in G; congruence|]. injection E as <- _. cbn in F. now rewrite Ed in F. }
    pose proof (digit_range d Ed) as Hd. set (dv := (Z.of_N (N_of_ascii d) - 48)%Z) in *.
    pose proof (imin_le_0 k). pose proof (imax_ge_0 k).
    assert (E : (if pos then s * a * 10 + dv else s * a * 10 - dv)%Z = (s * (10 * a + dv))%Z)
      by (unfold s; destruct pos; lia).
    rewrite E.
    (* once out of range, always out of range *)
    assert (Hout : in_range k (s * (10 * a + dv)) = false ->
      (Err (if pos then msg_pos else msg_neg) = (Err e : res string Z) <->
       (exists d1 b r, d :: ds = d1 ++ b :: r /\ forallb is_digit d1 = true /\ is_digit b = false /\
          in_range k (s * value a d1) = true /\ e = msg_invalid) \/
       (exists d1 r, d :: ds = d1 ++ r /\ forallb is_digit d1 = true /\ in_range k (s * value a d1) = false /\
          e = if pos then msg_pos else msg_neg))).
    { intro Hf. split.
      - intros [= <-]. right. exists [d], ds. cbn [app value forallb]. fold dv. rewrite Ed. auto.
      - intros [(d1 & b & r & E0 & F & Hb & G & ->)|(d1 & r & _ & _ & _ & ->)]; [|reflexivity].
        exfalso. destruct d1 as [|x d1]; [injection E0 as <- _; congruence|].
        injection E0 as <- _. cbn [value] in G. fold dv in G. cbn [forallb] in F. apply andb_true_iff in F as [_ F].
        pose proof (value_ge (10 * a + dv) d1 ltac:(lia) F).
        apply in_range_iff in G. rewrite <- not_true_iff_false, in_range_iff in Hf. unfold s in *. destruct pos; lia. }
    destruct (in_range k (s * a * 10)) eqn:E1.
    2:{ apply Hout. apply not_true_iff_false. intro G. apply in_range_iff in G.
        rewrite <- not_true_iff_false, in_range_iff in E1. unfold s in *. destruct pos; lia. }
    destruct (in_range k (s * (10 * a + dv))) eqn:E2; [|now apply Hout].
    specialize (IH (10 * a + dv)%Z e). cbn zeta in IH. fold s in IH. rewrite IH by (auto; lia). clear IH Hout.
    split.
    + intros [(d1 & b & r & -> & F & Hb & G & ->)|(d1 & r & -> & F & G & ->)].
      * left. exists (d :: d1), b, r. cbn [app value forallb]. fold dv. rewrite Ed. auto.
      * right. exists (d :: d1), r. cbn [app value forallb]. fold dv. rewrite Ed. auto.
    + intros [(d1 & b & r & E0 & F & Hb & G & ->)|(d1 & r & E0 & F & G & ->)].
      * destruct d1 as [|x d1]; [injection E0 as <- _; congruence|]. injection E0 as <- ->.
        cbn [value forallb] in F, G. rewrite Ed in F. left. exists d1, b, r. auto.
      * destruct d1 as [|x d1]; [cbn in G; congruence|]. injection E0 as <- ->.
        cbn [value forallb] in F, G. rewrite Ed in F. right. exists d1, r. auto.
Qed.

Lemma loop_int_error k pos ds core e :
  split_sign (isigned k) core = (negb pos, ds) -> (pos = false -> isigned k = true) -> ds <> [] ->
  digit_loop k pos 0 ds = Err e <-> int_error (isigned k) (imin k) (imax k) core e.
Proof.
  intros Hs Hp Hd. pose proof (digit_loop_err k pos ds 0 e) as H. cbn zeta in H. rewrite Z.mul_0_r in H.
  pose proof (imin_le_0 k). pose proof (imax_ge_0 k).
  rewrite H by (try lia; apply in_range_iff; lia). clear H.
  assert (V : forall d1, forallb is_digit d1 = true -> (0 <= value 0 d1)%Z) by (intros; now apply value_ge).
  split.
  - intros [(d1 & b & r & -> & F & Hb & G & ->)|(d1 & r & -> & F & G & ->)].
    + eapply ie_digit; [exact Hs|exact F|exact Hb|]. apply in_range_iff in G. destruct pos; cbn [negb]; lia.
    + rewrite <- not_true_iff_false, in_range_iff in G. specialize (V _ F). destruct pos; cbn [negb] in Hs.
      * eapply ie_large; [exact Hs|exact F|lia].
      * eapply ie_small; [exact Hs|exact F|lia].
  - intros H. destruct H as [->|Hc|neg d1 b r E F Hb G|d1 r E F G|d1 r E F G].
    + cbn in Hs. injection Hs as _ <-. congruence.
    + destruct Hc as [->| ->]; cbn in Hs; [injection Hs as _ <-; congruence|].
      destruct (isigned k) eqn:Ek; [injection Hs as _ <-; congruence|].
      injection Hs as Ep <-. left. exists [], "-"%char, []. repeat split.
      apply in_range_iff. cbn [value]. destruct pos; lia.
    + rewrite Hs in E. injection E as <- ->. left. exists d1, b, r. repeat split; auto.
      apply in_range_iff. destruct pos; cbn [negb] in G; lia.
    + rewrite Hs in E. injection E as Ep ->. destruct pos; [|discriminate]. right. exists d1, r. repeat split; auto.
      apply not_true_iff_false. rewrite in_range_iff. lia.
    + rewrite Hs in E. injection E as Ep ->. destruct pos; [discriminate|]. right. exists d1, r. repeat split; auto.
      apply not_true_iff_false. rewrite in_range_iff. lia.
Qed.

Lemma int_from_str_err k core e :
  int_from_str k core = Err e <-> int_error (isigned k) (imin k) (imax k) core e.
Proof.
  destruct core as [|b rest]; cbn [int_from_str].
  { split; [intros [= <-]; now apply ie_empty|].
    intros [_|[H|H]|neg ds b rest E _ _ _|ds rest E F G|ds rest E F G]; try discriminate; auto.
    - cbn in E. injection E as _ E. destruct ds; discriminate.
    - cbn in E. injection E as E. destruct ds; [|discriminate]. cbn in G. pose proof (imax_ge_0 k). lia. }
  destruct ((Ascii.eqb b "+" || Ascii.eqb b "-") && match rest with [] => true | _ => false end) eqn:Es.
  - apply andb_true_iff in Es as [Eb Er]. destruct rest; [|discriminate]. clear Er.
    assert (Hb : [b] = ["+"%char] \/ [b] = ["-"%char]).
    { apply orb_true_iff in Eb as [Eb|Eb]; apply Ascii.eqb_eq in Eb; subst; auto. }
    assert (Hnd : is_digit b = false) by (destruct Hb as [Hb|Hb]; injection Hb as ->; reflexivity).
    assert (Hsp : forall neg l, split_sign (isigned k) [b] = (neg, l) -> l = [] \/ l = [b]).
    { intros neg l. cbn. destruct (Ascii.eqb b "+"); [intros [= _ <-]; auto|].
      destruct (Ascii.eqb b "-" && isigned k); intros [= _ <-]; auto. }
    pose proof (imin_le_0 k). pose proof (imax_ge_0 k).
    assert (Hz : forall ds r neg, split_sign (isigned k) [b] = (neg, ds ++ r) -> forallb is_digit ds = true -> ds = []).
    { intros ds r neg E F. destruct ds as [|d ds]; auto. exfalso. destruct (Hsp _ _ E) as [H1|H1]; [discriminate|].
      injection H1 as -> _. cbn in F. now rewrite Hnd in F. }
    split; [intros [= <-]; now apply ie_sign|].
    intros [H1|_|neg ds c r E _ _ _|ds r E F G|ds r E F G]; try discriminate; try reflexivity.
    + rewrite (Hz _ _ _ E F) in G. cbn in G. lia.
    + rewrite (Hz _ _ _ E F) in G. cbn in G. lia.
  - destruct (Ascii.eqb b "+") eqn:Ep.
    { apply loop_int_error; [cbn; now rewrite Ep|discriminate|intros ->; discriminate]. }
    destruct (Ascii.eqb b "-" && isigned k) eqn:Em.
    { apply andb_true_iff in Em as [Em Ek].
      apply loop_int_error; [cbn; now rewrite Ep, Em, Ek|auto|intros ->; now rewrite Em in Es]. }
    apply loop_int_error; [cbn; now rewrite Ep, Em|discriminate|discriminate].
Qed.

Lemma trim_start_trimmed l b t : trim_start l = b :: t -> is_ws b = false.
Proof.
  induction l as [|x l IH]; cbn; [discriminate|]. destruct (is_ws x) eqn:E; auto. now intros [= <- _].
Qed.

Lemma trim_trimmed l : trimmed (trim_bytes l).
Proof.
  unfold trim_bytes. split; intros b t E; rewrite ws_byte_is_ws.
  - destruct (trim_start_split (rev (trim_start l))) as (a & H1 & _).
    assert (H2 : trim_start l = (b :: t) ++ rev a).
    { rewrite <- E, <- rev_app_distr, <- H1. symmetry. apply rev_involutive. }
    eapply trim_start_trimmed. exact H2.
  - apply (f_equal (@rev ascii)) in E. rewrite rev_involutive, rev_app_distr in E. cbn in E.
    eapply trim_start_trimmed. exact E.
Qed.

Lemma trim_start_all l : forallb is_ws l = true -> trim_start l = [].
Proof. induction l; cbn; auto. intro H. apply andb_true_iff in H as [-> H]. auto. Qed.

Lemma trim_unique core l : padded core l -> trimmed core -> trim_bytes l = core.
Proof.
  intros P [T1 T2]. destruct core as [|b t].
  - destruct P as (x & y & -> & Hx & Hy). rewrite forallb_ws_byte in Hx, Hy. cbn [app].
    unfold trim_bytes. rewrite (trim_start_all (x ++ y)) by now rewrite forallb_app, Hx, Hy. reflexivity.
  - apply trim_padded; [|exact P]. split.
    + exists b, t. split; auto. rewrite <- ws_byte_is_ws. now apply (T1 b t).
    + destruct (@exists_last _ (b :: t)) as (u & c & E); [discriminate|]. exists u, c. split; auto.
      rewrite <- ws_byte_is_ws. now apply (T2 c u).
Qed.

Lemma parse_int_err k signed lo hi : int_range k = (signed, lo, hi) -> forall text e,
  parse_int k text = Err e <->
  exists core, padded core (bytes_of text) /\ trimmed core /\ int_error signed lo hi core e.
Proof.
  rewrite int_range_eq. intros [= <- <- <-] text e. unfold parse_int. rewrite int_from_str_err. split.
  - intro H. exists (trim_bytes (bytes_of text)). split; [apply padded_trim|]. split; [apply trim_trimmed|exact H].
  - intros (core & P & T & H). now rewrite (trim_unique core).
Qed.

Lemma parse_bool_err o text e :
  parse_bool o text = Err e <->
  ~ true_lex text /\ ~ false_lex text /\ e = ("invalid bool " ++ o_debug o text)%string.
Proof.
  destruct (parse_bool_spec o text) as (_ & _ & H). split.
  - intro E. assert (X := proj1 H (ex_intro _ e E)). destruct X as [X Y]. repeat split; auto.
    revert E. unfold parse_bool. repeat match goal with |- context [if ?c then _ else _] => destruct c end; try discriminate.
    now intros [= <-].
  - intros (X & Y & ->). destruct (proj2 H (conj X Y)) as [e E]. rewrite E. f_equal.
    revert E. unfold parse_bool. repeat match goal with |- context [if ?c then _ else _] => destruct c end; try discriminate.
    now intros [= <-].
Qed.


(** ** Restriction enums *)

Lemma gen_normalize_spec w s : gen_normalize w s = Ok (spec_norm w s).
Proof.
  unfold gen_normalize. destruct w.
  - now rewrite normalize_preserve.
  - now rewrite normalize_replace.
  - now rewrite normalize_collapse.
Qed.

Lemma find_index_Some {A} (f : A -> bool) l i :
  find_index f l = Some i <->
  (exists x, nth_error l i = Some x /\ f x = true) /\
  (forall j x, j < i -> nth_error l j = Some x -> f x = false).
Proof.
  revert i. induction l as [|a l IH]; intro i; cbn.
  - split; [discriminate|]. intros [(x & H & _) _]. destruct i; discriminate.
  - destruct (f a) eqn:E.
    + split.
      * intro H. inversion H; subst. split; [exists a; auto|]. intros; lia.
      * intros [(x & H1 & H2) H3]. destruct i; [reflexivity|].
        specialize (H3 0 a ltac:(lia) eq_refl). congruence.
    + destruct (find_index f l) as [j|] eqn:Ej; cbn.
      * split.
        -- intro H. inversion H; subst. destruct (proj1 (IH j) eq_refl) as [(x & H1 & H2) H3].
           split; [exists x; auto|]. intros [|j'] y Hj Hy; cbn in Hy; [congruence|].
           apply (H3 j' y); auto; lia.
        -- intros [(x & H1 & H2) H3]. destruct i; cbn in H1; [congruence|].
           f_equal. f_equal. assert (Some j = Some i) as K; [|congruence].
           apply IH. split; [eauto|]. intros j' y Hj Hy. apply (H3 (S j') y); auto; lia.
      * split; [discriminate|]. intros [(x & H1 & H2) H3]. destruct i; cbn in H1; [congruence|].
        assert (None = Some i) as K; [|congruence].
        apply IH. split; [eauto|]. intros j' y Hj Hy. apply (H3 (S j') y); auto; lia.
Qed.

Lemma find_index_None {A} (f : A -> bool) l : find_index f l = None <-> forall x, In x l -> f x = false.
Proof.
  induction l as [|a l IH]; cbn; [split; auto; intros _ x []|].
  destruct (f a) eqn:E.
  - split; [discriminate|]. intro H. rewrite H in E; auto. discriminate.
  - destruct (find_index f l); cbn.
    + split; [discriminate|]. intro H. exfalso. assert (Some n = None) by (apply IH; auto). discriminate.
    + split; auto. intros _ x [->|Hx]; auto. now apply IH.
Qed.

Lemma parse_restr_known o name ws vs text i :
  parse_text o (TRestr name ws vs) text = Ok (TVKnown i) <->
  nth_error vs i = Some (RKnown (spec_norm ws text)) /\
  (forall j, j < i -> nth_error vs j <> Some (RKnown (spec_norm ws text))).
Proof.
  cbn [parse_text]. rewrite gen_normalize_spec. cbn [bind]. unfold parse_restr.
  set (t := spec_norm ws text).
  assert (K : forall v, known_is t v = true <-> v = RKnown t).
  { intros [u|]; cbn; [|split; discriminate]. rewrite String.eqb_eq. split; congruence. }
  destruct (find_index (known_is t) vs) as [j|] eqn:E.
  - pose proof (proj1 (find_index_Some _ _ _) E) as [(x & H1 & H2) H3]. apply K in H2. subst x.
    split.
    + intro H. inversion H; subst. split; auto. intros j Hj Hn. specialize (H3 _ _ Hj Hn).
      assert (known_is t (RKnown t) = true) by (now apply K). congruence.
    + intros [G1 G2]. f_equal. f_equal.
      destruct (Nat.lt_trichotomy i j) as [L|[L|L]]; auto.
      * specialize (H3 _ _ L G1). assert (known_is t (RKnown t) = true) by (now apply K). congruence.
      * exfalso. eapply G2; eauto.
  - split; [destruct (existsb is_unknown vs); discriminate|].
    intros [G1 _]. rewrite find_index_None in E. apply nth_error_In in G1. apply E in G1.
    assert (known_is t (RKnown t) = true) by (now apply K). congruence.
Qed.

Lemma parse_restr_unknown o name ws vs text s :
  parse_text o (TRestr name ws vs) text = Ok (TVUnknown s) <->
  s = spec_norm ws text /\ ~ In (RKnown (spec_norm ws text)) vs /\ In RUnknown vs.
Proof.
  cbn [parse_text]. rewrite gen_normalize_spec. cbn [bind]. unfold parse_restr.
  set (t := spec_norm ws text).
  assert (U : existsb is_unknown vs = true <-> In RUnknown vs).
  { rewrite existsb_exists. split; [intros ([|] & H1 & H2); try discriminate; auto|].
    intro H; exists RUnknown; auto. }
  destruct (find_index (known_is t) vs) as [j|] eqn:E.
  - pose proof (proj1 (find_index_Some _ _ _) E) as [(x & H1 & H2) _].
    split; [discriminate|]. intros (_ & H & _). exfalso. apply H.
    destruct x as [u|]; [|discriminate]. cbn in H2. apply String.eqb_eq in H2. subst u.
    eapply nth_error_In; eauto.
  - rewrite find_index_None in E.
    assert (~ In (RKnown t) vs).
    { intro H. apply E in H. cbn in H. rewrite String.eqb_refl in H. discriminate. }
    destruct (existsb is_unknown vs) eqn:Eu.
    + split; [intro G; inversion G; subst; repeat split; auto; now apply U|].
      intros (-> & _). reflexivity.
    + split; [discriminate|]. intros (_ & _ & H'). apply U in H'. congruence.
Qed.

Lemma parse_restr_err o name ws vs text e :
  parse_text o (TRestr name ws vs) text = Err e <->
  ~ In (RKnown (spec_norm ws text)) vs /\ ~ In RUnknown vs /\
  e = no_such_variant o name (spec_norm ws text).
Proof.
  cbn [parse_text]. rewrite gen_normalize_spec. cbn [bind]. unfold parse_restr.
  set (t := spec_norm ws text).
  assert (U : existsb is_unknown vs = true <-> In RUnknown vs).
  { rewrite existsb_exists. split; [intros ([|] & H1 & H2); try discriminate; auto|].
    intro H; exists RUnknown; auto. }
  destruct (find_index (known_is t) vs) as [j|] eqn:E.
  - pose proof (proj1 (find_index_Some _ _ _) E) as [(x & H1 & H2) _].
    split; [discriminate|]. intros (H & _). exfalso. apply H.
    destruct x as [u|]; [|discriminate]. cbn in H2. apply String.eqb_eq in H2. subst u.
    eapply nth_error_In; eauto.
  - rewrite find_index_None in E.
    assert (~ In (RKnown t) vs).
    { intro H. apply E in H. cbn in H. rewrite String.eqb_refl in H. discriminate. }
    destruct (existsb is_unknown vs) eqn:Eu.
    + split; [discriminate|]. intros (_ & H' & _). exfalso. apply H'. now apply U.
    + assert (~ In RUnknown vs) by (rewrite <- U; congruence).
      split; [intro G; inversion G; subst; auto|]. intros (_ & _ & ->). reflexivity.
Qed.

(** Distinct fixed strings, each fixed by the normalization. *)
Definition restr_texts (vs : list rvariant) : list string :=
  flat_map (fun v => match v with RKnown t => [t] | RUnknown => [] end) vs.

Lemma restr_texts_In t vs : In t (restr_texts vs) <-> In (RKnown t) vs.
Proof.
  unfold restr_texts. rewrite in_flat_map. split.
  - intros ([u|] & H1 & H2); cbn in H2; [|tauto]. destruct H2 as [->|[]]. auto.
  - intro H. exists (RKnown t). split; auto. now left.
Qed.

Lemma restr_texts_nodup vs i j t : NoDup (restr_texts vs) ->
  nth_error vs i = Some (RKnown t) -> nth_error vs j = Some (RKnown t) -> i = j.
Proof.
  revert i j. induction vs as [|v vs IH]; intros i j N Hi Hj; [destruct i; discriminate|].
  assert (N' : NoDup (restr_texts vs)).
  { destruct v; cbn in N; auto. now inversion N. }
  destruct i as [|i], j as [|j]; cbn in Hi, Hj; auto.
  - inversion Hi; subst v. cbn in N. inversion N; subst. exfalso. apply H1.
    apply restr_texts_In. eapply nth_error_In; eauto.
  - inversion Hj; subst v. cbn in N. inversion N; subst. exfalso. apply H1.
    apply restr_texts_In. eapply nth_error_In; eauto.
Qed.

Lemma restr_roundtrip_known o name ws vs i t :
  NoDup (restr_texts vs) -> spec_norm ws t = t -> nth_error vs i = Some (RKnown t) ->
  to_text o (TRestr name ws vs) (TVKnown i) = Some t /\
  parse_text o (TRestr name ws vs) t = Ok (TVKnown i).
Proof.
  intros N F H. split; [cbn; now rewrite H|].
  apply parse_restr_known. rewrite F. split; auto. intros j Hj Hn.
  pose proof (restr_texts_nodup vs i j t N H Hn). lia.
Qed.

Lemma restr_roundtrip_unknown o name ws vs s :
  In RUnknown vs -> spec_norm ws s = s -> ~ In (RKnown s) vs ->
  to_text o (TRestr name ws vs) (TVUnknown s) = Some s /\
  parse_text o (TRestr name ws vs) s = Ok (TVUnknown s).
Proof.
  intros U F H. split.
  - cbn. replace (existsb is_unknown vs) with true; auto. symmetry.
    apply existsb_exists. exists RUnknown. auto.
  - apply parse_restr_unknown. rewrite F. auto.
Qed.

(** ** Union enums *)

Definition attempts (o : oracles) (name text : string) : nat -> list string -> list tty -> res string tval :=
  fix attempts (i : nat) (errs : list string) (vs : list tty) : res string tval :=
    match vs with
    | [] => Err (union_error name errs)
    | t :: vs' =>
        match parse_text o t text with
        | Ok r => Ok (TVUnion i r)
        | Err e => attempts (S i) (errs ++ [e]) vs'
        | Abort x => Abort x
        end
    end.

Lemma parse_union_eq o name ws vs text :
  parse_text o (TUnion name ws vs) text = attempts o name (spec_norm ws text) 0 [] vs.
Proof. cbn [parse_text]. rewrite gen_normalize_spec. reflexivity. Qed.

Lemma attempts_ok o name text vs : forall n errs i v,
  attempts o name text n errs vs = Ok (TVUnion i v) <->
  n <= i /\ (exists t, nth_error vs (i - n) = Some t /\ parse_text o t text = Ok v) /\
  (forall j t, j < i - n -> nth_error vs j = Some t -> exists e, parse_text o t text = Err e).
Proof.
  induction vs as [|t vs IH]; intros n errs i v; cbn [attempts].
  - split; [discriminate|]. intros (_ & (t & H & _) & _). destruct (i - n); discriminate.
  - destruct (parse_text o t text) as [r|e|x] eqn:E.
    + split.
      * intro H; inversion H; subst. split; auto. rewrite Nat.sub_diag. split; [exists t; auto|].
        intros; lia.
      * intros (H1 & (t' & H2 & H3) & H4). destruct (i - n) as [|d] eqn:D.
        -- cbn in H2. inversion H2; subst t'. replace i with n by lia. congruence.
        -- destruct (H4 0 t ltac:(lia) eq_refl) as [e' H']. congruence.
    + rewrite IH. split.
      * intros (H1 & (t' & H2 & H3) & H4). split; [lia|].
        replace (i - n) with (S (i - S n)) by lia. split; [exists t'; auto|].
        intros [|j] t'' Hj Hn; cbn in Hn; [inversion Hn; subst; eauto|].
        apply (H4 j); auto; lia.
      * intros (H1 & (t' & H2 & H3) & H4). destruct (i - n) as [|d] eqn:D.
        -- cbn in H2. inversion H2; subst. congruence.
        -- split; [lia|]. replace (i - S n) with d by lia. split; [exists t'; auto|].
           intros j t'' Hj Hn. apply (H4 (S j)); auto; lia.
    + split; [discriminate|]. intros (H1 & (t' & H2 & H3) & H4). destruct (i - n) as [|d] eqn:D.
      * cbn in H2. inversion H2; subst. congruence.
      * destruct (H4 0 t ltac:(lia) eq_refl) as [e' H']. congruence.
Qed.

Lemma attempts_err o name text vs : forall n errs m,
  attempts o name text n errs vs = Err m <->
  exists es, Forall2 (fun t e => parse_text o t text = Err e) vs es /\ m = union_error name (errs ++ es).
Proof.
  induction vs as [|t vs IH]; intros n errs m; cbn [attempts].
  - split.
    + intro H; inversion H; subst. exists []. rewrite app_nil_r. auto.
    + intros (es & F & ->). inversion F; subst. now rewrite app_nil_r.
  - destruct (parse_text o t text) as [r|e|x] eqn:E.
    + split; [discriminate|]. intros (es & F & _). inversion F; subst. congruence.
    + rewrite IH. split.
      * intros (es & F & ->). exists (e :: es). split; [constructor; auto|]. now rewrite <- app_assoc.
      * intros (es & F & ->). inversion F as [|? e' ? es' H1 H2]; subst. exists es'. split; auto.
        rewrite <- app_assoc. cbn. congruence.
    + split; [discriminate|]. intros (es & F & _). inversion F; subst. congruence.
Qed.

Lemma union_error_spec name es :
  union_error name es =
  ("all " ++ name ++ " union variants failed to parse:" ++
   fold_right (fun e r => newline ++ "* " ++ e ++ r) "" es)%string.
Proof.
  assert (A : forall a b c : string, ((a ++ b) ++ c)%string = (a ++ b ++ c)%string).
  { intros a b c; induction a; cbn; congruence. }
  assert (N : forall a : string, (a ++ "")%string = a) by (induction a; cbn; congruence).
  assert (G : forall es m, fold_left (fun msg e => msg ++ newline ++ "* " ++ e)%string es m
     = (m ++ fold_right (fun e r => newline ++ "* " ++ e ++ r)%string ""%string es)%string).
  { induction es0 as [|e es0 IH]; intro m; cbn [fold_left fold_right]; [now rewrite N|].
    rewrite IH. now rewrite !A. }
  unfold union_error. rewrite G. now rewrite !A.
Qed.

(** A union value round-trips iff no earlier variant accepts its text and its payload round-trips. *)
Lemma union_roundtrip o name ws vs i v t s :
  nth_error vs i = Some t -> to_text o t v = Some s ->
  to_text o (TUnion name ws vs) (TVUnion i v) = Some s /\
  (parse_text o (TUnion name ws vs) s = Ok (TVUnion i v) <->
   parse_text o t (spec_norm ws s) = Ok v /\
   (forall j t', j < i -> nth_error vs j = Some t' -> exists e, parse_text o t' (spec_norm ws s) = Err e)).
Proof.
  intros Hn Ht. split.
  - cbn. revert i Hn. induction vs as [|t0 vs IH]; intros [|i] Hn; try discriminate.
    + cbn in Hn. inversion Hn; subst. exact Ht.
    + apply IH. exact Hn.
  - rewrite parse_union_eq, attempts_ok, Nat.sub_0_r. split.
    + intros (_ & (t' & H1 & H2) & H3). rewrite Hn in H1. inversion H1; subst. auto.
    + intros (H1 & H2). split; [lia|]. split; eauto.
Qed.

(** ** No panic, no divergence *)

Fixpoint tty_ind' (P : tty -> Prop)
  (H1 : P TString) (H2 : P TBool) (H3 : forall k, P (TInt k)) (H4 : forall w, P (TFloat w))
  (H5 : forall n w vs, P (TRestr n w vs))
  (H6 : forall n w vs, Forall P vs -> P (TUnion n w vs))
  (H7 : forall i w, P (TStd i w)) (H8 : forall i, P (THand i)) (t : tty) : P t :=
  match t with
  | TString => H1 | TBool => H2 | TInt k => H3 k | TFloat w => H4 w
  | TRestr n w vs => H5 n w vs
  | TUnion n w vs => H6 n w vs
      ((fix go (vs : list tty) : Forall P vs :=
          match vs with
          | [] => Forall_nil _
          | t :: vs => Forall_cons _ (tty_ind' P H1 H2 H3 H4 H5 H6 H7 H8 t) (go vs)
          end) vs)
  | TStd i w => H7 i w
  | THand i => H8 i
  end.

Definition oracles_total (o : oracles) : Prop :=
  (forall i s x, o_std_parse o i s <> Abort x) /\ (forall w s x, o_float_parse o w s <> Abort x) /\
  (forall i s x, o_hand_parse o i s <> Abort x).

Lemma parse_text_total o : oracles_total o -> forall t s x, parse_text o t s <> Abort x.
Proof.
  intros (O1 & O2 & O3). induction t using tty_ind'; intros s x.
  - discriminate.
  - cbn. unfold parse_bool. repeat match goal with |- context [if ?c then _ else _] => destruct c end; discriminate.
  - cbn. unfold parse_int. destruct (int_from_str k _) eqn:E; try discriminate.
    exfalso; eapply int_from_str_no_abort; eauto.
  - cbn. destruct (o_float_parse o w _) eqn:E; try discriminate. exfalso; eapply O2; eauto.
  - cbn [parse_text]. rewrite gen_normalize_spec. cbn. unfold parse_restr.
    destruct (find_index _ _); [discriminate|]. destruct (existsb _ _); discriminate.
  - rewrite parse_union_eq. generalize (spec_norm w s), 0, (@nil string). intros text i errs.
    revert i errs. induction H as [|t vs Ht F IH]; intros i errs; cbn [attempts]; [discriminate|].
    destruct (parse_text o t text) eqn:E; [discriminate|apply IH|]. exfalso. eapply Ht; eauto.
  - cbn [parse_text]. rewrite gen_normalize_spec. cbn.
    destruct (o_std_parse o i _) eqn:E; try discriminate. exfalso; eapply O1; eauto.
  - cbn. destruct (o_hand_parse o i s) eqn:E; try discriminate. exfalso; eapply O3; eauto.
Qed.

Lemma parse_union_ok o name ws vs text i v :
  parse_text o (TUnion name ws vs) text = Ok (TVUnion i v) <->
  (exists t, nth_error vs i = Some t /\ parse_text o t (spec_norm ws text) = Ok v) /\
  (forall j t, j < i -> nth_error vs j = Some t -> exists e, parse_text o t (spec_norm ws text) = Err e).
Proof.
  rewrite parse_union_eq, attempts_ok, Nat.sub_0_r. split; [tauto|].
  intros [H1 H2]. repeat split; auto. lia.
Qed.

Lemma parse_union_err o name ws vs text m :
  parse_text o (TUnion name ws vs) text = Err m <->
  exists es, Forall2 (fun t e => parse_text o t (spec_norm ws text) = Err e) vs es /\
    m = ("all " ++ name ++ " union variants failed to parse:" ++
         fold_right (fun e r => newline ++ "* " ++ e ++ r) "" es)%string.
Proof.
  rewrite parse_union_eq, attempts_err. cbn [app].
  split; intros (es & H1 & H2); exists es; rewrite union_error_spec in *; auto.
Qed.
