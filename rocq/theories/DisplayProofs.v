(** Proofs about what is printed. *)
From Verif Require Import Base Text TextProofs Types Reader Display DisplaySpec.
From Coq Require Import Lia.

(** ** Expanded names *)

Lemma app_cut c a1 : forall a2 b1 b2,
  (a1 ++ String c b1 = a2 ++ String c b2)%string -> free_of c a1 -> free_of c a2 -> a1 = a2 /\ b1 = b2.
Proof.
  unfold free_of. induction a1 as [|x a1 IH]; intros [|y a2] b1 b2 H F1 F2; cbn in *.
  - inversion H. auto.
  - inversion H; subst. exfalso. apply F2. now left.
  - inversion H; subst. exfalso. apply F1. now left.
  - injection H as -> H. destruct (IH _ _ _ H) as [-> ->]; auto.
Qed.

Lemma display_injective a b :
  free_of "{" (xn_local a) -> free_of "{" (xn_local b) ->
  free_of "}" (xn_ns a) -> free_of "}" (xn_ns b) ->
  xn_display a = xn_display b -> a = b.
Proof.
  destruct a as [n1 l1], b as [n2 l2]. unfold xn_display. cbn [xn_ns xn_local].
  intros F1 F2 G1 G2 H.
  destruct (String.eqb_spec n1 "") as [E1|E1], (String.eqb_spec n2 "") as [E2|E2].
  - congruence.
  - exfalso. rewrite H in F1. apply F1. now left.
  - exfalso. rewrite <- H in F2. apply F2. now left.
  - cbn in H. injection H as H. destruct (app_cut "}" _ _ _ _ H G1 G2) as [-> ->]. reflexivity.
Qed.

(** ** Numerals *)

Lemma hex_dvalue n : (n < 16)%N -> dvalue (hex_digit n) = Some n.
Proof.
  intro H. assert (E : n = 0%N \/ n = 1%N \/ n = 2%N \/ n = 3%N \/ n = 4%N \/ n = 5%N \/ n = 6%N \/ n = 7%N \/
    n = 8%N \/ n = 9%N \/ n = 10%N \/ n = 11%N \/ n = 12%N \/ n = 13%N \/ n = 14%N \/ n = 15%N) by lia.
  repeat (destruct E as [-> | E]; [reflexivity|]). now subst.
Qed.

Lemma dec_dvalue n : (n < 10)%N -> dvalue (digit n) = Some n.
Proof.
  intro H. assert (E : n = 0%N \/ n = 1%N \/ n = 2%N \/ n = 3%N \/ n = 4%N \/ n = 5%N \/ n = 6%N \/ n = 7%N \/
    n = 8%N \/ n = 9%N) by lia.
  repeat (destruct E as [-> | E]; [reflexivity|]). now subst.
Qed.

Lemma div_small n b k : (2 <= b)%N -> (n < 2 ^ N.of_nat (S k))%N -> (n / b < 2 ^ N.of_nat k)%N.
Proof.
  intros Hb H. apply N.div_lt_upper_bound; [lia|].
  rewrite Nat2N.inj_succ, N.pow_succ_r in H by lia. nia.
Qed.

Section Loop.
  Context (base : N) (dg : N -> ascii).
  Hypothesis base_ge : (2 <= base)%N.
  Hypothesis dg_value : forall n, (n < base)%N -> dvalue (dg n) = Some n.

  Fixpoint gen_loop (fuel : nat) (n : N) (acc : list ascii) : list ascii :=
    match fuel with
    | O => acc
    | S fuel' =>
        let acc' := dg (N.modulo n base) :: acc in
        if N.ltb n base then acc' else gen_loop fuel' (N.div n base) acc'
    end.

  Lemma gen_loop_spec fuel : forall n acc, (n < 2 ^ N.of_nat fuel)%N -> fuel <> 0 ->
    exists l, gen_loop fuel n acc = l ++ acc /\ numeral_of base l n.
  Proof using base_ge dg_value.
    induction fuel as [|fuel IH]; intros n acc Hn Hf; [easy|]. cbn [gen_loop].
    destruct (N.ltb_spec n base) as [Hlt | Hge].
    - exists [dg (n mod base)%N]. split; [reflexivity|]. rewrite N.mod_small by assumption.
      constructor; auto.
    - assert (Hf' : fuel <> 0).
      { intros ->. change (2 ^ N.of_nat 1)%N with 2%N in Hn. lia. }
      destruct (IH (n / base)%N (dg (n mod base)%N :: acc)) as (l & E & Hl); auto.
      { apply div_small; assumption. }
      exists (l ++ [dg (n mod base)%N]). split.
      + rewrite E, <- app_assoc. reflexivity.
      + assert (Hmod : (n mod base < base)%N) by (apply N.mod_lt; lia).
        assert (Hdiv : (0 < n / base)%N) by (apply N.div_str_pos; lia).
        rewrite (N.div_mod n base) at 2 by lia. rewrite (N.mul_comm base).
        constructor; auto.
  Qed.
End Loop.

Lemma hex_loop_gen fuel : forall n acc, hex_loop fuel n acc = gen_loop 16 hex_digit fuel n acc.
Proof. induction fuel; intros; cbn [hex_loop gen_loop]; [reflexivity|]. now rewrite IHfuel. Qed.

Lemma show_loop_gen fuel : forall n acc, show_loop fuel n acc = gen_loop 10 digit fuel n acc.
Proof.
  induction fuel; intros; cbn [show_loop gen_loop]; [reflexivity|]. rewrite IHfuel.
  destruct (N.ltb_spec n 10) as [H | H].
  - now rewrite N.div_small.
  - assert (E : (0 < n / 10)%N) by (apply N.div_str_pos; lia).
    destruct (N.eqb_spec (n / 10) 0); [lia|reflexivity].
Qed.

Lemma pow_S n : (n < 2 ^ N.of_nat (S (N.size_nat n)))%N.
Proof.
  eapply N.lt_le_trans; [apply size_nat_gt|]. apply N.pow_le_mono_r; lia.
Qed.

Lemma show_hex_numeral n : numeral_of 16 (show_hex n) n.
Proof.
  unfold show_hex. rewrite hex_loop_gen.
  destruct (gen_loop_spec 16 hex_digit ltac:(lia) hex_dvalue (S (N.size_nat n)) n [] (pow_S n) ltac:(lia))
    as (l & -> & H). now rewrite app_nil_r.
Qed.

Lemma show_N_numeral n : numeral_of 10 (show_N n) n.
Proof.
  unfold show_N. rewrite show_loop_gen.
  destruct (gen_loop_spec 10 digit ltac:(lia) dec_dvalue (S (N.size_nat n)) n [] (pow_S n) ltac:(lia))
    as (l & -> & H). now rewrite app_nil_r.
Qed.

Lemma numeral_ne base l n : numeral_of base l n -> l <> [].
Proof. destruct 1; [easy|]. now destruct l. Qed.

Lemma numeral_fun base l n : numeral_of base l n -> forall m, numeral_of base l m -> n = m.
Proof.
  induction 1 as [b d Hd Hlt | l n b d Hl IH Hn Hd Hlt]; intros m Hm.
  - remember [b] as k eqn:E. destruct Hm as [b' d' Hd' _ | l' n' b' d' Hl' _ Hd' _].
    + inversion E; subst. congruence.
    + apply (app_inj_tail _ []) in E. destruct E as [-> _]. now apply numeral_ne in Hl'.
  - remember (l ++ [b]) as k eqn:E. destruct Hm as [b' d' Hd' _ | l' n' b' d' Hl' _ Hd' _].
    + symmetry in E. apply (app_inj_tail _ []) in E. destruct E as [-> _]. now apply numeral_ne in Hl.
    + apply app_inj_tail in E. destruct E as [-> ->]. rewrite (IH _ Hl'). congruence.
Qed.

Lemma numeral_digits base l n : numeral_of base l n -> forall b, In b l -> dvalue b <> None.
Proof.
  induction 1 as [b d Hd Hlt | l n b d Hl IH Hn Hd Hlt]; intros x Hx.
  - destruct Hx as [<- | []]. congruence.
  - apply in_app_iff in Hx. destruct Hx as [Hx | [<- | []]]; [auto|congruence].
Qed.

(** ** The shape of a printed error *)

Lemma bytes_str l : bytes_of (str_of l) = l.
Proof. apply list_ascii_of_string_of_list_ascii. Qed.

Lemma str_app a b : str_of (a ++ b) = (str_of a ++ str_of b)%string.
Proof. induction a; cbn; congruence. Qed.

Lemma bytes_app a b : bytes_of (a ++ b)%string = bytes_of a ++ bytes_of b.
Proof. induction a; cbn; congruence. Qed.

Lemma append_assoc a b c : ((a ++ b) ++ c = a ++ (b ++ c))%string.
Proof. induction a; cbn; congruence. Qed.

Lemma append_nil_r a : (a ++ "")%string = a.
Proof. induction a; cbn; congruence. Qed.

Lemma str_length l : String.length (str_of l) = List.length l.
Proof. induction l; cbn; congruence. Qed.

Lemma show_pos_text p : pos_text p (show_pos p).
Proof.
  exists (str_of (show_N (fst p + 1))), (str_of (show_N (snd p + 1))).
  rewrite !bytes_str. repeat split; apply show_N_numeral.
Qed.

Lemma repr_text n : qname_text n (repr_display n).
Proof.
  unfold qname_text, repr_display. destruct (on_prefix n) as [p|]; [left; now exists p | right; auto].
Qed.

(** A stack line without its newline. *)
Definition line (i : nat) (el : selem) : string :=
  (show_hex4 (N.of_nat i) ++ ": <" ++ repr_display (se_name el) ++ "> @ " ++ show_pos (se_pos el))%string.

Lemma stack_line_line i el : stack_line i el = (line i el ++ String newline_char "")%string.
Proof. unfold stack_line, line. rewrite !append_assoc. reflexivity. Qed.

Lemma line_spec i el : line_text i el (line i el).
Proof.
  set (h := show_hex (N.of_nat i)).
  exists (repeat " "%char (4 - List.length h)), (str_of h), (repr_display (se_name el)), (show_pos (se_pos el)).
  split; [intros b Hb; now apply repeat_spec in Hb|].
  split; [rewrite bytes_str; apply show_hex_numeral|].
  split; [rewrite repeat_length, str_length; lia|].
  split; [apply repr_text|]. split; [apply show_pos_text|].
  unfold line, show_hex4. fold h. rewrite str_app, append_assoc. reflexivity.
Qed.

Lemma concat_cons l ls : String.concat "" (l :: ls) = (l ++ String.concat "" ls)%string.
Proof. destruct ls; cbn [String.concat]; [now rewrite append_nil_r | reflexivity]. Qed.

Lemma lines_cons l ls : lines_text (l :: ls) = (l ++ String newline_char (lines_text ls))%string.
Proof. unfold lines_text. cbn [map]. rewrite concat_cons, append_assoc. reflexivity. Qed.

Definition lines_of (l : list (nat * selem)) : list string := map (fun '(i, el) => line i el) l.

Lemma stack_loop_lines l : stack_loop l = lines_text (lines_of l).
Proof.
  induction l as [|[i el] l IH]; [reflexivity|]. cbn [lines_of map stack_loop].
  rewrite lines_cons, stack_line_line, append_assoc, IH. reflexivity.
Qed.

Lemma indexed_length {A} (l : list A) : forall i, List.length (indexed_from i l) = List.length l.
Proof. induction l; intros; cbn; auto. Qed.

Lemma indexed_nth {A} (l : list A) : forall i k x, nth_error l k = Some x ->
  nth_error (indexed_from i l) k = Some (i + k, x).
Proof.
  induction l as [|y l IH]; intros i [|k] x H; cbn in *; try discriminate.
  - inversion H. now rewrite Nat.add_0_r.
  - rewrite (IH (S i) _ _ H). f_equal. f_equal. lia.
Qed.

Lemma nth_error_rev {A} (l : list A) k x : nth_error l k = Some x ->
  nth_error (rev l) (List.length l - 1 - k) = Some x.
Proof.
  intro H. destruct (nth_error_split l k H) as (l1 & l2 & -> & <-).
  rewrite rev_app_distr. cbn [rev]. rewrite <- app_assoc. cbn [app].
  rewrite app_length. cbn [List.length].
  replace (List.length l1 + S (List.length l2) - 1 - List.length l1) with (List.length (rev l2))
    by (rewrite rev_length; lia).
  rewrite nth_error_app2 by lia. now rewrite Nat.sub_diag.
Qed.

Lemma display_shape show e : exists p, pos_text (er_pos e) p /\
  (er_stack e = [] /\ error_display show e = (kind_display show (er_kind e) ++ " @ " ++ p)%string \/
   er_stack e <> [] /\ exists ls,
     List.length ls = List.length (er_stack e) /\
     (forall i el, nth_error (er_stack e) i = Some el ->
        exists l, nth_error ls (List.length (er_stack e) - 1 - i) = Some l /\ line_text i el l) /\
     error_display show e =
       (kind_display show (er_kind e) ++ " @ " ++ p ++
        lines_text ("" :: "" :: "XML element stack:" :: ls))%string).
Proof.
  exists (show_pos (er_pos e)). split; [apply show_pos_text|].
  unfold error_display. destruct (er_stack e) as [|s0 st] eqn:Es.
  - left. rewrite append_nil_r. auto.
  - right. split; [easy|]. set (stk := s0 :: st).
    exists (lines_of (rev (indexed_from 0 stk))). split; [|split].
    + unfold lines_of. rewrite map_length, rev_length. apply indexed_length.
    + intros i el H. exists (line i el). split; [|apply line_spec].
      apply (indexed_nth _ 0) in H. apply nth_error_rev in H. rewrite indexed_length in H.
      unfold lines_of. erewrite map_nth_error; [|exact H]. reflexivity.
    + rewrite stack_loop_lines, !lines_cons. reflexivity.
Qed.

(** ** The stack can be read back *)

Lemma append_inv_head a b c : (a ++ b = a ++ c)%string -> b = c.
Proof. induction a; cbn; intro H; [auto|]. injection H. auto. Qed.

Lemma free_app c a b : free_of c (a ++ b)%string <-> free_of c a /\ free_of c b.
Proof. unfold free_of. rewrite bytes_app, in_app_iff. tauto. Qed.

Lemma free_cons c x b : free_of c (String x b) <-> x <> c /\ free_of c b.
Proof. unfold free_of. cbn. tauto. Qed.

Lemma numeral_free base s n c : dvalue c = None -> numeral_of base (bytes_of s) n -> free_of c s.
Proof. intros Hc H Hin. now apply (numeral_digits _ _ _ H) in Hin. Qed.

Lemma show_free n c : dvalue c = None -> free_of c (str_of (show_N n)).
Proof. intros H. apply (numeral_free 10 _ n); [assumption|]. rewrite bytes_str. apply show_N_numeral. Qed.

Lemma free_nil c : free_of c "".
Proof. intros []. Qed.

Ltac free := repeat first [apply free_nil | apply free_app; split | apply free_cons; split | assumption
  | apply show_free; reflexivity | discriminate].

Lemma show_N_inj n m : str_of (show_N n) = str_of (show_N m) -> n = m.
Proof.
  intro H. apply (f_equal bytes_of) in H. rewrite !bytes_str in H.
  apply (numeral_fun 10 (show_N n)); [apply show_N_numeral | rewrite H; apply show_N_numeral].
Qed.

Lemma show_pos_free p c : dvalue c = None -> c <> ":"%char -> free_of c (show_pos p).
Proof. intros H Hn. unfold show_pos. free; try (apply show_free; assumption); auto. Qed.

Lemma show_pos_inj p q : show_pos p = show_pos q -> p = q.
Proof.
  destruct p as [r c], q as [r' c']. unfold show_pos. cbn [fst snd append]. intro H.
  apply (app_cut ":") in H; [|free|free]. destruct H as [H1 H2].
  apply show_N_inj in H1, H2. f_equal; lia.
Qed.

Lemma show_hex4_free i : free_of newline_char (show_hex4 i).
Proof.
  unfold show_hex4, free_of. rewrite bytes_str, in_app_iff. intros [H | H].
  - apply repeat_spec in H. discriminate.
  - now apply (numeral_digits _ _ _ (show_hex_numeral i)) in H.
Qed.

Lemma plain_repr n : plain_name n -> free_of newline_char (repr_display n) /\ free_of ">" (repr_display n).
Proof.
  intros (Hp & Hn & Hg). unfold repr_display. destruct (on_prefix n) as [p|]; [|auto].
  destruct (Hp p eq_refl). split; free.
Qed.

Lemma line_free i el : plain_name (se_name el) -> free_of newline_char (line i el).
Proof.
  intro H. apply plain_repr in H. destruct H as [H _]. unfold line.
  free; try apply show_hex4_free; try (apply show_pos_free; easy); try assumption.
Qed.

Lemma line_inj i a b : plain_name (se_name a) -> plain_name (se_name b) -> line i a = line i b ->
  repr_display (se_name a) = repr_display (se_name b) /\ se_pos a = se_pos b.
Proof.
  intros Ha Hb H. apply plain_repr in Ha, Hb. unfold line in H. apply append_inv_head in H.
  cbn [append] in H. injection H as H. apply (app_cut ">") in H; [|tauto|tauto].
  destruct H as [H1 H2]. injection H2 as H2. apply show_pos_inj in H2. auto.
Qed.

Lemma lines_inj ls1 : forall ls2, Forall (free_of newline_char) ls1 -> Forall (free_of newline_char) ls2 ->
  lines_text ls1 = lines_text ls2 -> ls1 = ls2.
Proof.
  induction ls1 as [|l1 ls1 IH]; intros [|l2 ls2] F1 F2 H.
  - reflexivity.
  - rewrite lines_cons in H. destruct l2; discriminate.
  - rewrite lines_cons in H. destruct l1; discriminate.
  - rewrite !lines_cons in H. inversion F1; inversion F2; subst.
    apply app_cut in H; [|assumption|assumption]. destruct H as [-> H]. f_equal. auto.
Qed.

Lemma lines_of_free st : forall i, Forall (fun el => plain_name (se_name el)) st ->
  Forall (free_of newline_char) (lines_of (indexed_from i st)).
Proof.
  induction st as [|a st IH]; intros i H; [constructor|].
  change (Forall (free_of newline_char) (line i a :: lines_of (indexed_from (S i) st))).
  inversion H; subst. constructor; [now apply line_free | now apply IH].
Qed.

Lemma repr_same a b : repr_display (se_name a) = repr_display (se_name b) -> se_pos a = se_pos b -> same_print a b.
Proof.
  intros H Hp. split; [|assumption]. intro s.
  assert (E : forall n s, qname_text n s <-> s = repr_display n).
  { intros n t. unfold qname_text, repr_display. destruct (on_prefix n) as [q|]; split.
    - intros [(p & [= <-] & ->) | [H' _]]; [reflexivity|discriminate].
    - intros ->. left. now exists q.
    - intros [(p & H' & _) | [_ ->]]; [discriminate|reflexivity].
    - intros ->. now right. }
  now rewrite !E, H.
Qed.

Lemma lines_of_inj st1 : forall i st2,
  Forall (fun el => plain_name (se_name el)) st1 -> Forall (fun el => plain_name (se_name el)) st2 ->
  lines_of (indexed_from i st1) = lines_of (indexed_from i st2) -> Forall2 same_print st1 st2.
Proof.
  induction st1 as [|a st1 IH]; intros i [|b st2] H1 H2 H; cbn in H; try discriminate; constructor;
    inversion H1; inversion H2; subst; injection H as Hl H.
  - apply line_inj in Hl; [|assumption|assumption]. destruct Hl. now apply repr_same.
  - eauto.
Qed.

Lemma display_recoverable show e1 e2 :
  Forall (fun el => plain_name (se_name el)) (er_stack e1) ->
  Forall (fun el => plain_name (se_name el)) (er_stack e2) ->
  kind_display show (er_kind e1) = kind_display show (er_kind e2) ->
  error_display show e1 = error_display show e2 ->
  er_pos e1 = er_pos e2 /\ Forall2 same_print (er_stack e1) (er_stack e2).
Proof.
  intros P1 P2 Hk H. unfold error_display in H. rewrite Hk in H. apply append_inv_head in H.
  apply (append_inv_head " @ ") in H.
  destruct (er_stack e1) as [|a st1] eqn:E1, (er_stack e2) as [|b st2] eqn:E2.
  - rewrite !append_nil_r in H. split; [now apply show_pos_inj | constructor].
  - exfalso. rewrite append_nil_r in H.
    assert (F : free_of newline_char (show_pos (er_pos e1))) by (apply show_pos_free; easy).
    rewrite H in F. apply free_app in F. destruct F as [_ F]. apply F. now left.
  - exfalso. rewrite append_nil_r in H.
    assert (F : free_of newline_char (show_pos (er_pos e2))) by (apply show_pos_free; easy).
    rewrite <- H in F. apply free_app in F. destruct F as [_ F]. apply F. now left.
  - unfold newline in H. fold newline_char in H. cbn [append] in H.
    apply app_cut in H; [|apply show_pos_free; easy|apply show_pos_free; easy].
    destruct H as [Hp H]. split; [now apply show_pos_inj|].
    assert (H' : stack_loop (rev (indexed_from 0 (a :: st1))) = stack_loop (rev (indexed_from 0 (b :: st2))))
      by (injection H as H; exact H).
    clear H. rename H' into H. rewrite !stack_loop_lines in H.
    apply lines_inj in H.
    + apply (lines_of_inj _ 0); [assumption|assumption|].
      unfold lines_of in H. rewrite !map_rev in H.
      apply (f_equal (@rev _)) in H. rewrite !rev_involutive in H. exact H.
    + unfold lines_of. rewrite map_rev. apply Forall_rev. now apply (lines_of_free (a :: st1)).
    + unfold lines_of. rewrite map_rev. apply Forall_rev. now apply (lines_of_free (b :: st2)).
Qed.

(** ** Messages *)

Lemma full_name_display n : full_name_text n (name_display n).
Proof.
  unfold full_name_text, name_display. exists (repr_display n). split; [apply repr_text|].
  destruct (on_ns n) as [ns|]; [left|right; auto]. exists ns. split; [reflexivity|].
  cbn. f_equal. induction ns as [|c ns IH]; cbn; [reflexivity|]. f_equal. exact IH.
Qed.

Lemma full_name_unique n s : full_name_text n s -> s = name_display n.
Proof.
  intros (q & Q & H). assert (q = repr_display n) as ->.
  { unfold repr_display. destruct Q as [(p & E & ->)|(E & ->)]; now rewrite E. }
  unfold name_display. destruct H as [(ns & E & ->)|(E & ->)]; rewrite E; [|reflexivity].
  clear E. cbn. f_equal. induction ns as [|c ns IH]; cbn; [reflexivity|]. f_equal. exact IH.
Qed.

Lemma kind_message show k s : message show k s <-> kind_display show k = s.
Proof.
  split.
  - intros []; try reflexivity. cbn. rewrite (full_name_unique _ _ H). reflexivity.
  - intros <-. destruct k as [e|m|[e|e|e|n]]; cbn; constructor. apply full_name_display.
Qed.
