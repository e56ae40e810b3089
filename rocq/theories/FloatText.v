(** Texts of floating-point numbers, read and written. *)
From Coq Require Import Lia QArith Qabs Qpower.
From Verif Require Import Base Normalize Text TextSpec TextProofs Float FloatSpec FloatProofs.
Local Open Scope Z_scope.

(** ** Reading *)

Definition no_digit (l : list ascii) : Prop := match l with c :: _ => is_digit c = false | [] => True end.
Definition no_sign (l : list ascii) : Prop := match l with c :: _ => c <> "+"%char /\ c <> "-"%char | [] => True end.

Lemma take_digits_app ds r : forallb is_digit ds = true -> no_digit r -> take_digits (ds ++ r) = (ds, r).
Proof.
  induction ds as [|c ds IH]; cbn [app take_digits forallb]; intros H Hr.
  - destruct r as [|c r]; auto. cbn [take_digits]. cbn in Hr. rewrite to_digit_spec, Hr. reflexivity.
  - apply andb_true_iff in H as [Hc H]. rewrite to_digit_spec, Hc, (IH H Hr). reflexivity.
Qed.

Lemma take_digits_spec l ds r : take_digits l = (ds, r) -> l = ds ++ r /\ forallb is_digit ds = true /\ no_digit r.
Proof.
  revert ds r. induction l as [|c l IH]; cbn [take_digits]; intros ds r; [intros [= <- <-]; cbn; auto|].
  rewrite to_digit_spec. destruct (is_digit c) eqn:E.
  - destruct (take_digits l) as [ds' r'] eqn:T. intros [= <- <-]. destruct (IH _ _ eq_refl) as (-> & H1 & H2).
    cbn. rewrite E, H1. auto.
  - intros [= <- <-]. cbn. auto.
Qed.

Lemma number_value ds : forallb is_digit ds = true -> number ds = value 0 ds.
Proof.
  unfold number. generalize 0 as a. induction ds as [|c ds IH]; cbn [fold_left value forallb]; auto. intros a H.
  apply andb_true_iff in H as [Hc H]. rewrite IH by exact H. unfold digit_of. rewrite to_digit_spec, Hc. reflexivity.
Qed.

Lemma exponent_value ds : forallb is_digit ds = true -> value 0 ds < 655360 -> exponent ds = value 0 ds.
Proof.
  intros H V. unfold exponent. assert (G : forall a, 0 <= a -> value a ds < 655360 ->
    fold_left (fun a c => if Z.ltb a 65536 then 10 * a + digit_of c else a) ds a = value a ds); [|apply G; auto; lia].
  clear V. induction ds as [|c ds IH]; cbn [fold_left value forallb] in *; auto. intros a Ha V.
  apply andb_true_iff in H as [Hc H]. pose proof (digit_range c Hc) as R.
  pose proof (value_ge (10 * a + (Z.of_N (N_of_ascii c) - 48)) ds ltac:(lia) H) as G.
  destruct (Z.ltb_spec a 65536) as [L|L]; [|lia].
  unfold digit_of. rewrite to_digit_spec, Hc. apply IH; auto. lia.
Qed.

Lemma take_sign_app neg s l : sign neg s -> no_sign l -> take_sign (s ++ l) = (neg, l).
Proof.
  unfold sign. destruct neg; [intros ->; reflexivity|]. intros [-> | ->] H; [|reflexivity]. cbn [app].
  destruct l as [|c l]; auto. cbn in H. cbn [take_sign]. destruct (Ascii.eqb_spec c "-"); [tauto|]. destruct (Ascii.eqb_spec c "+"); [tauto|]. reflexivity.
Qed.

Lemma take_sign_spec l neg l' : take_sign l = (neg, l') -> exists s, sign neg s /\ l = s ++ l'.
Proof.
  destruct l as [|c l]; cbn [take_sign]; [intros [= <- <-]; exists []; cbn; auto|].
  destruct (Ascii.eqb_spec c "-") as [->|]; [intros [= <- <-]; exists ["-"%char]; cbn; auto|].
  destruct (Ascii.eqb_spec c "+") as [->|]; intros [= <- <-]; [exists ["+"%char]|exists []]; cbn; auto.
Qed.

Lemma digits_no_sign d : digits d -> no_sign d.
Proof.
  intros [H1 H2]. destruct d as [|c d]; [congruence|]. cbn in *. apply andb_true_iff in H2 as [H2 _].
  split; intros ->; discriminate H2.
Qed.

Lemma digits_all d : digits d -> forallb is_digit d = true.
Proof. now intros []. Qed.

(** After a decimal number: nothing, or an exponent. *)
Definition mantissa (l r : list ascii) : option (list ascii * list ascii * list ascii) :=
  let (i, r) := take_digits (l ++ r) in
  match r with
  | c :: r' => if Ascii.eqb c "." then let (f, r) := take_digits r' in Some (i, f, r) else Some (i, [], r)
  | [] => Some (i, [], [])
  end.

Lemma mantissa_spec l m e r : decimal l m e -> no_digit r -> (match r with c :: _ => c <> "."%char | [] => True end) ->
  exists i f, mantissa l r = Some (i, f, r) /\ digits (i ++ f) /\ m = value 0 (i ++ f) /\ e = - Z.of_nat (List.length f).
Proof.
  intros H Hr Hd. unfold mantissa. destruct H as [i Hi|i f Hf].
  - rewrite take_digits_app by (auto using digits_all). exists i, []. rewrite app_nil_r. split; [|auto].
    destruct r as [|c r]; auto. destruct (Ascii.eqb_spec c "."); [congruence|reflexivity].
  - assert (F : forallb is_digit i = true /\ forallb is_digit f = true).
    { apply andb_true_iff. rewrite <- forallb_app. now apply digits_all. }
    rewrite <- app_assoc. rewrite take_digits_app by (cbn; tauto). cbn [app]. cbv beta iota. rewrite Ascii.eqb_refl.
    rewrite take_digits_app by tauto. exists i, f. auto.
Qed.

Lemma parse_number_eq l : parse_number l =
  match mantissa l [] with
  | Some (i, f, r) =>
      match i ++ f with
      | [] => None
      | _ =>
          let shift := (- Z.of_nat (List.length f))%Z in
          match r with
          | [] => Some (number (i ++ f), shift)
          | c :: r' =>
              if (Ascii.eqb c "e" || Ascii.eqb c "E")%bool then
                let (neg, r') := take_sign r' in
                match take_digits r' with
                | ((_ :: _) as d, []) => Some (number (i ++ f), shift + (if neg then - exponent d else exponent d))%Z
                | _ => None
                end
              else None
          end
      end
  | None => None
  end.
Proof.
  unfold parse_number, mantissa. rewrite app_nil_r. destruct (take_digits l) as [i r].
  destruct r as [|c r]; [reflexivity|]. destruct (Ascii.eqb c "."); [|reflexivity]. destruct (take_digits r). reflexivity.
Qed.

Lemma mantissa_back l i f r : mantissa l [] = Some (i, f, r) -> digits (i ++ f) ->
  exists k, l = k ++ r /\ decimal k (value 0 (i ++ f)) (- Z.of_nat (List.length f)).
Proof.
  unfold mantissa. rewrite app_nil_r. destruct (take_digits l) as [i' r'] eqn:T. destruct (take_digits_spec _ _ _ T) as (-> & H1 & H2).
  destruct r' as [|c r']; [|destruct (Ascii.eqb_spec c ".") as [->|]].
  - intros [= <- <- <-] D. rewrite app_nil_r in *. exists i'. split; [now rewrite app_nil_r|]. now constructor.
  - destruct (take_digits r') as [f' r''] eqn:T'. destruct (take_digits_spec _ _ _ T') as (-> & H3 & H4).
    intros [= <- <- <-] D. exists (i' ++ "."%char :: f'). split; [now rewrite <- app_assoc|]. now constructor.
  - intros [= <- <- <-] D. rewrite app_nil_r in *. exists i'. split; auto. now constructor.
Qed.

Lemma parse_number_some l m e x : numeric l m e x -> exists e', parse_number l = Some (m, e') /\ (x < 655360 -> e' = e).
Proof.
  intros H. rewrite parse_number_eq. destruct H as [l m e D|l m e c neg s d D Hc Hs Hd].
  - destruct (mantissa_spec l m e [] D) as (i & f & -> & Dg & -> & ->); cbn; auto.
    assert (N : number (i ++ f) = value 0 (i ++ f)) by (apply number_value; now apply digits_all).
    destruct Dg as [Dg _]. destruct (i ++ f) eqn:E; [congruence|]. rewrite N. eauto.
  - assert (M : mantissa (l ++ c :: s ++ d) [] = mantissa l (c :: s ++ d)) by (unfold mantissa; now rewrite app_nil_r).
    rewrite M. destruct (mantissa_spec l m e (c :: s ++ d) D) as (i & f & -> & Dg & -> & ->).
    { destruct Hc as [-> | ->]; reflexivity. } { destruct Hc as [-> | ->]; discriminate. }
    assert (N : number (i ++ f) = value 0 (i ++ f)) by (apply number_value; now apply digits_all).
    destruct Dg as [Dg _]. destruct (i ++ f) eqn:E; [congruence|]. rewrite N.
    assert (Ascii.eqb c "e" || Ascii.eqb c "E" = true)%bool as -> by (destruct Hc as [-> | ->]; reflexivity).
    rewrite (take_sign_app neg s d Hs (digits_no_sign d Hd)).
    assert (T : take_digits d = (d, [])).
    { rewrite <- (app_nil_r d) at 1. apply take_digits_app; cbn; auto using digits_all. }
    rewrite T. pose proof (digits_all d Hd) as Hd'. pose proof (exponent_value d Hd') as EV. destruct Hd as [Hd _]. destruct d as [|c' d]; [congruence|].
    eexists. split; [reflexivity|]. intro L. rewrite EV by exact L. reflexivity.
Qed.

Lemma parse_number_back l m e : parse_number l = Some (m, e) -> exists e' x, numeric l m e' x.
Proof.
  rewrite parse_number_eq. destruct (mantissa l []) as [[[i f] r]|] eqn:M; [|discriminate].
  assert (D : i ++ f <> [] -> digits (i ++ f)).
  { intro H. split; auto. revert M. unfold mantissa. rewrite app_nil_r. destruct (take_digits l) as [i' r'] eqn:T. destruct (take_digits_spec _ _ _ T) as (_ & H1 & _).
    destruct r' as [|c r']; [intros [= <- <- <-]; now rewrite app_nil_r|]. destruct (Ascii.eqb c "."); [|intros [= <- <- <-]; now rewrite app_nil_r].
    destruct (take_digits r') as [f' r''] eqn:T'. destruct (take_digits_spec _ _ _ T') as (_ & H2 & _). intros [= <- <- <-]. rewrite forallb_app, H1, H2. reflexivity. }
  destruct (i ++ f) as [|c0 t] eqn:E; [discriminate|]. rewrite <- E in *. assert (DD : digits (i ++ f)) by (apply D; rewrite E; discriminate).
  destruct (mantissa_back l i f r M DD) as (k & -> & Hk). rewrite (number_value _ (digits_all _ DD)).
  destruct r as [|c r].
  - intros [= <- <-]. rewrite app_nil_r. do 2 eexists. constructor. exact Hk.
  - destruct (Ascii.eqb c "e" || Ascii.eqb c "E")%bool eqn:C; [|discriminate].
    destruct (take_sign r) as [neg r'] eqn:S. destruct (take_sign_spec _ _ _ S) as (s & Hs & ->).
    destruct (take_digits r') as [d r''] eqn:T. destruct (take_digits_spec _ _ _ T) as (-> & H1 & _).
    destruct d as [|c' d]; [discriminate|]. destruct r''; [|discriminate]. intros [= <- <-]. rewrite app_nil_r.
    do 2 eexists. eapply num_exponent; eauto.
    + apply orb_true_iff in C as [C|C]; apply Ascii.eqb_eq in C; auto.
    + split; [discriminate|exact H1].
Qed.

(** Words *)
Lemma lower_spec a b : (97 <= N_of_ascii b <= 122)%N -> lower a = b <-> same_letter a b.
Proof.
  intro H. unfold lower, same_letter. split.
  - destruct ((N.leb 65 (N_of_ascii a) && N.leb (N_of_ascii a) 90)%bool) eqn:E; [|auto]. apply andb_true_iff in E as [E1 E2]. apply N.leb_le in E1, E2.
    intros <-. right. exists (N_of_ascii a + 32)%N. split; [lia|]. split; auto. replace (N_of_ascii a + 32 - 32)%N with (N_of_ascii a) by lia.
    symmetry. apply ascii_N_embedding.
  - intros [->|(n & H1 & -> & ->)].
    + destruct (N.leb_spec (N_of_ascii b) 90); [lia|]. now rewrite andb_false_r.
    + rewrite N_ascii_embedding by lia. destruct (N.leb_spec 65 (n - 32)); [|lia]. destruct (N.leb_spec (n - 32) 90); [|lia]. cbn.
      f_equal. lia.
Qed.

Lemma lower_word l t : forallb (fun b => N.leb 97 (N_of_ascii b) && N.leb (N_of_ascii b) 122)%bool t = true ->
  map lower l = t <-> Forall2 same_letter l t.
Proof.
  revert t. induction l as [|a l IH]; intros t H; cbn [map].
  - split; [intros <-; constructor|]. inversion 1; auto.
  - destruct t as [|b t]; [split; [discriminate|inversion 1]|]. cbn in H. apply andb_true_iff in H as [Hb H]. apply andb_true_iff in Hb as [B1 B2]. apply N.leb_le in B1, B2.
    split.
    + intros [= E1 E2]. constructor; [now apply lower_spec|now apply IH].
    + inversion 1; subst. f_equal; [now apply lower_spec|now apply IH].
Qed.

Lemma parse_word_spec w l b : parse_word w l = Some b <->
  b = infinity w /\ (Forall2 same_letter l (bytes_of "inf") \/ Forall2 same_letter l (bytes_of "infinity")) \/
  b = quiet_nan w /\ Forall2 same_letter l (bytes_of "nan").
Proof.
  rewrite <- !lower_word by reflexivity. unfold parse_word.
  assert (E : forall t, String.eqb (str_of (map lower l)) t = true <-> map lower l = bytes_of t).
  { intro t. rewrite String.eqb_eq. split.
    - intros <-. symmetry. apply list_ascii_of_string_of_list_ascii.
    - intros ->. apply string_of_list_ascii_of_string. }
  destruct (String.eqb (str_of (map lower l)) "inf") eqn:E1; [apply E in E1|]; cbn [orb].
  { rewrite E1. split; [intros [= <-]; auto|]. intros [[-> _]|[_ A]]; [reflexivity|discriminate A]. }
  destruct (String.eqb (str_of (map lower l)) "infinity") eqn:E2; [apply E in E2|].
  { rewrite E2. split; [intros [= <-]; auto|]. intros [[-> _]|[_ A]]; [reflexivity|discriminate A]. }
  destruct (String.eqb (str_of (map lower l)) "nan") eqn:E3; [apply E in E3|].
  { rewrite E3. split; [intros [= <-]; auto|]. intros [[_ [A|A]]|[-> _]]; [discriminate A|discriminate A|reflexivity]. }
  split; [discriminate|]. intros [[_ [A|A]]|[_ A]]; apply E in A; congruence.
Qed.

Lemma decimal_head l m e : decimal l m e -> exists c t, l = c :: t /\ (is_digit c = true \/ c = "."%char).
Proof.
  intros [i [Hi H]|i f [Hi H]].
  - destruct i as [|c t]; [congruence|]. cbn in H. apply andb_true_iff in H as [H _]. eauto.
  - destruct i as [|c t]; [cbn; eauto|]. cbn in H. apply andb_true_iff in H as [H _]. cbn. eauto.
Qed.

Lemma numeric_head l m e x : numeric l m e x -> exists c t, l = c :: t /\ (is_digit c = true \/ c = "."%char).
Proof.
  intros [k m' e' D|k m' e' c neg s d D _ _ _]; destruct (decimal_head _ _ _ D) as (h & t & -> & H); cbn; eauto.
Qed.

Lemma numeric_no_sign l m e x : numeric l m e x -> no_sign l.
Proof.
  intro H. destruct (numeric_head _ _ _ _ H) as (c & t & -> & [D| ->]); cbn; [|split; discriminate].
  split; intros ->; discriminate D.
Qed.

Lemma letter_no_sign l t : Forall2 same_letter l (bytes_of t) -> In t ["inf"; "infinity"; "nan"]%string -> no_sign l /\ parse_number l = None /\ l <> [].
Proof.
  intros F H.
  assert (Hl : exists c l', l = c :: l' /\ is_digit c = false /\ c <> "+"%char /\ c <> "-"%char /\ c <> "."%char).
  { assert (A : forall b, In b ["i"; "n"]%char -> forall a, same_letter a b -> is_digit a = false /\ a <> "+"%char /\ a <> "-"%char /\ a <> "."%char).
    { intros b Hb a Ha. apply lower_spec in Ha; [|destruct Hb as [<-|[<-|[]]]; vm_compute; split; discriminate].
      destruct Hb as [<-|[<-|[]]]; destruct a as [[] [] [] [] [] [] [] []]; try discriminate Ha; repeat split; discriminate. }
    destruct H as [<-|[<-|[<-|[]]]]; cbn in F; inversion F as [|a b l' t' Hab Hr]; subst; exists a, l'; (split; [reflexivity|]);
      eapply A; eauto; cbn; auto. }
  destruct Hl as (c & l' & -> & H1 & H2 & H3 & H4). split; [cbn; auto|]. split; [|discriminate].
  unfold parse_number. cbn [take_digits]. rewrite to_digit_spec, H1. destruct (Ascii.eqb_spec c "."); [congruence|]. reflexivity.
Qed.

(** Text between white space is found. *)
Lemma no_ws_trimmed l : forallb (fun b => negb (is_ws b)) l = true -> trimmed l.
Proof.
  intro H. rewrite forallb_forall in H. split; intros b t ->; rewrite ws_byte_is_ws; apply negb_true_iff; apply H.
  - now left.
  - apply in_or_app. right. now left.
Qed.

Lemma digits_no_ws l : forallb is_digit l = true -> forallb (fun b => negb (is_ws b)) l = true.
Proof.
  rewrite !forallb_forall. intros H b Hb. specialize (H b Hb). now rewrite (digit_not_ws b H).
Qed.

Lemma decimal_no_ws l m e : decimal l m e -> forallb (fun b => negb (is_ws b)) l = true.
Proof.
  intros [i [_ H]|i f [_ H]]; [now apply digits_no_ws|]. rewrite forallb_app in *. apply andb_true_iff in H as [H1 H2].
  cbn [forallb]. rewrite (digits_no_ws i H1), (digits_no_ws f H2). reflexivity.
Qed.

Lemma sign_no_ws neg s : sign neg s -> forallb (fun b => negb (is_ws b)) s = true.
Proof. unfold sign. destruct neg; [intros ->; reflexivity|]. intros [-> | ->]; reflexivity. Qed.

Lemma numeric_no_ws l m e x : numeric l m e x -> forallb (fun b => negb (is_ws b)) l = true.
Proof.
  intros [k m' e' D|k m' e' c neg s d D Hc Hs Hd]; [eapply decimal_no_ws; eauto|].
  rewrite forallb_app. cbn [forallb]. rewrite forallb_app, (decimal_no_ws _ _ _ D), (sign_no_ws _ _ Hs), (digits_no_ws d (digits_all d Hd)).
  destruct Hc as [-> | ->]; reflexivity.
Qed.

Lemma letters_no_ws l t : Forall2 same_letter l t -> forallb (fun b => N.leb 97 (N_of_ascii b) && N.leb (N_of_ascii b) 122)%bool t = true ->
  forallb (fun b => negb (is_ws b)) l = true.
Proof.
  induction 1 as [|a b l t Hab F IH]; cbn; auto. intro H. apply andb_true_iff in H as [Hb H]. rewrite (IH H), andb_true_r.
  apply andb_true_iff in Hb as [B1 B2]. apply N.leb_le in B1, B2. apply negb_true_iff. rewrite <- ws_byte_is_ws. unfold ws_byte, NormalizeSpec.ws_char.
  destruct Hab as [->|(n & Hn & E1 & ->)].
  - destruct (N.eqb_spec (N_of_ascii b) 9), (N.eqb_spec (N_of_ascii b) 10), (N.eqb_spec (N_of_ascii b) 13), (N.eqb_spec (N_of_ascii b) 32); auto; lia.
  - rewrite N_ascii_embedding by lia.
    destruct (N.eqb_spec (n - 32) 9), (N.eqb_spec (n - 32) 10), (N.eqb_spec (n - 32) 13), (N.eqb_spec (n - 32) 32); auto; lia.
Qed.

Lemma xsd_cases l : xsd_literal l -> (exists neg s k m e x, l = s ++ k /\ sign neg s /\ numeric k m e x) \/ other_literal l.
Proof.
  intros [neg s k m e x H1 H2|neg s H|].
  - left. exists neg, s, k, m, e, x. auto.
  - right. apply (ol_word neg s _ "inf"); auto; [now left|]. apply lower_word; reflexivity.
  - right. apply (ol_word false [] (bytes_of "NaN") "nan"); cbn; auto. apply lower_word; reflexivity.
Qed.

Lemma in_letters t : In t ["inf"; "infinity"; "nan"]%string ->
  forallb (fun b => N.leb 97 (N_of_ascii b) && N.leb (N_of_ascii b) 122)%bool (bytes_of t) = true.
Proof. intros [<-|[<-|[<-|[]]]]; reflexivity. Qed.

Lemma literal_trimmed l : xsd_literal l \/ other_literal l -> trimmed l /\ l <> [].
Proof.
  intro H. assert (G : (exists neg s k m e x, l = s ++ k /\ sign neg s /\ numeric k m e x) \/ other_literal l).
  { destruct H as [H|H]; [now apply xsd_cases|now right]. }
  destruct G as [(neg & s & k & m & e & x & -> & Hs & Hn)|[neg s k t Hs Ht F]].
  - split; [apply no_ws_trimmed; now rewrite forallb_app, (sign_no_ws _ _ Hs), (numeric_no_ws _ _ _ _ Hn)|].
    destruct (numeric_head _ _ _ _ Hn) as (c & t & -> & _). destruct s; discriminate.
  - split; [apply no_ws_trimmed; rewrite forallb_app, (sign_no_ws _ _ Hs); exact (letters_no_ws _ _ F (in_letters t Ht))|].
    destruct (letter_no_sign k t F Ht) as (_ & _ & N). destruct s; [exact N|discriminate].
Qed.

Definition from_bytes (w : bool) (l : list ascii) : res string N := float_from_str w (str_of l).

Lemma from_bytes_eq w l : l <> [] -> from_bytes w l =
  let (neg, l) := take_sign l in
  match parse_number l with
  | Some (m, e) => Ok (signed w neg (nearest w m e))
  | None => match parse_word w l with Some b => Ok (signed w neg b) | None => Err msg_float_invalid end
  end.
Proof. intro H. unfold from_bytes, float_from_str. rewrite list_ascii_of_string_of_list_ascii. destruct l; [congruence|reflexivity]. Qed.

Lemma from_number w neg s l m e x : sign neg s -> numeric l m e x -> exists e', from_bytes w (s ++ l) = Ok (signed w neg (nearest w m e')) /\
  (x < 655360 -> e' = e).
Proof.
  intros Hs Hn. rewrite from_bytes_eq.
  2:{ destruct (numeric_head _ _ _ _ Hn) as (c & t & -> & _). destruct s; discriminate. }
  rewrite (take_sign_app neg s l Hs (numeric_no_sign _ _ _ _ Hn)).
  destruct (parse_number_some l m e x Hn) as (e' & -> & H). eauto.
Qed.

Lemma from_word w neg s l t : sign neg s -> In t ["inf"; "infinity"; "nan"]%string -> Forall2 same_letter l (bytes_of t) ->
  from_bytes w (s ++ l) = Ok (signed w neg (if String.eqb t "nan" then quiet_nan w else infinity w)).
Proof.
  intros Hs Ht F. destruct (letter_no_sign l t F Ht) as (A & B & C). rewrite from_bytes_eq by (destruct s; [exact C|discriminate]).
  rewrite (take_sign_app neg s l Hs A), B.
  assert (W : parse_word w l = Some (if String.eqb t "nan" then quiet_nan w else infinity w)).
  { apply parse_word_spec. destruct Ht as [<-|[<-|[<-|[]]]]; cbn; auto. }
  now rewrite W.
Qed.

Lemma from_accepted w l : (exists n, from_bytes w l = Ok n) <-> xsd_literal l \/ other_literal l.
Proof.
  split.
  - intros [n H]. destruct l as [|c l]; [discriminate H|]. rewrite from_bytes_eq in H by discriminate.
    destruct (take_sign (c :: l)) as [neg k] eqn:T. destruct (take_sign_spec _ _ _ T) as (s & Hs & ->).
    destruct (parse_number k) as [[m e]|] eqn:P.
    + destruct (parse_number_back _ _ _ P) as (e' & x & Hn). left. eapply xsd_number; eauto.
    + destruct (parse_word w k) as [b|] eqn:W; [|discriminate]. apply parse_word_spec in W as [[_ [F|F]]|[_ F]]; right;
        eapply ol_word; eauto; cbn; auto.
  - intro H. assert (G : (exists neg s k m e x, l = s ++ k /\ sign neg s /\ numeric k m e x) \/ other_literal l).
    { destruct H as [H|H]; [now apply xsd_cases|now right]. }
    destruct G as [(neg & s & k & m & e & x & -> & Hs & Hn)|[neg s k t Hs Ht F]].
    + destruct (from_number w neg s k m e x Hs Hn) as (e' & -> & _). eauto.
    + rewrite (from_word w neg s k t Hs Ht F). eauto.
Qed.

Lemma from_rejected w l e : from_bytes w l = Err e <->
  l = [] /\ e = "cannot parse float from empty string"%string \/
  l <> [] /\ ~ (xsd_literal l \/ other_literal l) /\ e = "invalid float literal"%string.
Proof.
  rewrite <- (from_accepted w). destruct l as [|c l].
  - unfold from_bytes, float_from_str. cbn. split; [intros [= <-]; auto|]. intros [[_ ->]|[A _]]; [reflexivity|congruence].
  - split.
    + intro H. right. split; [discriminate|]. split; [intros [n E]; congruence|]. rewrite from_bytes_eq in H by discriminate.
      destruct (take_sign (c :: l)) as [neg k]. destruct (parse_number k) as [[m e']|]; [discriminate|]. destruct (parse_word w k); [discriminate|]. now injection H as <-.
    + intros [[A _]|(_ & A & ->)]; [discriminate|]. rewrite from_bytes_eq in * by discriminate.
      destruct (take_sign (c :: l)) as [neg k]. destruct (parse_number k) as [[m e']|]; [exfalso; eauto|]. destruct (parse_word w k); [exfalso; eauto|]. reflexivity.
Qed.

Lemma parse_float o w text : parse_text (std_floats o) (TFloat w) text = map_ok TVFloat (from_bytes w (trim_bytes (bytes_of text))).
Proof. reflexivity. Qed.

Lemma parse_padded o w text l : padded l (bytes_of text) -> trimmed l ->
  parse_text (std_floats o) (TFloat w) text = map_ok TVFloat (from_bytes w l).
Proof. intros H T. now rewrite parse_float, (trim_unique l). Qed.

Lemma float_accepted o w text : (exists n, parse_text (std_floats o) (TFloat w) text = Ok (TVFloat n)) <->
  exists l, padded l (bytes_of text) /\ (xsd_literal l \/ other_literal l).
Proof.
  split.
  - intros [n H]. rewrite parse_float in H. exists (trim_bytes (bytes_of text)). split; [apply padded_trim|].
    apply (from_accepted w). destruct (from_bytes w _) as [n'| |]; try discriminate. eauto.
  - intros (l & P & H). rewrite (parse_padded o w text l P) by now apply literal_trimmed.
    apply (from_accepted w) in H as [n ->]. eexists. reflexivity.
Qed.

Lemma float_rejected o w text e : parse_text (std_floats o) (TFloat w) text = Err e <->
  exists l, padded l (bytes_of text) /\ trimmed l /\
    (l = [] /\ e = "cannot parse float from empty string"%string \/
     l <> [] /\ ~ (xsd_literal l \/ other_literal l) /\ e = "invalid float literal"%string).
Proof.
  assert (M : forall l, map_ok TVFloat (from_bytes w l) = Err e <-> from_bytes w l = Err e).
  { intro l. destruct (from_bytes w l); cbn; split; congruence. }
  split.
  - intros H. rewrite parse_float, M in H. exists (trim_bytes (bytes_of text)). split; [apply padded_trim|]. split; [apply trim_trimmed|].
    now apply (from_rejected w).
  - intros (l & P & T & H). rewrite (parse_padded o w text l P T), M. now apply from_rejected.
Qed.

Lemma decimal_nonneg l m e : decimal l m e -> 0 <= m.
Proof. intros [i [_ H]|i f [_ H]]; apply value_ge; auto; lia. Qed.

Lemma numeric_nonneg l m e x : numeric l m e x -> 0 <= m.
Proof. intros [k m' e' D|k m' e' c neg s d D _ _ _]; eapply decimal_nonneg; eauto. Qed.

Lemma float_number o w text neg s l m e x : padded (s ++ l) (bytes_of text) -> sign neg s -> numeric l m e x -> x < 655360 ->
  exists n, parse_text (std_floats o) (TFloat w) text = Ok (TVFloat n) /\ rounded w neg (exact m e) n.
Proof.
  intros P Hs Hn Hx. rewrite (parse_padded o w text (s ++ l) P) by (apply literal_trimmed; left; eapply xsd_number; eauto).
  destruct (from_number w neg s l m e x Hs Hn) as (e' & -> & E). rewrite (E Hx). eexists. split; [reflexivity|].
  apply nearest_rounded. eapply numeric_nonneg; eauto.
Qed.

Lemma quiet_nan_range w : infinity w < quiet_nan w < sign_bit w.
Proof. destruct w; vm_compute; auto. Qed.

Lemma float_word o w text neg s l t : padded (s ++ l) (bytes_of text) -> sign neg s -> In t ["inf"; "infinity"; "nan"]%string ->
  Forall2 same_letter l (bytes_of t) ->
  exists n, parse_text (std_floats o) (TFloat w) text = Ok (TVFloat n) /\ is_float w n /\ is_negative w n = neg /\
    (if String.eqb t "nan" then is_nan w n else is_infinite w n).
Proof.
  intros P Hs Ht F. rewrite (parse_padded o w text (s ++ l) P) by (apply literal_trimmed; right; eapply ol_word; eauto).
  rewrite (from_word w neg s l t Hs Ht F). eexists. split; [reflexivity|].
  pose proof (quiet_nan_range w). pose proof (infinity_pos w). destruct (String.eqb t "nan").
  - destruct (signed_fields w neg (quiet_nan w)) as (A & B & _); [lia|]. split; auto. split; auto. apply nan_iff; lia.
  - destruct (signed_fields w neg (infinity w)) as (A & B & _); [lia|]. split; auto. split; auto. apply nan_iff; lia.
Qed.

(** ** Writing *)

Lemma exact_ten d q : (exact (10 * d) q == exact d (q + 1))%Q.
Proof.
  unfold exact. rewrite inject_Z_mult, Qpower_plus by (intro T; discriminate T). change (inject_Z 10) with 10%Q. change (10 ^ 1)%Q with 10%Q. ring.
Qed.

Lemma strip_exact fuel : forall d q, 0 <= d -> let (d', q') := strip_zeros fuel d q in 0 <= d' /\ (exact d' q' == exact d q)%Q.
Proof.
  induction fuel as [|fuel IH]; intros d q Hd; cbn [strip_zeros]; [split; [auto|reflexivity]|].
  destruct (Z.eqb (d mod 10) 0 && Z.ltb q 0)%bool eqn:E; [|split; [auto|reflexivity]]. apply andb_true_iff in E as [E _]. apply Z.eqb_eq in E.
  specialize (IH (d / 10) (q + 1) ltac:(apply Z.div_pos; lia)). destruct (strip_zeros fuel (d / 10) (q + 1)) as [d' q']. destruct IH as [I1 I2]. split; auto.
  rewrite I2, <- exact_ten. pose proof (Z.div_mod d 10 ltac:(lia)). replace (10 * (d / 10)) with d by lia. reflexivity.
Qed.

Lemma candidate_ok w b q d : candidate w b q = Some d -> 0 < d /\ nearest w d q = b.
Proof.
  unfold candidate. set (num := units w b * _). set (den := 2 ^ unit_bits w * _). generalize (num / den). intro lo.
  assert (G : forall d, (Z.ltb 0 d && Z.eqb (nearest w d q) b)%bool = true -> 0 < d /\ nearest w d q = b).
  { intros d' H. apply andb_true_iff in H as [H1 H2]. apply Z.ltb_lt in H1. apply Z.eqb_eq in H2. auto. }
  destruct (Z.ltb (2 * num) den); [discriminate|].
  destruct (Z.ltb 0 lo && Z.eqb (nearest w lo q) b)%bool eqn:E1.
  - destruct (Z.leb den (2 * (num mod den)) && _)%bool eqn:E2; intros [= <-]; [apply andb_true_iff in E2 as [_ E2]|]; auto.
  - destruct (Z.ltb 0 (lo + 1) && Z.eqb (nearest w (lo + 1) q) b)%bool eqn:E2; intros [= <-]; auto.
Qed.

(** The float is the nearest to itself. *)
Lemma close_self w b den : 0 < den -> 0 <= b <= infinity w -> close w (units w b * den) den b.
Proof.
  intros Hd Hb. split; auto. intros c Hc. rewrite Z.sub_diag. split; [lia|]. intros E Hn. exfalso.
  destruct (Z.lt_total b c) as [L|[L|L]]; [|congruence|].
  - pose proof (units_mono w b c ltac:(lia) L). nia.
  - pose proof (units_mono w c b ltac:(lia) L). nia.
Qed.

Lemma nearest_all w b : 0 <= b <= infinity w -> nearest w (units w b * 5 ^ unit_bits w) (- unit_bits w) = b.
Proof.
  intro Hb. set (K := unit_bits w). assert (HK : 0 <= K) by (subst K; destruct w; vm_compute; discriminate).
  assert (Hu : 0 <= units w b) by (apply units_lt; lia).
  assert (H5 : 0 < 5 ^ K) by (apply Z.pow_pos_nonneg; lia).
  pose proof (nearest_close w (units w b * 5 ^ K) (- K) ltac:(nia)) as C.
  assert (D : 0 < 10 ^ K) by (apply Z.pow_pos_nonneg; lia).
  unfold over in C. cbn [fst snd] in C. replace (Z.max (- K) 0) with 0 in C by lia. replace (Z.max (- - K) 0) with K in C by lia.
  rewrite Z.pow_0_r, Z.mul_1_r in C. fold K in C.
  replace (units w b * 5 ^ K * 2 ^ K) with (units w b * 10 ^ K) in C by (rewrite <- Z.mul_assoc, <- Z.pow_mul_l; reflexivity).
  exact (close_unique w _ _ _ _ D C (close_self w b (10 ^ K) D Hb)).
Qed.

Lemma shortest_from_ok w b : 0 <= b <= infinity w -> forall fuel q, let (d, q') := shortest_from w b fuel q in 0 <= d /\ nearest w d q' = b.
Proof.
  intros Hb. induction fuel as [|fuel IH]; intro q; cbn [shortest_from].
  - split; [|now apply nearest_all]. pose proof (units_lt w b ltac:(lia)). assert (0 <= 5 ^ unit_bits w) by (apply Z.pow_nonneg; lia). nia.
  - destruct (candidate w b q) as [d|] eqn:E; [|apply IH]. apply candidate_ok in E as [E1 E2]. split; auto. lia.
Qed.

Lemma value_app a l r : value a (l ++ r) = value (value a l) r.
Proof. revert a. induction l as [|c l IH]; intro a; cbn; auto. Qed.

Lemma value_zeros n : value 0 (repeat "0"%char n) = 0.
Proof. induction n; cbn; auto. Qed.

Lemma show_decimal_spec d q : 0 <= d -> exists m e, decimal (show_decimal d q) m e /\ (exact m e == exact d q)%Q.
Proof.
  intro Hd. unfold show_decimal. destruct (Z.leb_spec 0 q) as [Hq|Hq].
  - destruct (show_N_spec (Z.to_N (d * 10 ^ q))) as [V D]. assert (0 <= 10 ^ q) by (apply Z.pow_nonneg; lia). rewrite Z2N.id in V by nia.
    eexists; eexists. split; [apply dec_whole; exact D|]. rewrite V. unfold exact. rewrite inject_Z_mult, inject_pow by lia. change (inject_Z 10) with 10%Q. ring.
  - destruct (show_N_spec (Z.to_N d)) as [V D]. rewrite Z2N.id in V by lia.
    set (ds := show_N (Z.to_N d)) in *. set (n := Z.to_nat (- q)).
    set (z := repeat "0"%char (S n - List.length ds) ++ ds).
    assert (Vz : value 0 z = d) by (unfold z; now rewrite value_app, value_zeros).
    assert (Dz : digits z).
    { split; [unfold z; destruct D as [D _]; destruct (repeat _ _); [exact D|discriminate]|]. unfold z. rewrite forallb_app, (digits_all ds D), andb_true_r.
      apply forallb_forall. intros c Hc. apply repeat_spec in Hc. now subst c. }
    assert (Lz : (S n <= List.length z)%nat) by (unfold z; rewrite app_length, repeat_length; lia).
    assert (Lf : List.length (skipn (List.length z - n) z) = n) by (rewrite skipn_length; lia).
    eexists; eexists. split; [apply dec_point; rewrite firstn_skipn; exact Dz|].
    rewrite firstn_skipn, Vz, Lf. unfold n. rewrite Z2Nat.id, Z.opp_involutive by lia. reflexivity.
Qed.

(** What a float is written as. *)
Lemma float_shown w n : is_float w n ->
  (is_nan w n -> bytes_of (float_show w n) = bytes_of "NaN") /\
  (is_infinite w n -> bytes_of (float_show w n) = (if is_negative w n then ["-"%char] else []) ++ bytes_of "inf") /\
  (~ is_nan w n -> ~ is_infinite w n -> exists l m e, bytes_of (float_show w n) = (if is_negative w n then ["-"%char] else []) ++ l /\
     decimal l m e /\ from_bytes w (bytes_of (float_show w n)) = Ok n).
Proof.
  intro F. destruct (all_signed w n F) as [E R]. destruct (sign_bit_eq w) as (_ & _ & S3 & _). pose proof (infinity_pos w) as HI.
  unfold float_show. set (b := Z.of_N n mod sign_bit w) in *.
  assert (NEG : Z.leb (sign_bit w) (Z.of_N n) = is_negative w n).
  { rewrite E at 1. rewrite of_signed by lia. destruct (is_negative w n); [apply Z.leb_le|apply Z.leb_gt]; lia. }
  rewrite NEG. clear NEG. destruct (nan_iff w (is_negative w n) b R) as [N1 N2]. rewrite <- E in N1, N2. rewrite N1, N2.
  set (neg := is_negative w n) in *. clearbody neg b. clear N1 N2 F.
  assert (SG : sign neg (if neg then ["-"%char] else [])) by (destruct neg; cbn; auto).
  split; [intro A; destruct (Z.ltb_spec (infinity w) b); [reflexivity|lia]|].
  split; [intro A; destruct (Z.ltb_spec (infinity w) b); [lia|]; destruct (Z.eqb_spec b (infinity w)); [|lia]; destruct neg; reflexivity|].
  intros A1 A2. destruct (Z.ltb_spec (infinity w) b); [lia|]. destruct (Z.eqb_spec b (infinity w)); [lia|].
  assert (G : exists d q, 0 <= d /\ nearest w d q = b /\ exists m e,
    decimal (if Z.eqb b 0 then ["0"%char] else let (d, q) := shortest w b in show_decimal d q) m e /\ (exact m e == exact d q)%Q).
  { destruct (Z.eqb_spec b 0) as [->|Hb].
    - exists 0, 0. split; [lia|]. split; [destruct w; reflexivity|]. exists 0, 0. split; [|reflexivity].
      apply (dec_whole ["0"%char]). split; [discriminate|reflexivity].
    - unfold shortest. pose proof (shortest_from_ok w b ltac:(lia) 2000 (if w then 310 else 40)) as SF.
      destruct (shortest_from w b 2000 (if w then 310 else 40)) as [d q]. destruct SF as [SF1 SF2]. pose proof (strip_exact 2000 d q SF1) as ST.
      destruct (strip_zeros 2000 d q) as [d' q']. destruct ST as [ST1 ST2].
      exists d, q. split; auto. split; auto. destruct (show_decimal_spec d' q' ST1) as (m & e & SD1 & SD2). exists m, e. split; auto.
      now rewrite SD2. }
  destruct G as (d & q & Hd & Hn & m & e & D & EX). set (l := if Z.eqb b 0 then _ else _) in *. clearbody l.
  exists l, m, e. rewrite !list_ascii_of_string_of_list_ascii.
  assert (X : (if neg then "-"%char :: l else l) = (if neg then ["-"%char] else []) ++ l) by (destruct neg; reflexivity).
  rewrite X. split; auto. split; auto.
  destruct (from_number w neg _ l m e 0 SG (num_decimal l m e D)) as (e' & -> & E'). rewrite (E' ltac:(lia)). f_equal.
  apply (rounded_unique w neg m e).
  - apply nearest_rounded. eapply decimal_nonneg; eauto.
  - apply (rounded_ext w neg (exact d q)); [now symmetry|]. rewrite E, <- Hn. now apply nearest_rounded.
Qed.
