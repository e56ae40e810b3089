(** [str::trim] on the characters of a string. *)
From Verif Require Import Base Normalize NormalizeSpec NormalizeProofs Text Find Types BMap DeriveAttr DASpec DAProofs DAType.
From Coq Require Import Lia.

(** ** UTF-8 is uniquely decodable from both ends *)

Lemma byte_inj a b : (a < 256 -> b < 256 -> byte a = byte b -> a = b)%N.
Proof. intros Ha Hb E. apply (f_equal N_of_ascii) in E. unfold byte in E. now rewrite !ascii_N in E. Qed.

Lemma scalar_bound c : is_scalar c = true -> (c <= 0x10FFFF)%N.
Proof. unfold is_scalar. rewrite orb_true_iff, andb_true_iff, N.ltb_lt, !N.leb_le. lia. Qed.

(** The parts of an encoded character: the leading byte, the following bytes and their values. *)
Inductive encoded (c : N) : list ascii -> Prop :=
| enc1 : (c < 128)%N -> encoded c [byte c]
| enc2 : forall a b, (128 <= c -> c = a * 64 + b -> a < 32 -> b < 64 -> encoded c [byte (192 + a); byte (128 + b)])%N
| enc3 : forall a b d, (c = (a * 64 + b) * 64 + d -> a < 16 -> b < 64 -> d < 64 ->
    encoded c [byte (224 + a); byte (128 + b); byte (128 + d)])%N
| enc4 : forall a b d e, (c = ((a * 64 + b) * 64 + d) * 64 + e -> a < 8 -> b < 64 -> d < 64 -> e < 64 ->
    encoded c [byte (240 + a); byte (128 + b); byte (128 + d); byte (128 + e)])%N.

Lemma mod64 k : (k mod 64 < 64)%N. Proof. now apply N.mod_lt. Qed.
Lemma split64 c : (c = (c / 64) * 64 + c mod 64)%N.
Proof. rewrite N.mul_comm. now apply N.div_mod. Qed.

Lemma utf8_encoded c : is_scalar c = true -> encoded c (utf8_char c).
Proof.
  intros H. apply scalar_bound in H. unfold utf8_char.
  destruct (N.ltb_spec c 128); [now constructor|].
  destruct (N.ltb_spec c 2048).
  { constructor; [lia|apply split64|apply N.div_lt_upper_bound; lia|apply mod64]. }
  assert (E2 : (c / 4096 = c / 64 / 64)%N) by (rewrite N.div_div; [reflexivity|lia|lia]).
  destruct (N.ltb_spec c 65536).
  { constructor; [|apply N.div_lt_upper_bound; lia|apply mod64|apply mod64].
    rewrite E2, <- split64. apply split64. }
  assert (E3 : (c / 262144 = c / 64 / 64 / 64)%N) by (rewrite !N.div_div; [reflexivity|lia..]).
  constructor; [|apply N.div_lt_upper_bound; lia|apply mod64|apply mod64|apply mod64].
  now rewrite E3, E2, <- !split64.
Qed.

Lemma cons_inv {A} (x y : A) l l' : x :: l = y :: l' -> x = y /\ l = l'.
Proof. intros E. now inversion E. Qed.

Lemma encoded_prefix c d l l' x y : encoded c l -> encoded d l' -> l ++ x = l' ++ y -> c = d.
Proof.
  intros H H' E. destruct H, H'; cbn [app] in E;
    repeat match goal with
    | X : _ :: _ = _ :: _ |- _ => let Y := fresh in apply cons_inv in X as [Y X]; apply byte_inj in Y; [|lia|lia]
    end; lia.
Qed.

Definition cont (b : ascii) : Prop := (128 <= N_of_ascii b < 192)%N.

Lemma cont_byte a : (a < 64)%N -> cont (byte (128 + a)).
Proof. intros H. unfold cont, byte. rewrite ascii_N; lia. Qed.
Lemma lead_byte a : (a < 128 \/ 192 <= a < 256)%N -> ~ cont (byte a).
Proof. intros H. unfold cont, byte. rewrite ascii_N; lia. Qed.

Lemma encoded_parts c l : encoded c l -> exists h t, l = h :: t /\ ~ cont h /\ Forall cont t.
Proof.
  intros H. destruct H; eexists _, _; (split; [reflexivity|]); (split; [apply lead_byte; lia|]);
    repeat (apply Forall_cons; [now apply cont_byte|]); apply Forall_nil.
Qed.

Lemma last_lead x y h h' t t' : ~ cont h -> ~ cont h' -> Forall cont t -> Forall cont t' ->
  x ++ h :: t = y ++ h' :: t' -> h :: t = h' :: t' /\ x = y.
Proof.
  intros H H' HT HT' E. apply app_eq_app in E as (l & [[-> E]|[-> E]]).
  - destruct l as [|z l]; cbn in E; [rewrite app_nil_r; auto|].
    injection E as -> ->. rewrite Forall_app in HT'. destruct HT' as [_ X]. inversion X; contradiction.
  - destruct l as [|z l]; cbn in E; [rewrite app_nil_r; auto|].
    injection E as -> ->. rewrite Forall_app in HT. destruct HT as [_ X]. inversion X; contradiction.
Qed.

Lemma encoded_suffix c d l l' x y : encoded c l -> encoded d l' -> x ++ l = y ++ l' -> c = d /\ x = y.
Proof.
  intros H H' E. destruct (encoded_parts _ _ H) as (h & t & -> & N1 & F1). destruct (encoded_parts _ _ H') as (h' & t' & -> & N2 & F2).
  destruct (last_lead _ _ _ _ _ _ N1 N2 F1 F2 E) as [El ->]. split; [|reflexivity].
  eapply (encoded_prefix _ _ _ _ [] []); eauto. now rewrite El.
Qed.

(** ** White space *)

Lemma white_space_chars p : In p white_chars <-> exists c, white_space c /\ p = utf8_char c.
Proof.
  split.
  - intros H.
    set (cs := [9; 10; 11; 12; 13; 0x20; 0x85; 0xA0; 0x1680; 0x2000; 0x2001; 0x2002; 0x2003; 0x2004; 0x2005; 0x2006;
      0x2007; 0x2008; 0x2009; 0x200A; 0x2028; 0x2029; 0x202F; 0x205F; 0x3000]%N).
    assert (E : white_chars = map utf8_char cs) by (vm_compute; reflexivity).
    rewrite E in H. apply in_map_iff in H as (c & <- & H). exists c. split; [|reflexivity].
    unfold white_space. subst cs. cbn [In] in H.
    repeat (destruct H as [H|H]; [subst c; clear; lia|]). destruct H.
  - intros (c & H & ->). unfold white_space in H.
    assert (R : forall lo (P : N -> Prop) n, (forall k, k < n -> P (lo + N.of_nat k)%N)%nat ->
      (lo <= c < lo + N.of_nat n)%N -> P c).
    { intros lo P n HP Hc. specialize (HP (N.to_nat (c - lo))). rewrite N2Nat.id in HP.
      replace (lo + (c - lo))%N with c in HP by lia. apply HP. lia. }
    assert (D : forall n (P : nat -> Prop), (forall k, k < S n -> P k)%nat <-> P n /\ (forall k, k < n -> P k)%nat).
    { intros n P. split; [intros X; split; [apply X; lia|intros k Hk; apply X; lia]|].
      intros [X Y] k Hk. destruct (Nat.eq_dec k n) as [->|]; [assumption|]. apply Y. lia. }
    assert (Z : forall P : nat -> Prop, (forall k, k < 0 -> P k)%nat) by (intros P k Hk; lia).
    repeat match type of H with _ \/ _ => destruct H as [H|H] end;
      try (subst c; vm_compute; clear; tauto).
    + apply (R 9%N (fun c => In (utf8_char c) white_chars) 5%nat); [|cbn; lia].
      repeat (apply D; split; [vm_compute; clear; tauto|]). apply Z.
    + apply (R 0x2000%N (fun c => In (utf8_char c) white_chars) 11%nat); [|cbn; lia].
      repeat (apply D; split; [vm_compute; clear; tauto|]). apply Z.
Qed.

Lemma white_space_scalar c : white_space c -> is_scalar c = true.
Proof. unfold white_space, is_scalar. intros H. rewrite orb_true_iff, N.ltb_lt. left. lia. Qed.

Lemma utf8_nil cs : Forall (fun c => is_scalar c = true) cs -> utf8 cs = [] -> cs = [].
Proof.
  intros H E. destruct H as [|c cs Hc _]; [reflexivity|]. cbn in E.
  destruct (encoded_parts _ _ (utf8_encoded _ Hc)) as (h & t & X & _). rewrite X in E. discriminate.
Qed.

Lemma white_front w : forall cs r, Forall (fun p => In p white_chars) w -> Forall (fun c => is_scalar c = true) cs ->
  utf8 cs = concat w ++ r -> exists a t, cs = a ++ t /\ Forall white_space a /\ r = utf8 t.
Proof.
  induction w as [|p w IH]; intros cs r HW HC E.
  - exists [], cs. cbn in *. auto.
  - inversion HW as [|? ? Hp HW']; subst. apply white_space_chars in Hp as (c & Hc & ->). cbn in E. rewrite <- app_assoc in E.
    destruct HC as [|d cs Hd HC].
    + cbn in E. destruct (encoded_parts _ _ (utf8_encoded _ (white_space_scalar _ Hc))) as (h & t & X & _). rewrite X in E. discriminate.
    + cbn in E. assert (d = c) as ->.
      { eapply encoded_prefix; eauto using utf8_encoded, white_space_scalar. }
      apply app_inv_head in E. destruct (IH _ _ HW' HC E) as (a & t & -> & H1 & H2). exists (c :: a), t. auto.
Qed.

Lemma white_back w : forall cs r, Forall (fun p => In p white_chars) w -> Forall (fun c => is_scalar c = true) cs ->
  utf8 cs = r ++ concat w -> exists t b, cs = t ++ b /\ Forall white_space b /\ r = utf8 t.
Proof.
  induction w as [|p w IH] using rev_ind; intros cs r HW HC E.
  - exists cs, []. cbn in E. rewrite app_nil_r in *. auto.
  - apply Forall_app in HW as [HW Hp]. inversion Hp as [|? ? Hp' _]; subst.
    apply white_space_chars in Hp' as (c & Hc & ->). rewrite concat_app in E. cbn in E. rewrite app_nil_r in E.
    destruct cs as [|d cs _] using rev_ind.
    + cbn in E. symmetry in E. apply app_eq_nil in E as [_ E]. apply app_eq_nil in E as [_ E].
      destruct (encoded_parts _ _ (utf8_encoded _ (white_space_scalar _ Hc))) as (h & t & X & _). rewrite X in E. discriminate.
    + apply Forall_app in HC as [HC Hd]. inversion Hd; subst.
      rewrite utf8_app in E. cbn in E. rewrite app_nil_r, app_assoc in E.
      edestruct encoded_suffix as [EC E']; [| |exact E|]; eauto using utf8_encoded, white_space_scalar. subst d.
      destruct (IH _ _ HW HC E') as (t & b & -> & W1 & W2). exists t, (b ++ [c]). rewrite app_assoc.
      split; [reflexivity|]. split; [|assumption]. apply Forall_app. auto.
Qed.

Theorem trim_chars cs : forallb is_scalar cs = true ->
  exists ts, trimmed cs ts /\ str_trim (str_of (utf8 cs)) = str_of (utf8 ts).
Proof.
  intros HC. assert (HC' : Forall (fun c => is_scalar c = true) cs) by (apply Forall_forall; now apply forallb_forall).
  destruct (str_trim_spec (str_of (utf8 cs))) as (a & b & E & (wa & -> & Wa) & (wb & -> & Wb) & N1 & N2).
  rewrite bytes_str in E. set (t := str_trim (str_of (utf8 cs))) in *.
  destruct (white_front _ _ _ Wa HC' E) as (ca & c1 & -> & H1 & E1). apply Forall_app in HC' as [_ HC1]. symmetry in E1.
  destruct (white_back _ _ _ Wb HC1 E1) as (ct & cb & -> & H2 & E2).
  exists ct. split.
  - exists ca, cb. split; [reflexivity|]. split; [assumption|]. split; [assumption|]. split.
    + intros c r -> Hc. rewrite E2 in N1. apply (N1 (utf8_char c) (utf8 r)); [|reflexivity]. apply white_space_chars. eauto.
    + intros c r -> Hc. rewrite E2, utf8_app in N2. apply (N2 (utf8_char c) (utf8 r)); [apply white_space_chars; eauto|].
      cbn. now rewrite app_nil_r.
  - rewrite <- E2. symmetry. apply str_bytes.
Qed.
