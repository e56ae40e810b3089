(** What it means for a list of words to be the maximal white-space-free words of a string, said
    without computing them, and that [words] of NormalizeSpec.v are those. *)
From Verif Require Import Base Normalize NormalizeSpec NormalizeProofs.

Section Words.
  Context {A : Type} (ws : A -> bool).

  Definition blank (g : list A) : Prop := forall c, In c g -> ws c = true.
  Definition word (w : list A) : Prop := w <> [] /\ forall c, In c w -> ws c = false.

  (** [separated s l]: [s] is the words [l] in this order with white space around them, at least one
      white space character between two of them. *)
  Inductive separated : list A -> list (list A) -> Prop :=
  | sep_none : forall g, blank g -> separated g []
  | sep_last : forall g w, blank g -> word w -> separated (g ++ w) [w]
  | sep_more : forall g w c s l, blank g -> word w -> ws c = true -> separated s l ->
      separated (g ++ w ++ c :: s) (w :: l).

  Lemma words_ws c s : ws c = true -> words ws (c :: s) = words ws s.
  Proof. intro H. unfold words. cbn [pieces]. now rewrite H. Qed.

  Lemma words_blank g s : blank g -> words ws (g ++ s) = words ws s.
  Proof.
    induction g as [|c g IH]; intro H; [reflexivity|]. cbn [app].
    rewrite words_ws by (apply H; now left). apply IH. intros x I. apply H. now right.
  Qed.

  Lemma pieces_word w s : (forall c, In c w -> ws c = false) ->
    pieces ws (w ++ s) = match pieces ws s with p :: r => (w ++ p) :: r | [] => [] end.
  Proof.
    pose proof (pieces_ne ws s) as N. induction w as [|c w IH]; intro H.
    - cbn. destruct (pieces ws s); congruence.
    - cbn [app pieces]. rewrite (H c) by now left. rewrite IH by (intros x I; apply H; now right).
      destruct (pieces ws s); [congruence|reflexivity].
  Qed.

  Lemma words_last w : word w -> words ws w = [w].
  Proof.
    intros [N F]. unfold words. rewrite <- (app_nil_r w) at 1. rewrite pieces_word by auto. cbn.
    rewrite app_nil_r. destruct w; [congruence|reflexivity].
  Qed.

  Lemma words_more w c s : word w -> ws c = true -> words ws (w ++ c :: s) = w :: words ws s.
  Proof.
    intros [N F] H. unfold words. rewrite pieces_word by auto. cbn [pieces]. rewrite H. rewrite app_nil_r.
    destruct w; [congruence|reflexivity].
  Qed.

  Lemma separated_words s l : separated s l -> words ws s = l.
  Proof.
    induction 1 as [g B|g w B W|g w c s l B W C H IH].
    - rewrite <- (app_nil_r g). rewrite words_blank; auto.
    - rewrite words_blank by auto. now apply words_last.
    - rewrite words_blank by auto. rewrite words_more by auto. now rewrite IH.
  Qed.

  Lemma blank_cons c g : ws c = true -> blank g -> blank (c :: g).
  Proof. intros H B x [<-|I]; auto. Qed.

  Lemma separated_ws c s l : ws c = true -> separated s l -> separated (c :: s) l.
  Proof.
    intros Hc H. destruct H.
    - apply sep_none. now apply blank_cons.
    - apply (sep_last (c :: g) w); auto. now apply blank_cons.
    - apply (sep_more (c :: g) w); auto. now apply blank_cons.
  Qed.

  Lemma separated_exists s : exists l, separated s l.
  Proof.
    assert (G : forall n s, List.length s <= n -> exists l, separated s l).
    { intro n. induction n as [|n IH]; intros t L.
      - destruct t; [|cbn in L; inversion L]. exists []. apply sep_none. intros x [].
      - destruct t as [|c t]; [exists []; apply sep_none; intros x []|].
        cbn in L. apply le_S_n in L. destruct (ws c) eqn:W.
        + destruct (IH t L) as [l H]. exists l. now apply separated_ws.
        + assert (D : (forall x, In x t -> ws x = false) \/
                      exists w b r, t = w ++ b :: r /\ (forall x, In x w -> ws x = false) /\ ws b = true).
          { clear. induction t as [|b t IHt]; [left; intros x []|]. destruct (ws b) eqn:B.
            - right. exists [], b, t. repeat split; auto. intros x [].
            - destruct IHt as [F|(w & b' & r & -> & F & B')].
              + left. intros x [<-|I]; auto.
              + right. exists (b :: w), b', r. repeat split; auto. intros x [<-|I]; auto. }
          destruct D as [F|(w & b & r & -> & F & B)].
          * exists [c :: t]. apply (sep_last [] (c :: t)); [intros x []|].
            split; [congruence|]. intros x [<-|I]; auto.
          * destruct (IH r) as [l H].
            { rewrite app_length in L. cbn in L. rewrite Nat.add_succ_r in L.
              eapply Nat.le_trans; [|exact L]. apply le_S. apply Nat.le_add_l. }
            exists ((c :: w) :: l). apply (sep_more [] (c :: w)); auto; [intros x []|].
            split; [congruence|]. intros x [<-|I]; auto. }
    exact (G _ s (le_n _)).
  Qed.

  Lemma words_separated s l : words ws s = l <-> separated s l.
  Proof.
    split; [|apply separated_words]. intros <-. destruct (separated_exists s) as [l H].
    now rewrite (separated_words _ _ H).
  Qed.
End Words.
