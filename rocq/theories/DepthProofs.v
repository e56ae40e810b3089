(** Proofs about the nesting of reads. *)
From Coq Require Import Lia.
From Verif Require Import Base Normalize Text Find FindProofs Types Reader ReaderSpec DepthSpec.

(** ** The stream *)

Fixpoint depth_after (d : nat) (evs : list (xevent * position)) : nat :=
  match evs with
  | [] => d
  | (XStartElement _ _ _, _) :: evs' => depth_after (S d) evs'
  | (XEndElement _, _) :: evs' => depth_after (pred d) evs'
  | _ :: evs' => depth_after d evs'
  end.

Lemma removelast_length {A} (l : list A) : List.length (removelast l) = pred (List.length l).
Proof.
  induction l as [|x l IH]; auto. cbn [removelast]. destruct l as [|y l]; auto. cbn in *. now rewrite IH.
Qed.

Lemma opened_length evs : forall st, List.length (opened st evs) = depth_after (List.length st) evs.
Proof.
  induction evs as [|[e p] evs IH]; intro st; auto. destruct e; cbn; rewrite IH; auto.
  - rewrite app_length. cbn. now rewrite Nat.add_1_r.
  - now rewrite removelast_length.
Qed.

(** At most [B] elements are open from here on. *)
Definition within (B : nat) (r : rstate) : Prop := forall k, depth_after (r_depth r) (firstn k (r_src r)) <= B.

Lemma within_here B r : within B r -> r_depth r <= B.
Proof. intro H. apply (H 0). Qed.

Definition ev_depth (d d' : nat) (x : res error (event * position)) : Prop :=
  match x with
  | Ok (EvStart _ _, _) => d' = S d
  | Ok (EvEnd _, _) => d = S d'
  | Ok (EvChars _, _) | Err _ => d' = d
  | Abort _ => True
  end.

Lemma next_depth B dbg r x r' : next dbg r = (x, r') -> within B r ->
  within B r' /\ ev_depth (r_depth r) (r_depth r') x.
Proof.
  unfold next. destruct (_ && _); [intros [= <- <-] ?; cbn; auto|].
  destruct r as [src fin pos d st]. cbn [r_src r_fin r_depth r_stack]. unfold within. cbn [r_src r_depth]. clear pos.
  induction src as [|[e p] src IH]; cbn [next_loop]; intros H W.
  - destruct fin; injection H as <- <-; cbn [r_src r_depth ev_depth]; auto.
  - destruct e as [| | | | | | |].
    all: try (apply IH; [exact H|]; intro k; exact (W (S k))).
    all: try (injection H as <- <-; split; [intro k; exact (W (S k))|reflexivity]).
    destruct d as [|d]; [injection H as <- <-; split; [intro k; exact (W (S k))|exact I]|].
    destruct dbg; [|injection H as <- <-; split; [intro k; exact (W (S k))|reflexivity]].
    destruct (nth_error st d) as [el|]; [destruct (oname_eqb _ _)|]; injection H as <- <-;
      (split; [intro k; exact (W (S k))|cbn; auto]).
Qed.

Lemma truncate_within B r : within B r -> within B (truncate r).
Proof. exact (fun H => H). Qed.

Definition skip_depth (target : nat) (r' : rstate) (x : res error unit) : Prop :=
  match x with Ok _ => r_depth r' = target | Err _ => target <= r_depth r' | Abort _ => True end.

Lemma skip_depth_ok B dbg target fuel : forall r x r', skip_loop fuel dbg target r = (x, r') -> within B r ->
  target <= r_depth r -> within B r' /\ skip_depth target r' x.
Proof.
  induction fuel as [|fuel IH]; intros r x r' H W Ht; cbn [skip_loop] in H; [injection H as <- <-; cbn; auto|].
  destruct (Nat.ltb target (r_depth r)) eqn:El.
  - apply Nat.ltb_lt in El. destruct (next dbg r) as [y r1] eqn:En. destruct (next_depth B _ _ _ _ En W) as [W1 D1].
    destruct y as [[ev p]|e|y].
    + apply (IH _ _ _ H); [exact W1|]. cbn [truncate r_depth]. destruct ev; cbn in D1; lia.
    + injection H as <- <-. cbn in *. split; auto. lia.
    + injection H as <- <-. cbn. auto.
  - apply Nat.ltb_ge in El. injection H as <- <-. cbn. split; auto. lia.
Qed.

Lemma return_depth B dbg target r x r' : return_to_depth dbg target r = (x, r') -> within B r ->
  target <= r_depth r -> within B r' /\ skip_depth target r' x.
Proof.
  unfold return_to_depth. destruct (_ && _); [intros [= <- <-]; cbn; auto|]. apply skip_depth_ok.
Qed.

Lemma string_depth B dbg sp fuel : forall out r x r', read_string_loop fuel dbg sp out r = (x, r') -> within B r ->
  r_depth r = S sp -> within B r' /\ (no_abort x -> sp <= r_depth r').
Proof.
  induction fuel as [|fuel IH]; intros out r x r' H W Hd; cbn [read_string_loop] in H; [injection H as <- <-; split; auto; lia|].
  destruct (stack_check dbg sp r); [|injection H as <- <-; split; auto; lia].
  destruct (next dbg r) as [y r1] eqn:En. destruct (next_depth B _ _ _ _ En W) as [W1 D1].
  destruct y as [[[attrs ns|name|s] p]|e|y]; cbn in D1.
  - destruct (nth_error _ _); injection H as <- <-; split; auto; lia.
  - injection H as <- <-. split; auto. lia.
  - eapply IH; eauto. lia.
  - injection H as <- <-. split; auto. lia.
  - injection H as <- <-. split; auto. intro N. now destruct (N y).
Qed.

(** ** The limit is not noticed *)

Section Sim.
  Context {St : Type} (V : visitors St) (b B : nat) (stop : abort) (Inv : nat -> St -> Prop).

  (** The action of a callback at level [n]. *)
  Definition act_ok {A} (n : nat) (get : A -> Prop) (act : action St A) : Prop :=
    match act with
    | ANoRead a => get a
    | AReadString k => forall x, get (k x)
    | AReadTo s0 k => n < b /\ Inv (S n) s0 /\ forall x s, Inv (S n) s -> get (k x s)
    end.

  Hypothesis Hattr : forall n s x v, Inv n s -> Inv n (snd (v_attribute V s x v)).
  Hypothesis Hchars : forall n s str p, Inv n s -> Inv n (snd (v_characters V s str p)).
  Hypothesis Helem : forall n s i, Inv n s -> ei_depth i = S n -> S n <= B ->
    act_ok n (fun a => Inv n (snd a)) (v_element V s i).

  Notation L := (limited b stop V).

  Lemma attrs_limited stack p attrs : forall n s, Inv n s ->
    let (x, s') := attrs_loop V stack p attrs s in
    attrs_loop L stack p attrs (n, s) = (x, (n, s')) /\ Inv n s'.
  Proof.
    induction attrs as [|a attrs IH]; intros n s Hi; cbn; auto.
    pose proof (Hattr n s (from_xml_name (a_name a)) (a_value a) Hi) as H1.
    destruct (v_attribute V s _ _) as [[y|e|y] s1]; cbn in *; auto.
    specialize (IH n s1 H1). destruct (attrs_loop V stack p attrs s1); auto.
  Qed.

  Definition loop_ok (dbg : bool) (sp : nat) (body : nat -> nsmap -> St -> rstate -> res error endinfo * St * rstate)
    (lbody : nat -> nsmap -> nat * St -> rstate -> res error endinfo * (nat * St) * rstate) : Prop :=
    forall ns s r, r_depth r = S sp -> within B r -> Inv (S sp) s ->
    let '(x, s', r') := body sp ns s r in
    lbody sp ns (S sp, s) r = (x, (S sp, s'), r') /\
    (no_abort x -> within B r' /\ sp <= r_depth r' /\ Inv (S sp) s').

  Lemma run_limited {A C} dbg sp body lbody (get : A -> Prop) (given_up : C) (f : A -> C) attrs ns act r :
    loop_ok dbg sp body lbody -> r_depth r = S sp -> within B r -> act_ok sp get act ->
    let (x, r') := run_action dbg V body sp attrs ns act r in
    run_action dbg L lbody sp attrs ns (limit b sp given_up f act) r =
      (match x with inl a => inl (f a) | inr y => inr y end, r') /\
    match x with inl a => within B r' /\ sp <= r_depth r' /\ get a | inr _ => True end.
  Proof.
    intros Hb Hd W Ha. destruct act as [a|k|s0 k]; cbn [run_action limit act_ok] in *.
    - split; auto. split; auto. split; auto. lia.
    - unfold read_string. destruct (read_string_loop _ _ _ _ r) as [x r'] eqn:Er.
      destruct (string_depth B _ _ _ _ _ _ _ Er W Hd) as [W' D'].
      destruct x as [s|e|x]; cbn; auto; split; auto; split; auto; split; auto; apply D'; intros y; discriminate.
    - destruct Ha as (Hn & H0 & Hk). apply Nat.ltb_lt in Hn. rewrite Hn. cbn [run_action].
      destruct (nth_error (r_stack r) sp) as [el|]; cbn; auto.
      pose proof (attrs_limited (r_stack r) (se_pos el) attrs (S sp) s0 H0) as H1.
      destruct (attrs_loop V _ _ attrs s0) as [x s1]. destruct H1 as [-> H1]. destruct x as [y|e|y]; auto.
      + pose proof (Hb ns s1 r Hd W H1) as H2. destruct (body sp ns s1 r) as [[x s2] r']. destruct H2 as [-> H2].
        destruct x as [i|e|x]; cbn; auto; split; auto; destruct H2 as (? & ? & ?); auto; intros ?; discriminate.
      + cbn. split; auto. split; auto. split; auto. lia.
  Qed.

  Lemma loop_limited dbg fuel : forall sp, loop_ok dbg sp (read_loop dbg V fuel) (read_loop dbg L fuel).
  Proof.
    induction fuel as [|fuel IH]; intros sp ns s r Hd W Hi; cbn [read_loop].
    { split; auto. intro N. now destruct (N Diverge). }
    destruct (stack_check dbg sp r); [|split; auto; intro N; now destruct (N stack_panic)].
    destruct (next dbg r) as [y r1] eqn:En. destruct (next_depth B _ _ _ _ En W) as [W1 D1].
    destruct y as [[[attrs ns'|name|str] p]|e|y]; cbn [ev_depth] in D1.
    - destruct (nth_error (r_stack r1) (S sp)) as [el|]; [|split; auto; intro N; now destruct (N (Panic "index out of bounds"))].
      set (i := EInfo (se_name el) ns' (S (S sp))).
      assert (Ha : act_ok (S sp) (fun a => Inv (S sp) (snd a)) (v_element V s i)).
      { apply Helem; auto. rewrite <- Hd, <- D1. now apply within_here. }
      pose proof (run_limited dbg (S sp) _ _ _ (Abort stop, (S sp, s)) (fun '(r0, s') => (r0, (S sp, s'))) attrs ns' _ r1
        (IH (S sp)) ltac:(lia) W1 Ha) as H.
      cbn [limited v_element]. destruct (run_action dbg V _ _ attrs ns' (v_element V s i) r1) as [x r2].
      destruct H as [-> H]. destruct x as [[x s']|x]; [|split; auto; intro N; now destruct (N x)].
      cbn [snd] in H. destruct H as (W2 & D2 & I2). destruct x as [bb|e|x].
      + destruct (return_to_depth dbg (S sp) r2) as [z r3] eqn:Et.
        destruct (return_depth B _ _ _ _ _ Et W2 D2) as [W3 D3]. destruct z as [u|e|z]; cbn in D3.
        * apply IH; auto.
        * split; auto. intros _. split; auto. split; auto. lia.
        * split; auto. intro N. now destruct (N z).
      + split; auto. intros _. split; auto. split; auto. lia.
      + split; auto. intro N. now destruct (N x).
    - split; auto. intros _. split; auto. split; auto. lia.
    - pose proof (Hchars _ _ str p Hi) as H1. cbn [limited v_characters].
      destruct (v_characters V s str p) as [[u|m|x] s']; cbn in H1.
      + apply IH; auto. lia.
      + split; auto. intros _. split; auto. split; auto. lia.
      + split; auto. intro N. now destruct (N x).
    - split; auto. intros _. split; auto. split; auto. lia.
    - split; auto. intro N. now destruct (N y).
  Qed.

  Lemma read_limited {T} dbg (D : einfo -> action St (res verr T)) src fin :
    within B (reader_new src fin) -> (forall i, ei_depth i = 1 -> 1 <= B -> act_ok 0 (fun _ => True) (D i)) ->
    read dbg L (limited_root b stop D) (reader_new src fin) = read dbg V D (reader_new src fin).
  Proof.
    intros W HD. unfold read. set (r := reader_new src fin) in *.
    assert (HR : forall attrs ns r1, root dbg r = (Ok (attrs, ns), r1) -> within B r1 /\ r_depth r1 = 1).
    { intros attrs ns r1. unfold root, inner_next, r. cbn [reader_new r_src r_fin].
      destruct src as [|[e p] src']; [destruct fin; discriminate|].
      destruct e; try discriminate. destruct (next dbg _) as [y r2] eqn:En.
      destruct (next_depth B _ _ _ _ En) as [W1 D1]; [intro k; exact (W (S k))|].
      destruct y as [[[attrs' ns'|name|s] q]|e|y]; try discriminate. intros [= <- <- <-]. cbn in D1. auto. }
    destruct (root dbg r) as [[[attrs ns]|e|x] r1]; auto. destruct (HR _ _ _ eq_refl) as [W1 D1].
    destruct (nth_error (r_stack r1) 0) as [el|]; auto.
    set (i := EInfo (se_name el) ns 1).
    assert (Ha : act_ok 0 (fun _ => True) (D i)).
    { apply HD; auto. rewrite <- D1. now apply within_here. }
    pose proof (run_limited dbg 0 _ _ _ (Abort stop) (fun x => x) attrs ns _ r1
      (loop_limited dbg (S (List.length (r_src r1))) 0) D1 W1 Ha) as H.
    unfold limited_root.
    destruct (run_action dbg V _ 0 attrs ns (D i) r1) as [x r2]. destruct H as [-> _]. destruct x; auto.
  Qed.
End Sim.

(** *** Any user code *)

Theorem open_elements {St T} (V : visitors St) (D : einfo -> action St (res verr T)) b src fin :
  depth_at_most b src -> levels_enough b V D src fin.
Proof.
  intros H dbg stop. apply (read_limited V b b stop (fun _ _ => True)); auto.
  - intros n s i _ _ Hb. destruct (v_element V s i); cbn; auto.
  - intro k. specialize (H k). rewrite opened_length in H. exact H.
  - intros i _ Hb. destruct (D i); cbn; auto.
Qed.
