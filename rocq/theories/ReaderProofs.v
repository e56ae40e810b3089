(** Proofs about the reader: it implements the tree semantics of ReaderSpec.v. *)
From Verif Require Import Base Reader ReaderSpec.
From Coq Require Import Lia.

(** ** Events and [next] *)

Definition noise_event (e : xevent) : bool :=
  match e with
  | XStartDocument | XWhitespace _ | XComment _ | XPI _ _ => true
  | _ => false
  end.

Lemma opt_str_eqb_refl : forall o, opt_str_eqb o o = true.
Proof. intros [s|]; cbn; auto using String.eqb_refl. Qed.

Lemma oname_eqb_refl : forall n, oname_eqb n n = true.
Proof.
  intros. unfold oname_eqb. now rewrite !opt_str_eqb_refl, String.eqb_refl.
Qed.

(** The precondition of [next] in debug builds. *)
Definition in_sync (dbg : bool) (d : nat) (st : list selem) : Prop :=
  dbg = true -> List.length st = d.

Lemma next_in_sync : forall dbg src fin pos d st, in_sync dbg d st ->
  next dbg (RState src fin pos d st) = next_loop dbg fin d st src.
Proof.
  intros. unfold next; cbn [r_stack r_depth r_fin r_src].
  destruct dbg; cbn [andb]; [|reflexivity].
  now rewrite (H eq_refl), Nat.eqb_refl.
Qed.

Lemma next_noise : forall dbg e p src fin pos pos' d st, noise_event e = true ->
  in_sync dbg d st ->
  next dbg (RState ((e, p) :: src) fin pos d st) = next dbg (RState src fin pos' d st).
Proof.
  intros. rewrite !next_in_sync by assumption. now destruct e.
Qed.

(** ** Skipping *)

Definition skippable (e : xevent) : bool :=
  match e with
  | XStartElement _ _ _ | XEndElement _ => false
  | _ => true
  end.

(** [evs] closes the elements [open] (innermost first) with its last event. *)
Inductive closes : list oname -> list (xevent * position) -> Prop :=
| closes_nil : closes [] []
| closes_start : forall n a ns p m open evs,
    closes (n :: m :: open) evs -> closes (m :: open) ((XStartElement n a ns, p) :: evs)
| closes_end : forall n p open evs, closes open evs -> closes (n :: open) ((XEndElement n, p) :: evs)
| closes_other : forall e p m open evs, skippable e = true ->
    closes (m :: open) evs -> closes (m :: open) ((e, p) :: evs).

Lemma closes_app : forall o1 e1, closes o1 e1 ->
  forall o2 e2, closes o2 e2 -> o2 <> [] \/ e2 = [] -> closes (o1 ++ o2) (e1 ++ e2).
Proof.
  induction 1; intros o2 e2 H2 Hne; cbn.
  - assumption.
  - constructor. apply (IHcloses _ _ H2 Hne).
  - constructor. apply (IHcloses _ _ H2 Hne).
  - constructor; [assumption|]. apply (IHcloses _ _ H2 Hne).
Qed.

Lemma closes_length : forall o e, closes o e -> List.length o <= List.length e.
Proof. induction 1; cbn in *; lia. Qed.

Section NodeInd.
  Variable P : node -> Prop.
  Hypothesis HE : forall name attrs ns p kids pe, Forall P kids -> P (NElem name attrs ns p kids pe).
  Hypothesis HT : forall c s p, P (NText c s p).
  Hypothesis HM : forall m p, P (NMisc m p).
  Hypothesis HB : forall s p, P (NBlank s p).

  Fixpoint node_ind' (n : node) : P n :=
    match n with
    | NElem name attrs ns p kids pe =>
        HE name attrs ns p kids pe
          ((fix go (l : list node) : Forall P l :=
              match l with
              | [] => Forall_nil P
              | k :: l' => Forall_cons k (node_ind' k) (go l')
              end) kids)
    | NText c s p => HT c s p
    | NMisc m p => HM m p
    | NBlank s p => HB s p
    end.
End NodeInd.

(** Whole subtrees may be put in front. *)
Lemma closes_events : forall n m open evs, closes (m :: open) evs -> closes (m :: open) (events n ++ evs).
Proof.
  induction n using node_ind'; intros m0 open evs Hc.
  - cbn [events app]. constructor. rewrite <- app_assoc. cbn [app].
    assert (Hk : closes (name :: m0 :: open) ((XEndElement name, pe) :: evs)) by now constructor.
    revert Hk. generalize ((XEndElement name, pe) :: evs). clear Hc.
    induction H as [|k ks Hk Hks IH]; intros l Hl; cbn [flat_map app].
    + assumption.
    + rewrite <- app_assoc. apply Hk. now apply IH.
  - destruct c; now constructor.
  - destruct m; now constructor.
  - now constructor.
Qed.

Lemma closes_kids : forall kids m open evs, closes (m :: open) evs ->
  closes (m :: open) (flat_map events kids ++ evs).
Proof.
  induction kids; intros; cbn [flat_map app]; [assumption|].
  rewrite <- app_assoc. apply closes_events. auto.
Qed.

Lemma firstn_app_exact : forall A (l1 l2 : list A), firstn (List.length l1) (l1 ++ l2) = l1.
Proof. intros. rewrite firstn_app, Nat.sub_diag, firstn_all, firstn_O. now rewrite app_nil_r. Qed.

(** The names on the stack above [base] are those of the open elements. *)
Definition stack_names (base stack : list selem) (open : list oname) : Prop :=
  exists tl, stack = base ++ tl /\ map se_name tl = rev open.

Lemma stack_names_length : forall base stack open, stack_names base stack open ->
  List.length stack = List.length base + List.length open.
Proof.
  intros ? ? ? (tl & -> & H). rewrite app_length. f_equal.
  rewrite <- (map_length se_name), H. apply rev_length.
Qed.

Lemma stack_names_push : forall base stack open n p, stack_names base stack open ->
  stack_names base (stack ++ [SElem n p]) (n :: open).
Proof.
  intros ? ? ? ? ? (tl & -> & H). exists (tl ++ [SElem n p]). rewrite app_assoc. split; [reflexivity|].
  rewrite map_app, H. reflexivity.
Qed.

Lemma stack_names_top : forall base stack n open, stack_names base stack (n :: open) ->
  exists p, nth_error stack (List.length base + List.length open) = Some (SElem n p) /\
            stack_names base (firstn (List.length base + List.length open) stack) open.
Proof.
  intros ? ? ? ? (tl & -> & H). cbn [rev] in H.
  destruct (exists_last (l := tl)) as (tl' & [n' p] & ->).
  { intros ->. destruct (rev open); discriminate. }
  rewrite map_app in H. cbn [map] in H. apply app_inj_tail in H. destruct H as [H1 H2].
  cbn in H2. subst n'. exists p.
  assert (HL : List.length tl' = List.length open).
  { rewrite <- (map_length se_name), H1. apply rev_length. }
  rewrite app_assoc. rewrite <- HL, <- app_length. split.
  - rewrite nth_error_app2 by lia. now rewrite Nat.sub_diag.
  - exists tl'. split; [|assumption]. apply firstn_app_exact.
Qed.

Lemma skip_loop_closes : forall open evs, closes open evs ->
  forall fuel dbg base rest fin pos stack,
  List.length evs < fuel ->
  (exists tl, stack = base ++ tl) ->
  (dbg = true -> open = [] \/ stack_names base stack open) ->
  exists pos',
  skip_loop fuel dbg (List.length base)
    (RState (evs ++ rest) fin pos (List.length base + List.length open) stack) =
  (Ok tt, RState rest fin pos' (List.length base) base).
Proof.
  (* shared step: how the stack looks after an event *)
  induction 1; intros fuel dbg base rest fin pos stack Hf (tl & Hs) Hd;
    (destruct fuel as [|fuel]; [cbn in Hf; lia|]); cbn [skip_loop r_depth].
  - exists pos. cbn [List.length app] in *. rewrite Nat.add_0_r, Nat.ltb_irrefl.
    unfold truncate; cbn [r_src r_fin r_pos r_depth r_stack]. subst stack.
    now rewrite firstn_app_exact.
  - replace (Nat.ltb (List.length base) (List.length base + List.length (m :: open))) with true
      by (symmetry; apply Nat.ltb_lt; cbn; lia).
    cbn [app]. rewrite next_in_sync.
    2:{ intros E. destruct (Hd E) as [?|Hn]; [discriminate|]. apply (stack_names_length _ _ _ Hn). }
    cbn [next_loop]. unfold truncate; cbn [r_src r_fin r_pos r_depth r_stack].
    replace (S (List.length base + List.length (m :: open)))
      with (List.length base + List.length (n :: m :: open)) by (cbn; lia).
    apply IHcloses.
    + cbn in Hf. lia.
    + subst stack. rewrite <- app_assoc. rewrite firstn_app.
      rewrite firstn_all2 by lia. eauto.
    + intros E. right. destruct (Hd E) as [?|Hn]; [discriminate|].
      rewrite firstn_all2. { now apply stack_names_push. }
      rewrite app_length, (stack_names_length _ _ _ Hn). cbn. lia.
  - replace (Nat.ltb (List.length base) (List.length base + List.length (n :: open))) with true
      by (symmetry; apply Nat.ltb_lt; cbn; lia).
    cbn [app]. rewrite next_in_sync.
    2:{ intros E. destruct (Hd E) as [?|Hn]; [discriminate|]. apply (stack_names_length _ _ _ Hn). }
    cbn [next_loop List.length].
    rewrite Nat.add_succ_r.
    assert (Hstep : forall r, r = RState (evs ++ rest) fin p (List.length base + List.length open) stack ->
      exists pos', skip_loop fuel dbg (List.length base) (truncate r) =
                   (Ok tt, RState rest fin pos' (List.length base) base)).
    { intros r ->. unfold truncate; cbn [r_src r_fin r_pos r_depth r_stack]. apply IHcloses.
      - cbn in Hf. lia.
      - subst stack. rewrite firstn_app. rewrite firstn_all2 by lia. eauto.
      - intros E. destruct (Hd E) as [?|Hn]; [discriminate|]. right.
        destruct (stack_names_top _ _ _ _ Hn) as (? & ? & ?). assumption. }
    destruct dbg.
    + destruct (Hd eq_refl) as [?|Hn]; [discriminate|].
      destruct (stack_names_top _ _ _ _ Hn) as (p' & Hnth & _). rewrite Hnth. cbn [se_name].
      rewrite oname_eqb_refl. now apply Hstep.
    + now apply Hstep.
  - assert (Hsync : in_sync dbg (List.length base + List.length (m :: open)) stack).
    { intros E. destruct (Hd E) as [?|Hn]; [discriminate|]. apply (stack_names_length _ _ _ Hn). }
    assert (Hlt : Nat.ltb (List.length base) (List.length base + List.length (m :: open)) = true)
      by (apply Nat.ltb_lt; cbn; lia).
    rewrite Hlt. cbn [app].
    destruct (noise_event e) eqn:En.
    + destruct (IHcloses (S fuel) dbg base rest fin pos stack) as (pos' & IH);
        [cbn in Hf; lia|eauto|assumption|].
      cbn [skip_loop r_depth] in IH. rewrite Hlt in IH.
      rewrite (next_noise _ _ _ _ _ _ pos) by assumption. eauto.
    + rewrite next_in_sync by assumption.
      assert (Hstep : exists pos', skip_loop fuel dbg (List.length base)
        (truncate (RState (evs ++ rest) fin p (List.length base + List.length (m :: open)) stack)) =
        (Ok tt, RState rest fin pos' (List.length base) base)).
      { unfold truncate; cbn [r_src r_fin r_pos r_depth r_stack]. apply IHcloses.
        - cbn in Hf. lia.
        - subst stack. rewrite firstn_app, firstn_all2 by lia. eauto.
        - intros E. destruct (Hd E) as [?|Hn]; [discriminate|]. right.
          rewrite firstn_all2 by (rewrite (stack_names_length _ _ _ Hn); lia). assumption. }
      destruct e; try discriminate; cbn [next_loop]; assumption.
Qed.

(** ** The reader implements the tree semantics *)

(** After reading (part of) the element above [base]: what is left of its events closes the elements
    still open. When [ok], skipping is safe in debug builds, too. *)
Definition pending (dbg ok : bool) (fin : final) (base : list selem)
  (rest : list (xevent * position)) (r : rstate) : Prop :=
  exists open evs,
    r_src r = evs ++ rest /\ closes open evs /\
    r_depth r = List.length base + List.length open /\ r_fin r = fin /\
    (exists tl, r_stack r = base ++ tl) /\
    (dbg = true -> ok = true -> open = [] \/ stack_names base (r_stack r) open).

Lemma return_to_depth_pending : forall dbg ok fin base rest r,
  pending dbg ok fin base rest r -> (dbg = true -> ok = true) ->
  exists pos', return_to_depth dbg (List.length base) r = (Ok tt, RState rest fin pos' (List.length base) base).
Proof.
  intros dbg ok fin base rest [src f pos d st] (open & evs & H1 & H2 & H3 & H4 & H5 & H6) Hok.
  cbn [r_src r_depth r_fin r_stack] in *. subst.
  unfold return_to_depth. cbn [r_depth r_src].
  replace (dbg && Nat.ltb (List.length base + List.length open) (List.length base)) with false.
  2:{ symmetry. rewrite andb_comm. replace (Nat.ltb _ _) with false; [reflexivity|].
      symmetry. apply Nat.ltb_ge. lia. }
  apply skip_loop_closes; auto.
  rewrite app_length. lia.
Qed.

(** The state right after the start tag of [el], below [base]. *)
Definition at_elem (fin : final) (base : list selem) (el : selem) (kids : list node)
  (pe : position) (rest : list (xevent * position)) (pos : position) : rstate :=
  RState (flat_map events kids ++ (XEndElement (se_name el), pe) :: rest) fin pos
    (S (List.length base)) (base ++ [el]).

Lemma in_sync_elem : forall dbg base (el : selem), in_sync dbg (S (List.length base)) (base ++ [el]).
Proof. intros. intros _. rewrite app_length. cbn. lia. Qed.

Lemma stack_check_elem : forall dbg src fin pos d base el,
  stack_check dbg (List.length base) (RState src fin pos d (base ++ [el])) = true.
Proof.
  intros. unfold stack_check; cbn [r_stack]. rewrite app_length; cbn.
  rewrite Nat.add_1_r, Nat.eqb_refl. apply orb_true_r.
Qed.

Lemma pending_at_elem : forall dbg ok fin base el kids pe rest pos,
  pending dbg ok fin base rest (at_elem fin base el kids pe rest pos).
Proof.
  intros. exists [se_name el], (flat_map events kids ++ [(XEndElement (se_name el), pe)]).
  unfold at_elem; cbn [r_src r_depth r_fin r_stack]. repeat split.
  - now rewrite <- app_assoc.
  - apply closes_kids. repeat constructor.
  - cbn. lia.
  - eauto.
  - intros. right. exists [el]. split; reflexivity.
Qed.

Lemma next_end : forall dbg fin base el pe rest pos,
  next dbg (at_elem fin base el [] pe rest pos) =
  (Ok (EvEnd (se_name el), pe), RState rest fin pe (List.length base) (base ++ [el])).
Proof.
  intros. unfold at_elem. cbn [flat_map app].
  rewrite next_in_sync by apply in_sync_elem. cbn [next_loop].
  destruct dbg; [|reflexivity].
  rewrite nth_error_app2, Nat.sub_diag by lia. cbn [nth_error].
  now rewrite oname_eqb_refl.
Qed.

Lemma next_text : forall dbg fin base el c s p kids pe rest pos,
  next dbg (at_elem fin base el (NText c s p :: kids) pe rest pos) =
  (Ok (EvChars s, p), at_elem fin base el kids pe rest p).
Proof.
  intros. unfold at_elem. cbn [flat_map app events].
  rewrite next_in_sync by apply in_sync_elem. now destruct c.
Qed.

Lemma next_misc : forall dbg fin base el m p kids pe rest pos,
  next dbg (at_elem fin base el (NMisc m p :: kids) pe rest pos) =
  next dbg (at_elem fin base el kids pe rest pos).
Proof.
  intros. unfold at_elem. cbn [flat_map app events].
  apply next_noise; [now destruct m|apply in_sync_elem].
Qed.

Lemma next_blank : forall dbg fin base el s p kids pe rest pos,
  next dbg (at_elem fin base el (NBlank s p :: kids) pe rest pos) =
  next dbg (at_elem fin base el kids pe rest pos).
Proof.
  intros. unfold at_elem. cbn [flat_map app events].
  apply next_noise; [reflexivity|apply in_sync_elem].
Qed.

(** After the start tag of a child, the state is again of the form [at_elem]. *)
Lemma next_elem : forall dbg fin base el name attrs ns p kids1 pe1 kids pe rest pos,
  next dbg (at_elem fin base el (NElem name attrs ns p kids1 pe1 :: kids) pe rest pos) =
  (Ok (EvStart attrs ns, p),
   at_elem fin (base ++ [el]) (SElem name p) kids1 pe1
     (flat_map events kids ++ (XEndElement (se_name el), pe) :: rest) p).
Proof.
  intros. unfold at_elem. cbn [flat_map app events].
  rewrite next_in_sync by apply in_sync_elem. cbn [next_loop].
  rewrite app_length. cbn [List.length se_name].
  rewrite <- !app_assoc. cbn [app]. rewrite Nat.add_1_r. reflexivity.
Qed.

Lemma pending_end : forall dbg ok fin base rest pe tl,
  pending dbg ok fin base rest (RState rest fin pe (List.length base) (base ++ tl)).
Proof.
  intros. exists [], []. cbn. repeat split; auto using closes_nil.
  eauto.
Qed.

(** Reading inside a child leaves the parent's element pending, too. *)
Lemma pending_parent : forall dbg ok fin base el kids pe rest r,
  pending dbg ok fin (base ++ [el]) (flat_map events kids ++ (XEndElement (se_name el), pe) :: rest) r ->
  pending dbg false fin base rest r.
Proof.
  intros dbg ok fin base el kids pe rest r (open & evs & H1 & H2 & H3 & H4 & (tl & H5) & H6).
  exists (open ++ [se_name el]), (evs ++ flat_map events kids ++ [(XEndElement (se_name el), pe)]).
  repeat split; auto.
  - rewrite H1, <- !app_assoc. reflexivity.
  - apply closes_app; [assumption| |left; discriminate].
    apply closes_kids. repeat constructor.
  - rewrite H3, !app_length. cbn. lia.
  - rewrite H5, <- app_assoc. eauto.
  - discriminate.
Qed.

Definition is_ok {E A} (x : res E A) : bool := match x with Ok _ => true | _ => false end.

Lemma sem_string_total : forall kids path acc pe x pl, sem_string path acc kids pe <> (Abort x, pl).
Proof.
  induction kids as [|[] kids IH]; intros; cbn; try discriminate; auto.
Qed.

Lemma read_string_loop_sem : forall kids fuel dbg fin base el acc pe rest pos,
  List.length (flat_map events kids) < fuel ->
  exists r',
    read_string_loop fuel dbg (List.length base) acc (at_elem fin base el kids pe rest pos) =
      (fst (sem_string (base ++ [el]) acc kids pe), r') /\
    (r_stack r', r_pos r') = snd (sem_string (base ++ [el]) acc kids pe) /\
    pending dbg (is_ok (fst (sem_string (base ++ [el]) acc kids pe))) fin base rest r'.
Proof.
  induction kids as [|k kids IH]; intros fuel dbg fin base el acc pe rest pos Hf;
    (destruct fuel as [|fuel]; [lia|]).
  - cbn [read_string_loop]. unfold at_elem at 1. rewrite stack_check_elem.
    rewrite next_end. cbn [sem_string fst snd]. eexists; split; [reflexivity|].
    split; [reflexivity|apply pending_end].
  - destruct k.
    + cbn [read_string_loop]. unfold at_elem at 1. rewrite stack_check_elem.
      rewrite next_elem. cbn [sem_string fst snd is_ok].
      unfold at_elem at 1 2. cbn [r_stack].
      rewrite !app_length. cbn [List.length].
      rewrite nth_error_app2 by (rewrite app_length; cbn [List.length]; lia).
      replace (_ - _) with 0 by (rewrite app_length; cbn [List.length]; lia).
      cbn [nth_error se_name]. eexists; split; [reflexivity|]. split; [reflexivity|].
      eapply pending_parent with (ok := false). apply pending_at_elem.
    + cbn [read_string_loop]. unfold at_elem at 1. rewrite stack_check_elem.
      rewrite next_text. cbn [sem_string].
      replace (if String.eqb acc "" then s else (acc ++ s)%string) with (acc ++ s)%string.
      2:{ destruct (String.eqb_spec acc ""); subst; reflexivity. }
      apply IH. cbn in Hf. lia.
    + cbn [read_string_loop]. unfold at_elem at 1. rewrite stack_check_elem.
      rewrite next_misc. cbn [sem_string].
      destruct (IH (S fuel) dbg fin base el acc pe rest pos) as (r' & H1 & H2).
      { cbn in Hf. lia. }
      cbn [read_string_loop] in H1. unfold at_elem at 1 in H1. rewrite stack_check_elem in H1. eauto.
    + cbn [read_string_loop]. unfold at_elem at 1. rewrite stack_check_elem.
      rewrite next_blank. cbn [sem_string].
      destruct (IH (S fuel) dbg fin base el acc pe rest pos) as (r' & H1 & H2).
      { cbn in Hf. lia. }
      cbn [read_string_loop] in H1. unfold at_elem at 1 in H1. rewrite stack_check_elem in H1. eauto.
Qed.

Section Exec.
  Context {St : Type} (dbg : bool) (V : visitors St).
  Hypothesis HV : dbg = true -> propagating V.

  Lemma attrs_loop_sem : forall attrs path p s,
    attrs_loop V path p attrs s = sem_attrs V path p attrs s.
  Proof.
    induction attrs; intros; cbn; [reflexivity|].
    destruct (v_attribute V s (from_xml_name (a_name a)) (a_value a)) as [[] ?]; auto.
  Qed.

  (** [x], the outcome of the machine, is as the tree semantics [y] says. *)
  Definition agrees (fin : final) (base : list selem) (rest : list (xevent * position))
    (x : res error endinfo * St * rstate) (y : (res error endinfo * St) * place) : Prop :=
    match fst y with
    | (Abort a, _) => fst (fst x) = Abort a
    | (o, s) => exists r', x = (o, s, r') /\ (r_stack r', r_pos r') = snd y /\
                           pending dbg (is_ok o) fin base rest r'
    end.

  Definition agrees_act {A} (ok : A -> bool) (fin : final) (base : list selem)
    (rest : list (xevent * position)) (x : (A + abort) * rstate) (y : (A + abort) * place) : Prop :=
    match fst y with
    | inr a => fst x = inr a
    | inl a => exists r', x = (inl a, r') /\ (r_stack r', r_pos r') = snd y /\
                          pending dbg (ok a) fin base rest r'
    end.

  Definition body_spec (fuel : nat) : Prop :=
    forall kids fin base el ns pe rest pos s,
      List.length (flat_map events kids) < fuel ->
      agrees fin base rest
        (read_loop dbg V fuel (List.length base) ns s (at_elem fin base el kids pe rest pos))
        (sem_kids V (sem_read V) (base ++ [el]) (se_name el, ns, pe) kids s).

  Lemma run_action_sem : forall A (ok : A -> bool) (act : action St A) fuel name attrs ns p kids pe fin base rest,
    body_spec fuel ->
    List.length (flat_map events kids) < fuel ->
    (dbg = true -> propagating_act (fun a => ok a = false) act) ->
    agrees_act ok fin base rest
      (run_action dbg V (read_loop dbg V fuel) (List.length base) attrs ns act
         (at_elem fin base (SElem name p) kids pe rest p))
      (sem_act (sem_read V (NElem name attrs ns p kids pe) base) (base ++ [SElem name p]) p kids pe act).
  Proof.
    intros A ok act fuel name attrs ns p kids pe fin base rest Hb Hf Hp.
    destruct act as [a|k|s0 k]; cbn [run_action sem_act].
    - cbn [fst agrees_act]. eexists; split; [reflexivity|]. split; [reflexivity|]. apply pending_at_elem.
    - unfold read_string.
      destruct (read_string_loop_sem kids
                  (S (List.length (r_src (at_elem fin base (SElem name p) kids pe rest p))))
                  dbg fin base (SElem name p) "" pe rest p) as (r' & H1 & H2 & H3).
      { cbn [at_elem r_src]. rewrite app_length. lia. }
      rewrite H1. destruct (sem_string _ _ _ _) as [[o|e|x] pl] eqn:E; cbn [fst snd is_ok] in *.
      + unfold agrees_act; cbn [fst snd]. eexists; split; [reflexivity|]. split; [assumption|].
        destruct H3 as (open & evs & G1 & G2 & G3 & G4 & G5 & G6). exists open, evs.
        repeat split; auto.
      + unfold agrees_act; cbn [fst snd]. eexists; split; [reflexivity|]. split; [assumption|].
        destruct H3 as (open & evs & G1 & G2 & G3 & G4 & G5 & G6). exists open, evs.
        repeat split; auto. intros Hd Hok. rewrite (Hp Hd) in Hok. discriminate.
      + now apply sem_string_total in E.
    - unfold at_elem at 1. cbn [r_stack]. rewrite nth_error_app2, Nat.sub_diag by lia.
      cbn [nth_error se_pos sem_read]. unfold at_elem at 1. cbn [r_stack].
      rewrite attrs_loop_sem.
      destruct (sem_attrs V (base ++ [SElem name p]) p attrs s0) as [[u|e|x] s1].
      + specialize (Hb kids fin base (SElem name p) ns pe rest p s1 Hf). unfold agrees in Hb.
        cbn [se_name] in Hb.
        destruct (sem_kids V (sem_read V) (base ++ [SElem name p]) (name, ns, pe) kids s1)
          as [[[i|e|x] s2] pl]; cbn [fst snd is_ok] in *.
        * destruct Hb as (r' & H1 & H2 & H3). rewrite H1. eexists; split; [reflexivity|].
          split; [assumption|].
          destruct H3 as (open & evs & G1 & G2 & G3 & G4 & G5 & G6). exists open, evs.
          repeat split; auto.
        * destruct Hb as (r' & H1 & H2 & H3). rewrite H1. eexists; split; [reflexivity|].
          split; [assumption|].
          destruct H3 as (open & evs & G1 & G2 & G3 & G4 & G5 & G6). exists open, evs.
          repeat split; auto. intros Hd Hok. rewrite (Hp Hd) in Hok. discriminate.
        * destruct (read_loop _ _ _ _ _ _ _) as [[? ?] ?]. cbn in Hb. subst. reflexivity.
      + eexists; split; [reflexivity|]. split; [reflexivity|]. apply pending_at_elem.
      + reflexivity.
  Qed.

  Lemma read_loop_sem : forall fuel, body_spec fuel.
  Proof.
    induction fuel as [|fuel IHf]; intros kids; [intros; lia|].
    induction kids as [|k kids IH]; intros fin base el ns pe rest pos s Hf.
    - cbn [read_loop]. unfold at_elem at 1. rewrite stack_check_elem.
      rewrite next_end. unfold agrees; cbn [sem_kids fst snd is_ok].
      eexists; split; [reflexivity|]. split; [reflexivity|apply pending_end].
    - destruct k as [name attrs ns1 p kids1 pe1|c str p|m p|str p].
      + cbn [read_loop]. unfold at_elem at 1. rewrite stack_check_elem.
        rewrite next_elem. cbn [sem_kids].
        unfold at_elem at 1. cbn [r_stack].
        rewrite nth_error_app2 by (rewrite app_length; cbn [List.length]; lia).
        replace (S (List.length base) - List.length (base ++ [el])) with 0 by (rewrite app_length; cbn [List.length]; lia).
        cbn [nth_error se_name].
        replace (List.length ((base ++ [el]) ++ [SElem name p])) with (S (S (List.length base)))
          by (rewrite !app_length; cbn [List.length]; lia).
        replace (S (List.length base)) with (List.length (base ++ [el]))
          by (rewrite app_length; cbn [List.length]; lia).
        assert (Hlen : List.length (flat_map events kids1) < fuel).
        { cbn [flat_map events] in Hf. rewrite !app_length in Hf. cbn in Hf.
          rewrite app_length in Hf. cbn in Hf. lia. }
        pose proof (run_action_sem _ (fun a => is_ok (fst a))
          (v_element V s (EInfo name ns1 (S (List.length (base ++ [el])))))
          fuel name attrs ns1 p kids1 pe1 fin (base ++ [el])
          (flat_map events kids ++ (XEndElement (se_name el), pe) :: rest) IHf Hlen) as HA.
        assert (Hp : dbg = true ->
          propagating_act (fun a : res verr bool * St => is_ok (fst a) = false)
            (v_element V s (EInfo name ns1 (S (List.length (base ++ [el])))))).
        { intros Hd. specialize (HV Hd s (EInfo name ns1 (S (List.length (base ++ [el]))))).
          destruct (v_element _ _ _); cbn in *; auto; intros.
          - specialize (HV e). destruct (fst _); cbn; auto. now destruct (HV a).
          - specialize (HV e s1). destruct (fst _); cbn; auto. now destruct (HV a). }
        specialize (HA Hp). unfold agrees_act in HA.
        destruct (sem_act _ _ _ _ _ _) as [[[[b|e|x] s']|x] pl]; cbn [fst snd is_ok] in *.
        * destruct HA as (r' & H1 & H2 & H3). rewrite H1.
          destruct (return_to_depth_pending _ _ _ _ _ _ H3) as (pos' & ->); [auto|].
          replace (RState _ _ _ _ _) with (at_elem fin base el kids pe rest pos').
          2:{ unfold at_elem. rewrite app_length; cbn. now rewrite Nat.add_1_r. }
          apply IHf. cbn [flat_map] in Hf. rewrite app_length in Hf.
          cbn [events List.length] in Hf. lia.
        * destruct HA as (r' & H1 & H2 & H3). rewrite H1. unfold agrees; cbn [fst snd is_ok].
          eexists. split; [|split; [eassumption|eapply pending_parent; eassumption]].
          destruct pl; cbn [fst snd] in *. injection H2 as <- <-. reflexivity.
        * destruct HA as (r' & H1 & H2 & H3). rewrite H1. reflexivity.
        * destruct (run_action _ _ _ _ _ _ _ _) as [? ?]. cbn in HA. subst. reflexivity.
      + cbn [read_loop]. unfold at_elem at 1. rewrite stack_check_elem.
        rewrite next_text. cbn [sem_kids].
        destruct (v_characters V s str p) as [[o|e|x] s'].
        * apply IHf. cbn [flat_map events app List.length] in Hf. lia.
        * unfold agrees; cbn [fst snd is_ok]. eexists; split; [reflexivity|]. split; [reflexivity|].
          apply pending_at_elem.
        * reflexivity.
      + specialize (IH fin base el ns pe rest pos s).
        cbn [read_loop] in *. unfold at_elem at 1. unfold at_elem at 1 in IH.
        rewrite stack_check_elem in *. rewrite next_misc.
        apply IH. cbn [flat_map events app List.length] in Hf. lia.
      + specialize (IH fin base el ns pe rest pos s).
        cbn [read_loop] in *. unfold at_elem at 1. unfold at_elem at 1 in IH.
        rewrite stack_check_elem in *. rewrite next_blank.
        apply IH. cbn [flat_map events app List.length] in Hf. lia.
  Qed.
End Exec.

Lemma end_loop_misc : forall l pe, end_loop (FEndDocument pe) (misc_events l) = Ok tt.
Proof.
  induction l as [|[[] p] l IH]; intros; cbn; auto.
Qed.

Lemma next_loop_prolog : forall dbg fin prolog rest,
  next_loop dbg fin 0 [] (misc_events prolog ++ rest) = next_loop dbg fin 0 [] rest.
Proof.
  induction prolog as [|[[] p] l IH]; intros; cbn; auto.
Qed.

Lemma root_doc : forall dbg d pe,
  exists rest, rest = misc_events (d_epilogue d) /\
  root dbg (reader_new (doc_events d) (FEndDocument pe)) =
  (Ok (d_attrs d, d_ns d),
   at_elem (FEndDocument pe) [] (SElem (d_name d) (d_pos d)) (d_kids d) (d_pe d) rest (d_pos d)).
Proof.
  intros. eexists; split; [reflexivity|].
  unfold root, inner_next, reader_new, doc_events, set_src. cbn [r_src r_fin r_depth r_stack].
  rewrite next_in_sync by (intros _; reflexivity).
  rewrite next_loop_prolog. unfold d_root. cbn [events app next_loop].
  unfold at_elem. cbn [se_name List.length app]. now rewrite <- app_assoc.
Qed.

Theorem read_sem : forall St T dbg (V : visitors St) (D : einfo -> action St (res verr T)) d pe,
  (dbg = true -> propagating V /\ propagating_root D) ->
  read dbg V D (reader_new (doc_events d) (FEndDocument pe)) = sem_doc V D d.
Proof.
  intros St T dbg V D d pe HV. unfold read.
  destruct (root_doc dbg d pe) as (rest & Hrest & ->).
  unfold at_elem at 1. cbn [r_stack app nth_error se_name].
  set (i := EInfo (d_name d) (d_ns d) 1).
  pose proof (run_action_sem dbg V _ is_ok (D i)) as HA.
  specialize (HA (S (List.length (r_src (at_elem (FEndDocument pe) [] (SElem (d_name d) (d_pos d)) (d_kids d) (d_pe d) rest (d_pos d)))))
    (d_name d) (d_attrs d) (d_ns d) (d_pos d) (d_kids d) (d_pe d) (FEndDocument pe) [] rest).
  cbn [List.length app] in HA.
  unfold sem_doc. fold i. fold (d_root d) in HA.
  specialize (HA (read_loop_sem dbg V (fun H => proj1 (HV H)) _)).
  assert (Hl : List.length (flat_map events (d_kids d)) <
    S (List.length (r_src (at_elem (FEndDocument pe) [] (SElem (d_name d) (d_pos d)) (d_kids d) (d_pe d) rest (d_pos d))))).
  { cbn [at_elem r_src]. rewrite app_length. lia. }
  specialize (HA Hl).
  assert (Hp : dbg = true -> propagating_act (fun a : res verr T => is_ok a = false) (D i)).
  { intros Hd. destruct (HV Hd) as [_ HD]. specialize (HD i).
    destruct (D i); cbn in *; auto; intros.
    - specialize (HD e). destruct (k _); cbn; auto. now destruct (HD a).
    - specialize (HD e s). destruct (k _ _); cbn; auto. now destruct (HD a). }
  specialize (HA Hp). unfold agrees_act in HA.
  destruct (sem_act _ _ _ _ _ _) as [[[v|e|x]|x] pl]; cbn [fst snd is_ok] in *.
  - destruct HA as (r' & -> & H2 & H3).
    destruct (return_to_depth_pending _ _ _ _ _ _ H3) as (pos' & E); [auto|].
    cbn [List.length] in E. unfold end_. rewrite E. cbn [r_fin r_src]. subst rest.
    now rewrite end_loop_misc.
  - destruct HA as (r' & -> & H2 & H3). destruct pl; cbn [fst snd] in *. now injection H2 as <- <-.
  - destruct HA as (r' & -> & H2 & H3). reflexivity.
  - destruct (run_action _ _ _ _ _ _ _ _) as [? ?]. cbn in HA. subst. reflexivity.
Qed.

(** After a child was handled, reading goes on with the child's next sibling. *)
Lemma read_loop_resume : forall St dbg (V : visitors St), (dbg = true -> propagating V) ->
  forall fuel name attrs cns p ck cpe kids fin base el ns pe rest pos s s' b,
  List.length (flat_map events (NElem name attrs cns p ck cpe :: kids)) < S fuel ->
  fst (sem_act (sem_read V (NElem name attrs cns p ck cpe) (base ++ [el]))
         ((base ++ [el]) ++ [SElem name p]) p ck cpe
         (v_element V s (EInfo name cns (S (S (List.length base)))))) = inl (Ok b, s') ->
  exists pos',
    read_loop dbg V (S fuel) (List.length base) ns s
      (at_elem fin base el (NElem name attrs cns p ck cpe :: kids) pe rest pos) =
    read_loop dbg V fuel (List.length base) ns s' (at_elem fin base el kids pe rest pos').
Proof.
  intros St dbg V HV fuel name attrs cns p ck cpe kids fin base el ns pe rest pos s s' b Hf Hact.
  cbn [read_loop]. unfold at_elem at 1. rewrite stack_check_elem.
  rewrite next_elem. unfold at_elem at 1. cbn [r_stack].
  rewrite nth_error_app2 by (rewrite app_length; cbn [List.length]; lia).
  replace (S (List.length base) - List.length (base ++ [el])) with 0
    by (rewrite app_length; cbn [List.length]; lia).
  cbn [nth_error se_name].
  replace (S (List.length base)) with (List.length (base ++ [el]))
    by (rewrite app_length; cbn [List.length]; lia).
  replace (S (S (List.length base))) with (S (List.length (base ++ [el]))) in Hact
    by (rewrite app_length; cbn [List.length]; lia).
  assert (Hlen : List.length (flat_map events ck) < fuel).
  { cbn [flat_map events] in Hf. rewrite !app_length in Hf. cbn in Hf.
    rewrite app_length in Hf. cbn in Hf. lia. }
  set (i := EInfo _ _ _) in *.
  assert (Hp : dbg = true ->
    propagating_act (fun a : res verr bool * St => is_ok (fst a) = false) (v_element V s i)).
  { intros Hd. specialize (HV Hd s i).
    destruct (v_element _ _ _); cbn in *; auto; intros.
    - specialize (HV e). destruct (fst _); cbn; auto. now destruct (HV a).
    - specialize (HV e s1). destruct (fst _); cbn; auto. now destruct (HV a). }
  pose proof (run_action_sem dbg V _ (fun a => is_ok (fst a)) (v_element V s i)
    fuel name attrs cns p ck cpe fin (base ++ [el])
    (flat_map events kids ++ (XEndElement (se_name el), pe) :: rest) (read_loop_sem dbg V HV fuel) Hlen Hp) as HA.
  unfold agrees_act in HA. rewrite Hact in HA.
  destruct HA as (r' & H1 & H2 & H3). rewrite H1.
  destruct (return_to_depth_pending _ _ _ _ _ _ H3) as (pos' & ->); [auto|].
  exists pos'. unfold at_elem. rewrite app_length; cbn [List.length]. now rewrite Nat.add_1_r.
Qed.
