(** Where errors come from, and that nobody looks at them. *)
From Verif Require Import Base Normalize Text Find Types Reader ReaderSpec DeriveDe DeProofs DeMain DeriveMixed Source SourceSpec.

(** ** The reader *)

Section Reader.
  Context (W : string -> string -> Prop) (fin : final).
  Context {S1 S2 : Type} (R : S1 -> S2 -> Prop).
  Notation same := (res_sim (verr_rel W fin)).
  Notation esame := (res_sim (error_rel W fin)).

  Definition eact {A1 A2} (G : A1 -> A2 -> Prop) (a1 : action S1 A1) (a2 : action S2 A2) : Prop :=
    match a1, a2 with
    | ANoRead x1, ANoRead x2 => G x1 x2
    | AReadString k1, AReadString k2 => forall x1 x2, given W fin x1 x2 -> G (k1 x1) (k2 x2)
    | AReadTo s1 k1, AReadTo s2 k2 =>
        R s1 s2 /\ forall x1 x2 u1 u2, given W fin x1 x2 -> R u1 u2 -> G (k1 x1 u1) (k2 x2 u2)
    | _, _ => False
    end.

  Lemma eact_amap {A1 A2 B1 B2} (G : A1 -> A2 -> Prop) (G' : B1 -> B2 -> Prop) f1 f2 a1 a2 :
    eact G a1 a2 -> (forall x y, G x y -> G' (f1 x) (f2 y)) -> eact G' (amap f1 a1) (amap f2 a2).
  Proof. destruct a1, a2; cbn; try contradiction; auto. intros [H1 H2] H. split; auto. Qed.

  Definition estep {E A} (Q : E -> E -> Prop) (x1 : res E A * S1) (x2 : res E A * S2) : Prop :=
    res_sim Q (fst x1) (fst x2) /\ R (snd x1) (snd x2).

  Record evis (V1 : visitors S1) (V2 : visitors S2) : Prop := EVis {
    ev_attribute : forall s1 s2 n v, R s1 s2 -> estep (verr_rel W fin) (v_attribute V1 s1 n v) (v_attribute V2 s2 n v);
    ev_characters : forall s1 s2 s p, R s1 s2 -> estep W (v_characters V1 s1 s p) (v_characters V2 s2 s p);
    ev_element : forall s1 s2 i, R s1 s2 -> eact (estep (verr_rel W fin)) (v_element V1 s1 i) (v_element V2 s2 i);
  }.

  Lemma wrap_rel e1 e2 st p : verr_rel W fin e1 e2 -> error_rel W fin (wrap e1 st p) (wrap e2 st p).
  Proof. destruct e1, e2; cbn; try contradiction; auto. intro H. now split. Qed.

  Lemma error_xml e st p : fin = FError e -> error_rel W fin (Error (EXml e) st p) (Error (EXml e) st p).
  Proof. now repeat split. Qed.
  Lemma error_msg m st p : error_rel W fin (Error (EMsg m) st p) (Error (EMsg m) st p).
  Proof. now repeat split. Qed.

  (** The reader's own errors. *)
  Definition own {A} (x : rres A) : Prop := (forall e, fst x = Err e -> error_rel W fin e e) /\ r_fin (snd x) = fin.

  Ltac start := split; cbn; [try discriminate; intros ? [= <-]|try reflexivity; try assumption].

  Lemma next_own dbg r : r_fin r = fin -> own (next dbg r).
  Proof.
    intro H. unfold next. destruct (_ && _); [start|]. rewrite H. generalize (r_depth r) (r_stack r). clear H.
    induction (r_src r) as [|[e p] src IH]; intros d st; cbn [next_loop].
    - destruct fin eqn:F; start; rewrite <- ?F; auto; apply error_xml; assumption.
    - destruct e; try apply IH; try start.
      destruct d; [start|]. destruct dbg; [|start]. destruct (nth_error _ _); [destruct (oname_eqb _ _)|]; start.
  Qed.

  Lemma skip_own fuel dbg target r : r_fin r = fin -> own (skip_loop fuel dbg target r).
  Proof.
    revert r. induction fuel as [|fuel IH]; intros r H; cbn [skip_loop]; [start|].
    destruct (Nat.ltb _ _); [|start]. pose proof (next_own dbg r H) as [H1 H2].
    destruct (next dbg r) as [[e|e|y] r1]; cbn in *; [now apply IH|start; auto|start].
  Qed.

  Lemma return_own dbg target r : r_fin r = fin -> own (return_to_depth dbg target r).
  Proof. intro H. unfold return_to_depth. destruct (_ && _); [start|now apply skip_own]. Qed.

  Lemma read_string_own dbg sp r : r_fin r = fin -> own (read_string dbg sp r).
  Proof.
    unfold read_string. generalize (S (List.length (r_src r))) as fuel. generalize ""%string as out. intros out fuel.
    revert out r. induction fuel as [|fuel IH]; intros out r H; cbn [read_string_loop]; [start|].
    destruct (stack_check _ _ _); [|start]. pose proof (next_own dbg r H) as [H1 H2].
    destruct (next dbg r) as [[[[a ns|n|s] p]|e|y] r1]; cbn in *; try now start.
    - destruct (nth_error _ _); start. apply error_msg.
    - now apply IH.
    - start; auto.
  Qed.

  Context (dbg : bool) (V1 : visitors S1) (V2 : visitors S2).
  Hypothesis HV : evis V1 V2.

  Lemma attrs_rel st p attrs s1 s2 : R s1 s2 ->
    esame (fst (attrs_loop V1 st p attrs s1)) (fst (attrs_loop V2 st p attrs s2)) /\
    R (snd (attrs_loop V1 st p attrs s1)) (snd (attrs_loop V2 st p attrs s2)).
  Proof.
    revert s1 s2. induction attrs as [|a attrs IH]; intros s1 s2 HR; cbn; [now split|].
    destruct (ev_attribute _ _ HV s1 s2 (from_xml_name (a_name a)) (a_value a) HR) as [HE HR'].
    destruct (v_attribute V1 s1 _ _) as [r1 s1'], (v_attribute V2 s2 _ _) as [r2 s2']. cbn in *.
    destruct r1, r2; cbn in HE; try contradiction; [now apply IH|split; [|exact HR']..]; cbn; auto. now apply wrap_rel.
  Qed.

  Definition body_rel (b1 : nat -> nsmap -> S1 -> rstate -> res error endinfo * S1 * rstate)
    (b2 : nat -> nsmap -> S2 -> rstate -> res error endinfo * S2 * rstate) : Prop :=
    forall sp ns s1 s2 r, R s1 s2 -> r_fin r = fin ->
    esame (fst (fst (b1 sp ns s1 r))) (fst (fst (b2 sp ns s2 r))) /\
    R (snd (fst (b1 sp ns s1 r))) (snd (fst (b2 sp ns s2 r))) /\
    snd (b1 sp ns s1 r) = snd (b2 sp ns s2 r) /\ r_fin (snd (b1 sp ns s1 r)) = fin.

  Definition outs {A1 A2} (G : A1 -> A2 -> Prop) (x1 : (A1 + abort) * rstate) (x2 : (A2 + abort) * rstate) : Prop :=
    match fst x1, fst x2 with
    | inl a1, inl a2 => G a1 a2
    | inr x, inr y => x = y
    | _, _ => False
    end /\ snd x1 = snd x2 /\ r_fin (snd x1) = fin.

  Lemma run_rel {A1 A2} (G : A1 -> A2 -> Prop) b1 b2 sp attrs ns a1 a2 r : body_rel b1 b2 -> r_fin r = fin -> eact G a1 a2 ->
    outs G (run_action dbg V1 b1 sp attrs ns a1 r) (run_action dbg V2 b2 sp attrs ns a2 r).
  Proof.
    intros HB Hr. destruct a1 as [a1|k1|s1 k1], a2 as [a2|k2|s2 k2]; try contradiction; cbn [run_action eact].
    - now split.
    - intros HG. pose proof (read_string_own dbg sp r Hr) as [H1 H2].
      destruct (read_string dbg sp r) as [[s|e|x] r1]; cbn in *; (split; [|now split]); cbn; auto; apply HG; cbn; auto.
    - intros (HR & HG). destruct (nth_error (r_stack r) sp) as [el|]; [|now split].
      destruct (attrs_rel (r_stack r) (se_pos el) attrs s1 s2 HR) as [HE HR'].
      destruct (attrs_loop V1 _ _ _ s1) as [x1 s1'], (attrs_loop V2 _ _ _ s2) as [x2 s2']. cbn in HE, HR'.
      destruct x1 as [[]|e|x], x2 as [[]|e2|x2]; try contradiction.
      + destruct (HB sp ns s1' s2' r HR' Hr) as (HE2 & HR2 & Er & Hf).
        destruct (b1 sp ns s1' r) as [[y1 t1] r1], (b2 sp ns s2' r) as [[y2 t2] r2]. cbn in HE2, HR2, Er, Hf. subst r2.
        destruct y1 as [j|e|x], y2 as [j2|e2|x2]; try contradiction; (split; [|now split]); cbn; auto; apply HG; auto.
      + split; [|now split]. cbn. apply HG; auto.
      + split; [|now split]. exact HE.
  Qed.

  Ltac four := (split; [|split; [|split]]); cbn; auto.

  Lemma read_loop_rel fuel : body_rel (read_loop dbg V1 fuel) (read_loop dbg V2 fuel).
  Proof.
    induction fuel as [|fuel IH]; intros sp ns s1 s2 r HR Hr; cbn [read_loop]; [now repeat split|].
    destruct (stack_check dbg sp r); [|now repeat split].
    pose proof (next_own dbg r Hr) as [H1 H2].
    destruct (next dbg r) as [[[[attrs ns'|name|str] p]|e|x] r1]; cbn in H1, H2; try (now repeat split).
    - destruct (nth_error (r_stack r1) (S sp)) as [el|]; [|now repeat split].
      pose proof (run_rel (estep (verr_rel W fin)) _ _ (S sp) attrs ns' _ _ r1 IH H2
        (ev_element _ _ HV s1 s2 (EInfo (se_name el) ns' (S (S sp))) HR)) as (H & E & Hf).
      destruct (run_action dbg V1 _ _ _ _ _ r1) as [o1 r2], (run_action dbg V2 _ _ _ _ _ r1) as [o2 r2'].
      cbn in E, H, Hf. subst r2'. destruct o1 as [[y1 t1]|x1], o2 as [[y2 t2]|x2]; try contradiction.
      + destruct H as [HE HR']. cbn in HE, HR'. destruct y1 as [b|e|x], y2 as [b2|e2|x2]; try contradiction.
        * pose proof (return_own dbg (S sp) r2 Hf) as [H3 H4].
          destruct (return_to_depth dbg (S sp) r2) as [[u|e|x] r3]; cbn in *; [now apply IH| |]; four.
        * four. now apply wrap_rel.
        * four.
      + cbn in H. subst. four.
    - destruct (ev_characters _ _ HV s1 s2 str p HR) as [HE HR'].
      destruct (v_characters V1 s1 str p) as [y1 t1], (v_characters V2 s2 str p) as [y2 t2]. cbn in HE, HR'.
      destruct y1, y2; try contradiction; [now apply IH| |]; four. now repeat split.
    - four.
  Qed.

  Theorem read_rel {T} (D1 : einfo -> action S1 (res verr T)) (D2 : einfo -> action S2 (res verr T)) r : r_fin r = fin ->
    (forall i, eact same (D1 i) (D2 i)) -> esame (read dbg V1 D1 r) (read dbg V2 D2 r).
  Proof.
    intros Hr HD. unfold read.
    assert (Hroot : own (root dbg r)).
    { unfold root, inner_next. destruct (r_src r) as [|[e p] src].
      - rewrite Hr. destruct fin eqn:F; start; rewrite <- ?F; auto using error_msg, error_xml; congruence.
      - destruct e; try (start; apply error_msg).
        assert (Hs : r_fin (set_src r src p) = fin) by exact Hr. pose proof (next_own dbg _ Hs) as [H1 H2].
        destruct (next dbg _) as [[[[a ns|n|s] q]|e|y] r1]; cbn in *; start; try apply error_msg. auto. }
    destruct (root dbg r) as [[[attrs ns]|e|x] r1]; destruct Hroot as [H1 H2]; cbn in H1, H2; [|cbn; auto|reflexivity].
    destruct (nth_error (r_stack r1) 0) as [el|]; [|reflexivity].
    pose proof (run_rel same _ _ 0 attrs ns _ _ r1 (read_loop_rel (S (List.length (r_src r1)))) H2 (HD (EInfo (se_name el) ns 1))) as (H & E & Hf).
    destruct (run_action dbg V1 _ _ _ _ _ r1) as [o1 r2], (run_action dbg V2 _ _ _ _ _ r1) as [o2 r2'].
    cbn in E, H, Hf. subst r2'. destruct o1 as [y1|x1], o2 as [y2|x2]; try contradiction; [|exact H].
    destruct y1 as [v|e|x], y2 as [v2|e2|x2]; try contradiction; [|now apply wrap_rel|exact H].
    cbn in H. subst v2. unfold end_. pose proof (return_own dbg 0 r2 Hf) as [H3 H4].
    destruct (return_to_depth dbg 0 r2) as [[u|e|x] r3]; cbn in H3, H4; [|cbn; auto|reflexivity]. rewrite H4.
    assert (He : forall src e, end_loop fin src = Err e -> error_rel W fin e e).
    { induction src as [|[ev p] src IH]; cbn; intro e.
      - destruct fin eqn:F; [discriminate|]. intros [= <-]. rewrite <- F. now apply error_xml.
      - destruct ev; auto; intros [= <-]; apply error_msg. }
    destruct (end_loop fin (r_src r3)) eqn:El; cbn; auto. eapply He; eauto.
  Qed.
End Reader.

(** ** Derived code *)

Section Derived.
  Context (W : string -> string -> Prop) (fin : final).
  Notation same := (res_sim (verr_rel W fin)).
  Hypothesis HW : forall m, derived_message m -> W m m.

  Ltac mine := cbn; apply HW; constructor.

  Lemma same_map {A B} (f : A -> B) r1 r2 : same r1 r2 -> same (map_ok f r1) (map_ok f r2).
  Proof. destruct r1, r2; cbn; auto. congruence. Qed.

  (** Errors derived code makes itself. *)
  Definition selfsame {A} (r : res verr A) : Prop := same r r.

  Lemma missing_same f : selfsame (missing f).
  Proof.
    unfold selfsame, missing. destruct (f_mode f) as [[]|[]| |]; try exact eq_refl; mine.
  Qed.

  Lemma enum_finalize_same e : selfsame (enum_finalize e).
  Proof. unfold selfsame, enum_finalize. destruct (e_init e); [exact eq_refl|mine]. Qed.

  Lemma finalize_same s : same (fst (finalize s)) (fst (finalize s)).
  Proof.
    unfold finalize. destruct (vs_kind s) as [fs ss|e].
    - assert (H : same (fst (finalize_slots fs ss)) (fst (finalize_slots fs ss))).
      { revert ss. induction fs as [|f fs IH]; intros [|s0 ss]; cbn; auto.
        assert (Hs : same (finalize_slot f s0) (finalize_slot f s0)).
        { unfold finalize_slot. destruct s0 as [pr m|e]; cbn.
          - destruct pr; [exact eq_refl|]. pose proof (missing_same f) as Hm. unfold selfsame in Hm.
            destruct (f_default f); cbn; [destruct m; exact eq_refl|]. destruct (missing f); cbn in *; auto. destruct m; exact eq_refl.
          - pose proof (enum_finalize_same e) as Hm. unfold selfsame in Hm. destruct (enum_finalize e); cbn in *; auto. }
        destruct (finalize_slot f s0); cbn in *; auto. specialize (IH ss). destruct (finalize_slots fs ss). exact IH. }
      destruct (finalize_slots fs ss) as [[[]|e|x] ss']; cbn in *; auto.
      assert (Ha : forall r : res verr (list value), (forall e, r <> Err e) -> same (map_ok VStruct r) (map_ok VStruct r)).
      { intros [a|e|x] Hr; cbn; auto. now destruct (Hr e). }
      apply Ha. clear. induction ss' as [|s0 ss' IH]; cbn; [discriminate|]. destruct (slot_mem s0); [|discriminate].
      intros e. destruct (assume_init ss'); cbn; try discriminate. intros [= ->]. now apply (IH e).
    - pose proof (enum_finalize_same e) as He. unfold selfsame in He. destruct (enum_finalize e) as [e'| |]; cbn in *; auto.
      destruct (e_mem e); exact eq_refl.
  Qed.

  (** Attributes. *)
  Section Attribute.
    Context (o1 o2 : oracles) (alg : bs_alg) (env : tenv).
    Hypothesis Ho : forall t s, res_sim W (parse_text o1 t s) (parse_text o2 t s).

    Lemma derived_attribute s n v :
      estep eq (verr_rel W fin) (v_attribute (derived o1 alg env) s n v) (v_attribute (derived o2 alg env) s n v).
    Proof.
      cbn. destruct (vs_kind s) as [fs ss|e]; [|now split].
      unfold struct_attribute. destruct (find_field alg is_attribute fs n) as [p|].
      - destruct (nth_error fs p) as [[nm [] d]|]; try now split.
        destruct (nth_error ss p) as [[pr m|]|]; try now split.
        unfold attribute_field. destruct pr; [split; [mine|reflexivity]|].
        unfold attr_init. specialize (Ho t v). destruct (parse_text o1 t v), (parse_text o2 t v); cbn in *; try contradiction; subst.
        + destruct (write_mem m _) eqn:Ew; [split; reflexivity|unfold write_mem in Ew; destruct m; discriminate|split; reflexivity].
        + now split.
        + now split.
      - destruct (delegate _ ss v) as [r ss'] eqn:E. split; [|reflexivity]. cbn.
        assert (Hd : delegate (fun e v => enum_attribute e n v) ss v = (Ok (Some v), ss)) by now apply delegate_pass.
        rewrite Hd in E. injection E as <- <-. reflexivity.
    Qed.
  End Attribute.

  (** Elements. *)
  Section Element.
    Context {S1 S2 : Type} (R : S1 -> S2 -> Prop) (alg : bs_alg).
    Context (d1 : ety -> einfo -> action S1 (res verr value * list value))
      (d2 : ety -> einfo -> action S2 (res verr value * list value)).

    Definition rel2 {A} (x y : res verr A * list value) : Prop := same (fst x) (fst y) /\ snd x = snd y.
    Definition rel3 {A B} (x y : res verr A * B * list value) : Prop :=
      same (fst (fst x)) (fst (fst y)) /\ snd (fst x) = snd (fst y) /\ snd x = snd y.

    Hypothesis Hd : forall t i, eact W fin R rel2 (d1 t i) (d2 t i).

    Lemma init_rel k t i : eact W fin R rel2 (gfield_init d1 k t i) (gfield_init d2 k t i).
    Proof.
      eapply eact_amap; [apply Hd|]. intros [r1 l1] [r2 l2] [H1 H2]. split; cbn in *; auto. now apply same_map.
    Qed.

    Lemma update_rel k t old i : eact W fin R rel2 (gfield_update d1 k t old i) (gfield_update d2 k t old i).
    Proof.
      destruct k; cbn [gfield_update]; try (split; [mine|reflexivity]).
      eapply eact_amap; [apply Hd|]. intros [r1 l1] [r2 l2] [H1 H2]. split; cbn in *; auto.
      destruct r1, r2; cbn in *; try contradiction; subst; auto. unfold push_value. destruct old; cbn; auto.
    Qed.

    Definition orel {A1 A2} (G : A1 -> A2 -> Prop) (x : option (action S1 A1)) (y : option (action S2 A2)) : Prop :=
      match x, y with Some a, Some b => eact W fin R G a b | None, None => True | _, _ => False end.

    Lemma enum_rel e i : orel rel3 (genum_element alg d1 e i) (genum_element alg d2 e i).
    Proof.
      unfold genum_element. destruct (e_init e).
      - destruct (e_mem e) as [[| |j p| | | |]|]; try now split.
        destruct (nth_error _ j) as [v|]; [|now split].
        destruct (find _ _ _) as [j'|]; [|now split].
        destruct (Nat.eqb j' j); [|split; [mine|now split]].
        destruct (v_ty v) as [[k t]|]; [|now split]. destruct p as [f|]; [|now split].
        eapply eact_amap; [apply update_rel|]. intros [[a1|e1|x1] l1] [[a2|e2|x2] l2] [H1 H2]; cbn in *; try contradiction; subst; now split.
      - destruct (find _ _ _) as [j|]; [|exact I].
        destruct (nth_error _ j) as [v|]; [|now split].
        destruct (v_ty v) as [[k t]|].
        + eapply eact_amap; [apply init_rel|].
          intros [[a1|e1|x1] l1] [[a2|e2|x2] l2] [H1 H2]; cbn in *; try contradiction; subst; try now split.
          destruct (e_mem e); now split.
        + destruct (e_mem e); now split.
    Qed.

    Lemma delegate_rel ss i : orel rel3 (gdelegate_element alg d1 ss i) (gdelegate_element alg d2 ss i).
    Proof.
      induction ss as [|s ss IH]; cbn; [exact I|].
      assert (Hrest : orel rel3 (option_map (amap (fun '(r, ss'', l) => (r, s :: ss'', l))) (gdelegate_element alg d1 ss i))
        (option_map (amap (fun '(r, ss'', l) => (r, s :: ss'', l))) (gdelegate_element alg d2 ss i))).
      { destruct (gdelegate_element alg d1 ss i), (gdelegate_element alg d2 ss i); try contradiction; [|exact I].
        eapply eact_amap; [exact IH|]. intros [[r1 s1] l1] [[r2 s2] l2] (H1 & H2 & H3). cbn in *. subst. now split. }
      destruct s as [pr m|e]; [exact Hrest|]. pose proof (enum_rel e i) as He.
      destruct (genum_element alg d1 e i), (genum_element alg d2 e i); try contradiction; [|exact Hrest].
      eapply eact_amap; [exact He|]. intros [[r1 s1] l1] [[r2 s2] l2] (H1 & H2 & H3). cbn in *. subst. now split.
    Qed.

    Lemma field_rel k t pr m i : eact W fin R rel3 (gelement_field d1 k t pr m i) (gelement_field d2 k t pr m i).
    Proof.
      unfold gelement_field. destruct pr.
      - destruct m as [old|]; [|now split]. eapply eact_amap; [apply update_rel|].
        intros [[a1|e1|x1] l1] [[a2|e2|x2] l2] [H1 H2]; cbn in *; try contradiction; subst; now split.
      - eapply eact_amap; [apply init_rel|].
        intros [[a1|e1|x1] l1] [[a2|e2|x2] l2] [H1 H2]; cbn in *; try contradiction; subst; try now split.
        unfold write_mem. destruct m; now split.
    Qed.

    Lemma element_rel s i : eact W fin R (fun a b => same (fst a) (fst b) /\ snd a = snd b) (gelement alg d1 s i) (gelement alg d2 s i).
    Proof.
      unfold gelement. destruct (vs_kind s) as [fs ss|e].
      - unfold gstruct_element. destruct (find_field alg is_element fs _) as [p|].
        + destruct (nth_error fs p) as [[nm [] d]|]; try now split.
          destruct (nth_error ss p) as [[pr m|]|]; try now split.
          eapply eact_amap; [apply field_rel|]. intros [[r1 s1] l1] [[r2 s2] l2] (H1 & H2 & H3).
          cbn in *. subst. split; [now apply same_map|reflexivity].
        + pose proof (delegate_rel ss i) as He.
          destruct (gdelegate_element alg d1 ss i), (gdelegate_element alg d2 ss i); try contradiction; [|now split].
          eapply eact_amap; [exact He|]. intros [[r1 s1] l1] [[r2 s2] l2] (H1 & H2 & H3). cbn in *. subst. split; [now apply same_map|reflexivity].
      - pose proof (enum_rel e i) as He.
        destruct (genum_element alg d1 e i), (genum_element alg d2 e i); try contradiction; [|now split].
        eapply eact_amap; [exact He|]. intros [[r1 s1] l1] [[r2 s2] l2] (H1 & H2 & H3). cbn in *. subst. split; [now apply same_map|reflexivity].
    Qed.
  End Element.

  (** ** Programs *)

  Section Programs.
    Context {U1 U2 : Type} (R : U1 -> U2 -> Prop) (o1 o2 : oracles) (alg : bs_alg) (env : tenv) (P1 : user U1) (P2 : user U2).
    Hypothesis Ho : forall t s, res_sim W (parse_text o1 t s) (parse_text o2 t s).
    Hypothesis HP : same_code W fin R P1 P2.

    Definition mrel (s1 : mstate U1) (s2 : mstate U2) : Prop :=
      match s1, s2 with
      | MDerived s1, MDerived s2 => s1 = s2
      | MUser u1, MUser u2 => R u1 u2
      | _, _ => False
      end.

    Notation odd1 := (fun _ => Abort ill_typed).

    Lemma known_rel t i : eact W fin mrel rel2 (known_deserialize (U := U1) odd1 o1 env t i) (known_deserialize (U := U2) odd1 o2 env t i).
    Proof.
      destruct t as [t|id]; cbn.
      - intros x1 x2 Hx. split; [|reflexivity]. cbn. apply same_map.
        destruct x1 as [s1|e1], x2 as [s2|e2]; cbn in *; try contradiction; auto. subst s2. specialize (Ho t s1).
        destruct (parse_text o1 t s1), (parse_text o2 t s1); cbn in *; auto.
      - destruct (new_visitor env id) as [s0|]; [|now split]. split; [reflexivity|].
        intros x1 x2 u1 u2 Hx Hu. destruct u1 as [s|u1], u2 as [s2|u2]; cbn in Hu; try contradiction; [subst s2|now split].
        destruct x1, x2; cbn in *; try contradiction; [|now split]. split; [apply finalize_same|reflexivity].
    Qed.

    Lemma lower_rel {A1 A2} (G : A1 -> A2 -> Prop) ab1 ab2 odd1' odd2' a1 a2 i : same_act W fin R G a1 a2 ->
      (forall x, G (ab1 x) (ab2 x)) -> G odd1' odd2' ->
      eact W fin mrel G (lower odd1 o1 env ab1 odd1' a1 i) (lower odd1 o2 env ab2 odd2' a2 i).
    Proof.
      intros H Hab Hodd. destruct a1, a2; cbn in *; try contradiction; auto.
      - destruct H as [HR H]. split; [exact HR|]. intros x1 x2 v1 v2 Hx Hv.
        destruct v1, v2; cbn in Hv; try contradiction; auto.
      - destruct H as [<- H]. eapply eact_amap; [apply known_rel|].
        intros [[a1|e1|y1] l1] [[a2|e2|y2] l2] [H1 H2]; cbn in *; try contradiction; subst; auto; apply H; cbn; auto.
    Qed.

    Lemma mdeserialize_rel t i : eact W fin mrel rel2 (mdeserialize odd1 o1 env P1 t i) (mdeserialize odd1 o2 env P2 t i).
    Proof.
      destruct t as [t|id]; cbn [mdeserialize]; [apply known_rel|].
      pose proof (sc_type _ _ _ _ _ HP id) as H.
      destruct (env id), (u_type P1 id), (u_type P2 id); try contradiction; try apply known_rel.
      eapply eact_amap; [apply lower_rel; [apply H|reflexivity|reflexivity]|]. intros x y Hxy. now split.
    Qed.

    Lemma mixed_rel : evis W fin mrel (mixed odd1 o1 alg env P1) (mixed odd1 o2 alg env P2).
    Proof.
      constructor.
      - intros s1 s2 n v H. destruct s1 as [s|u1], s2 as [s2|u2]; cbn in H; try contradiction; cbn [v_attribute mixed].
        + subst s2. pose proof (derived_attribute o1 o2 alg env Ho s n v) as [H1 H2].
          destruct (v_attribute (derived o1 alg env) s n v), (v_attribute (derived o2 alg env) s n v). now split.
        + pose proof (sc_attribute _ _ _ _ _ HP u1 u2 n v H) as [H1 H2].
          destruct (u_attribute P1 u1 n v), (u_attribute P2 u2 n v). now split.
      - intros s1 s2 str p H. destruct s1 as [s|u1], s2 as [s2|u2]; cbn in H; try contradiction; cbn [v_characters mixed].
        + subst s2. cbn. destruct (vs_kind s) as [fs ss|e]; [|now split].
          unfold struct_characters. rewrite delegate_pass by reflexivity. now split.
        + pose proof (sc_characters _ _ _ _ _ HP u1 u2 str p H) as [H1 H2].
          destruct (u_characters P1 u1 str p), (u_characters P2 u2 str p). now split.
      - intros s1 s2 i H. destruct s1 as [s|u1], s2 as [s2|u2]; cbn in H; try contradiction; cbn [v_element mixed].
        + subst s2. eapply eact_amap; [apply element_rel; apply mdeserialize_rel|].
          intros [r1 t1] [r2 t2] [H1 H2]. cbn in *. subst. now split.
        + eapply eact_amap; [apply lower_rel; [apply (sc_element _ _ _ _ _ HP); exact H|..]|].
          * intro x. now split.
          * now split.
          * intros [r1 t1] [r2 t2] [H1 H2]. now split.
    Qed.

    Theorem read_mixed_rel dbg t src : res_sim (error_rel W fin) (read_mixed o1 alg env P1 dbg t src fin) (read_mixed o2 alg env P2 dbg t src fin).
    Proof.
      apply (read_rel W fin mrel dbg _ _ mixed_rel); [reflexivity|]. intro i. unfold mixed_root.
      eapply eact_amap; [apply mdeserialize_rel|]. intros x y [H _]. exact H.
    Qed.
  End Programs.
End Derived.

(** ** One program *)

Section One.
  Context {U : Type} (M : string -> Prop) (fin : final) (o : oracles) (alg : bs_alg) (env : tenv) (P : user U).
  Context (I : U -> Prop).
  Definition diag (a b : string) : Prop := a = b /\ M a.

  Lemma diag_error e1 e2 : error_rel diag fin e1 e2 -> e1 = e2 /\ from M fin e1.
  Proof.
    destruct e1 as [k1 st1 p1], e2 as [k2 st2 p2]. intros (Hk & Hs & Hp). cbn in *. subst. unfold from. cbn.
    destruct k1, k2; cbn in *; try contradiction; destruct Hk; subst; auto.
  Qed.

  Lemma error_diag e : from M fin e -> error_rel diag fin e e.
  Proof. destruct e as [k st p]. unfold from. cbn. intro H. repeat split. cbn. destruct k; cbn; auto. now split. Qed.

  Lemma diag_verr e1 e2 : verr_rel diag fin e1 e2 -> e1 = e2 /\ vfrom M fin e1.
  Proof.
    destruct e1, e2; cbn; try contradiction.
    - intro H. apply diag_error in H as [-> H]. now split.
    - intros [-> H]. now split.
  Qed.

  Lemma verr_diag e : vfrom M fin e -> verr_rel diag fin e e.
  Proof. destruct e; cbn; [apply error_diag|now split]. Qed.

  Lemma diag_given {X} (x1 x2 : X + verr) : given diag fin x1 x2 -> x1 = x2 /\ gets M fin x1.
  Proof.
    destruct x1, x2; cbn; try contradiction.
    - intros ->. split; [reflexivity|]. discriminate.
    - intro H. apply diag_verr in H as [-> H]. split; [reflexivity|]. now intros e' [= <-].
  Qed.

  Lemma res_diag {A} (r : res verr A) : errs (vfrom M fin) r -> res_sim (verr_rel diag fin) r r.
  Proof. destruct r; cbn; auto. intro H. now apply verr_diag, H. Qed.

  Definition both (u1 u2 : U) : Prop := u1 = u2 /\ I u1.

  Lemma act_diag {A} (good : A -> Prop) (G : A -> A -> Prop) act : only_act M fin I good act ->
    (forall a, good a -> G a a) -> same_act diag fin both G act act.
  Proof.
    intros H HG. destruct act; cbn in *; auto.
    - intros x1 x2 Hx. apply diag_given in Hx as [<- Hx]. auto.
    - destruct H as [H0 H]. split; [now split|]. intros x1 x2 u1 u2 Hx [<- Hu]. apply diag_given in Hx as [<- Hx]. auto.
    - split; [reflexivity|]. intros x1 x2 Hx. apply diag_given in Hx as [<- Hx]. auto.
  Qed.

  Theorem causes : only_code M fin I P -> (forall m, derived_message m -> M m) ->
    (forall t s m, parse_text o t s = Err m -> M m) ->
    forall dbg t src e, read_mixed o alg env P dbg t src fin = Err e -> from M fin e.
  Proof.
    intros HP HM Ho dbg t src e He.
    assert (H : res_sim (error_rel diag fin) (read_mixed o alg env P dbg t src fin) (read_mixed o alg env P dbg t src fin)).
    { apply (read_mixed_rel diag fin) with (R := both).
      - intros m Hm. split; auto.
      - intros ty s. destruct (parse_text o ty s) eqn:E; cbn; auto. split; eauto.
      - constructor.
        + intro id. destruct (u_type P id) as [D|] eqn:E; [|exact Logic.I]. intro i.
          eapply act_diag; [eapply (oc_type _ _ _ _ HP); eauto|]. apply res_diag.
        + intros u1 u2 n v [<- Hu]. destruct (oc_attribute _ _ _ _ HP u1 n v Hu) as [H1 H2]. split; [now apply res_diag|now split].
        + intros u1 u2 s p [<- Hu]. destruct (oc_characters _ _ _ _ HP u1 s p Hu) as [H1 H2]. split; [|now split].
          destruct (fst (u_characters P u1 s p)); cbn; auto. split; auto.
        + intros u1 u2 i [<- Hu]. eapply act_diag; [now apply (oc_element _ _ _ _ HP)|]. intros a [Ha Hi].
          split; [now apply res_diag|now split]. }
    rewrite He in H. cbn in H. now apply diag_error in H.
  Qed.
End One.

(** ** Sources *)

Theorem sources {U} (kind : xerr -> xml_kind) (M : string -> Prop) fin o alg env (P : user U) (I : U -> Prop) :
  only_code M fin I P -> (forall m, derived_message m -> M m) -> (forall t s m, parse_text o t s = Err m -> M m) ->
  forall dbg t src e, read_mixed o alg env P dbg t src fin = Err e ->
  match error_source kind e with
  | None => exists m, er_kind e = EMsg m
  | Some (CUser m) => M m
  | Some (CXml x) => fin = FError x /\ (kind x = KSyntax \/ kind x = KUnexpectedEof)
  | Some (CIo io) => exists x, fin = FError x /\ kind x = KIo io
  | Some (CUtf8 utf) => exists x, fin = FError x /\ kind x = KUtf8 utf
  end.
Proof.
  intros HP HM Ho dbg t src e He. apply (causes M fin o alg env P I HP HM Ho) in He. revert He.
  unfold from, error_source, kind_source. destruct (er_kind e) as [x|m|m]; eauto.
  intros ->. destruct (kind x) eqn:E; eauto.
Qed.
