(** The code generated by [#[derive(Serialize)]], [#[derive(ParseText)]] and [#[derive(ToText)]] does what
    DeriveSer.v and Text.v say. *)
From Verif Require Import Base Normalize NormalizeProofs Text Find FindProofs Types Ser DeriveSer DSerProofs DSerPanic
  DeriveAttr DASpec DAType DAProps GenCode GenRun GenSer GenNames GenProofs.
From Coq Require Import Lia Permutation.

Definition aeq (a b : aprog) : Prop := forall dbg s, run_a dbg a s = run_a dbg b s.
Definition weq {d} (p q : wprog d) : Prop := forall dbg w nss s, run_w dbg w p nss s = run_w dbg w q nss s.
Definition beq {d} (p q : bprog d) : Prop := forall dbg w b nss s, run_b dbg w p b nss s = run_b dbg w q b nss s.

Lemma aeq_then a a' b b' : aeq a a' -> aeq b b' -> aeq (a_then a b) (a_then a' b').
Proof.
  intros H1 H2 dbg s. rewrite !run_a_then, H1. destruct (run_a dbg a' s) as [[[e|] s']|x]; auto. 
Qed.

Lemma beq_embed {d} a a' (k k' : option serr -> bprog d) : aeq a a' -> (forall r, beq (k r) (k' r)) -> beq (embed a k) (embed a' k').
Proof.
  intros H1 H2 dbg w b nss s. rewrite !run_embed, H1. destruct (run_a dbg a' b) as [[r b']|x]; auto. apply H2.
Qed.

Lemma weq_text {d} t (k k' : option serr -> wprog d) : (forall r, weq (k r) (k' r)) -> weq (WText t k) (WText t k').
Proof. intros H dbg w nss s. cbn. destruct (write w (WChars t) s). apply H. Qed.

Lemma weq_elem {d} n (b b' : bprog d) : beq b b' -> weq (WElem n b) (WElem n b').
Proof. intros H dbg w [|m nss] s; cbn; [reflexivity|apply H]. Qed.

Lemma weq_finish {d} (k k' : option serr -> wprog d) : (forall r, weq (k r) (k' r)) -> weq (WFinish k) (WFinish k').
Proof. intros H dbg w nss s. cbn. destruct (write w WEnd s). apply H. Qed.

Lemma weq_drop {d} (k k' : wprog d) : weq k k' -> weq (WDrop k) (WDrop k').
Proof. intros H dbg w nss s. cbn. apply H. Qed.

Lemma beq_start {d} (p p' : wprog (S d)) e e' : weq p p' -> (forall x, weq (e x) (e' x)) -> beq (BStart p e) (BStart p' e').
Proof. intros H1 H2 dbg w b nss s. cbn. destruct (builder_start w b s) as [[[m|x] s']|]; [apply H1|apply H2|reflexivity]. Qed.

Lemma beq_drop {d} (p p' : wprog d) : weq p p' -> beq (BDrop p) (BDrop p').
Proof. intros H dbg w b nss s. cbn. apply H. Qed.

Definition keq {d} (k k' : option serr -> wprog d) : Prop := forall r, weq (k r) (k' r).
(** Two ways of writing some children. *)
Definition peq {d} (p q : (option serr -> wprog d) -> wprog d) : Prop := forall k k', keq k k' -> weq (p k) (q k').

Lemma on_ok_eq {d} (k k' : option serr -> wprog d) p p' : keq k k' -> weq p p' -> keq (on_ok k p) (on_ok k' p').
Proof. intros H1 H2 [e|]; cbn; auto. Qed.

Lemma write_one_eq {d} n a a' (p p' : (option serr -> wprog (S d)) -> wprog (S d)) :
  aeq a a' -> peq p p' -> peq (write_one n a p) (write_one n a' p').
Proof.
  intros H1 H2 k k' HK. unfold write_one. apply weq_elem, beq_embed; auto. intros [e|].
  - apply beq_drop, HK.
  - apply beq_start; [|intro; apply HK]. apply H2. intros [e|]; [apply weq_drop, HK|now apply weq_finish].
Qed.

Lemma write_field_eq {d} (P : value -> Prop) (one one' : value -> (option serr -> wprog d) -> wprog d) kd v :
  (forall v, P v -> peq (one v) (one' v)) ->
  match kd, v with
  | KOne, v => P v
  | KOpt, VSome v => P v
  | KVec, VVec l => Forall P l
  | _, _ => True
  end -> peq (write_field one kd v) (write_field one' kd v).
Proof.
  intros H HP k k' HK. unfold write_field. destruct kd.
  - now apply H.
  - destruct v; try (intros ? ? ? ?; reflexivity); [apply HK|now apply H].
  - destruct v; try (intros ? ? ? ?; reflexivity). revert k k' HK. induction HP as [|v l Hv _ IH]; intros k k' HK; cbn; [apply HK|].
    apply H; auto. apply on_ok_eq; auto.
Qed.

(** ** Picking fields *)

Lemma a_pick_spec f w vs us p t v x : NoDup (keys us) -> nth_error us p = Some (x, t) -> nth_error vs p = Some v ->
  unraw x = unraw f -> a_pick f w vs us = w t v.
Proof.
  intros N H1 H2 E. revert us p N H1 H2. induction vs as [|v0 vs IH]; intros [|[y t0] us] [|p] N H1 H2; cbn in *; try discriminate.
  - injection H1 as -> ->. injection H2 as ->. apply same_iff in E. now rewrite E.
  - inversion N as [|? ? N1 N2]; subst. destruct (same_ident y f) eqn:Ey; [|eauto].
    apply same_iff in Ey. exfalso. apply N1. rewrite Ey, <- E. apply (in_map (fun x => unraw (fst x)) us (x, t)). eapply nth_error_In; eauto.
Qed.

Lemma w_pick_spec {d} f (w : rty -> value -> (option serr -> wprog d) -> wprog d) vs us p t v x k : NoDup (keys us) ->
  nth_error us p = Some (x, t) -> nth_error vs p = Some v -> unraw x = unraw f -> w_pick f w vs us k = w t v k.
Proof.
  intros N H1 H2 E. revert us p N H1 H2. induction vs as [|v0 vs IH]; intros [|[y t0] us] [|p] N H1 H2; cbn in *; try discriminate.
  - injection H1 as -> ->. injection H2 as ->. apply same_iff in E. now rewrite E.
  - inversion N as [|? ? N1 N2]; subst. destruct (same_ident y f) eqn:Ey; [|eauto].
    apply same_iff in Ey. exfalso. apply N1. rewrite Ey, <- E. apply (in_map (fun x => unraw (fst x)) us (x, t)). eapply nth_error_In; eauto.
Qed.

Definition ser_ok (d : edesc) : Prop :=
  match d with
  | EDStruct s => NoDup (map unraw (map fident (es_fields s))) /\ all_somes (map field_of (es_fields s)) <> None
  | EDEnum e => NoDup (map unraw (map ev_ident (ee_variants e)))
  end.

Lemma desc_ser_ok dflt d : desc_ok dflt d -> ser_ok d.
Proof. destruct d; cbn; auto. intro S. split; apply S. Qed.

Section Refine.
  Context (o : oracles) (decls : nat -> option edesc).
  Hypothesis OK : forall id d, decls id = Some d -> ser_ok d.
  Context (env : tenv).
  Hypothesis ENV : forall id, env id = meant decls id.

  Lemma user_nodup s : NoDup (map unraw (map fident (es_fields s))) -> NoDup (keys (user_fields s)).
  Proof. intro H. unfold keys, user_fields. rewrite map_map. cbn. now rewrite <- map_map. Qed.

  Lemma user_nth s p f : nth_error (es_fields s) p = Some f -> nth_error (user_fields s) p = Some (fident f, fty f).
  Proof. intro H. unfold user_fields. now rewrite nth_error_map, H. Qed.

  (** *** [write_attributes] *)

  Definition run_attrs (vs : list value) (us : list (string * rty)) : list gser -> aprog :=
    fix run (l : list gser) : aprog :=
      match l with
      | [] => ARet None
      | GNamespace p u :: l' => ANs p u (run l')
      | GAttr f n :: l' => a_then (a_pick f (g_write_attr o n) vs us) (run l')
      | GFlatAttrs f :: l' => a_then (a_pick f (fun t v => g_attrs o decls v (snd t)) vs us) (run l')
      | GElem _ _ :: _ | GFlatKids _ :: _ => APanic ill_typed
      end.

  Lemma run_ns vs us nss l a : aeq (run_attrs vs us l) a ->
    aeq (run_attrs vs us (map (fun '(p, u) => GNamespace p u) nss ++ l)) (write_namespaces nss a).
  Proof.
    intro H. induction nss as [|[p u] nss IH]; cbn; auto. intros dbg s. cbn.
    destruct (builder_namespace dbg p u s); [apply IH|reflexivity].
  Qed.

  (** Statements for the fields of one mode, against [a_each]. *)
  Lemma each_attrs s vs (m : emode) (g : efield -> gser) (w : field -> value -> aprog) rest :
    NoDup (map unraw (map fident (es_fields s))) ->
    m <> EText_ ->
    (forall p f f' v l, nth_error (es_fields s) p = Some f -> field_of f = Some f' -> nth_error vs p = Some v ->
       same_mode (ef_mode f) m = true ->
       exists a, run_attrs vs (user_fields s) (g f :: l) = a_then a (run_attrs vs (user_fields s) l) /\ aeq a (w f' v)) ->
    forall fs2 fs2', fields_of fs2 fs2' -> forall fs1 vs1 vs2, es_fields s = fs1 ++ fs2 -> vs = vs1 ++ vs2 ->
      List.length fs1 = List.length vs1 -> List.length fs2 = List.length vs2 ->
      aeq (run_attrs vs (user_fields s) (each_of m g fs2 ++ rest))
          (a_then (a_each (sel_of m) w vs2 fs2') (run_attrs vs (user_fields s) rest)).
  Proof.
    intros N Hm HG fs2 fs2' F. induction F as [|f f' fs2 fs2' Hf F IH]; intros fs1 vs1 [|v vs2] E1 E2 L1 L2; cbn in L2; try discriminate.
    - intros dbg b. reflexivity.
    - assert (Hp : nth_error (es_fields s) (List.length fs1) = Some f) by (rewrite E1; apply nth_app_len).
      assert (Hv : nth_error vs (List.length fs1) = Some v) by (rewrite E2, L1; apply nth_app_len).
      assert (IH' : aeq (run_attrs vs (user_fields s) (each_of m g fs2 ++ rest))
          (a_then (a_each (sel_of m) w vs2 fs2') (run_attrs vs (user_fields s) rest))).
      { apply (IH (fs1 ++ [f]) (vs1 ++ [v])); rewrite <- ?app_assoc; auto. rewrite !app_length. cbn. lia. }
      change (each_of m g (f :: fs2)) with ((if same_mode (ef_mode f) m then [g f] else []) ++ each_of m g fs2).
      cbn [a_each]. rewrite (field_of_sel _ _ _ Hf Hm). destruct (same_mode (ef_mode f) m) eqn:EM; [|exact IH'].
      cbn [app]. destruct (HG _ f f' v (each_of m g fs2 ++ rest) Hp Hf Hv EM) as (a & EQ & HA). rewrite EQ.
      intros dbg b. rewrite !run_a_then, HA. destruct (run_a dbg (w f' v) b) as [[[e|] b']|x]; auto.
      rewrite (IH' dbg b'), run_a_then. reflexivity.
  Qed.

  Definition attrs_same (v : value) : Prop := forall t, shaped decls t v -> aeq (g_attrs o decls v t) (ser_attrs o env v t).

  Lemma field_attr f f' : field_of f = Some f' -> ef_mode f = EAttribute ->
    exists opt t, f_mode f' = MAttribute opt t /\ fty f = (if opt then KOpt else KOne, EText t).
  Proof.
    unfold field_of, fty. intros H E. rewrite E in H. destruct (sf_ty (ef_field f)) as [[] []]; try discriminate;
      destruct (if ef_default f then _ else _); try discriminate; injection H as <-; cbn; [exists false|exists true]; eauto.
  Qed.

  Lemma field_elem f f' : field_of f = Some f' -> ef_mode f = EElement ->
    exists k t, f_mode f' = MElement k t /\ fty f = (k, t).
  Proof.
    unfold field_of, fty. intros H E. rewrite E in H. destruct (sf_ty (ef_field f)) as [k t].
    destruct (if ef_default f then _ else _); try discriminate; injection H as <-; cbn; eauto.
  Qed.

  Lemma same_mode_eq a b : same_mode a b = true -> a = b.
  Proof. destruct a, b; cbn; auto; discriminate. Qed.

  Lemma Forall2_nth2 {A B} (R : A -> B -> Prop) l l' p a b : Forall2 R l l' -> nth_error l p = Some a -> nth_error l' p = Some b -> R a b.
  Proof.
    intro H. revert p. induction H; intros [|p] H1 H2; cbn in *; try discriminate; eauto. congruence.
  Qed.

  Theorem g_attrs_same v : attrs_same v.
  Proof.
    induction v using value_ind''; intros t Ht; inversion Ht; subst.
    all: try (match goal with H : decls _ = Some _ |- _ => assert (DD := H); apply OK in H end).
    - intros dbg b. reflexivity.
    - (* struct *) cbn in *. match goal with H : NoDup _ /\ _ |- _ => destruct H as [N T] end.
      destruct (all_somes (map field_of (es_fields s))) as [fs'|] eqn:EF; [|now destruct T]. apply fields_of_iff in EF.
      destruct (env_struct decls env ENV id s fs' DD EF) as (root & nss & EE).
      unfold ser_code. rewrite DD. unfold ser_struct.
      assert (EE' : nss = ea_nss (es_attr s)).
      { rewrite ENV in EE. unfold meant in EE. rewrite DD in EE. cbn in EE. destruct (all_somes _); [|discriminate]. now injection EE. }
      rewrite EE, EE'. change (aeq (run_attrs vs (user_fields s) (gen_namespaces (es_attr s) ++ gen_attributes (es_fields s)))
        (write_namespaces (ea_nss (es_attr s)) (a_then (a_each is_attribute
                         (fun f v => match f_mode f with
                                     | MAttribute opt t => write_attr o (expanded (f_name f)) opt t v
                                     | _ => APanic ill_typed
                                     end) vs fs')
                      (a_each is_flatten
                         (fun f v => match f_mode f with
                                     | MFlatten id => ser_attrs o env v (ERef id)
                                     | _ => APanic ill_typed
                                     end) vs fs')))).
      apply run_ns.
      match goal with H : Forall2 _ (es_fields s) vs |- _ => rename H into HS end.
      assert (LE : List.length (es_fields s) = List.length vs) by (clear -HS; induction HS; cbn; auto).
      unfold gen_attributes.
      assert (A1 := each_attrs s vs EAttribute (fun f => GAttr (fident f) (ename f)) (fun f v => match f_mode f with
                                     | MAttribute opt t => write_attr o (expanded (f_name f)) opt t v
                                     | _ => APanic ill_typed
                                     end) (each_of EFlatten (fun f => GFlatAttrs (fident f)) (es_fields s)) N ltac:(discriminate)).
      assert (A2 := each_attrs s vs EFlatten (fun f => GFlatAttrs (fident f)) (fun f v => match f_mode f with
                                     | MFlatten id => ser_attrs o env v (ERef id)
                                     | _ => APanic ill_typed
                                     end) [] N ltac:(discriminate)).
      match type of A2 with ?X -> _ => assert (HX : X); [|specialize (A2 HX (es_fields s) fs' EF [] [] vs eq_refl eq_refl eq_refl LE); clear HX] end.
      { intros p f f' v l Hf Hff Hv HM. apply same_mode_eq in HM. eexists. split; [reflexivity|].
        rewrite (a_pick_spec _ _ vs (user_fields s) p (fty f) v (fident f)); auto using user_nodup, user_nth.
        assert (FF := field_flat f f' Hff). unfold is_flat in FF. rewrite HM in FF. destruct (FF eq_refl) as (id' & E1 & E2).
        rewrite E1, E2. cbn [snd]. assert (SH := Forall2_nth2 _ _ _ _ _ _ HS Hf Hv). cbn in SH. rewrite E1 in SH. inversion SH; subst.
        apply (proj1 (proj1 (Forall_forall _ _) H v (nth_error_In _ _ Hv))). assumption. }
      match type of A1 with ?X -> _ => assert (HX : X); [|specialize (A1 HX (es_fields s) fs' EF [] [] vs eq_refl eq_refl eq_refl LE); clear HX] end.
      { intros p f f' v l Hf Hff Hv HM. apply same_mode_eq in HM. eexists. split; [reflexivity|].
        rewrite (a_pick_spec _ _ vs (user_fields s) p (fty f) v (fident f)); auto using user_nodup, user_nth.
        destruct (field_attr f f' Hff HM) as (opt & t & E1 & E2). rewrite E1, E2, (field_of_fname _ _ Hff). unfold g_write_attr, ename.
        intros dbg' b'. now destruct opt. }
      intros dbg b. rewrite A1, !run_a_then. change (sel_of EAttribute) with is_attribute.
      destruct (run_a dbg (a_each is_attribute _ vs fs') b) as [[[e|] b']|x]; auto.
      rewrite <- (app_nil_r (each_of EFlatten _ _)), A2, run_a_then. cbn [run_attrs]. change (sel_of EFlatten) with is_flatten.
      destruct (run_a dbg (a_each is_flatten _ vs fs') b') as [[[e|] b'']|x]; auto.
    - cbn. unfold ser_code. rewrite DD. cbn. rewrite ENV. unfold meant. rewrite DD. cbn.
      intros dbg b. clear. unfold gen_namespaces. generalize (ea_nss (ee_attr e)) as l. intro l. revert b. induction l as [|[p u] l IH]; intro b; cbn; auto. destruct (builder_namespace dbg p u b); auto.
    - cbn. unfold ser_code. rewrite DD. cbn. rewrite ENV. unfold meant. rewrite DD. cbn.
      intros dbg b. clear. unfold gen_namespaces. generalize (ea_nss (ee_attr e)) as l. intro l. revert b. induction l as [|[p u] l IH]; intro b; cbn; auto. destruct (builder_namespace dbg p u b); auto.
    - cbn. unfold ser_code. rewrite DD. cbn. rewrite ENV. unfold meant. rewrite DD. cbn.
      intros dbg b. clear. unfold gen_namespaces. generalize (ea_nss (ee_attr e)) as l. intro l. revert b. induction l as [|[p u] l IH]; intro b; cbn; auto. destruct (builder_namespace dbg p u b); auto.
  Qed.

  (** *** [write_children] *)

  Definition run_kids {d} (vs : list value) (us : list (string * rty)) (k : option serr -> wprog d) : list gser -> wprog d :=
    fix run (l : list gser) : wprog d :=
      match l with
      | [] => k None
      | GElem f n :: l' =>
          w_pick f (fun t v k =>
            write_field (fun v k => write_one n (g_attrs o decls v (snd t)) (fun k' => g_kids o decls v (snd t) k') k)
              (fst t) v k) vs us (on_ok k (run l'))
      | GFlatKids f :: l' =>
          w_pick f (fun t v k => g_kids o decls v (snd t) k) vs us (on_ok k (run l'))
      | GNamespace _ _ :: _ | GAttr _ _ :: _ | GFlatAttrs _ :: _ => WPanic ill_typed
      end.

  Definition run_arms {d} (x : string) (t : option rty) (p : option value) (k : option serr -> wprog d) : list gsarm -> wprog d :=
    fix run (l : list gsarm) : wprog d :=
      match l with
      | [] => WPanic ill_typed
      | GUnit y n :: l' =>
          if same_ident x y then
            match t, p with
            | None, None => WElem n (BStart (WFinish k) (fun e => k (Some e)))
            | _, _ => WPanic ill_typed
            end
          else run l'
      | GPayload y n :: l' =>
          if same_ident x y then
            match t, p with
            | Some (kd, t), Some v =>
                write_field (fun v k => write_one n (g_attrs o decls v t) (fun k' => g_kids o decls v t k') k) kd v k
            | _, _ => WPanic ill_typed
            end
          else run l'
      | GIgnore :: _ => k None
      end.

  Definition kids_same (v : value) : Prop := forall t, shaped decls t v -> forall d,
    peq (fun k : option serr -> wprog d => g_kids o decls v t k) (fun k => ser_kids o env v t k).

  (** Statements for the fields of one mode, against [w_each]. *)
  Lemma each_kids {d} s vs (m : emode) (g : efield -> gser) (w : field -> value -> (option serr -> wprog d) -> wprog d) rest
    (k k' : option serr -> wprog d) :
    m <> EText_ -> keq (on_ok k (run_kids vs (user_fields s) k rest)) k' ->
    (forall p f f' v l, nth_error (es_fields s) p = Some f -> field_of f = Some f' -> nth_error vs p = Some v ->
       same_mode (ef_mode f) m = true ->
       exists a, run_kids vs (user_fields s) k (g f :: l) = a (on_ok k (run_kids vs (user_fields s) k l)) /\ peq a (w f' v)) ->
    forall fs2 fs2', fields_of fs2 fs2' -> forall fs1 vs1 vs2, es_fields s = fs1 ++ fs2 -> vs = vs1 ++ vs2 ->
      List.length fs1 = List.length vs1 -> List.length fs2 = List.length vs2 ->
      weq (run_kids vs (user_fields s) k (each_of m g fs2 ++ rest)) (w_each (sel_of m) w vs2 fs2' k').
  Proof.
    intros Hm HK HG fs2 fs2' F. induction F as [|f f' fs2 fs2' Hf F IH]; intros fs1 vs1 [|v vs2] E1 E2 L1 L2; cbn in L2; try discriminate.
    - exact (HK None).
    - assert (Hp : nth_error (es_fields s) (List.length fs1) = Some f) by (rewrite E1; apply nth_app_len).
      assert (Hv : nth_error vs (List.length fs1) = Some v) by (rewrite E2, L1; apply nth_app_len).
      assert (IH' : weq (run_kids vs (user_fields s) k (each_of m g fs2 ++ rest)) (w_each (sel_of m) w vs2 fs2' k')).
      { apply (IH (fs1 ++ [f]) (vs1 ++ [v])); rewrite <- ?app_assoc; auto. rewrite !app_length. cbn. lia. }
      change (each_of m g (f :: fs2)) with ((if same_mode (ef_mode f) m then [g f] else []) ++ each_of m g fs2).
      cbn [w_each]. rewrite (field_of_sel _ _ _ Hf Hm). destruct (same_mode (ef_mode f) m) eqn:EM; [|exact IH'].
      cbn [app]. destruct (HG _ f f' v (each_of m g fs2 ++ rest) Hp Hf Hv EM) as (a & EQ & HA). rewrite EQ.
      apply HA. intros [e|]; cbn; [exact (HK (Some e))|exact IH'].
  Qed.

  Lemma refl_weq {d} (p : wprog d) : weq p p.
  Proof. intros dbg w nss s. reflexivity. Qed.

  Lemma below_shaped (P : value -> Prop) t v : below P v -> shaped_field decls t v ->
    match fst t, v with
    | KOne, v => P v /\ shaped decls (snd t) v
    | KOpt, VSome v => P v /\ shaped decls (snd t) v
    | KVec, VVec l => Forall (fun v => P v /\ shaped decls (snd t) v) l
    | _, _ => True
    end.
  Proof.
    intros [H1 H2] S. destruct S; cbn; auto. rewrite Forall_forall in *. intros x Hx. split; auto.
  Qed.

  Lemma write_same {d} n t v : below kids_same v -> shaped_field decls t v ->
    peq (write_field (fun v (k : option serr -> wprog d) => write_one n (g_attrs o decls v (snd t)) (fun k' => g_kids o decls v (snd t) k') k) (fst t) v)
        (write_field (fun v k => write_one n (ser_attrs o env v (snd t)) (fun k' => ser_kids o env v (snd t) k') k) (fst t) v).
  Proof.
    intros B S. apply (write_field_eq (fun v => kids_same v /\ shaped decls (snd t) v)).
    - intros w [H1 H2]. apply write_one_eq; [now apply g_attrs_same|]. now apply H1.
    - now apply below_shaped.
  Qed.

  Lemma run_arms_spec {d} (vs : list evariant) x t p (k : option serr -> wprog d) rest i w :
    NoDup (map (fun v => unraw (ev_ident v)) vs) -> nth_error vs i = Some w -> x = ev_ident w ->
    run_arms x t p k (map (fun v => let n := expanded (dname_of (ev_name v)) in
                   if has_payload v then GPayload (ev_ident v) n else GUnit (ev_ident v) n) vs ++ rest) =
    (if has_payload w then
       match t, p with
       | Some (kd, t), Some v =>
           write_field (fun v k => write_one (expanded (dname_of (ev_name w))) (g_attrs o decls v t) (fun k' => g_kids o decls v t k') k) kd v k
       | _, _ => WPanic ill_typed
       end
     else match t, p with
          | None, None => WElem (expanded (dname_of (ev_name w))) (BStart (WFinish k) (fun e => k (Some e)))
          | _, _ => WPanic ill_typed
          end).
  Proof.
    intros N H ->. revert i H. induction vs as [|v vs IH]; intros [|i] H; cbn in H; try discriminate; inversion N; subst.
    - injection H as ->. cbn [map app]. destruct (has_payload w); cbn; now rewrite same_refl.
    - assert (same_ident (ev_ident w) (ev_ident v) = false) as E.
      { destruct (same_ident (ev_ident w) (ev_ident v)) eqn:E; auto. apply same_iff in E. exfalso. apply H2.
        rewrite <- E. apply (in_map (fun v => unraw (ev_ident v))). eapply nth_error_In; eauto. }
      cbn [map app]. destruct (has_payload v); cbn [run_arms]; rewrite E; eauto.
  Qed.

  Theorem g_kids_same v : kids_same v.
  Proof.
    induction v using value_ind''; intros t Ht d k k' HK; inversion Ht; subst.
    all: try (match goal with H : decls _ = Some _ |- _ => assert (DD := H); apply OK in H end).
    - cbn. destruct (to_text o t0 x); [now apply weq_text|]. destruct (text_error o t0 x); [apply HK|apply refl_weq].
    - (* struct *) cbn in *. match goal with H : NoDup _ /\ _ |- _ => destruct H as [N T] end.
      destruct (all_somes (map field_of (es_fields s))) as [fs'|] eqn:EF; [|now destruct T]. apply fields_of_iff in EF.
      destruct (env_struct decls env ENV id s fs' DD EF) as (root & nss & EE).
      unfold ser_code. rewrite DD, EE. unfold ser_struct.
      change (weq (run_kids vs (user_fields s) k (gen_elements (es_fields s)))
        (w_each is_element
              (fun f v k =>
                 match f_mode f with
                 | MElement kd t =>
                     write_field (fun v k => write_one (expanded (f_name f)) (ser_attrs o env v t)
                                               (fun k' => ser_kids o env v t k') k) kd v k
                 | _ => WPanic ill_typed
                 end) vs fs'
              (on_ok k'
                 (w_each is_flatten
                    (fun f v k =>
                       match f_mode f with
                       | MFlatten id => ser_kids o env v (ERef id) k
                       | _ => WPanic ill_typed
                       end) vs fs' k')))).
      match goal with H : Forall2 _ (es_fields s) vs |- _ => rename H into HS end.
      assert (LE : List.length (es_fields s) = List.length vs) by (clear -HS; induction HS; cbn; auto).
      unfold gen_elements. change is_element with (sel_of EElement).
      refine (each_kids s vs EElement _ _ _ k _ _ _ _ (es_fields s) fs' EF [] [] vs eq_refl eq_refl eq_refl LE).
      + discriminate.
      + apply on_ok_eq; auto. rewrite <- (app_nil_r (each_of EFlatten _ _)). change is_flatten with (sel_of EFlatten).
        refine (each_kids s vs EFlatten _ _ _ k _ _ _ _ (es_fields s) fs' EF [] [] vs eq_refl eq_refl eq_refl LE).
        * discriminate.
        * intros [e|]; apply HK.
        * intros p f f' v l Hf Hff Hv HM. apply same_mode_eq in HM.
          assert (FF := field_flat f f' Hff). unfold is_flat in FF. rewrite HM in FF. destruct (FF eq_refl) as (id' & E1 & E2).
          exists (fun k => g_kids o decls v (ERef id') k). split.
          -- cbn [run_kids]. rewrite (w_pick_spec _ _ vs (user_fields s) p (fty f) v (fident f)); auto using user_nodup, user_nth. now rewrite E1.
          -- rewrite E2. assert (SH := Forall2_nth2 _ _ _ _ _ _ HS Hf Hv). cbn in SH. rewrite E1 in SH. inversion SH; subst.
             apply (proj1 (proj1 (Forall_forall _ _) H v (nth_error_In _ _ Hv))). assumption.
      + intros p f f' v l Hf Hff Hv HM. apply same_mode_eq in HM. destruct (field_elem f f' Hff HM) as (kd & t & E1 & E2).
        exists (fun k => write_field (fun v k => write_one (ename f) (g_attrs o decls v t) (fun k' => g_kids o decls v t k') k) kd v k). split.
        * cbn [run_kids]. rewrite (w_pick_spec _ _ vs (user_fields s) p (fty f) v (fident f)); auto using user_nodup, user_nth. now rewrite E2.
        * rewrite E1, (field_of_fname _ _ Hff). assert (SH := Forall2_nth2 _ _ _ _ _ _ HS Hf Hv). cbn in SH. rewrite E2 in SH.
          apply (write_same (ename f) (kd, t) v); auto. apply (proj1 (Forall_forall _ _) H v (nth_error_In _ _ Hv)).
    - (* unit variant *)
      match goal with H : nth_error _ i = Some w |- _ => rename H into HW end.
      match goal with H : ev_ty w = _ |- _ => rename H into HT end.
      cbn [g_kids ser_kids]. unfold ser_code. rewrite DD. unfold ser_enum. rewrite ENV. unfold meant. rewrite DD. cbn [tdesc_of].
      rewrite sorted_variants_of, nth_error_map. unfold user_variants. rewrite nth_error_map, HW. cbn [option_map v_ty variant_of v_name]. rewrite HT.
      change (weq (run_arms (ev_ident w) None None k (map (fun v => let n := expanded (dname_of (ev_name v)) in
                   if has_payload v then GPayload (ev_ident v) n else GUnit (ev_ident v) n) (sorted_evariants (ee_variants e)) ++
                   (if ee_skipped e then [GIgnore] else [])))
        (WElem (expanded (dname_of (ev_name w))) (BStart (WFinish k') (fun e => k' (Some e))))).
      rewrite (run_arms_spec _ _ _ _ _ _ i w); auto using sorted_evariants_nodup. unfold has_payload. rewrite HT.
      apply weq_elem, beq_start; [now apply weq_finish|]. intro. apply HK.
    - (* payload *)
      match goal with H : nth_error _ i = Some w |- _ => rename H into HW end.
      match goal with H : ev_ty w = _ |- _ => rename H into HT end.
      cbn [g_kids ser_kids]. unfold ser_code. rewrite DD. unfold ser_enum. rewrite ENV. unfold meant. rewrite DD. cbn [tdesc_of].
      rewrite sorted_variants_of, nth_error_map. unfold user_variants. rewrite nth_error_map, HW. cbn [option_map v_ty variant_of v_name]. rewrite HT. destruct t0 as [kd t0].
      change (weq (run_arms (ev_ident w) (Some (kd, t0)) (Some v) k (map (fun v => let n := expanded (dname_of (ev_name v)) in
                   if has_payload v then GPayload (ev_ident v) n else GUnit (ev_ident v) n) (sorted_evariants (ee_variants e)) ++
                   (if ee_skipped e then [GIgnore] else [])))
        (write_field (fun v k => write_one (expanded (dname_of (ev_name w))) (ser_attrs o env v t0)
                                              (fun k' => ser_kids o env v t0 k') k) kd v k')).
      rewrite (run_arms_spec _ _ _ _ _ _ i w); auto using sorted_evariants_nodup. unfold has_payload. rewrite HT.
      apply (write_same (expanded (dname_of (ev_name w))) (kd, t0) v); auto.
    - (* skipped *)
      match goal with H : ee_skipped _ = true |- _ => rename H into HSK end.
      cbn [g_kids ser_kids]. unfold ser_code. rewrite DD. unfold ser_enum. rewrite ENV. unfold meant. rewrite DD. cbn [tdesc_of]. rewrite HSK.
      generalize (sorted_evariants (ee_variants e)) as l. intro l. induction l as [|v l IH]; cbn; [apply HK|]. destruct (has_payload v); exact IH.
  Qed.

  Theorem g_serialize_with_name_same dbg w t v name : shaped decls t v ->
    g_serialize_with_name o decls dbg w t v name = serialize_with_name o env dbg w t v name.
  Proof.
    intro H. unfold g_serialize_with_name, serialize_with_name, to, ser_value. cbn [s_attrs s_kids].
    rewrite (g_attrs_same v t H). destruct (run_a dbg (ser_attrs o env v t) _) as [[[e|] b]|x]; auto.
    destruct (builder_start w b sink0) as [[[m|e] k]|x]; auto.
    rewrite (g_kids_same v t H 0 WRet WRet); [reflexivity|]. intro. apply refl_weq.
  Qed.

  Lemma g_root_same id : g_root decls id = root_name env id.
  Proof.
    unfold g_root, root_name, ser_code. rewrite ENV. unfold meant. destruct (decls id) as [[s|e]|] eqn:DD; cbn; auto.
    assert (S := OK id _ DD). cbn in S. destruct (all_somes (map field_of (es_fields s))); cbn; auto. now destruct S.
  Qed.

  Theorem g_serialize_same dbg w id v : shaped decls (ERef id) v ->
    g_serialize o decls dbg w id v = serialize_root o env dbg w id v.
  Proof.
    intro H. unfold g_serialize, serialize_root. rewrite g_root_same. destruct (root_name env id); auto.
    now apply g_serialize_with_name_same.
  Qed.
End Refine.

(** ** ParseText and ToText *)

(** The values of Text.v give variants by number; in the source they have names. *)
Inductive stands_for (idents : list string) : tty -> tval -> gtval -> Prop :=
| sf_known : forall n w rs i t v, nth_error rs i = Some (RKnown t) -> nth_error idents i = Some v ->
    stands_for idents (TRestr n w rs) (TVKnown i) (GTUnit v)
| sf_unknown : forall n w rs i v s, nth_error rs i = Some RUnknown -> nth_error idents i = Some v ->
    stands_for idents (TRestr n w rs) (TVUnknown s) (GTText v s)
| sf_union : forall n w ts i v t x, nth_error ts i = Some t -> nth_error idents i = Some v ->
    stands_for idents (TUnion n w ts) (TVUnion i x) (GTHolds v x)
| sf_std : forall id w n, stands_for idents (TStd id w) (TVStd n) (GTStd n).

Definition variant_idents (i : tinput) : list string :=
  match ti_data i with TDataEnum vs => map sv_ident vs | TDataOther => [] end.

Section TextRefine.
  Context (o : oracles).

  Lemma run_norm_same w s : run_norm (gen_norm w) s = gen_normalize w s.
  Proof. destruct w; auto. unfold gen_normalize. now rewrite normalize_preserve. Qed.

  Lemma run_known_spec text : forall idents rs, List.length idents = List.length rs ->
    match run_known text (known_arms (combine idents rs)), find_index (known_is text) rs with
    | Some v, Some i => nth_error idents i = Some v /\ exists t, nth_error rs i = Some (RKnown t)
    | None, None => True
    | _, _ => False
    end.
  Proof.
    induction idents as [|v idents IH]; intros [|r rs] L; cbn in L; try discriminate; cbn; auto.
    injection L as L. specialize (IH rs L). destruct r as [t|]; cbn.
    - destruct (String.eqb t text) eqn:E; [cbn; eauto|]. unfold known_arms in IH.
      destruct (run_known text _), (find_index _ rs); cbn; auto.
    - unfold known_arms in IH. destruct (run_known text _), (find_index _ rs); cbn; auto.
  Qed.

  Lemma unknown_spec : forall idents rs, List.length idents = List.length rs ->
    match unknown_variant (combine idents rs) with
    | Some v => existsb is_unknown rs = true /\ exists i, nth_error rs i = Some RUnknown /\ nth_error idents i = Some v
    | None => existsb is_unknown rs = false
    end.
  Proof.
    induction idents as [|v idents IH]; intros [|r rs] L; cbn in L; try discriminate; cbn; auto.
    injection L as L. specialize (IH rs L). destruct r as [t|]; cbn.
    - destruct (unknown_variant _); auto. destruct IH as (E & i & H1 & H2). split; auto. now exists (S i).
    - split; auto. now exists 0.
  Qed.

  Lemma attempts_spec n w ident text ts : forall ts2 ids2 ts1 ids1 errs, ts = ts1 ++ ts2 -> List.length ts1 = List.length ids1 ->
    List.length ts2 = List.length ids2 ->
    match run_attempts o ident text errs (combine ts2 ids2),
      (fix attempts (i : nat) (errs : list string) (vs : list tty) : res string tval :=
           match vs with
           | [] => Err (union_error ident errs)
           | t :: vs' =>
               match parse_text o t text with
               | Ok r => Ok (TVUnion i r)
               | Err e => attempts (S i) (errs ++ [e]) vs'
               | Abort x => Abort x
               end
           end) (List.length ts1) errs ts2 with
    | Ok g, Ok x => stands_for (ids1 ++ ids2) (TUnion n w ts) x g
    | Err e, Err e' => e = e'
    | Abort x, Abort y => x = y
    | _, _ => False
    end.
  Proof.
    induction ts2 as [|t ts2 IH]; intros [|v ids2] ts1 ids1 errs E L1 L2; cbn in L2; try discriminate; cbn [combine run_attempts]; auto.
    destruct (parse_text o t text) as [r|e|x] eqn:EP; auto.
    - econstructor; [rewrite E; apply nth_app_len|rewrite L1; apply nth_app_len].
    - assert (H := IH ids2 (ts1 ++ [t]) (ids1 ++ [v]) (errs ++ [e])). rewrite <- !app_assoc in H. cbn [app] in H.
      rewrite !app_length in H. cbn in H. rewrite Nat.add_1_r in H. apply H; auto; lia.
  Qed.

  Theorem run_parse_same i t code text : derive_text i = inl ([], Some t) ->
    parse_code (ti_ident i) (variant_idents i) t = Some code ->
    match run_parse o (ti_std i) code text, parse_text o t text with
    | Ok g, Ok x => stands_for (variant_idents i) t x g
    | Err e, Err e' => e = e'
    | Abort x, Abort y => x = y
    | _, _ => False
    end.
  Proof.
    intros H C. apply derive_text_ok in H as (t' & [= <-] & _ & _ & M). destruct M as [w _ _|w vs rs _ _ ED F _|w vs ts _ _ ED F].
    - injection C as <-. cbn [run_parse parse_text]. rewrite run_norm_same. destruct (gen_normalize w text); cbn; auto.
      destruct (o_std_parse o (ti_std i) a); cbn; auto. constructor.
    - injection C as <-. cbn [run_parse parse_text]. rewrite run_norm_same. destruct (gen_normalize w text) as [s| |]; cbn [bind]; auto.
      unfold variant_idents. rewrite ED. assert (L : List.length (map sv_ident vs) = List.length rs).
      { rewrite map_length. clear -F. induction F; cbn; auto. }
      assert (K := run_known_spec s _ rs L). assert (U := unknown_spec _ rs L). unfold parse_restr.
      destruct (run_known s _) as [v|], (find_index (known_is s) rs) as [j|]; try contradiction.
      + destruct K as (K1 & u & K2). econstructor; eauto.
      + destruct (unknown_variant _) as [v|].
        * destruct U as (-> & j & U1 & U2). econstructor; eauto.
        * now rewrite U.
    - injection C as <-. cbn [run_parse parse_text]. rewrite run_norm_same. destruct (gen_normalize w text) as [s| |]; cbn [bind]; auto.
      unfold variant_idents. rewrite ED. apply (attempts_spec (ti_ident i) w (ti_ident i) s ts ts (map sv_ident vs) [] [] []); auto.
      rewrite map_length. clear -F. induction F; cbn; auto.
  Qed.

  (** What [to_text] returns. *)
  Definition shown (t : tty) (x : tval) : option (string + string) :=
    match to_text o t x, text_error o t x with
    | Some s, _ => Some (inl s)
    | None, Some m => Some (inr m)
    | None, None => None
    end.

  Lemma show_known idents : forall rs j v t, NoDup (map unraw idents) -> List.length idents = List.length rs ->
    nth_error rs j = Some (RKnown t) -> nth_error idents j = Some v ->
    run_show_restr (GTUnit v) (map (fun '(v, r) => (v, match r with RKnown t => Some t | RUnknown => None end)) (combine idents rs)) = Some t.
  Proof.
    induction idents as [|x idents IH]; intros [|r rs] [|j] v t N L H1 H2; cbn in *; try discriminate; inversion N; subst.
    - injection H1 as ->. injection H2 as ->. now rewrite same_refl.
    - assert (same_ident x v = false) as E.
      { destruct (same_ident x v) eqn:E; auto. apply same_iff in E. exfalso. apply H3. rewrite E. apply in_map. eapply nth_error_In; eauto. }
      destruct r; rewrite ?E; eauto.
  Qed.

  Lemma show_unknown idents : forall rs j v s, NoDup (map unraw idents) -> List.length idents = List.length rs ->
    nth_error rs j = Some RUnknown -> nth_error idents j = Some v ->
    run_show_restr (GTText v s) (map (fun '(v, r) => (v, match r with RKnown t => Some t | RUnknown => None end)) (combine idents rs)) = Some s.
  Proof.
    induction idents as [|x idents IH]; intros [|r rs] [|j] v s N L H1 H2; cbn in *; try discriminate; inversion N; subst.
    - injection H1 as ->. injection H2 as ->. now rewrite same_refl.
    - assert (same_ident x v = false) as E.
      { destruct (same_ident x v) eqn:E; auto. apply same_iff in E. exfalso. apply H3. rewrite E. apply in_map. eapply nth_error_In; eauto. }
      destruct r; rewrite ?E; eauto.
  Qed.

  Lemma union_nth {A} (f : tty -> option A) ts : forall j t, nth_error ts j = Some t ->
    (fix nth (i : nat) (vs : list tty) : option A :=
       match i, vs with
       | O, t :: _ => f t
       | S i', _ :: vs' => nth i' vs'
       | _, [] => None
       end) j ts = f t.
  Proof. induction ts as [|u ts IH]; intros [|j] t H; cbn in *; try discriminate; auto. congruence. Qed.

  Lemma nth_combine {A B} (a : list A) : forall (b : list B) j x y, nth_error a j = Some x -> nth_error b j = Some y ->
    nth_error (combine a b) j = Some (x, y).
  Proof. induction a as [|u a IH]; intros [|w b] [|j] x y H1 H2; cbn in *; try discriminate; auto. congruence. Qed.

  Lemma keys_combine {B} (a : list string) : forall b : list B, List.length a = List.length b -> keys (combine a b) = map unraw a.
  Proof.
    unfold keys. induction a as [|u a IH]; intros [|w b] L; cbn in *; try discriminate; auto. f_equal. apply IH. lia.
  Qed.

  Definition union_types (i : tinput) (t : tty) : list (string * tty) :=
    match t with TUnion _ _ ts => combine (variant_idents i) ts | _ => [] end.

  Theorem run_totext_same i t code x g : derive_text i = inl ([], Some t) -> NoDup (map unraw (variant_idents i)) ->
    totext_code (variant_idents i) t = Some code -> stands_for (variant_idents i) t x g ->
    run_totext o (ti_std i) (union_types i t) code g = shown t x.
  Proof.
    intros H N C S. apply derive_text_ok in H as (t' & [= <-] & _ & _ & M). destruct M as [w _ _|w vs rs _ _ ED F _|w vs ts _ _ ED F].
    - injection C as <-. inversion S; subst. reflexivity.
    - injection C as <-. assert (L : List.length (variant_idents i) = List.length rs).
      { unfold variant_idents. rewrite ED, map_length. clear -F. induction F; cbn; auto. }
      inversion S as [? ? ? j t v H1 H2|? ? ? j v s H1 H2| |]; subst; cbn [run_totext]; unfold shown; cbn [to_text].
      + rewrite (show_known _ rs j v t); auto. now rewrite H1.
      + rewrite (show_unknown _ rs j v s); auto. assert (existsb is_unknown rs = true) as ->; [|reflexivity].
        apply existsb_exists. exists RUnknown. split; auto. eapply nth_error_In; eauto.
    - injection C as <-. assert (L : List.length (variant_idents i) = List.length ts).
      { unfold variant_idents. rewrite ED, map_length. clear -F. induction F; cbn; auto. }
      inversion S as [| |? ? ? j v t y H1 H2|]; subst. cbn [run_totext union_types].
      assert (named v (variant_idents i) = true) as ->. { apply named_iff, in_map. eapply nth_error_In; eauto. }
      rewrite (get_nth _ j v t); auto.
      + unfold shown. cbn [to_text text_error]. now rewrite !(union_nth _ ts j t H1).
      + now rewrite keys_combine.
      + now apply nth_combine.
  Qed.
End TextRefine.
