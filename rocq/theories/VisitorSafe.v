(** Derived visitors keep their promise: proofs about memory safety and about calls that fail. *)
From Verif Require Import Base Normalize Text Find FindProofs Types Reader ReaderRel DeriveDe DeSpec DeMain DeTotal
  DeriveMixed MixedSpec MixedProofs Catch CatchRel Visitor VisitorSpec.

(** ** One element *)

Section NoRead.
  Context {St : Type} (alg : bs_alg) (r : res verr value).
  Notation D := (fun (_ : ety) (_ : einfo) => ANoRead (St := St) (r, [])).

  Definition noread {A} (a : action St A) : Prop := exists x, a = ANoRead x.

  Lemma noread_amap {A B} (f : A -> B) a : noread a -> noread (amap f a).
  Proof. intros [x ->]. exists (f x). reflexivity. Qed.
  Lemma noread_ret {A} (a : A) : noread (ANoRead a).
  Proof. now exists a. Qed.
  Hint Resolve noread_amap noread_ret : core.

  Lemma noread_init k t i : noread (gfield_init D k t i).
  Proof. unfold gfield_init. auto. Qed.
  Lemma noread_update k t old i : noread (gfield_update D k t old i).
  Proof. unfold gfield_update. destruct k; auto. Qed.
  Hint Resolve noread_init noread_update : core.

  Lemma noread_enum e i a : genum_element alg D e i = Some a -> noread a.
  Proof.
    unfold genum_element. destruct (e_init e).
    - intros [= <-]. repeat match goal with |- context[match ?x with _ => _ end] => destruct x end; auto.
    - destruct (find _ _ _); [|discriminate]. intros [= <-].
      destruct (nth_error _ _) as [v|]; auto. destruct (v_ty v) as [[]|]; auto.
  Qed.

  Lemma noread_delegate ss i : forall a, gdelegate_element alg D ss i = Some a -> noread a.
  Proof.
    induction ss as [|s ss IH]; cbn [gdelegate_element]; [discriminate|]. intro a.
    assert (H : option_map (amap (fun '(r, ss'', l) => (r, s :: ss'', l))) (gdelegate_element alg D ss i) = Some a ->
      noread a).
    { destruct (gdelegate_element alg D ss i); [|discriminate]. cbn. intros [= <-]. auto. }
    destruct s as [|e]; auto. destruct (genum_element alg D e i) as [b|] eqn:E; auto.
    intros [= <-]. apply noread_enum in E. auto.
  Qed.

  Lemma noread_element s i : noread (gelement alg D s i).
  Proof.
    unfold gelement. destruct (vs_kind s) as [fs ss|e].
    - unfold gstruct_element. destruct (find_field _ _ _ _) as [p|].
      + destruct (nth_error fs p) as [[nm [] d]|]; auto. destruct (nth_error ss p) as [[]|]; auto.
        apply noread_amap. unfold gelement_field. destruct present; auto. destruct mem; auto.
      + destruct (gdelegate_element _ _ _ _) eqn:E; auto. apply noread_delegate in E. auto.
    - destruct (genum_element _ _ _ _) eqn:E; auto. apply noread_enum in E. auto.
  Qed.
End NoRead.

Lemma element_reply_eq alg s i r : gelement (St := unit) alg (fun _ _ => ANoRead (r, [])) s i = ANoRead (element_reply alg s i r).
Proof. unfold element_reply. destruct (noread_element (St := unit) alg r s i) as [x ->]. reflexivity. Qed.

Section Reply.
  Context (alg : bs_alg) (kn : ety -> Prop).

  Lemma reply_inv s i r : inv kn s ->
    within (fun x => r = Abort x) (fst (element_reply alg s i r)) /\ inv kn (snd (element_reply alg s i r)).
  Proof.
    intro Hs.
    pose proof (element_rel (S1 := unit) (S2 := unit) (K := unit) (fun _ _ _ => True) (fun x => r = Abort x) alg kn
      (fun _ _ => ANoRead (r, [])) (fun _ _ => ANoRead (r, []))) as H.
    specialize (H ltac:(intros t i0 _; cbn; split; [reflexivity|]; cbn; intros x ->; reflexivity) s i Hs).
    rewrite !element_reply_eq in H. destruct H as [_ H]. exact H.
  Qed.

  Lemma asks_known s i t : inv kn s -> asks alg s i = Some t -> kn t.
  Proof.
    intros Hs. unfold asks.
    pose proof (element_rel (S1 := ety) (S2 := ety) (K := unit) (fun _ t _ => kn t) (fun _ => True) alg kn
      (fun t _ => AReadTo t (fun _ _ => (Err (Wrap ""), []))) (fun t _ => AReadTo t (fun _ _ => (Err (Wrap ""), [])))) as H.
    specialize (H ltac:(intros t0 i0 Hk; exists tt; split; [exact Hk|]; cbn; intros; split; [reflexivity|easy]) s i Hs).
    destruct (gelement _ _ s i); try discriminate. intros [= <-]. destruct H as (? & ? & _). assumption.
  Qed.
End Reply.

(** A call that fails leaves no trace. *)
Definition ok {E A} (r : res E A) : Prop := exists a, r = Ok a.

Section Trace.
  Context (o : oracles) (alg : bs_alg) (env : tenv).

  Lemma enum_trace r e i x e' l : genum_element (St := unit) alg (fun _ _ => ANoRead (r, [])) e i = Some (ANoRead (x, e', l)) ->
    l = [] /\ (ok x \/ e' = e).
  Proof.
    unfold genum_element. destruct (e_init e).
    - intros [= H]. revert H.
      destruct (e_mem e) as [[| |j f| | | |]|]; try (intros [= <- <- <-]; now auto).
      destruct (nth_error _ _) as [v|]; [|intros [= <- <- <-]; now auto].
      destruct (find _ _ _); [|intros [= <- <- <-]; now auto].
      destruct (Nat.eqb _ _); [|intros [= <- <- <-]; now auto].
      destruct (v_ty v) as [[k t]|]; [|intros [= <- <- <-]; now auto].
      destruct f as [f|]; [|intros [= <- <- <-]; now auto].
      destruct k; cbn; try (intros [= <- <- <-]; now auto).
      destruct (bind r (push_value f)); intros [= <- <- <-]; cbv [ok]; eauto.
    - destruct (find _ _ _); [|discriminate]. intros [= H]. revert H.
      destruct (nth_error _ _) as [v|]; [|intros [= <- <- <-]; now auto].
      destruct (v_ty v) as [[k t]|]; cbn.
      + destruct r; cbn; [destruct (e_mem e)|..]; intros [= <- <- <-]; cbv [ok]; eauto.
      + destruct (e_mem e); intros [= <- <- <-]; cbv [ok]; eauto.
  Qed.

  Lemma delegate_trace r i : forall ss x ss' l,
    gdelegate_element (St := unit) alg (fun _ _ => ANoRead (r, [])) ss i = Some (ANoRead (x, ss', l)) ->
    l = [] /\ (ok x \/ ss' = ss).
  Proof.
    induction ss as [|s ss IH]; cbn [gdelegate_element]; [discriminate|]. intros x ss' l.
    assert (H : option_map (amap (fun '(r, ss'', l) => (r, s :: ss'', l)))
      (gdelegate_element (St := unit) alg (fun _ _ => ANoRead (r, [])) ss i) = Some (ANoRead (x, ss', l)) ->
      l = [] /\ (ok x \/ ss' = s :: ss)).
    { destruct (gdelegate_element _ _ ss i) as [a|] eqn:E; [|discriminate].
      destruct (noread_delegate _ _ _ _ _ E) as [[[x0 s0] l0] ->]. cbn. intros [= <- <- <-].
      destruct (IH _ _ _ eq_refl) as [-> [H| ->]]; auto. }
    destruct s as [|e]; auto. destruct (genum_element _ _ e i) as [b|] eqn:E; auto.
    destruct (noread_enum _ _ _ _ _ E) as [[[x0 s0] l0] ->]. cbn. intros [= <- <- <-].
    destruct (enum_trace _ _ _ _ _ _ E) as [-> [H1| ->]]; auto.
  Qed.

  Lemma put_self s fs ss : vs_kind s = VkStruct fs ss -> put s ss [] = s.
  Proof. intro E. unfold put. rewrite E. destruct s. cbn in *. now subst. Qed.

  Lemma element_trace s i r : ok (fst (element_reply alg s i r)) \/ snd (element_reply alg s i r) = s.
  Proof.
    pose proof (element_reply_eq alg s i r) as E. destruct (element_reply alg s i r) as [x s']. cbn.
    unfold gelement in E. destruct (vs_kind s) as [fs ss|e] eqn:Ek.
    - unfold gstruct_element in E. destruct (find_field _ _ _ _) as [p|].
      + destruct (nth_error fs p) as [[nm [] d]|]; try (injection E as <- <-; now auto).
        destruct (nth_error ss p) as [[pr mem|]|] eqn:Ep; try (injection E as <- <-; now auto).
        unfold gelement_field in E. destruct pr.
        * destruct mem as [old|].
          -- destruct k; cbn in E; try (injection E as <- <-; right; rewrite set_nth_self by exact Ep; now apply (put_self s fs)).
             destruct (bind r (push_value old)); cbn in E; injection E as <- <-; cbn; [left; cbv [ok]; eauto|right..];
               rewrite set_nth_self by exact Ep; now apply (put_self s fs).
          -- injection E as <- <-. right. rewrite set_nth_self by exact Ep. now apply (put_self s fs).
        * cbn in E. destruct r; cbn in E; [destruct mem|..]; cbn in E; injection E as <- <-; [right|left; cbv [ok]; eauto|right..];
            rewrite set_nth_self by exact Ep; now apply (put_self s fs).
      + destruct (gdelegate_element _ _ _ _) as [a|] eqn:Ed; [|injection E as <- <-; now auto].
        destruct (noread_delegate _ _ _ _ _ Ed) as [[[x0 s0] l0] ->].
        destruct (delegate_trace _ _ _ _ _ _ Ed) as [-> [[y ->]| ->]]; cbn in E; injection E as <- <-.
        * left. cbv [ok]. cbn. eauto.
        * right. now apply (put_self s fs).
    - destruct (genum_element _ _ _ _) as [a|] eqn:Ed; [|injection E as <- <-; now auto].
      destruct (noread_enum _ _ _ _ _ Ed) as [[[x0 s0] l0] ->].
      destruct (enum_trace _ _ _ _ _ _ Ed) as [-> [[y ->]| ->]]; cbn in E; injection E as <- <-.
      * left. cbv [ok]. cbn. eauto.
      * right. destruct s. cbn in *. now subst.
  Qed.

  Lemma attribute_trace s n v : ok (fst (v_attribute (derived o alg env) s n v)) \/
    snd (v_attribute (derived o alg env) s n v) = s.
  Proof.
    cbn. destruct (vs_kind s) as [fs ss|e] eqn:Ek; [|left; cbv [ok]; cbn; eauto].
    unfold struct_attribute. destruct (find_field _ _ _ _) as [p|].
    - destruct (nth_error fs p) as [[nm [] d]|]; auto. destruct (nth_error ss p) as [[pr mem|]|] eqn:Ep; auto.
      unfold attribute_field. destruct pr; cbn.
      + right. rewrite set_nth_self by exact Ep. now apply (put_self s fs).
      + destruct (bind _ _); cbn; [left; cbv [ok]; eauto|right..]; rewrite set_nth_self by exact Ep; now apply (put_self s fs).
    - left. rewrite delegate_pass by reflexivity. cbv [ok]. cbn. eauto.
  Qed.

  Lemma characters_trace s str p : v_characters (derived o alg env) s str p = (Ok (Some str), s).
  Proof.
    cbn. destruct (vs_kind s) as [fs ss|e] eqn:Ek; [|destruct s; cbn in *; now subst].
    unfold struct_characters. rewrite delegate_pass by reflexivity. f_equal. now apply (put_self s fs).
  Qed.
End Trace.

(** ** The visitors of the program *)

Section Visitors.
  Context (o : oracles) (alg : bs_alg) (env : tenv) (kn : ety -> Prop).
  Hypothesis Ha : accepted env.
  Hypothesis Hs : forall id ident root nss fs f k t, env id = Some (TDStruct ident root nss fs) -> In f fs ->
    f_mode f = MElement k t -> kn t.
  Hypothesis He : forall id ident root nss vs sk v k t, env id = Some (TDEnum ident root nss vs sk) -> In v vs ->
    v_ty v = Some (k, t) -> kn t.

  Lemma new_enum_inv id ident root nss vs sk : env id = Some (TDEnum ident root nss vs sk) ->
    enum_inv kn (new_enum ident vs).
  Proof.
    intro E. apply new_enum_in. apply Forall_forall. intros v Hv. unfold vok. destruct (v_ty v) as [[k t]|] eqn:Et; auto.
    eapply He; eauto.
  Qed.

  Lemma new_slots_inv id ident root nss all fs : env id = Some (TDStruct ident root nss all) -> incl fs all ->
    exists ss, new_slots env fs = Some ss /\ Forall2 (slot_inv kn) fs ss.
  Proof.
    intro E. induction fs as [|f fs IH]; intro Hi; cbn; [eauto|].
    destruct IH as (ss & -> & H); [intros x Hx; apply Hi; now right|].
    assert (Hf : In f all) by (apply Hi; now left).
    pose proof (Ha _ _ _ _ _ _ E Hf) as Hm. destruct (f_mode f) as [k t|opt t|j|t] eqn:Em; [..|contradiction].
    - eexists; split; eauto. constructor; auto. unfold slot_inv. rewrite Em. split; [eapply Hs; eauto|now left].
    - eexists; split; eauto. constructor; auto. unfold slot_inv. rewrite Em. now left.
    - destruct Hm as (id' & r' & n' & vs & sk & Ej). rewrite Ej. eexists; split; eauto. constructor; auto.
      unfold slot_inv. rewrite Em. eapply new_enum_inv; eauto.
  Qed.

  Lemma new_visitor_inv id : env id <> None -> exists s, new_visitor env id = Some s /\ inv kn s.
  Proof.
    intro H. unfold new_visitor. destruct (env id) as [[ident root nss fs|ident root nss vs sk]|] eqn:E; [..|contradiction].
    - destruct (new_slots_inv _ _ _ _ _ fs E ltac:(apply incl_refl)) as (ss & -> & Hi). eexists. split; [reflexivity|]. exact Hi.
    - eexists. split; [reflexivity|]. eapply (new_enum_inv _ _ _ _ _ _ E).
  Qed.

  Lemma attribute_inv s n v : inv kn s ->
    (forall x, fst (v_attribute (derived o alg env) s n v) = Abort x -> exists t, parse_text o t v = Abort x) /\
    inv kn (snd (v_attribute (derived o alg env) s n v)).
  Proof.
    intros Hi. pose proof Hi as Hi0. unfold inv in Hi. cbn. destruct (vs_kind s) as [fs ss|e] eqn:Ek; [|now split].
    unfold struct_attribute. destruct (find_field alg is_attribute fs n) as [p|] eqn:Ef.
    - destruct (find_field_nth _ _ _ _ _ Ef) as (f & Hf & Hsel). rewrite Hf.
      destruct (Forall2_nth _ _ _ _ _ Hi Hf) as (s0 & Hs0 & H0). rewrite Hs0.
      unfold is_attribute in Hsel. destruct f as [nm md d]; cbn in Hsel. destruct md as [|opt t| |]; try discriminate.
      pose proof H0 as H1. unfold slot_inv in H1. cbn in H1. destruct s0 as [pr m|]; [|tauto].
      unfold attribute_field. destruct H1 as [[-> ->]|[-> Hm]].
      + unfold attr_init. destruct (parse_text o t v) as [x|e|x] eqn:Ep; cbn.
        * split; [discriminate|]. unfold put, inv. rewrite Ek. cbn. eapply Forall2_set; eauto.
          unfold slot_inv. cbn. right. split; auto. discriminate.
        * split; [discriminate|]. unfold put, inv. rewrite Ek. cbn. eapply Forall2_set; eauto.
        * split; [intros y [= <-]; eauto|]. unfold put, inv. rewrite Ek. cbn. eapply Forall2_set; eauto.
      + cbn. split; [discriminate|]. unfold put, inv. rewrite Ek. cbn. eapply Forall2_set; eauto.
    - rewrite delegate_pass by reflexivity. cbn. split; [discriminate|]. rewrite (put_self s fs ss Ek). exact Hi0.
  Qed.

  Lemma after_inv s c : inv kn s -> inv kn (after o alg env s c).
  Proof.
    intro H. destruct c as [n v|str p|i r]; cbn [after].
    - now apply attribute_inv.
    - now rewrite characters_trace.
    - now apply reply_inv.
  Qed.

  Lemma state_inv w : env (dv_type w) <> None -> exists s, state_of o alg env w = Some s /\ inv kn s.
  Proof.
    intro H. destruct (new_visitor_inv _ H) as (s & E & Hi). unfold state_of. rewrite E. cbn. eexists. split; [reflexivity|].
    clear E. revert s Hi. generalize (dv_calls w). intro l. induction l as [|c l IH]; intros s Hi; cbn; [exact Hi|].
    apply IH. now apply after_inv.
  Qed.
End Visitors.

(** Calls of the methods of one visitor. *)
Section Calls.
  Context (o : oracles) (alg : bs_alg) (env : tenv).
  Hypothesis Ha : accepted env.

  Lemma some_state w : env (dv_type w) <> None -> exists s, state_of o alg env w = Some s /\ inv (fun _ => True) s.
  Proof. apply state_inv; auto. Qed.

  Lemma reply_attribute_safe w n v x : env (dv_type w) <> None -> reply_attribute o alg env w n v = Abort x ->
    exists t, parse_text o t v = Abort x.
  Proof.
    intro H. destruct (some_state w H) as (s & E & Hi). unfold reply_attribute. rewrite E. now apply (attribute_inv o alg env _ s n v Hi).
  Qed.

  Lemma reply_characters_safe w str p : env (dv_type w) <> None -> reply_characters o alg env w str p = Ok (Some str).
  Proof.
    intro H. destruct (some_state w H) as (s & E & Hi). unfold reply_characters. now rewrite E, characters_trace.
  Qed.

  Lemma reply_element_safe w i r x : env (dv_type w) <> None -> reply_element o alg env w i r = Abort x -> r = Abort x.
  Proof.
    intro H. destruct (some_state w H) as (s & E & Hi). unfold reply_element. rewrite E. apply (reply_inv alg _ s i r Hi).
  Qed.

  Lemma reply_finalize_safe w default x : env (dv_type w) <> None -> reply_finalize o alg env w default = Abort x ->
    exists m, default = Some (inr m) /\ x = Panic m.
  Proof.
    intro H. destruct (some_state w H) as (s & E & Hi). unfold reply_finalize. rewrite E. unfold finalize_with.
    pose proof (finalize_in _ s Hi) as Hf. unfold inv in Hi. destruct (vs_kind s) as [fs ss|e] eqn:Ek.
    - intro F. exfalso. exact (Hf _ F).
    - destruct Hi as [_ [[-> ->]|(-> & j & v & p & -> & _)]]; [|discriminate].
      destruct default as [[v|m]|]; try discriminate. cbn. intros [= <-]. eauto.
  Qed.

  Lemma fold_state w c : state_of o alg env (called w c) = option_map (fun s => after o alg env s c) (state_of o alg env w).
  Proof.
    unfold state_of, called. cbn. destruct (new_visitor env (dv_type w)); cbn; [|reflexivity]. now rewrite fold_left_app.
  Qed.

  Lemma trace w c : fails_call o alg env w c -> state_of o alg env (called w c) = state_of o alg env w.
  Proof.
    rewrite fold_state. destruct c as [n v|str p|i r]; cbn [fails_call after];
      unfold reply_attribute, reply_characters, reply_element;
      (destruct (state_of o alg env w) as [s|]; [|reflexivity]); cbn [option_map]; intro H.
    - destruct (attribute_trace o alg env s n v) as [[x H']| ->]; [now destruct (H x)|reflexivity].
    - now rewrite characters_trace.
    - destruct (element_trace alg s i r) as [[x H']| ->]; [now destruct (H x)|reflexivity].
  Qed.

  Lemma trace_more id l1 c l2 : fails_call o alg env (DVisitor id l1) c ->
    state_of o alg env (DVisitor id (l1 ++ c :: l2)) = state_of o alg env (DVisitor id (l1 ++ l2)).
  Proof.
    intro H. apply trace in H. revert H. unfold state_of, called. cbn. destruct (new_visitor env id) as [s|]; cbn; [|reflexivity].
    rewrite !fold_left_app. cbn. intros [= ->]. reflexivity.
  Qed.

  Lemma no_trace id l1 c l2 : fails_call o alg env (DVisitor id l1) c ->
    (forall n v, reply_attribute o alg env (DVisitor id (l1 ++ c :: l2)) n v = reply_attribute o alg env (DVisitor id (l1 ++ l2)) n v) /\
    (forall s p, reply_characters o alg env (DVisitor id (l1 ++ c :: l2)) s p = reply_characters o alg env (DVisitor id (l1 ++ l2)) s p) /\
    (forall i r, reply_element o alg env (DVisitor id (l1 ++ c :: l2)) i r = reply_element o alg env (DVisitor id (l1 ++ l2)) i r) /\
    (forall d, reply_finalize o alg env (DVisitor id (l1 ++ c :: l2)) d = reply_finalize o alg env (DVisitor id (l1 ++ l2)) d).
  Proof.
    intro H. apply (trace_more id l1 c l2) in H. unfold reply_attribute, reply_characters, reply_element, reply_finalize. rewrite H. auto.
  Qed.
End Calls.

(** ** Programs *)

Section Program.
  Context {U : Type} (o : oracles) (alg : bs_alg) (env : tenv) (P : huser U) (Q : abort -> Prop).
  Hypothesis HP : h_program env P Q.
  Hypothesis HQ : forall x, reader_abort x -> Q x.
  Hypothesis Ho : forall t s x, parse_text o t s = Abort x -> Q x.

  Notation kn := (h_has env P).

  Definition krel (k : option nat) (s1 s2 : hstate U) : Prop :=
    s1 = s2 /\ match k, s1 with
               | Some id, HDerived w => dv_type w = id /\ env id <> None
               | None, HUser _ => True
               | _, _ => False
               end.

  Definition fine {A} (good : A -> Prop) (a b : A) : Prop := a = b /\ good a.

  Lemma crel_camap {A B} (G : A -> A -> Prop) (G' : B -> B -> Prop) (f : A -> B) a1 a2 :
    cact_rel krel Q G a1 a2 -> (forall x y, G x y -> G' (f x) (f y)) -> cact_rel krel Q G' (camap f a1) (camap f a2).
  Proof.
    destruct a1, a2; cbn; try contradiction; auto. intros (k' & H1 & H2) HG. exists k'. split; [exact H1|]. auto.
  Qed.

  Lemma as_res_in {X} (x : X + failure) : possible Q x -> aborts_in Q (as_res x).
  Proof. destruct x as [v|[e|m]]; cbn; intros H y; try discriminate. intros [= <-]. now apply H. Qed.

  Lemma catching_good {A X} (good : A -> Prop) ab (k : X + failure -> A) r :
    (forall x, Q x -> good (ab x)) -> (forall x, caught Q x -> good (k x)) -> aborts_in Q r -> good (catching ab k r).
  Proof.
    intros Hab Hk Hr. destruct r as [v|e|x]; cbn; [now apply Hk|now apply Hk|].
    unfold is_panic. destruct x as [m| |]; try (apply Hab, Hr; reflexivity).
    destruct (_ || _); [apply Hab, Hr; reflexivity|]. apply Hk. intros m' [= <-]. now apply Hr.
  Qed.

  Section Nested.
    Context (des : ety -> einfo -> caction (hstate U) (res verr value)).
    Hypothesis Hd : forall t i, kn t -> cact_rel krel Q (fine (aborts_in Q)) (des t i) (des t i).

    Lemma h_state w : env (dv_type w) <> None -> exists s, state_of o alg env w = Some s /\ inv kn s.
    Proof. apply state_inv; [apply HP|apply (hp_fields _ _ _ HP)..]. Qed.

    Lemma call_rel w i : env (dv_type w) <> None ->
      cact_rel krel Q (fine (fun a => aborts_in Q (fst a) /\ dv_type (snd a) = dv_type w))
        (call_element o alg env des w i) (call_element o alg env des w i).
    Proof.
      intro Hw. unfold call_element. destruct (h_state w Hw) as (s & E & Hi). rewrite E.
      destruct (asks alg s i) as [t|] eqn:Ea.
      - eapply crel_camap; [apply Hd; eapply asks_known; eauto|]. intros x y [<- Hx]. split; [reflexivity|]. cbn. split; [|reflexivity].
        intros z Hz. apply reply_element_safe in Hz; [|apply HP|exact Hw]. now apply Hx.
      - split; [reflexivity|]. split; [|reflexivity]. intros z Hz. apply reply_element_safe in Hz; [discriminate|apply HP|exact Hw].
    Qed.

    Lemma lower_rel {A} (good : A -> Prop) ab i act : (forall x, Q x -> good (ab x)) -> outcomes env P Q good act ->
      cact_rel krel Q (fine good) (hlower o alg env des ab i act) (hlower o alg env des ab i act).
    Proof.
      intros Hab H. induction H as [a H|k H|u0 k H|w0 k Hw H|w back k Hw Hb IH H|t k Ht H]; cbn [hlower].
      - now split.
      - intros x Hx. split; [reflexivity|]. apply catching_good; auto. now apply as_res_in.
      - exists None. split; [now split|]. intros x s1 s2 Hx [<- Hs]. split; [reflexivity|]. destruct s1; [contradiction|].
        apply catching_good; auto. now apply as_res_in.
      - exists (Some (dv_type w0)). split; [now split|]. intros x s1 s2 Hx [<- Hs]. split; [reflexivity|].
        destruct s1; [|contradiction]. apply catching_good; auto; [|now apply as_res_in]. intros y Hy. apply H; [apply Hs|exact Hy].
      - pose proof (call_rel w i Hw) as Hc.
        assert (Hk : cact_rel krel Q (fine good)
          (camap (fun '(r, w') => catching ab (fun x => k x w') (map_ok (fun _ => tt) r)) (call_element o alg env des w i))
          (camap (fun '(r, w') => catching ab (fun x => k x w') (map_ok (fun _ => tt) r)) (call_element o alg env des w i))).
        { eapply crel_camap; [exact Hc|]. intros [r w'] y [<- [Hr Hw']]. split; [reflexivity|]. apply catching_good; auto.
          intros z Hz. destruct r; try discriminate. injection Hz as <-. now apply Hr. }
        destruct (call_element o alg env des w i) as [[[[|]| |] w']| |]; auto. apply IH, Hc.
      - eapply crel_camap; [now apply Hd|]. intros r y [<- Hr]. split; [reflexivity|]. now apply catching_good.
    Qed.

    Lemma deserialize1_rel t i : kn t ->
      cact_rel krel Q (fine (aborts_in Q)) (hdeserialize1 o alg env P des t i) (hdeserialize1 o alg env P des t i).
    Proof.
      intro Ht. destruct t as [t|id]; cbn [hdeserialize1].
      - intros x Hx. split; [reflexivity|]. intros y. destruct x as [s|[e|m]]; cbn; try discriminate.
        + destruct (parse_text o t s) eqn:E; cbn; try discriminate. intros [= <-]. eapply Ho; eauto.
        + intros [= <-]. now apply Hx.
      - assert (Hder : env id <> None -> cact_rel krel Q (fine (aborts_in Q))
          (CReadTo (HDerived (DVisitor id [])) (fun x s =>
            match s with
            | HDerived w => bind (as_res x) (fun _ => reply_finalize o alg env w None)
            | HUser _ => Abort ill_typed
            end))
          (CReadTo (HDerived (DVisitor id [])) (fun x s =>
            match s with
            | HDerived w => bind (as_res x) (fun _ => reply_finalize o alg env w None)
            | HUser _ => Abort ill_typed
            end))).
        { intro He. exists (Some id). split; [now split|]. intros x s1 s2 Hx [<- Hs]. split; [reflexivity|].
          destruct s1 as [w|]; [|contradiction]. destruct Hs as [<- Hw]. intros y Hy. destruct x as [e|[e|m]]; cbn in Hy; try discriminate.
          - apply reply_finalize_safe in Hy as (m & Hm & _); [discriminate|apply HP|exact Hw].
          - injection Hy as <-. now apply Hx. }
        destruct (env id) eqn:Ee; [apply Hder; discriminate|].
        destruct (h_type P id) as [D|] eqn:Eh.
        + apply lower_rel; [|eapply (hp_type _ _ _ HP); eauto]. intros x Hx y [= <-]. exact Hx.
        + cbn in Ht. destruct Ht; congruence.
    Qed.
  End Nested.

  Lemma hdeserialize_rel fuel : forall t i, kn t ->
    cact_rel krel Q (fine (aborts_in Q)) (hdeserialize o alg env P fuel t i) (hdeserialize o alg env P fuel t i).
  Proof.
    induction fuel as [|fuel IH]; intros t i Ht; cbn [hdeserialize].
    - split; [reflexivity|]. intros x [= <-]. apply HQ. now left.
    - now apply deserialize1_rel.
  Qed.

  Lemma hvisitors_rel fuel : cvis_rel krel Q (hvisitors o alg env P fuel) (hvisitors o alg env P fuel).
  Proof.
    constructor.
    - intros k s1 s2 n v [<- Hk]. destruct s1 as [w|u]; destruct k; try contradiction; cbn.
      + destruct Hk as [<- Hw]. split; [split; [reflexivity|]|now split].
        intros x Hx. apply reply_attribute_safe in Hx as [t Ht]; [|apply HP|exact Hw]. eapply Ho; eauto.
      + pose proof (hp_attribute _ _ _ HP u n v) as H. destruct (h_attribute P u n v) as [r u']. split; [now split|now split].
    - intros k s1 s2 n v [<- Hk]. destruct s1 as [w|u]; destruct k; try contradiction; cbn.
      + destruct Hk as [<- Hw]. split; [split; [reflexivity|]|now split].
        intros x Hx. rewrite reply_characters_safe in Hx; [discriminate|apply HP|exact Hw].
      + pose proof (hp_characters _ _ _ HP u n v) as H. destruct (h_characters P u n v) as [r u']. split; [now split|now split].
    - intros k s1 s2 i [<- Hk]. destruct s1 as [w|u]; destruct k; try contradiction; cbn [c_element hvisitors].
      + destruct Hk as [<- Hw]. eapply crel_camap; [apply call_rel; [apply hdeserialize_rel|exact Hw]|].
        intros [r w'] y [<- [H1 H2]]. cbn in *. split; [now split|]. now split.
      + eapply crel_camap.
        * apply (lower_rel _ (hdeserialize_rel fuel) (fun a => aborts_in Q (fst a))); [|apply (hp_element _ _ _ HP)].
          intros x Hx y [= <-]. exact Hx.
        * intros [r u'] y [<- H1]. cbn in *. split; [now split|]. now split.
  Qed.

  Theorem hread_safe fuel dbg t src fin : kn t -> aborts_in Q (hread o alg env P fuel dbg t src fin).
  Proof.
    intros Ht. unfold hread. eapply proj2.
    apply (cread_rel krel Q HQ dbg _ _ (hvisitors_rel fuel) (hdeserialize o alg env P fuel t) (hdeserialize o alg env P fuel t)).
    intro i. apply hdeserialize_rel. exact Ht.
  Qed.
End Program.
