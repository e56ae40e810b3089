(** How a program is built does not matter: debug assertions, and the implementation of binary search in the standard
    library. *)
From Verif Require Import Base Normalize Text Find FindProofs BMap Types Reader ReaderSpec ReaderProofs ReaderXml TextProofs DeSpec DeriveDe DeriveMixed DeTotal
  Ser SerSpec SerProofs DeriveSer DSerSpec DSerProps.
From Coq Require Import Lia Permutation Sorting.Sorted.

(** ** Visitors that do the same in the states that occur *)
Section Ext.
  Context {St : Type} (I : St -> Prop) (V V' : visitors St).

  Definition act_all {A} (P : A -> Prop) (act : action St A) : Prop :=
    match act with
    | ANoRead a => P a
    | AReadString k => forall x, P (k x)
    | AReadTo s0 k => I s0 /\ forall x s, I s -> P (k x s)
    end.

  Lemma act_all_amap {A B} (P : A -> Prop) (Q : B -> Prop) (f : A -> B) act :
    act_all P act -> (forall a, P a -> Q (f a)) -> act_all Q (amap f act).
  Proof. destruct act; cbn; intros H F; auto. destruct H. auto. Qed.

  Lemma act_all_impl {A} (P Q : A -> Prop) act : act_all P act -> (forall a, P a -> Q a) -> act_all Q act.
  Proof. destruct act; cbn; intros H F; auto. destruct H. auto. Qed.

  Record same_on : Prop := SameOn {
    so_attribute : forall s n v, I s -> v_attribute V s n v = v_attribute V' s n v /\ I (snd (v_attribute V s n v));
    so_characters : forall s c p, I s -> v_characters V s c p = v_characters V' s c p /\ I (snd (v_characters V s c p));
    so_element : forall s i, I s -> v_element V s i = v_element V' s i /\ act_all (fun a => I (snd a)) (v_element V s i) }.

  Hypothesis SO : same_on.

  Lemma attrs_same stack p attrs : forall s, I s ->
    attrs_loop V stack p attrs s = attrs_loop V' stack p attrs s /\ I (snd (attrs_loop V stack p attrs s)).
  Proof.
    induction attrs as [|a attrs IH]; intros s Hs; cbn; [auto|].
    destruct (so_attribute SO s (from_xml_name (a_name a)) (a_value a) Hs) as [E J]. rewrite <- E.
    destruct (v_attribute V s _ _) as [[x|e|x] s']; cbn in J; auto.
  Qed.

  Context (dbg : bool).

  Definition body_same (body body' : nat -> nsmap -> St -> rstate -> res error endinfo * St * rstate) : Prop :=
    forall sp ns s r, I s -> body sp ns s r = body' sp ns s r /\ I (snd (fst (body sp ns s r))).

  Lemma action_same {A} (P : A -> Prop) body body' sp attrs ns act r : body_same body body' -> act_all P act ->
    run_action dbg V body sp attrs ns act r = run_action dbg V' body' sp attrs ns act r /\
    forall a, fst (run_action dbg V body sp attrs ns act r) = inl a -> P a.
  Proof.
    intros B H. destruct act as [a|k|s0 k]; cbn [act_all run_action fst] in *.
    - split; [reflexivity|]. intros a' [= <-]. exact H.
    - split; [reflexivity|]. destruct (read_string dbg sp r) as [[s|e|x] r']; cbn [fst]; intros a Ha; try discriminate; injection Ha as <-; auto.
    - destruct H as [H0 Hk]. destruct (nth_error (r_stack r) sp) as [el|]; [|split; [reflexivity|discriminate]].
      destruct (attrs_same (r_stack r) (se_pos el) attrs s0 H0) as [E J]. rewrite <- E.
      destruct (attrs_loop V _ _ attrs s0) as [[x|e|x] s1]; cbn in J |- *.
      + destruct (B sp ns s1 r J) as [E' J']. rewrite <- E'. destruct (body sp ns s1 r) as [[[i|e|y] s2] r']; cbn in J' |- *.
        * split; [reflexivity|]. intros a [= <-]. auto.
        * split; [reflexivity|]. intros a [= <-]. auto.
        * split; [reflexivity|discriminate].
      + split; [reflexivity|]. intros a [= <-]. auto.
      + split; [reflexivity|discriminate].
  Qed.

  Lemma loop_same fuel : body_same (read_loop dbg V fuel) (read_loop dbg V' fuel).
  Proof.
    induction fuel as [|fuel IH]; intros sp ns s r Hs; cbn [read_loop]; [auto|].
    destruct (stack_check dbg sp r); [|auto].
    destruct (next dbg r) as [[[[attrs ns'|name|str] p]|e|x] r1]; auto.
    - destruct (nth_error (r_stack r1) (S sp)) as [el|]; [|auto].
      destruct (so_element SO s (EInfo (se_name el) ns' (S (S sp))) Hs) as [E J]. rewrite <- E.
      destruct (action_same (fun a => I (snd a)) _ _ (S sp) attrs ns' _ r1 IH J) as [E' J'].
      rewrite <- E'. destruct (run_action dbg V (read_loop dbg V fuel) (S sp) attrs ns' _ r1) as [[[[b|e|x] s']|x] r2]; cbn in J' |- *; auto.
      + specialize (J' _ eq_refl). cbn in J'. destruct (return_to_depth dbg (S sp) r2) as [[u|e|x] r3]; auto.
      + specialize (J' _ eq_refl). auto.
      + specialize (J' _ eq_refl). auto.
    - destruct (so_characters SO s str p Hs) as [E J]. rewrite <- E.
      destruct (v_characters V s str p) as [[x|e|x] s']; cbn in J |- *; auto.
  Qed.

  Theorem read_same {T} (D : einfo -> action St (res verr T)) r : (forall i, act_all (fun _ => True) (D i)) ->
    read dbg V D r = read dbg V' D r.
  Proof.
    intros HD. unfold read. destruct (root dbg r) as [[[attrs ns]|e|x] r1]; auto.
    destruct (nth_error (r_stack r1) 0) as [el|]; [|auto].
    destruct (action_same (fun _ => True) _ _ 0 attrs ns _ r1 (loop_same (S (List.length (r_src r1)))) (HD (EInfo (se_name el) ns 1))) as [E _].
    now rewrite <- E.
  Qed.
End Ext.

(** ** Generated code over any [T::deserialize] *)

Definition enum_sorted (e : estate) : Prop := StronglySorted xn_lt (variant_table (e_variants e)).
Definition slot_sorted (s : slot) : Prop := match s with SField _ _ => True | SFlat e => enum_sorted e end.
(** The tables of a visitor are strictly sorted. *)
Definition sorted_state (s : vstate) : Prop :=
  match vs_kind s with
  | VkStruct fs ss => StronglySorted xn_lt (table (sorted_fields is_element fs)) /\
      StronglySorted xn_lt (table (sorted_fields is_attribute fs)) /\ Forall slot_sorted ss
  | VkEnum e => enum_sorted e
  end.

Lemma find_same alg alg' n l : StronglySorted xn_lt l -> find alg n l = find alg' n l.
Proof.
  intros H. destruct (find alg n l) as [p|] eqn:E.
  - symmetry. apply find_spec; auto. now apply (find_spec alg).
  - symmetry. apply find_none; auto. now apply (find_none alg).
Qed.

Lemma find_field_same alg alg' sel fs n : StronglySorted xn_lt (table (sorted_fields sel fs)) ->
  find_field alg sel fs n = find_field alg' sel fs n.
Proof. intros H. unfold find_field. now rewrite (find_same alg alg' _ _ H). Qed.

Lemma set_nth_sorted p sl ss : slot_sorted sl -> Forall slot_sorted ss -> Forall slot_sorted (set_nth p sl ss).
Proof. intros Hs H. revert p. induction H as [|s ss H1 H2 IH]; intros [|p]; cbn; constructor; auto. Qed.

Lemma put_sorted s fs ss ss' l : sorted_state s -> vs_kind s = VkStruct fs ss -> Forall slot_sorted ss' -> sorted_state (put s ss' l).
Proof. unfold sorted_state, put. intros H E F. rewrite E in *. cbn. tauto. Qed.

Section Code.
  Context {St : Type} (Inv : St -> Prop) (alg alg' : bs_alg) (deser : ety -> einfo -> action St (res verr value * list value)).
  Notation all := (act_all Inv).
  Hypothesis deser_all : forall t i, all (fun _ => True) (deser t i).

  Lemma genum_same e i : enum_sorted e -> genum_element alg deser e i = genum_element alg' deser e i.
  Proof. intros H. unfold genum_element. now rewrite (find_same alg alg' _ _ H). Qed.

  Lemma gupdate_all k t old i : all (fun _ => True) (gfield_update deser k t old i).
  Proof. destruct k; cbn; auto. eapply act_all_amap; [apply deser_all|auto]. Qed.

  Lemma ginit_all k t i : all (fun _ => True) (gfield_init deser k t i).
  Proof. eapply act_all_amap; [apply deser_all|auto]. Qed.

  Lemma genum_all e i act : enum_sorted e -> genum_element alg deser e i = Some act ->
    all (fun a => enum_sorted (snd (fst a))) act.
  Proof.
    intros H. unfold genum_element. set (ei := find _ _ _). clearbody ei.
    destruct (e_init e).
    - intros [= <-]. destruct (e_mem e) as [[| |j p| | | |]|]; try exact H.
      destruct (nth_error _ j) as [v|]; try exact H. destruct ei as [j'|]; try exact H.
      destruct (Nat.eqb j' j); try exact H. destruct (v_ty v) as [[k t]|]; try exact H. destruct p as [f|]; try exact H.
      eapply act_all_amap; [apply gupdate_all|]. intros [[x|x|x] l] _; exact H.
    - destruct ei as [j|]; [|discriminate]. intros [= <-]. destruct (nth_error _ j) as [v|]; try exact H.
      assert (W : forall x l, enum_sorted (snd (fst (match e_mem e with
                | None => (Ok tt, e_set e x, l)
                | Some _ => (Abort overwritten, e, l)
                end : res verr unit * estate * list value)))) by (intros x l; destruct (e_mem e); exact H).
      destruct (v_ty v) as [[k t]|]; [|apply W].
      eapply act_all_amap; [apply ginit_all|]. intros [[x|x|x] l] _; try exact H. apply W.
  Qed.

  Lemma gdelegate_same ss i : Forall slot_sorted ss ->
    gdelegate_element alg deser ss i = gdelegate_element alg' deser ss i /\
    forall act, gdelegate_element alg deser ss i = Some act -> all (fun a => Forall slot_sorted (snd (fst a))) act.
  Proof.
    induction 1 as [|s ss Hs H [IH1 IH2]]; cbn; [split; [auto|discriminate]|]. rewrite <- IH1.
    assert (R : forall act, option_map (amap (fun '(r, ss'', l) => (r, s :: ss'', l))) (gdelegate_element alg deser ss i) = Some act ->
              all (fun a : res verr unit * list slot * list value => Forall slot_sorted (snd (fst a))) act).
    { intros act. destruct (gdelegate_element alg deser ss i) as [a|]; [|discriminate]. intros [= <-].
      eapply act_all_amap; [now apply IH2|]. intros [[r ss'] l] F. cbn in *. now constructor. }
    destruct s as [|e]; [auto|]. cbn in Hs. rewrite <- (genum_same e i Hs).
    destruct (genum_element alg deser e i) as [a|] eqn:E; [|auto]. split; [reflexivity|]. intros act [= <-].
    eapply act_all_amap; [eapply genum_all; eauto|]. intros [[r e'] l] F. cbn in *. constructor; auto.
  Qed.

  Lemma gelement_field_all k t present mem i :
    all (fun a => slot_sorted (snd (fst a))) (gelement_field deser k t present mem i).
  Proof.
    unfold gelement_field. destruct present.
    - destruct mem as [old|]; [|exact I]. eapply act_all_amap; [apply gupdate_all|]. intros [[x|x|x] l] _; exact I.
    - eapply act_all_amap; [apply ginit_all|]. intros [r l] _. destruct (bind r _); exact I.
  Qed.

  Lemma gelement_same s i : sorted_state s -> gelement alg deser s i = gelement alg' deser s i /\
    all (fun a => sorted_state (snd a)) (gelement alg deser s i).
  Proof.
    intros H. assert (H' := H). unfold sorted_state in H'. unfold gelement. destruct (vs_kind s) as [fs ss|e] eqn:K.
    - destruct H' as (H1 & H2 & H3). unfold gstruct_element.
      rewrite <- (find_field_same alg alg' _ _ (from_xml_name (ei_name i)) H1).
      destruct (gdelegate_same ss i H3) as [D1 D2]. rewrite <- D1. split; [reflexivity|].
      destruct (find_field alg is_element fs _) as [p|].
      + destruct (nth_error fs p) as [[nm [k t|opt t|id|t] d]|]; try exact H. destruct (nth_error ss p) as [[pr mem|]|]; try exact H.
        eapply act_all_amap; [apply gelement_field_all|]. intros [[r sl] l] F. cbn in *. eapply put_sorted; eauto. now apply set_nth_sorted.
      + destruct (gdelegate_element alg deser ss i) as [act|]; [|exact H].
        eapply act_all_amap; [now apply D2|]. intros [[r ss'] l] F. cbn in *. eapply put_sorted; eauto.
    - rewrite <- (genum_same e i H'). split; [reflexivity|].
      destruct (genum_element alg deser e i) as [act|] eqn:E; [|exact H].
      eapply act_all_amap; [eapply genum_all; eauto|]. intros [[r e'] l] F. exact F.
  Qed.
End Code.

Lemma delegate_sorted {E A} (f : estate -> A -> res E (option A) * estate) ss :
  (forall e a, enum_sorted e -> enum_sorted (snd (f e a))) -> Forall slot_sorted ss ->
  forall a, Forall slot_sorted (snd (delegate f ss a)).
Proof.
  intros Hf. induction 1 as [|s ss Hs H IH]; intros a; cbn; [constructor|].
  destruct s as [p m|e].
  - specialize (IH a). destruct (delegate f ss a). cbn in *. constructor; auto.
  - specialize (Hf e a Hs). destruct (f e a) as [[[a'|]|x|x] e']; cbn in Hf; try (constructor; auto).
    specialize (IH a'). destruct (delegate f ss a'). cbn in *. constructor; auto.
Qed.

(** ** Derived visitors *)
Section Search.
  Context (o : oracles) (alg alg' : bs_alg) (env : tenv).
  Hypothesis Hok : names_ok env.

  Lemma enum_of id ident root nss vs sk : env id = Some (TDEnum ident root nss vs sk) -> enum_sorted (new_enum ident vs).
  Proof. intros E. destruct (Hok _ _ E) as [N D]. now apply enum_table_sorted. Qed.

  Lemma new_slots_sorted fs : forall ss, new_slots env fs = Some ss -> Forall slot_sorted ss.
  Proof.
    induction fs as [|f fs IH]; cbn; intros ss H; [injection H as <-; constructor|].
    destruct (new_slots env fs) as [ss'|]; [|discriminate]. specialize (IH _ eq_refl).
    destruct (f_mode f); try discriminate; try (injection H as <-; now constructor).
    destruct (env id) as [[|ident root nss vs sk]|] eqn:E; try discriminate. injection H as <-. constructor; [|auto].
    exact (enum_of _ _ _ _ _ _ E).
  Qed.

  Lemma new_sorted id s : new_visitor env id = Some s -> sorted_state s.
  Proof.
    unfold new_visitor. destruct (env id) as [[ident root nss fs|ident root nss vs sk]|] eqn:E; [| |discriminate].
    - destruct (new_slots env fs) as [ss|] eqn:N; [|discriminate]. intros [= <-]. destruct (Hok _ _ E) as [N1 N2].
      cbn. split; [now apply struct_table_sorted|]. split; [now apply struct_table_sorted|]. eapply new_slots_sorted; eauto.
    - intros [= <-]. exact (enum_of _ _ _ _ _ _ E).
  Qed.

  Lemma deserialize_all t i : act_all sorted_state (fun _ => True) (deserialize o env t i).
  Proof.
    destruct t as [t|id]; cbn; [auto|]. destruct (new_visitor env id) as [s|] eqn:E; cbn; [|auto].
    split; [eapply new_sorted; eauto|auto].
  Qed.

  Lemma attribute_same s n v : sorted_state s -> v_attribute (derived o alg env) s n v = v_attribute (derived o alg' env) s n v /\
    sorted_state (snd (v_attribute (derived o alg env) s n v)).
  Proof.
    intros H. assert (H' := H). unfold sorted_state in H'. cbn [derived v_attribute].
    destruct (vs_kind s) as [fs ss|e] eqn:K; [|split; [reflexivity|exact H']].
    destruct H' as (H1 & H2 & H3). unfold struct_attribute.
    rewrite <- (find_field_same alg alg' _ _ n H2). split; [reflexivity|].
    destruct (find_field alg is_attribute fs n) as [p|].
    - destruct (nth_error fs p) as [[nm [k t|opt t|id|t] d]|]; try exact H. destruct (nth_error ss p) as [[pr mem|]|]; try exact H.
      destruct (attribute_field o n opt t pr mem v) as [r sl] eqn:A. cbn [snd]. eapply put_sorted; eauto. apply set_nth_sorted; auto.
      unfold attribute_field in A. destruct pr; [injection A as <- <-; exact I|].
      destruct (bind _ _); injection A as <- <-; exact I.
    - pose proof (delegate_sorted (fun e v => enum_attribute e n v) ss (fun e a X => X) H3 v) as F.
      destruct (delegate _ ss v) as [r ss']. cbn in *. eapply put_sorted; eauto.
  Qed.

  Lemma characters_same s c p : sorted_state s -> v_characters (derived o alg env) s c p = v_characters (derived o alg' env) s c p /\
    sorted_state (snd (v_characters (derived o alg env) s c p)).
  Proof.
    intros H. assert (H' := H). unfold sorted_state in H'. cbn [derived v_characters]. split; [reflexivity|].
    destruct (vs_kind s) as [fs ss|e] eqn:K; [|exact H']. destruct H' as (H1 & H2 & H3). unfold struct_characters.
    pose proof (delegate_sorted (fun e str => enum_characters e str p) ss (fun e a X => X) H3 c) as F.
    destruct (delegate _ ss c) as [r ss']. cbn in *. eapply put_sorted; eauto.
  Qed.

  Lemma derived_same : same_on sorted_state (derived o alg env) (derived o alg' env).
  Proof.
    constructor; [apply attribute_same|apply characters_same|]. intros s i H.
    exact (gelement_same sorted_state alg alg' (deserialize o env) deserialize_all s i H).
  Qed.

  Theorem search_same dbg t src fin : read_as o alg env dbg t src fin = read_as o alg' env dbg t src fin.
  Proof.
    unfold read_as. apply (read_same sorted_state _ _ derived_same). intros i. eapply act_all_amap; [apply deserialize_all|auto].
  Qed.

  (** Next to hand-written code. *)
  Context {U : Type} (P : user U).
  Definition sorted_mixed (s : mstate U) : Prop := match s with MDerived s => sorted_state s | MUser _ => True end.
  Notation odd := (fun _ => Abort DeriveDe.ill_typed).

  Lemma known_all t i : act_all sorted_mixed (fun _ => True) (known_deserialize (U := U) odd o env t i).
  Proof.
    destruct t as [t|id]; cbn; [auto|]. destruct (new_visitor env id) as [s|] eqn:E; cbn; [|auto].
    split; [eapply new_sorted; eauto|auto].
  Qed.

  Lemma lower_all {A} ab oddA (act : uaction U A) i : act_all sorted_mixed (fun _ => True) (lower odd o env ab oddA act i).
  Proof. destruct act; cbn; auto. eapply act_all_amap; [apply known_all|auto]. Qed.

  Lemma mdeserialize_all t i : act_all sorted_mixed (fun _ => True) (mdeserialize odd o env P t i).
  Proof.
    destruct t as [t|id]; [apply known_all|]. cbn [mdeserialize]. destruct (env id); [apply known_all|].
    destruct (u_type P id); [|apply known_all]. eapply act_all_amap; [apply lower_all|auto].
  Qed.

  Lemma mixed_same : same_on sorted_mixed (mixed odd o alg env P) (mixed odd o alg' env P).
  Proof.
    constructor; intros [s|u]; cbn [mixed v_attribute v_characters v_element].
    - intros n v H. destruct (attribute_same s n v H) as [E J]. rewrite <- E. destruct (v_attribute _ s n v). auto.
    - intros n v H. destruct (u_attribute P u n v). split; [reflexivity|exact I].
    - intros c p H. destruct (characters_same s c p H) as [E J]. rewrite <- E. destruct (v_characters _ s c p). auto.
    - intros c p H. destruct (u_characters P u c p). split; [reflexivity|exact I].
    - intros i H. destruct (gelement_same sorted_mixed alg alg' (mdeserialize odd o env P) mdeserialize_all s i H) as [E J].
      rewrite <- E. split; [reflexivity|]. eapply act_all_amap; [exact J|]. now intros [r s'].
    - intros i H. split; [reflexivity|]. eapply act_all_amap; [apply lower_all|]. now intros [r u'] _.
  Qed.

  Theorem mixed_search_same dbg t src fin : read_mixed o alg env P dbg t src fin = read_mixed o alg' env P dbg t src fin.
  Proof.
    unfold read_mixed, read_with. apply (read_same sorted_mixed _ _ mixed_same). intros i.
    eapply act_all_amap; [apply mdeserialize_all|auto].
  Qed.
End Search.

(** Without debug assertions, nothing changes if none fails. *)
Theorem mixed_build_same {U} o alg alg' env (P : user U) dbg t src fin : names_ok env ->
  no_abort (read_mixed o alg env P true t src fin) -> read_mixed o alg' env P dbg t src fin = read_mixed o alg env P true t src fin.
Proof.
  intros Hok H. rewrite (mixed_search_same o alg' alg env Hok P). destruct dbg; [reflexivity|]. apply read_release. exact H.
Qed.

Theorem build_same o alg alg' env dbg dbg' t src fin : names_ok env -> compiles env -> oracles_total o -> known_ty env t ->
  deliverable src fin -> read_as o alg env dbg t src fin = read_as o alg' env dbg' t src fin.
Proof.
  intros Hok Hc Ho Hk Hd. rewrite (search_same o alg alg' env Hok).
  assert (R : read_as o alg' env false t src fin = read_as o alg' env true t src fin).
  { apply read_release. eapply read_as_total; eauto. }
  destruct dbg, dbg'; congruence.
Qed.

(** ** Writing *)

Definition xml_prefix : abort := Panic "prefix must not start with xml".

Lemma namespace_debug p u b : builder_namespace true p u b = inr xml_prefix \/
  builder_namespace true p u b = builder_namespace false p u b.
Proof. unfold builder_namespace, nb_insert. cbn [andb]. destruct (starts_with "xml" p); [left|right]; reflexivity. Qed.

Lemma run_a_debug a : forall b, run_a true a b = inr xml_prefix \/ run_a true a b = run_a false a b.
Proof.
  induction a as [r|p u a IH|n v f IH|m]; intros b; cbn [run_a]; auto.
  - destruct (namespace_debug p u b) as [->| ->]; [now left|]. destruct (builder_namespace false p u b); auto.
  - destruct (builder_attribute n v b) as [[r b']|x]; auto.
Qed.

Lemma run_debug io :
  (forall d (p : wprog d) nss k, run_w true io p nss k = inr xml_prefix \/ run_w true io p nss k = run_w false io p nss k) /\
  (forall d (q : bprog d) b nss k, run_b true io q b nss k = inr xml_prefix \/ run_b true io q b nss k = run_b false io q b nss k).
Proof.
  apply prog_mut; intros; cbn [run_w run_b]; auto.
  - destruct (write io (WChars s) k0). auto.
  - destruct nss; auto.
  - destruct (write io WEnd k0). auto.
  - destruct (namespace_debug p u b0) as [->| ->]; [now left|]. destruct (builder_namespace false p u b0); auto.
  - destruct (builder_attribute n v b) as [[r b']|x]; auto.
  - destruct (builder_start io b k0) as [[[m|e] k']|x]; auto.
Qed.

Theorem to_debug io n v : to true io n v = inr xml_prefix \/ to true io n v = to false io n v.
Proof.
  unfold to. destruct (run_a_debug (s_attrs v) (BState n [] [] [])) as [->| ->]; [now left|].
  destruct (run_a false (s_attrs v) (BState n [] [] [])) as [[[e|] b]|x]; auto.
  destruct (builder_start io b sink0) as [[[m|e] k]|x]; auto.
  destruct (proj1 (run_debug io) _ (s_kids v) [m] k) as [->| ->]; auto.
Qed.

Theorem root_debug o env io id v dbg dbg' : typed o env (ERef id) v -> names_declared env -> prefixes_ok env -> no_default env ->
  serialize_root o env dbg io id v = serialize_root o env dbg' io id v.
Proof.
  intros T Hn Hp Hd.
  assert (R : serialize_root o env true io id v = serialize_root o env false io id v).
  { destruct (root_no_panic o env true io id v T Hn Hp Hd) as (r & k & E). unfold serialize_root in *.
    destruct (root_name env id) as [n|]; [|reflexivity]. unfold serialize_with_name in *.
    destruct (to_debug io n (ser_value o env (ERef id) v)) as [X|X]; [congruence|exact X]. }
  destruct dbg, dbg'; congruence.
Qed.
