(** How deeply reads nest in derived deserializers. *)
From Coq Require Import Lia Permutation.
From Verif Require Import Base Normalize Text Find FindProofs Types Reader ReaderSpec ReaderProofs DeriveDe DeSpec DeTotal
  DepthSpec DepthProofs.

(** ** Enough levels *)

Definition slot_variants (s : slot) : option (list variant) :=
  match s with SField _ _ => None | SFlat e => Some (e_variants e) end.

(** The derived types a visitor may read children as. *)
Definition state_child (s : vstate) (id : nat) : Prop :=
  match vs_kind s with
  | VkStruct fs ss => (exists f k, In f fs /\ f_mode f = MElement k (ERef id)) \/
      exists vs, In (Some vs) (map slot_variants ss) /\ variant_type vs id
  | VkEnum e => variant_type (e_variants e) id
  end.

Lemma act_ok_amap {St A C} b (Inv : nat -> St -> Prop) n (P : A -> Prop) (Q : C -> Prop) (f : A -> C) act :
  act_ok b Inv n P act -> (forall a, P a -> Q (f a)) -> act_ok b Inv n Q (amap f act).
Proof. destruct act; cbn; auto. intros (? & ? & ?) ?. auto. Qed.

Lemma set_nth_map {A B} (g : A -> B) p y : forall l x, nth_error l p = Some x -> g y = g x -> map g (set_nth p y l) = map g l.
Proof.
  induction p as [|p IH]; intros [|z l] x H E; cbn in *; try discriminate.
  - inversion H. subst. now rewrite E.
  - now rewrite (IH l x H E).
Qed.

Section Enough.
  Context (o : oracles) (alg : bs_alg) (env : tenv) (b : nat).

  (** All chains from [id] have fewer than [m] steps. *)
  Definition short (id m : nat) : Prop := forall n, chain env id n -> n < m.

  Definition sinv (n : nat) (s : vstate) : Prop := forall id, state_child s id -> short id (b - n).

  Lemma new_slots_variants fs : forall ss vs, new_slots env fs = Some ss -> In (Some vs) (map slot_variants ss) ->
    exists f fid ident root nss sk, In f fs /\ f_mode f = MFlatten fid /\ env fid = Some (TDEnum ident root nss vs sk).
  Proof.
    induction fs as [|f fs IH]; cbn [new_slots]; intros ss vs H Hin; [injection H as <-; destruct Hin|].
    destruct (new_slots env fs) as [ss'|]; [|discriminate].
    assert (G : In (Some vs) (map slot_variants ss') ->
      exists f0 fid ident root nss sk, In f0 (f :: fs) /\ f_mode f0 = MFlatten fid /\ env fid = Some (TDEnum ident root nss vs sk)).
    { intro Hi. destruct (IH _ _ eq_refl Hi) as (f0 & fid & ident & root & nss & sk & H1 & H2 & H3).
      exists f0, fid, ident, root, nss, sk. split; [now right|auto]. }
    destruct (f_mode f) as [k t|opt t|fid|t] eqn:Hm; try discriminate.
    - injection H as <-. destruct Hin as [Hin|Hin]; [discriminate|auto].
    - injection H as <-. destruct Hin as [Hin|Hin]; [discriminate|auto].
    - destruct (env fid) as [[|ident root nss vs' sk]|] eqn:Hid; try discriminate. injection H as <-.
      destruct Hin as [Hin|Hin]; auto. cbn in Hin. injection Hin as ->.
      exists f, fid, ident, root, nss, sk. split; [now left|auto].
  Qed.

  Lemma new_visitor_children id s0 id' : new_visitor env id = Some s0 -> state_child s0 id' ->
    exists d, env id = Some d /\ child_type env d id'.
  Proof.
    unfold new_visitor. destruct (env id) as [[ident root nss fs|ident root nss vs sk]|] eqn:Hid; try discriminate.
    - destruct (new_slots env fs) as [ss|] eqn:Es; [|discriminate]. cbn. intros [= <-] H. eexists. split; [reflexivity|].
      destruct H as [(f & k & Hf & Hm)|(vs & Hi & Hv)]; [eapply ct_field; eauto|].
      destruct (new_slots_variants fs ss vs Es Hi) as (f & fid & ident' & root' & nss' & sk & H1 & H2 & H3).
      eapply ct_flatten; eauto.
    - intros [= <-] H. eexists. split; [reflexivity|]. now apply ct_variant.
  Qed.

  Definition ty_short (n : nat) (t : ety) : Prop := match t with EText _ => True | ERef id => short id (b - n) end.

  Lemma deserialize_ok n t i : ty_short n t -> act_ok b sinv n (fun _ => True) (deserialize o env t i).
  Proof.
    destruct t as [t|id]; cbn; auto. intro Hs.
    destruct (new_visitor env id) as [s0|] eqn:En; cbn; auto.
    assert (Hd : exists d, env id = Some d).
    { unfold new_visitor in En. destruct (env id); [eauto|discriminate]. }
    destruct Hd as (d & Hd).
    assert (Hn : 0 < b - n) by (apply Hs; eapply chain_here; eauto).
    split; [lia|]. split; auto. intros id' Hc m Hm.
    destruct (new_visitor_children id s0 id' En Hc) as (d' & Hd' & Hct).
    assert (S m < b - n) by (apply Hs; eapply chain_step; eauto). lia.
  Qed.

  Lemma field_init_ok n k t i : ty_short n t -> act_ok b sinv n (fun _ => True) (field_init o env k t i).
  Proof. intro H. eapply act_ok_amap; [apply deserialize_ok; exact H|auto]. Qed.

  Lemma field_update_ok n k t old i : ty_short n t -> act_ok b sinv n (fun _ => True) (field_update o env k t old i).
  Proof. intro H. destruct k; cbn; auto. eapply act_ok_amap; [apply deserialize_ok; exact H|auto]. Qed.

  Lemma variant_short n vs j v k t : (forall id, variant_type vs id -> short id (b - n)) ->
    nth_error (sorted_variants vs) j = Some v -> v_ty v = Some (k, t) -> ty_short n t.
  Proof.
    intros H Hj Ht. destruct t as [t|id]; cbn; auto. apply H. exists v, k. split; auto.
    eapply Permutation_in; [apply sort_perm|]. eapply nth_error_In. exact Hj.
  Qed.

  Lemma enum_ok n e i act : (forall id, variant_type (e_variants e) id -> short id (b - n)) ->
    enum_element o alg env e i = Some act ->
    act_ok b sinv n (fun a => e_variants (snd (fst a)) = e_variants e) act.
  Proof.
    intro H. unfold enum_element. destruct (e_init e).
    - intros [= <-]. destruct (e_mem e) as [[| |j p| | | |]|]; cbn [act_ok]; auto.
      destruct (nth_error (sorted_variants (e_variants e)) j) as [v|] eqn:Hj; cbn [act_ok]; auto.
      destruct (find _ _ _) as [j'|]; cbn [act_ok]; auto. destruct (Nat.eqb j' j); cbn [act_ok]; auto.
      destruct (v_ty v) as [[k t]|] eqn:Ht; cbn [act_ok]; auto. destruct p as [f|]; cbn [act_ok]; auto.
      eapply act_ok_amap; [eapply field_update_ok, variant_short; eauto|]. intros [[x|x|x] l] _; reflexivity.
    - destruct (find _ _ _) as [j|]; [|discriminate]. intros [= <-].
      destruct (nth_error (sorted_variants (e_variants e)) j) as [v|] eqn:Hj; cbn [act_ok]; auto.
      destruct (v_ty v) as [[k t]|] eqn:Ht.
      + eapply act_ok_amap; [eapply field_init_ok, variant_short; eauto|].
        intros [[x|x|x] l] _; try reflexivity. destruct (e_mem e); reflexivity.
      + cbn. destruct (e_mem e); reflexivity.
  Qed.

  Lemma delegate_ok n i : forall ss act,
    (forall vs id, In (Some vs) (map slot_variants ss) -> variant_type vs id -> short id (b - n)) ->
    delegate_element o alg env ss i = Some act ->
    act_ok b sinv n (fun a => map slot_variants (snd (fst a)) = map slot_variants ss) act.
  Proof.
    induction ss as [|s ss IH]; intros act H; cbn [delegate_element]; [discriminate|].
    assert (Hrest : forall act, option_map (amap (fun '(r, ss'', l) => (r, s :: ss'', l))) (delegate_element o alg env ss i) = Some act ->
      act_ok b sinv n (fun a => map slot_variants (snd (fst a)) = map slot_variants (s :: ss)) act).
    { intros act0. destruct (delegate_element o alg env ss i) as [a|]; cbn; [|discriminate]. intros [= <-].
      eapply act_ok_amap; [apply IH; [|reflexivity]|].
      - intros vs id Hi. apply H. now right.
      - intros [[r s'] l] G. cbn in *. now rewrite G. }
    destruct s as [pr m|e]; auto. destruct (enum_element o alg env e i) eqn:E; auto. intros [= <-].
    apply (enum_ok n) in E; [|intros id; apply H; now left].
    eapply act_ok_amap; [exact E|]. intros [[r s'] l] G. cbn in *. now rewrite G.
  Qed.

  Lemma delegate_variants {E A} (f : estate -> A -> res E (option A) * estate) :
    (forall e a, e_variants (snd (f e a)) = e_variants e) ->
    forall ss a, map slot_variants (snd (delegate f ss a)) = map slot_variants ss.
  Proof.
    intros H. induction ss as [|s ss IH]; intro a; cbn [delegate]; auto.
    destruct s as [pr m|e].
    - specialize (IH a). destruct (delegate f ss a). cbn in *. now rewrite IH.
    - specialize (H e a). destruct (f e a) as [[[a'|]|x|x] e']; cbn in H; try (cbn; now rewrite H).
      specialize (IH a'). destruct (delegate f ss a'). cbn in *. now rewrite IH, H.
  Qed.

  Lemma element_field_ok n k t pr m i : ty_short n t ->
    act_ok b sinv n (fun a => slot_variants (snd (fst a)) = None) (element_field o env k t pr m i).
  Proof.
    intro H. unfold element_field. destruct pr.
    - destruct m as [old|]; cbn [act_ok]; auto.
      eapply act_ok_amap; [eapply field_update_ok; exact H|]. intros [[x|x|x] l] _; reflexivity.
    - eapply act_ok_amap; [eapply field_init_ok; exact H|]. intros [[x|x|x] l] _; cbn; auto. destruct m; reflexivity.
  Qed.

  Lemma sinv_put n fs ss lk ss' l : sinv n (VState (VkStruct fs ss) lk) -> map slot_variants ss' = map slot_variants ss ->
    sinv n (put (VState (VkStruct fs ss) lk) ss' l).
  Proof. intros H E id Hc. apply H. unfold state_child in *. cbn in *. now rewrite <- E. Qed.

  Lemma derived_attr n s x v : sinv n s -> sinv n (snd (v_attribute (derived o alg env) s x v)).
  Proof.
    destruct s as [[fs ss|e] lk]; cbn [derived v_attribute vs_kind]; auto. intro H. unfold struct_attribute.
    destruct (find_field _ _ _ _) as [p|].
    - destruct (nth_error fs p) as [[fn [k t|opt t|id|t] fd]|]; auto.
      destruct (nth_error ss p) as [[pr m|e]|] eqn:Es; auto.
      assert (G : slot_variants (snd (attribute_field o x opt t pr m v)) = None).
      { unfold attribute_field. destruct pr; auto. destruct (bind _ _); auto. }
      destruct (attribute_field o x opt t pr m v) as [r sl]. cbn [snd] in *. apply sinv_put; auto.
      eapply set_nth_map; [exact Es|]. now rewrite G.
    - pose proof (delegate_variants (fun e v => enum_attribute e x v) (fun e a => eq_refl) ss v) as G.
      destruct (delegate _ ss v) as [r ss']. cbn [snd] in *. now apply sinv_put.
  Qed.

  Lemma derived_chars n s str p : sinv n s -> sinv n (snd (v_characters (derived o alg env) s str p)).
  Proof.
    destruct s as [[fs ss|e] lk]; cbn [derived v_characters vs_kind]; auto. intro H. unfold struct_characters.
    pose proof (delegate_variants (fun e str => enum_characters e str p) (fun e a => eq_refl) ss str) as G.
    destruct (delegate _ ss str) as [r ss']. cbn [snd] in *. now apply sinv_put.
  Qed.

  Lemma derived_elem n s i : sinv n s -> act_ok b sinv n (fun a => sinv n (snd a)) (v_element (derived o alg env) s i).
  Proof.
    destruct s as [[fs ss|e] lk]; cbn [derived v_element vs_kind]; intro H.
    - unfold struct_element. destruct (find_field _ _ _ _) as [p|].
      + destruct (nth_error fs p) as [[fn [k t|opt t|id|t] fd]|] eqn:Ef; cbn [act_ok]; auto.
        destruct (nth_error ss p) as [[pr m|e]|] eqn:Es; cbn [act_ok]; auto.
        eapply act_ok_amap; [apply element_field_ok|].
        * destruct t as [t|id]; cbn; auto. apply H. left. exists (Field fn (MElement k (ERef id)) fd), k.
          split; auto. eapply nth_error_In. exact Ef.
        * intros [[r sl] l] G. cbn [fst snd] in *. apply sinv_put; auto. eapply set_nth_map; [exact Es|]. now rewrite G.
      + destruct (delegate_element o alg env ss i) as [act|] eqn:Ed; cbn [act_ok]; auto.
        apply (delegate_ok n) in Ed; [|intros vs id Hi Hv; apply H; right; eauto].
        eapply act_ok_amap; [exact Ed|]. intros [[r ss'] l] G. cbn [fst snd] in *. now apply sinv_put.
    - destruct (enum_element o alg env e i) as [act|] eqn:Ee; cbn [act_ok]; auto.
      apply (enum_ok n) in Ee; [|exact H].
      eapply act_ok_amap; [exact Ee|]. intros [[r e'] l] G. cbn in *. intros id Hc. apply H. unfold state_child in *.
      cbn in *. now rewrite <- G.
  Qed.

  Lemma enough_levels id src fin : short id b ->
    levels_enough b (derived o alg env) (de_root o env (ERef id)) src fin.
  Proof.
    intros Hs dbg stop. apply (read_limited (derived o alg env) b (List.length src) stop sinv).
    - intros; now apply derived_attr.
    - intros; now apply derived_chars.
    - intros; now apply derived_elem.
    - intro k. cbn [reader_new r_depth r_src].
      assert (G : forall evs d, depth_after d evs <= d + List.length evs).
      { induction evs as [|[e p] evs IH]; intro d; [cbn; lia|].
        destruct e; cbn [depth_after List.length]; try (specialize (IH d); lia); [specialize (IH (S d))|specialize (IH (pred d))]; lia. }
      specialize (G (firstn k src) 0). rewrite firstn_length in G. lia.
    - intros i _ _. eapply act_ok_amap; [apply deserialize_ok|auto]. cbn. now rewrite Nat.sub_0_r.
  Qed.
End Enough.

(** ** Levels that are needed *)

Lemma limit_amap {St A B C} b n (g : C) (f : B -> C) (h : A -> B) (act : action St A) :
  limit b n g f (amap h act) = limit b n g (fun a => f (h a)) act.
Proof. destruct act; reflexivity. Qed.

Lemma amap_amap {St A B C} (f : B -> C) (g : A -> B) (act : action St A) : amap f (amap g act) = amap (fun a => f (g a)) act.
Proof. destruct act; reflexivity. Qed.

Lemma limited_propagating {St} b stop (V : visitors St) : propagating V -> propagating (limited b stop V).
Proof.
  intros H [n s] i. specialize (H s i). cbn [limited v_element].
  destruct (v_element V s i) as [a|k|s0 k]; cbn [limit propagating_act] in *; auto.
  - intros e c E. specialize (H e c). destruct (k (inr e)). auto.
  - destruct (Nat.ltb n b); cbn; auto. intros e [m s1] c E. specialize (H e s1 c). cbn in E. destruct (k (inr e) s1). auto.
Qed.

Lemma limited_root_propagating {St T} b stop (D : einfo -> action St (res verr T)) : propagating_root D ->
  propagating_root (limited_root b stop D).
Proof.
  intros H i. specialize (H i). unfold limited_root. destruct (D i); cbn [limit propagating_act] in *; auto.
  destruct (Nat.ltb 0 b); cbn; auto.
Qed.

(** Some element name that expands to this name. *)
Definition oname_of (n : xname) : oname :=
  OName None (if String.eqb (xn_ns n) "" then None else Some (xn_ns n)) (xn_local n).

Lemma oname_of_expands n : from_xml_name (oname_of n) = n.
Proof.
  destruct n as [ns l]. unfold oname_of, from_xml_name. cbn. destruct (String.eqb ns "") eqn:E; auto.
  apply String.eqb_eq in E. now subst.
Qed.

Section Needed.
  Context (o : oracles) (alg : bs_alg) (env : tenv) (b : nat).
  Hypothesis Hok : names_ok env.
  Hypothesis Hc : compiles env.
  Hypothesis Hu : unshadowed env.

  (** What happens with the child called [nm]: it is read as [id]. *)
  Definition reads_child {A} (nm : xname) (id : nat) (call : einfo -> option (action vstate A)) : Prop :=
    exists g, forall i, from_xml_name (ei_name i) = nm -> call i = Some (amap g (deserialize o env (ERef id) i)).

  Lemma nodup_names_eq {A} (key : A -> xname) l x y : NoDup (map key l) -> In x l -> In y l -> key x = key y -> x = y.
  Proof.
    induction l as [|z l IH]; cbn; intros N Hx Hy E; [tauto|]. inversion N as [|? ? N1 N2]; subst.
    destruct Hx as [->|Hx], Hy as [->|Hy]; auto.
    - exfalso. apply N1. rewrite E. now apply in_map.
    - exfalso. apply N1. rewrite <- E. now apply in_map.
  Qed.

  Lemma enum_fresh ident vs v k id : no_empty_ns vs -> NoDup (variant_names vs) -> In v vs -> v_ty v = Some (k, ERef id) ->
    reads_child (expanded (v_name v)) id (fun i => enum_element o alg env (new_enum ident vs) i).
  Proof.
    intros Hns Hnd Hin Hv.
    assert (Hj : exists j, nth_error (sorted_variants vs) j = Some v).
    { apply In_nth_error. eapply Permutation_in; [symmetry; apply sort_perm|]. exact Hin. }
    destruct Hj as (j & Hj). eexists. intros i Hi. unfold enum_element. cbn [new_enum e_init e_variants e_mem].
    rewrite Hi.
    assert (E : vlookup alg vs (expanded (v_name v)) = Some j) by (apply vlookup_spec; eauto).
    unfold vlookup in E. rewrite E, Hj, Hv. unfold field_init. rewrite amap_amap. reflexivity.
  Qed.

  Lemma enum_not ident vs nm i : no_empty_ns vs -> NoDup (variant_names vs) -> ~ In nm (variant_names vs) ->
    from_xml_name (ei_name i) = nm -> enum_element o alg env (new_enum ident vs) i = None.
  Proof.
    intros Hns Hnd Hn Hi. unfold enum_element. cbn [new_enum e_init e_variants]. rewrite Hi.
    assert (E : vlookup alg vs nm = None) by (apply vlookup_none; auto). unfold vlookup in E. now rewrite E.
  Qed.

  Lemma in_flat_names fs f nm : In f fs -> In nm (flat_names env f) -> In nm (flat_map (flat_names env) fs).
  Proof. intros. apply in_flat_map. eauto. Qed.

  Lemma delegate_fresh fid ident root nss vs sk v k id : env fid = Some (TDEnum ident root nss vs sk) ->
    In v vs -> v_ty v = Some (k, ERef id) ->
    forall fs ss f, new_slots env fs = Some ss -> NoDup (flat_map (flat_names env) fs) -> In f fs -> f_mode f = MFlatten fid ->
    reads_child (expanded (v_name v)) id (fun i => delegate_element o alg env ss i).
  Proof.
    intros Hid Hv Ht. destruct (Hok _ _ Hid) as [Hns Hnd].
    assert (Hname : forall f, f_mode f = MFlatten fid -> In (expanded (v_name v)) (flat_names env f)).
    { intros f Hm. unfold flat_names. rewrite Hm, Hid. unfold variant_names. apply (in_map (fun v => expanded (v_name v))). exact Hv. }
    induction fs as [|f0 fs IH]; intros ss f Es N Hf Hm; [destruct Hf|].
    cbn [new_slots] in Es. destruct (new_slots env fs) as [ss'|] eqn:Es'; [|discriminate].
    cbn [flat_map] in N.
    assert (N' : NoDup (flat_map (flat_names env) fs)).
    { clear -N. induction (flat_names env f0) as [|x l IH]; cbn in N; auto. inversion N. auto. }
    destruct Hf as [<-|Hf].
    - rewrite Hm, Hid in Es. injection Es as <-.
      destruct (enum_fresh ident vs v k id Hns Hnd Hv Ht) as (g & G).
      eexists. intros i Hi. cbn [delegate_element]. rewrite (G i Hi). rewrite amap_amap. reflexivity.
    - destruct (IH ss' f eq_refl N' Hf Hm) as (g & G).
      assert (Hrest : forall s i, from_xml_name (ei_name i) = expanded (v_name v) ->
        option_map (amap (fun '(r, ss'', l) => (r, s :: ss'', l))) (delegate_element o alg env ss' i) =
        Some (amap (fun a => let '(r, ss'', l) := g a in (r, s :: ss'', l)) (deserialize o env (ERef id) i))).
      { intros s i Hi. rewrite (G i Hi). cbn [option_map]. now rewrite amap_amap. }
      assert (Hnot : ~ In (expanded (v_name v)) (flat_names env f0)).
      { intro Hi. pose proof (in_flat_names fs f _ Hf (Hname f Hm)) as Hj. clear -N Hi Hj.
        induction (flat_names env f0) as [|x l IHl]; cbn in *; [tauto|]. inversion N as [|? ? N1 N2]; subst.
        destruct Hi as [->|Hi]; [|auto]. apply N1. apply in_or_app. now right. }
      destruct (f_mode f0) as [k0 t0|opt t0|fid0|t0] eqn:Hm0; try discriminate.
      + injection Es as <-. eexists. intros i Hi. cbn [delegate_element]. apply (Hrest _ i Hi).
      + injection Es as <-. eexists. intros i Hi. cbn [delegate_element]. apply (Hrest _ i Hi).
      + destruct (env fid0) as [[|ident0 root0 nss0 vs0 sk0]|] eqn:Hid0; try discriminate. injection Es as <-.
        eexists. intros i Hi. cbn [delegate_element]. destruct (Hok _ _ Hid0) as [Hns0 Hnd0].
        unfold flat_names in Hnot. rewrite Hm0, Hid0 in Hnot.
        rewrite (enum_not ident0 vs0 _ i Hns0 Hnd0 Hnot Hi). apply (Hrest _ i Hi).
  Qed.

  Lemma new_slots_own fs : forall ss p f k t, new_slots env fs = Some ss -> nth_error fs p = Some f ->
    f_mode f = MElement k t -> nth_error ss p = Some (SField false None).
  Proof.
    induction fs as [|f0 fs IH]; intros ss p f k t Es Hp Hm; [destruct p; discriminate|].
    cbn [new_slots] in Es. destruct (new_slots env fs) as [ss'|] eqn:Es'; [|discriminate].
    destruct p as [|p]; cbn in Hp.
    - injection Hp as ->. rewrite Hm in Es. now injection Es as <-.
    - assert (G : nth_error ss' p = Some (SField false None)) by (eapply IH; eauto).
      destruct (f_mode f0) as [| |fid0|]; try discriminate; [..|destruct (env fid0) as [[]|]; try discriminate];
        injection Es as <-; exact G.
  Qed.

  Lemma fresh_child id d s0 id' : env id = Some d -> new_visitor env id = Some s0 -> child_type env d id' ->
    exists nm, reads_child nm id' (fun i => Some (v_element (derived o alg env) s0 i)).
  Proof.
    intros Hid Hn Hct. unfold new_visitor in Hn. rewrite Hid in Hn.
    destruct Hct as [ident root nss fs f k id' Hf Hm|ident root nss fs f fid ident' root' nss' vs sk id' Hf Hm Hfid (v & k & Hv & Ht)
      |ident root nss vs sk id' (v & k & Hv & Ht)].
    - destruct (new_slots env fs) as [ss|] eqn:Es; [|discriminate]. cbn in Hn. injection Hn as <-.
      destruct (Hok _ _ Hid) as [N _]. destruct (In_nth_error _ _ Hf) as (p & Hp).
      pose proof (new_slots_own fs ss p f k _ Es Hp Hm) as Hs.
      exists (expanded (f_name f)). eexists. intros i Hi. cbn [derived v_element vs_kind]. unfold struct_element.
      assert (E : lookup alg is_element fs (from_xml_name (ei_name i)) = Some p).
      { rewrite Hi. apply lookup_spec; auto. exists f. unfold is_element. rewrite Hm. auto. }
      change (find_field alg is_element fs (from_xml_name (ei_name i))) with (lookup alg is_element fs (from_xml_name (ei_name i))).
      rewrite E, Hp, Hs. destruct f as [fn fm fd]. cbn in Hm. subst fm.
      unfold element_field, field_init. rewrite !amap_amap. reflexivity.
    - destruct (new_slots env fs) as [ss|] eqn:Es; [|discriminate]. cbn in Hn. injection Hn as <-.
      pose proof (Hu _ _ _ _ _ Hid) as N.
      assert (N2 : NoDup (flat_map (flat_names env) fs)).
      { clear -N. induction (field_names is_element fs) as [|x l IH]; cbn in N; auto. inversion N. auto. }
      destruct (delegate_fresh fid ident' root' nss' vs sk v k id' Hfid Hv Ht fs ss f Es N2 Hf Hm) as (g & G).
      exists (expanded (v_name v)). eexists. intros i Hi. cbn [derived v_element vs_kind]. unfold struct_element.
      assert (E : lookup alg is_element fs (from_xml_name (ei_name i)) = None).
      { rewrite Hi. destruct (Hok _ _ Hid) as [N1 _]. apply lookup_none; auto. intro Hi'.
        assert (Hj : In (expanded (v_name v)) (flat_map (flat_names env) fs)).
        { eapply in_flat_names; [exact Hf|]. unfold flat_names. rewrite Hm, Hfid. unfold variant_names.
          apply (in_map (fun v => expanded (v_name v))). exact Hv. }
        clear -N Hi' Hj. induction (field_names is_element fs) as [|x l IHl]; cbn in *; [tauto|].
        inversion N as [|? ? N1 N2]; subst. destruct Hi' as [->|Hi']; [|auto]. apply N1. apply in_or_app. now right. }
      change (find_field alg is_element fs (from_xml_name (ei_name i))) with (lookup alg is_element fs (from_xml_name (ei_name i))).
      rewrite E, (G i Hi), amap_amap. reflexivity.
    - injection Hn as <-. destruct (Hok _ _ Hid) as [Hns Hnd].
      destruct (enum_fresh ident vs v k id' Hns Hnd Hv Ht) as (g & G).
      exists (expanded (v_name v)). eexists. intros i Hi. cbn [derived v_element vs_kind]. rewrite (G i Hi), amap_amap. reflexivity.
  Qed.

  Notation at0 := (0%N, 0%N).

  Lemma limit_hit id m : chain env id m -> forall n, b <= n + m ->
    exists kids, forall stop parents name ns p pe i C (given_up : C) f,
    match fst (sem_act (sem_read (limited b stop (derived o alg env)) (NElem name [] ns p kids pe) parents)
                 (parents ++ [SElem name p]) p kids pe (limit b n given_up f (deserialize o env (ERef id) i))) with
    | inl c => c = given_up
    | inr y => y = stop
    end.
  Proof.
    assert (Hv : forall id d, env id = Some d -> exists s0, new_visitor env id = Some s0).
    { intros id0 d Hd. destruct (new_visitor_total env Hc id0) as (s0 & E & _); [congruence|eauto]. }
    induction 1 as [id d Hid|id d id' m Hid Hct Hch IH]; intros n Hn; destruct (Hv id d Hid) as (s0 & Es).
    - exists []. intros. cbn [deserialize]. rewrite Es. cbn [limit].
      rewrite (proj2 (Nat.ltb_ge n b)) by lia. reflexivity.
    - destruct (fresh_child id d s0 id' Hid Es Hct) as (nm & g & G).
      destruct (IH (S n)) as (kids & K); [lia|].
      exists [NElem (oname_of nm) [] [] at0 kids at0]. intros. cbn [deserialize]. rewrite Es. cbn [limit].
      destruct (Nat.ltb n b); [|reflexivity].
      cbn [sem_act sem_read sem_attrs sem_kids limited v_element].
      set (ci := EInfo (oname_of nm) [] _).
      assert (Ev : v_element (derived o alg env) s0 ci = amap g (deserialize o env (ERef id') ci)).
      { specialize (G ci (oname_of_expands nm)). now injection G. }
      rewrite Ev, limit_amap.
      pose proof (K stop (parents ++ [SElem name p]) (oname_of nm) [] at0 at0 ci _ (Abort stop, (S n, s0))
        (fun a => (fun '(r, s') => (r, (S n, s'))) (g a))) as K'.
      fold (limited b stop (derived o alg env)).
      match goal with |- context [sem_act ?rd ?pa ?q ?ks ?qe ?act] =>
        change (match fst (sem_act rd pa q ks qe act) with inl c => c = (Abort stop, (S n, s0)) | inr y => y = stop end) in K';
        destruct (sem_act rd pa q ks qe act) as [[[[]]|] pl] end; cbn in K'; try discriminate; cbn; congruence.
  Qed.
End Needed.

(** ** Exactly the chains *)

Lemma chain_shorter env id n : chain env id n -> forall m, m <= n -> chain env id m.
Proof.
  induction 1 as [id d Hid|id d id' n Hid Hct Hch IH]; intros [|m] Hm; try lia.
  - eapply chain_here; eauto.
  - eapply chain_here; eauto.
  - eapply chain_step; eauto. apply IH. lia.
Qed.

Theorem chains_bound o alg env b id : ~ chain env id b ->
  forall src fin, levels_enough b (derived o alg env) (de_root o env (ERef id)) src fin.
Proof.
  intros H src fin. apply enough_levels. intros n Hn. destruct (Nat.lt_ge_cases n b) as [L|L]; auto.
  exfalso. apply H. eapply chain_shorter; eauto.
Qed.

Theorem text_levels o alg env t src fin : levels_enough 0 (derived o alg env) (de_root o env (EText t)) src fin.
Proof.
  intros dbg stop. apply (read_limited (derived o alg env) 0 (List.length src) stop (fun _ _ => False)); try tauto.
  - intro k. cbn [reader_new r_depth r_src].
    assert (G : forall evs d, depth_after d evs <= d + List.length evs).
    { induction evs as [|[e p] evs IH]; intro d; [cbn; lia|].
      destruct e; cbn [depth_after List.length]; try (specialize (IH d); lia); [specialize (IH (S d))|specialize (IH (pred d))]; lia. }
    specialize (G (firstn k src) 0). rewrite firstn_length in G. lia.
  - intros i _ _. cbn. auto.
Qed.

Theorem chains_needed o alg env b id : names_ok env -> compiles env -> unshadowed env -> chain env id b ->
  exists d, forall pe, levels_exceeded b (derived o alg env) (de_root o env (ERef id)) (doc_events d) (FEndDocument pe).
Proof.
  intros Hok Hc Hu Hch. destruct (limit_hit o alg env b Hok Hc Hu id b Hch 0) as (kids & K); [lia|].
  exists (Doc (0%N, 0%N) [] (OName None None "root") [] [] (0%N, 0%N) kids (0%N, 0%N) []).
  intros pe dbg stop. rewrite read_sem.
  - unfold sem_doc, limited_root, de_root. cbn [d_name d_pos d_kids d_pe d_ns d_attrs d_root].
    rewrite limit_amap. set (i := EInfo _ _ _). unfold d_root. cbn [d_name d_pos d_kids d_pe d_ns d_attrs].
    pose proof (K stop [] (OName None None "root") [] (0%N, 0%N) (0%N, 0%N) i _ (Abort stop) fst) as K'. cbn [app] in K'.
    destruct (sem_act _ _ _ _ _ _) as [[[]|] pl]; cbn in K'; congruence.
  - intros _. split; [apply limited_propagating, derived_propagating|apply limited_root_propagating, de_root_propagating].
Qed.

Lemma chain_exists env id : below_type env id id -> forall n, chain env id n.
Proof.
  intro H.
  assert (G : forall id1 id2, below_type env id1 id2 -> forall n, chain env id2 n -> chain env id1 (S n)).
  { induction 1 as [id1 d id2 Hid Hct|id1 d id2 id3 Hid Hct Hb IH]; intros n Hn.
    - eapply chain_step; eauto.
    - specialize (IH n Hn). eapply chain_step; eauto. eapply chain_shorter; [exact IH|lia]. }
  induction n as [|n IH].
  - assert (Hd : exists d, env id = Some d) by (inversion H; eauto). destruct Hd. eapply chain_here; eauto.
  - eapply G; eauto.
Qed.

Theorem recursive_unbounded o alg env id : names_ok env -> compiles env -> unshadowed env -> below_type env id id ->
  forall b, exists d, forall pe,
  levels_exceeded b (derived o alg env) (de_root o env (ERef id)) (doc_events d) (FEndDocument pe).
Proof. intros Hok Hc Hu Hb b. apply chains_needed; auto. now apply chain_exists. Qed.

Lemma enough_not_exceeded {St T} b (V : visitors St) (D : einfo -> action St (res verr T)) src fin :
  levels_enough b V D src fin -> levels_exceeded b V D src fin -> False.
Proof. intros H1 H2. pose proof (H1 true UB) as E. pose proof (H1 true Diverge) as E'. rewrite H2 in E, E'. congruence. Qed.

Theorem levels_exact o alg env b id : names_ok env -> compiles env -> unshadowed env ->
  (forall src fin, levels_enough b (derived o alg env) (de_root o env (ERef id)) src fin) <-> ~ chain env id b.
Proof.
  intros Hok Hc Hu. split; [|apply chains_bound]. intros H Hch.
  destruct (chains_needed o alg env b id Hok Hc Hu Hch) as (d & Hd).
  eapply enough_not_exceeded; [apply (H (doc_events d) (FEndDocument (0%N, 0%N)))|apply Hd].
Qed.
