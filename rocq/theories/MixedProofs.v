(** Derived and hand-written code together: memory safety, totality, and that nothing changes for
    programs without hand-written code. *)
From Verif Require Import Base Normalize Text TextProofs Find FindProofs Types Reader ReaderSpec ReaderProofs
  ReaderTotal ReaderRel DeriveDe DeSpec DeProofs DeMain DeTotal DeriveMixed MixedSpec.

Lemma generic_same o alg env s i : gelement alg (deserialize o env) s i = v_element (derived o alg env) s i.
Proof. reflexivity. Qed.

Lemma act_rel_amap {S1 S2 K} (R : K -> S1 -> S2 -> Prop) {A1 A2 B1 B2} (G : A1 -> A2 -> Prop) (G' : B1 -> B2 -> Prop)
  (f : A1 -> B1) (g : A2 -> B2) (a1 : action S1 A1) (a2 : action S2 A2) :
  act_rel R G a1 a2 -> (forall x y, G x y -> G' (f x) (g y)) -> act_rel R G' (amap f a1) (amap g a2).
Proof.
  destruct a1, a2; cbn; try contradiction; auto. intros (k' & H1 & H2) HG. exists k'. split; [exact H1|]. auto.
Qed.

(** ** Derived code *)

Section Derived.
  Context {S1 S2 K : Type} (R : K -> S1 -> S2 -> Prop) (Q : abort -> Prop).
  Context (alg : bs_alg) (kn : ety -> Prop).
  Context (deser1 : ety -> einfo -> action S1 (res verr value * list value)).
  Context (deser2 : ety -> einfo -> action S2 (res verr value * list value)).

  Definition within {E A} (r : res E A) : Prop := forall x, r = Abort x -> Q x.

  Definition same {A} (ab : A -> Prop) (a b : A) : Prop := a = b /\ ab a.

  Hypothesis Hd : forall t i, kn t -> act_rel R (same (fun a => within (fst a))) (deser1 t i) (deser2 t i).

  Lemma within_map {E A B} (f : A -> B) (r : res E A) : within r -> within (map_ok f r).
  Proof. intros H x E1. destruct r; try discriminate. injection E1 as <-. now apply H. Qed.
  Lemma within_ok {E A} (a : A) : within (Ok a : res E A).
  Proof. intros x. discriminate. Qed.
  Lemma within_err {E A} (e : E) : within (Err e : res E A).
  Proof. intros x. discriminate. Qed.
  Hint Resolve within_ok within_err : core.

  Definition vok (v : variant) : Prop := match v_ty v with None => True | Some (_, t) => kn t end.

  Definition enum_inv (e : estate) : Prop :=
    Forall vok (e_variants e) /\
    ((e_init e = false /\ e_mem e = None) \/
     (e_init e = true /\ exists j v p, e_mem e = Some (VEnum j p) /\
        nth_error (sorted_variants (e_variants e)) j = Some v /\
        match v_ty v with
        | None => p = None
        | Some (k, _) => exists y, p = Some y /\ shape k y
        end)).

  Definition slot_inv (f : field) (s : slot) : Prop :=
    match f_mode f, s with
    | MElement k t, SField pr m => kn t /\
        ((pr = false /\ m = None) \/ (pr = true /\ exists v, m = Some v /\ shape k v))
    | MAttribute _ _, SField pr m => (pr = false /\ m = None) \/ (pr = true /\ m <> None)
    | MFlatten _, SFlat e => enum_inv e
    | _, _ => False
    end.

  Definition inv (s : vstate) : Prop :=
    match vs_kind s with
    | VkStruct fs ss => Forall2 slot_inv fs ss
    | VkEnum e => enum_inv e
    end.

  Definition good_value (k : fkind) (a : res verr value * list value) : Prop :=
    within (fst a) /\ forall v, fst a = Ok v -> shape k v.

  Lemma init_rel k t i : kn t -> act_rel R (same (good_value k)) (gfield_init deser1 k t i) (gfield_init deser2 k t i).
  Proof.
    intro Hk. eapply act_rel_amap; [apply Hd; exact Hk|]. intros [r l] b [<- H]. split; [reflexivity|]. split; cbn.
    - now apply within_map.
    - destruct r; cbn; try discriminate. intros v [= <-]. destruct k; cbn; eauto.
  Qed.

  Lemma update_rel k t old i : kn t -> shape k old ->
    act_rel R (same (good_value k)) (gfield_update deser1 k t old i) (gfield_update deser2 k t old i).
  Proof.
    intros Hk Hs. destruct k; cbn [gfield_update]; try (cbn; split; [reflexivity|split; cbn; auto; discriminate]).
    destruct Hs as [vs ->].
    eapply act_rel_amap; [apply Hd; exact Hk|]. intros [r l] b [<- H]. split; [reflexivity|]. split; cbn.
    - destruct r; cbn; auto.
    - destruct r; cbn; try discriminate. intros v [= <-]. eauto.
  Qed.

  Lemma variant_known vs j v k t : Forall vok vs ->
    nth_error (sorted_variants vs) j = Some v -> v_ty v = Some (k, t) -> kn t.
  Proof.
    intros H Hn Ht. assert (Hin : In v vs).
    { eapply Permutation.Permutation_in; [apply sort_perm|]. eapply nth_error_In; eauto. }
    rewrite Forall_forall in H. apply H in Hin. unfold vok in Hin. now rewrite Ht in Hin.
  Qed.

  Definition opt_rel {A1 A2} (G : A1 -> A2 -> Prop) (a1 : option (action S1 A1)) (a2 : option (action S2 A2)) : Prop :=
    match a1, a2 with None, None => True | Some a1, Some a2 => act_rel R G a1 a2 | _, _ => False end.

  Definition good_enum (a : res verr unit * estate * list value) : Prop :=
    within (fst (fst a)) /\ enum_inv (snd (fst a)).

  Lemma enum_rel e i : enum_inv e ->
    opt_rel (same good_enum) (genum_element alg deser1 e i) (genum_element alg deser2 e i).
  Proof.
    intros He. pose proof He as [Hv Hs]. unfold genum_element.
    destruct Hs as [[-> Hm]|(-> & j & v & p & Hm & Hj & Hp)].
    - destruct (find _ _ _) as [j|] eqn:Ef; [|exact I].
      destruct (find_variant _ _ _ _ Ef) as (v & Hj). rewrite Hj, Hm.
      destruct (v_ty v) as [[k t]|] eqn:Ht; cbn [opt_rel].
      + eapply act_rel_amap; [apply init_rel; eapply variant_known; eauto|].
        intros [[x|e1|x] l] b [<- [G1 G2]]; (split; [reflexivity|]); cbn in *; (split; cbn; auto).
        * split; auto. right. split; auto. exists j, v, (Some x). rewrite Ht. split; [reflexivity|]. split; [exact Hj|]. eauto.
        * intros y [= <-]. now apply G1.
      + cbn. split; [reflexivity|]. split; cbn; auto. split; auto. right. split; auto. exists j, v, None. now rewrite Ht.
    - rewrite Hm, Hj. cbn [opt_rel].
      destruct (find _ _ _) as [j'|]; [|cbn; split; [reflexivity|split; cbn; auto]].
      destruct (Nat.eqb j' j) eqn:Ej; [|cbn; split; [reflexivity|split; cbn; auto]].
      destruct (v_ty v) as [[k t]|] eqn:Ht; [|cbn; split; [reflexivity|split; cbn; auto]].
      destruct Hp as (y & -> & Hy).
      eapply act_rel_amap; [apply update_rel; eauto; eapply variant_known; eauto|].
      intros [[x|e1|x] l] b [<- [G1 G2]]; (split; [reflexivity|]); cbn in *; (split; cbn; auto).
      * split; auto. right. split; auto. exists j, v, (Some x). rewrite Ht. split; [reflexivity|]. split; [exact Hj|]. eauto.
      * intros z [= <-]. now apply G1.
  Qed.

  Lemma delegate_rel fs ss i : Forall2 slot_inv fs ss ->
    opt_rel (same (fun a => within (fst (fst a)) /\ Forall2 slot_inv fs (snd (fst a))))
      (gdelegate_element alg deser1 ss i) (gdelegate_element alg deser2 ss i).
  Proof.
    intro H. induction H as [|f s fs ss Hs H IH]; [exact I|]. cbn [gdelegate_element].
    assert (Hrest : opt_rel (same (fun a => within (fst (fst a)) /\ Forall2 slot_inv (f :: fs) (snd (fst a))))
      (option_map (amap (fun '(r, ss'', l) => (r, s :: ss'', l))) (gdelegate_element alg deser1 ss i))
      (option_map (amap (fun '(r, ss'', l) => (r, s :: ss'', l))) (gdelegate_element alg deser2 ss i))).
    { destruct (gdelegate_element alg deser1 ss i), (gdelegate_element alg deser2 ss i); cbn in *; try contradiction; auto.
      eapply act_rel_amap; [exact IH|]. intros [[r s'] l] b [<- [G1 G2]]. split; [reflexivity|]. split; cbn in *; auto. }
    destruct s as [pr m|e]; [exact Hrest|].
    assert (Hf : exists id, f_mode f = MFlatten id).
    { unfold slot_inv in Hs. destruct (f_mode f); try tauto. eauto. }
    destruct Hf as (id & Hf). unfold slot_inv in Hs. rewrite Hf in Hs.
    pose proof (enum_rel e i Hs) as HE.
    destruct (genum_element alg deser1 e i), (genum_element alg deser2 e i); cbn [opt_rel] in HE; try contradiction; [|exact Hrest].
    cbn [opt_rel]. eapply act_rel_amap; [exact HE|].
    intros [[r s'] l] b [<- [G1 G2]]. split; [reflexivity|]. split; cbn in *; auto. constructor; auto. unfold slot_inv. now rewrite Hf.
  Qed.

  Lemma field_rel f k t pr m i : f_mode f = MElement k t -> slot_inv f (SField pr m) ->
    act_rel R (same (fun a => within (fst (fst a)) /\ slot_inv f (snd (fst a))))
      (gelement_field deser1 k t pr m i) (gelement_field deser2 k t pr m i).
  Proof.
    intros Hf Hs. pose proof Hs as Hs'. unfold slot_inv in Hs'. rewrite Hf in Hs'. destruct Hs' as [Hk Hs'].
    unfold gelement_field. destruct Hs' as [[-> ->]|(-> & v & -> & Hv)].
    - eapply act_rel_amap; [apply init_rel; auto|].
      intros [[x|e1|x] l] b [<- [G1 G2]]; (split; [reflexivity|]); cbn in *; (split; cbn; auto).
      + unfold slot_inv. rewrite Hf. split; auto. right. split; auto. eauto.
      + intros y [= <-]. now apply G1.
    - eapply act_rel_amap; [apply update_rel; auto; exact Hv|].
      intros [[x|e1|x] l] b [<- [G1 G2]]; (split; [reflexivity|]); cbn in *; (split; cbn; auto).
      + unfold slot_inv. rewrite Hf. split; auto. right. split; auto. eauto.
      + intros y [= <-]. now apply G1.
  Qed.

  Lemma element_rel s i : inv s ->
    act_rel R (same (fun a => within (fst a) /\ inv (snd a))) (gelement alg deser1 s i) (gelement alg deser2 s i).
  Proof.
    intros Hs. pose proof Hs as Hs0. unfold inv in Hs. unfold gelement. destruct (vs_kind s) as [fs ss|e] eqn:Ek.
    - unfold gstruct_element, put. rewrite Ek. destruct (find_field alg is_element fs _) as [p|] eqn:Ef.
      + destruct (find_field_nth _ _ _ _ _ Ef) as (f & Hf & Hsel). rewrite Hf.
        destruct (Forall2_nth _ _ _ _ _ Hs Hf) as (s0 & Hs1 & Hi). rewrite Hs1.
        unfold is_element in Hsel. destruct f as [nm md d]; cbn in Hsel. destruct md as [k t| | |]; try discriminate.
        pose proof Hi as Hi'. unfold slot_inv in Hi'. cbn in Hi'. destruct s0 as [pr m|]; [|tauto].
        eapply act_rel_amap; [apply (field_rel (Field nm (MElement k t) d)); [reflexivity|exact Hi]|].
        intros [[r sl] l] b [<- [G1 G2]]. split; [reflexivity|]. cbn in *. split; [now apply within_map|].
        unfold inv. cbn. exact (Forall2_set _ _ _ _ _ _ Hs Hf G2).
      + pose proof (delegate_rel fs ss i Hs) as HD.
        destruct (gdelegate_element alg deser1 ss i), (gdelegate_element alg deser2 ss i); cbn [opt_rel] in HD; try contradiction.
        * eapply act_rel_amap; [exact HD|].
          intros [[r sl] l] b [<- [G1 G2]]. split; [reflexivity|]. cbn in *. split; [now apply within_map|]. exact G2.
        * cbn. split; [reflexivity|]. split; cbn; auto.
    - pose proof (enum_rel e i Hs) as HE.
      destruct (genum_element alg deser1 e i), (genum_element alg deser2 e i); cbn [opt_rel] in HE; try contradiction.
      + eapply act_rel_amap; [exact HE|].
        intros [[r sl] l] b [<- [G1 G2]]. split; [reflexivity|]. cbn in *. split; [now apply within_map|]. exact G2.
      + cbn. split; [reflexivity|]. split; cbn; auto.
  Qed.

  Lemma attribute_in o env s n v : oracles_total o -> inv s ->
    no_abort (fst (v_attribute (derived o alg env) s n v)) /\ inv (snd (v_attribute (derived o alg env) s n v)).
  Proof.
    intros Ho Hs. unfold inv in Hs. cbn. destruct (vs_kind s) as [fs ss|e] eqn:Ek.
    - unfold struct_attribute, put. rewrite Ek. destruct (find_field alg is_attribute fs n) as [p|] eqn:Ef.
      + destruct (find_field_nth _ _ _ _ _ Ef) as (f & Hf & Hsel). rewrite Hf.
        destruct (Forall2_nth _ _ _ _ _ Hs Hf) as (s0 & Hs0 & Hi). rewrite Hs0.
        unfold is_attribute in Hsel. destruct f as [nm md d]; cbn in Hsel. destruct md as [|opt t| |]; try discriminate.
        pose proof Hi as Hi'. unfold slot_inv in Hi'. cbn in Hi'. destruct s0 as [pr m|]; [|tauto].
        unfold attribute_field. destruct Hi' as [[-> ->]|[-> Hm]].
        * unfold attr_init. destruct (parse_text o t v) as [x|e|x] eqn:Ep; cbn.
          -- split; [discriminate|]. eapply Forall2_set; eauto. unfold slot_inv. cbn. right. split; auto. discriminate.
          -- split; [discriminate|]. eapply Forall2_set; eauto.
          -- exfalso. eapply parse_text_total; eauto.
        * cbn. split; [discriminate|]. eapply Forall2_set; eauto.
      + rewrite delegate_pass by reflexivity. cbn. split; [discriminate|auto].
    - cbn. split; [discriminate|auto].
  Qed.

  Lemma characters_in o env s str p : inv s ->
    no_abort (fst (v_characters (derived o alg env) s str p)) /\ inv (snd (v_characters (derived o alg env) s str p)).
  Proof.
    intros Hs. unfold inv in Hs. cbn. destruct (vs_kind s) as [fs ss|e] eqn:Ek.
    - unfold struct_characters, put. rewrite Ek. rewrite delegate_pass by reflexivity. cbn. split; [discriminate|auto].
    - cbn. split; [discriminate|auto].
  Qed.

  (** [finalize] does not look at the types of the fields. *)
  Definition anything : tenv := fun _ => Some (TDStruct "" (DName None "") [] []).

  Lemma known_anything t : known_ty anything t.
  Proof. destruct t; cbn; auto. discriminate. Qed.

  Lemma enum_inv_anything e : enum_inv e -> DeTotal.enum_inv anything e.
  Proof.
    intros [H1 H2]. split; [|exact H2]. apply Forall_forall. intros v _. unfold variant_compiles.
    destruct (v_ty v) as [[]|]; auto using known_anything.
  Qed.

  Lemma inv_anything s : inv s -> DeTotal.inv anything s.
  Proof.
    unfold inv, DeTotal.inv. destruct (vs_kind s) as [fs ss|e]; [|apply enum_inv_anything].
    induction 1 as [|f s0 fs ss H _ IH]; constructor; auto. revert H. unfold slot_inv, DeTotal.slot_inv.
    destruct (f_mode f), s0; auto using enum_inv_anything. intros [_ H]. auto using known_anything.
  Qed.

  Lemma finalize_in s : inv s -> no_abort (fst (finalize s)).
  Proof. intro H. eapply finalize_total. apply inv_anything, H. Qed.

  Lemma new_enum_in ident vs : Forall vok vs -> enum_inv (new_enum ident vs).
  Proof. intro H. split; auto. Qed.
End Derived.

(** ** The whole program *)

Lemma reader_harmless x : reader_abort x -> harmless x.
Proof.
  intros [->|(m & -> & H)]; [repeat split; discriminate|].
  cbn in H. repeat destruct H as [<-|H]; try contradiction; repeat split; discriminate.
Qed.

Section Program.
  Context {U : Type} (o : oracles) (alg : bs_alg) (env : tenv) (P : user U) (Q : abort -> Prop).
  Hypothesis HP : program env P Q.
  Hypothesis Ho : oracles_total o.

  Notation kn := (has_deserialize env P).

  Lemma new_slots_in fs : Forall (mfield_compiles env P) fs ->
    exists ss, new_slots env fs = Some ss /\ Forall2 (slot_inv kn) fs ss.
  Proof.
    induction 1 as [|f fs Hf _ (ss & Ess & IH)]; cbn; [eauto|]. rewrite Ess.
    unfold mfield_compiles in Hf. destruct (f_mode f) as [k t|opt t|id|t] eqn:Em.
    - eexists; split; eauto. constructor; auto. unfold slot_inv. rewrite Em. auto.
    - eexists; split; eauto. constructor; auto. unfold slot_inv. rewrite Em. auto.
    - destruct Hf as (ident & root & nss & vs & sk & He). rewrite He. eexists; split; eauto.
      constructor; auto. unfold slot_inv. rewrite Em. apply new_enum_in. apply (p_derived _ _ _ HP id _ He).
    - tauto.
  Qed.

  Lemma new_visitor_in id : env id <> None -> exists s, new_visitor env id = Some s /\ inv kn s.
  Proof.
    unfold new_visitor. destruct (env id) as [[ident root nss fs|ident root nss vs sk]|] eqn:E; [..|congruence]; intros _.
    - destruct (new_slots_in fs (p_derived _ _ _ HP id _ E)) as (ss & -> & H). cbn. eauto.
    - eexists; split; eauto. apply new_enum_in. apply (p_derived _ _ _ HP id _ E).
  Qed.

  Definition minv (s : mstate U) : Prop := match s with MDerived s => inv kn s | MUser _ => True end.
  Definition kind (s : mstate U) : bool := match s with MDerived _ => true | MUser _ => false end.

  (** With [loose], visitors may change their kind. *)
  Definition both (loose : bool) (k : bool) (s1 s2 : mstate U) : Prop :=
    s1 = s2 /\ minv s1 /\ (loose = true \/ kind s1 = k).

  Context (loose : bool) (odd1 odd2 : forall A, res verr A).
  Hypothesis Hodd : loose = true -> forall A, same (within Q) (odd1 A) (odd2 A).

  Lemma parse_within t s : within Q (map_ok VText (map_err Wrap (parse_text o t s))).
  Proof.
    intros x E. exfalso. destruct (parse_text o t s) eqn:Ep; try discriminate. eapply parse_text_total; eauto.
  Qed.

  Lemma known_rel t i : known_ty env t ->
    act_rel (both loose) (same (fun a => within Q (fst a)))
      (known_deserialize (U := U) odd1 o env t i) (known_deserialize odd2 o env t i).
  Proof.
    destruct t as [t|id]; cbn; intro Hk.
    - intros [s|e]; (split; [reflexivity|]); cbn; [apply parse_within|apply within_err].
    - destruct (new_visitor_in id Hk) as (s0 & -> & H0). cbn. exists true. split; [split; auto|].
      intros x s1 s2 (<- & Hs & Hl). destruct s1 as [s|u].
      + destruct x as [x|e]; (split; [reflexivity|]); cbn; [|apply within_err].
        intros y E. exfalso. eapply finalize_in; eauto.
      + destruct Hl as [Hl|Hl]; [|discriminate]. destruct (Hodd Hl value) as [<- G]. now split.
  Qed.

  Lemma lower_rel {A} (good : A -> Prop) ab odda1 odda2 act i :
    every env good act -> (forall x, Q x -> good (ab x)) -> (loose = true -> same good odda1 odda2) ->
    act_rel (both loose) (same good)
      (lower (U := U) odd1 o env ab odda1 act i) (lower odd2 o env ab odda2 act i).
  Proof.
    intros H Hab Ho1. destruct act; cbn in *.
    - now split.
    - intro x. now split.
    - exists false. split; [split; [reflexivity|split; [exact I|now right]]|]. intros x s1 s2 (<- & _ & Hl). destruct s1 as [s|u]; [|now split].
      destruct Hl as [Hl|Hl]; [auto|discriminate].
    - destruct H as [Hk H]. eapply act_rel_amap; [apply known_rel, Hk|].
      intros [r l] b [<- G]. split; [reflexivity|]. destruct r; auto.
  Qed.

  Lemma mdeser_rel t i : kn t ->
    act_rel (both loose) (same (fun a => within Q (fst a)))
      (mdeserialize odd1 o env P t i) (mdeserialize odd2 o env P t i).
  Proof.
    destruct t as [t|id]; intro Hk; [apply known_rel; exact I|].
    cbn [mdeserialize]. cbn in Hk. destruct (env id) eqn:Ee; [apply known_rel; cbn; congruence|].
    destruct (u_type P id) as [D|] eqn:Eu; [|tauto].
    eapply act_rel_amap; [apply (lower_rel (within Q))|].
    - exact (p_type _ _ _ HP id D i Eu).
    - intros x Hx y [= <-]. exact Hx.
    - intro Hl. apply Hodd, Hl.
    - intros r b [<- G]. now split.
  Qed.

  Lemma both_next k s s' : both loose k s s -> minv s' -> kind s = kind s' -> both loose k s' s'.
  Proof. intros (_ & _ & H) Hi Hk. split; [reflexivity|]. split; [exact Hi|]. now rewrite <- Hk. Qed.

  Lemma agree_same {E A} (r : res E A) : within Q r -> agree Q r r.
  Proof. now split. Qed.

  Lemma no_abort_within {E A} (r : res E A) : no_abort r -> within Q r.
  Proof. intros H x E1. now destruct (H x). Qed.

  Lemma mixed_rel : vis_rel (both loose) Q (mixed odd1 o alg env P) (mixed odd2 o alg env P).
  Proof.
    constructor.
    - intros k s1 s2 n v (<- & Hs & Hl). assert (HB : both loose k s1 s1) by now split.
      destruct s1 as [s|u]; cbn [v_attribute mixed].
      + destruct (attribute_in alg kn o env s n v Ho Hs) as [G1 G2].
        destruct (v_attribute (derived o alg env) s n v) as [r s']. cbn in *.
        split; [now apply agree_same, no_abort_within|]. eapply both_next; eauto.
      + pose proof (p_attribute _ _ _ HP u n v) as G. destruct (u_attribute P u n v) as [r u']. cbn in *.
        split; [now apply agree_same|]. eapply both_next; eauto; exact I.
    - intros k s1 s2 str p (<- & Hs & Hl). assert (HB : both loose k s1 s1) by now split.
      destruct s1 as [s|u]; cbn [v_characters mixed].
      + destruct (characters_in alg kn o env s str p Hs) as [G1 G2].
        destruct (v_characters (derived o alg env) s str p) as [r s']. cbn in *.
        split; [now apply agree_same, no_abort_within|]. eapply both_next; eauto.
      + pose proof (p_characters _ _ _ HP u str p) as G. destruct (u_characters P u str p) as [r u']. cbn in *.
        split; [now apply agree_same|]. eapply both_next; eauto; exact I.
    - intros k s1 s2 i (<- & Hs & Hl). assert (HB : both loose k s1 s1) by now split.
      destruct s1 as [s|u]; cbn [v_element mixed].
      + eapply act_rel_amap.
        * apply (element_rel (both loose) Q alg kn); [intros; now apply mdeser_rel|exact Hs].
        * intros [r s'] b [<- [G1 G2]]. cbn in *. split; [now apply agree_same|]. eapply both_next; eauto.
      + eapply act_rel_amap.
        * apply (lower_rel (fun a => within Q (fst a))).
          -- exact (p_element _ _ _ HP u i).
          -- intros x Hx y [= <-]. exact Hx.
          -- intro Hl'. destruct (Hodd Hl' bool) as [<- G]. now split.
        * intros [r u'] b [<- G]. cbn in *. split; [now apply agree_same|]. eapply both_next; eauto; exact I.
  Qed.

  Lemma root_rel t i : kn t -> act_rel (both loose) (agree Q) (mixed_root odd1 o env P t i) (mixed_root odd2 o env P t i).
  Proof.
    intro Hk. eapply act_rel_amap; [apply mdeser_rel, Hk|]. intros [r l] b [<- G]. now split.
  Qed.
End Program.

Theorem mixed_safe {U} o alg env (P : user U) Q odd1 odd2 dbg t src fin :
  program env P Q -> oracles_total o -> (forall x, reader_abort x -> Q x) -> has_deserialize env P t ->
  read_with odd1 o alg env P dbg t src fin = read_with odd2 o alg env P dbg t src fin /\
  forall x, read_with odd1 o alg env P dbg t src fin = Abort x -> Q x.
Proof.
  intros HP Ho HQ Ht. unfold read_with.
  refine (read_rel (both env P false) Q HQ dbg _ _ _ _ _ _ _).
  - eapply mixed_rel; eauto. discriminate.
  - intro i. eapply root_rel; eauto. discriminate.
Qed.

Lemma every_mono {U A} env (good good' : A -> Prop) (act : uaction U A) :
  (forall a, good a -> good' a) -> every env good act -> every env good' act.
Proof. intros H. destruct act; cbn; auto. intros [H1 H2]. auto. Qed.

Lemma program_mono {U} env (P : user U) (Q Q' : abort -> Prop) :
  (forall x, Q x -> Q' x) -> program env P Q -> program env P Q'.
Proof.
  intros HQ [H1 H2 H3 H4 H5]. split; auto.
  - intros id D i E. eapply every_mono; [|exact (H2 id D i E)]. intros r Hr x Hx. apply HQ, Hr, Hx.
  - intros u n v x Hx. apply HQ. now apply (H3 u n v).
  - intros u s p x Hx. apply HQ. now apply (H4 u s p).
  - intros u i. eapply every_mono; [|exact (H5 u i)]. intros r Hr x Hx. apply HQ, Hr, Hx.
Qed.

Theorem only_own_panics {U} o alg env (P : user U) dbg t src fin x Q :
  program env P Q -> oracles_total o -> has_deserialize env P t ->
  read_mixed o alg env P dbg t src fin = Abort x -> Q x \/ reader_abort x.
Proof.
  intros HP Ho Ht. apply (mixed_safe o alg env P (fun x => Q x \/ reader_abort x) _ (fun _ => Abort ill_typed)); auto.
  eapply program_mono; [|exact HP]. auto.
Qed.

Theorem memory_safe {U} o alg env (P : user U) dbg t src fin x :
  program env P harmless -> oracles_total o -> has_deserialize env P t ->
  read_mixed o alg env P dbg t src fin = Abort x -> harmless x.
Proof.
  intros HP Ho Ht. apply (mixed_safe o alg env P _ _ (fun _ => Abort ill_typed)); auto using reader_harmless.
Qed.

(** ** Without hand-written code nothing changes *)

Theorem mixed_conservative {U} o alg env (P : user U) dbg t src fin :
  compiles env -> oracles_total o -> known_ty env t ->
  read_mixed o alg env P dbg t src fin = read_as o alg env dbg t src fin.
Proof.
  intros Hc Ho Ht. unfold read_mixed, read_with, read_as.
  set (R := fun (_ : unit) (s1 : mstate U) (s2 : vstate) => s1 = MDerived s2 /\ inv (known_ty env) s2).
  assert (Hnew : forall id, env id <> None -> exists s, new_visitor env id = Some s /\ inv (known_ty env) s).
  { intros id Hid. destruct (new_visitor_total env Hc id Hid) as (s & -> & Hs). exists s. split; [reflexivity|].
    exact Hs. }
  assert (Hd : forall t i, known_ty env t ->
    act_rel R (same (fun a => within (fun _ => True) (fst a)))
      (mdeserialize (fun _ => Abort ill_typed) o env P t i) (deserialize o env t i)).
  { intros [ty|id] i Hk.
    - intros [s|e]; (split; [reflexivity|]); now intros ? ?.
    - cbn in Hk. cbn [mdeserialize]. destruct (Hnew id Hk) as (s0 & E0 & H0).
      assert (G : act_rel R (same (fun a => within (fun _ => True) (fst a)))
        (known_deserialize (fun _ => Abort ill_typed) o env (ERef id) i) (deserialize o env (ERef id) i)).
      { cbn. rewrite E0. cbn. exists tt. split; [now split|]. intros x s1 s2 [-> Hs].
        split; [destruct x; reflexivity|]. now intros ? ?. }
      destruct (env id); [exact G|congruence]. }
  refine (proj1 (read_rel R (fun _ => True) (fun _ _ => I) dbg _ _ _ _ _ _ _)).
  - constructor.
    + intros k s1 s2 n v [-> Hs]. cbn [v_attribute mixed].
      destruct (attribute_in alg _ o env s2 n v Ho Hs) as [G1 G2].
      destruct (v_attribute (derived o alg env) s2 n v) as [r s']. cbn in *. split; [split; auto|]. now split.
    + intros k s1 s2 str p [-> Hs]. cbn [v_characters mixed].
      destruct (characters_in alg _ o env s2 str p Hs) as [G1 G2].
      destruct (v_characters (derived o alg env) s2 str p) as [r s']. cbn in *. split; [split; auto|]. now split.
    + intros k s1 s2 i [-> Hs]. cbn [v_element mixed]. rewrite <- generic_same.
      pose proof (element_rel R (fun _ => True) alg (known_ty env) _ _ Hd s2 i Hs) as G.
      destruct (gelement alg (mdeserialize _ o env P) s2 i), (gelement alg (deserialize o env) s2 i); cbn in *; try contradiction.
      * destruct G as [<- [_ G]]. destruct a as [r s']. cbn. split; [split; auto|]. now split.
      * intro x. destruct (G x) as [<- [_ G2]]. destruct (k0 x) as [r s']. cbn. split; [split; auto|]. now split.
      * destruct G as (k' & HR & G). exists k'. split; [exact HR|]. intros x a b Hab.
        destruct (G x a b Hab) as [<- [_ G2]]. destruct (k0 x a) as [r s']. cbn. split; [split; auto|]. now split.
  - intro i. eapply act_rel_amap; [apply Hd, Ht|]. intros [r l] b [<- G]. split; auto.
Qed.

(** ** Totality *)

Lemma propagating_amap {St A B} (fails : A -> Prop) (fails' : B -> Prop) (f : A -> B) (act : action St A) :
  propagating_act fails act -> (forall a, fails a -> fails' (f a)) -> propagating_act fails' (amap f act).
Proof. destruct act; cbn; auto. Qed.

Definition fails {A} (r : res verr A) : Prop := forall a, r <> Ok a.

Lemma fails_map {A B} (f : A -> B) r : fails r -> fails (map_ok f r).
Proof. destruct r; cbn; intros H b; try discriminate. now destruct (H a). Qed.

Section Propagating.
  Context {St : Type} (alg : bs_alg) (deser : ety -> einfo -> action St (res verr value * list value)).
  Hypothesis Hd : forall t i, propagating_act (fun a => fails (fst a)) (deser t i).

  Lemma gfield_init_propagating k t i : propagating_act (fun a => fails (fst a)) (gfield_init deser k t i).
  Proof. eapply propagating_amap; [apply Hd|]. intros [r l]. apply fails_map. Qed.

  Lemma gfield_update_propagating k t old i : propagating_act (fun a => fails (fst a)) (gfield_update deser k t old i).
  Proof.
    destruct k; try exact I. eapply propagating_amap; [apply Hd|]. intros [r l] H.
    destruct r; cbn in *; intros b E; try discriminate. now destruct (H a).
  Qed.

  Lemma genum_propagating e i act : genum_element alg deser e i = Some act ->
    propagating_act (fun a => fails (fst (fst a))) act.
  Proof.
    unfold genum_element. destruct (e_init e).
    - intros [= <-]. destruct (e_mem e) as [[| |j p| | | |]|]; try exact I.
      destruct (nth_error _ j) as [v|]; try exact I. destruct (find _ _ _) as [j'|]; try exact I.
      destruct (Nat.eqb j' j); try exact I. destruct (v_ty v) as [[k t]|]; try exact I. destruct p as [f|]; try exact I.
      eapply propagating_amap; [apply gfield_update_propagating|].
      intros [[r|r|r] l] H; cbn in *; intros b E; try discriminate. now destruct (H r).
    - destruct (find _ _ _) as [j|]; [|discriminate]. intros [= <-].
      destruct (nth_error _ j) as [v|]; try exact I. destruct (v_ty v) as [[k t]|]; [|exact I].
      eapply propagating_amap; [apply gfield_init_propagating|].
      intros [[r|r|r] l] H; cbn in *; intros b E; try discriminate. now destruct (H r).
  Qed.

  Lemma gdelegate_propagating ss i act : gdelegate_element alg deser ss i = Some act ->
    propagating_act (fun a => fails (fst (fst a))) act.
  Proof.
    revert act. induction ss as [|s ss IH]; cbn [gdelegate_element]; intros act; [discriminate|].
    assert (Hrest : forall act, option_map (amap (fun '(r, ss'', l) => (r, s :: ss'', l))) (gdelegate_element alg deser ss i) = Some act ->
      propagating_act (fun a => fails (fst (fst a))) act).
    { intros act0. destruct (gdelegate_element alg deser ss i) as [a|]; cbn; [|discriminate]. intros [= <-].
      eapply propagating_amap; [apply IH; reflexivity|]. now intros [[r ss'] l]. }
    destruct s as [pr m|e]; auto.
    destruct (genum_element alg deser e i) eqn:E; auto. intros [= <-].
    eapply propagating_amap; [eapply genum_propagating; eauto|]. now intros [[r ss'] l].
  Qed.

  Lemma gelement_propagating s i : propagating_act (fun a => fails (fst a)) (gelement alg deser s i).
  Proof.
    unfold gelement. destruct (vs_kind s) as [fs ss|e].
    - unfold gstruct_element. destruct (find_field alg is_element fs _) as [p|].
      + destruct (nth_error fs p) as [[nm [] d]|]; try exact I.
        destruct (nth_error ss p) as [[pr m|]|]; try exact I.
        eapply propagating_amap with (fails := fun a => fails (fst (fst a))).
        * unfold gelement_field. destruct pr.
          -- destruct m; try exact I. eapply propagating_amap; [apply gfield_update_propagating|].
             intros [[r|r|r] l] H; cbn in *; intros b E; try discriminate. now destruct (H r).
          -- eapply propagating_amap; [apply gfield_init_propagating|].
             intros [[r|r|r] l] H; cbn in *; intros b E; try discriminate. now destruct (H r).
        * intros [[r sl] l]. cbn. apply fails_map.
      + destruct (gdelegate_element alg deser ss i) as [act|] eqn:E; [|exact I].
        apply gdelegate_propagating in E. eapply propagating_amap; [exact E|]. intros [[r sl] l]. cbn. apply fails_map.
    - destruct (genum_element alg deser e i) as [act|] eqn:E; [|exact I].
      apply genum_propagating in E. eapply propagating_amap; [exact E|]. intros [[r sl] l]. cbn. apply fails_map.
  Qed.
End Propagating.

Section Total.
  Context {U : Type} (o : oracles) (alg : bs_alg) (env : tenv) (P : user U).
  Context (odd : forall A, res verr A).
  Hypothesis Hodd : forall A, fails (odd A).

  Lemma known_propagating t i : propagating_act (fun a => fails (fst a)) (known_deserialize (U := U) odd o env t i).
  Proof.
    destruct t as [t|id]; cbn; [intros e a; discriminate|].
    destruct (new_visitor env id); cbn; [|exact I]. intros e [s|u] a; [discriminate|apply Hodd].
  Qed.

  Lemma lower_propagating {A} (bad : A -> Prop) ab odda act i :
    hands_on bad act -> bad odda -> (forall x, bad (ab x)) ->
    propagating_act bad (lower (U := U) odd o env ab odda act i).
  Proof.
    intros H Ho1 Hab. destruct act; cbn in *; auto.
    - intros e [s|u]; auto.
    - eapply propagating_amap; [apply known_propagating|]. intros [r l] G. destruct r; auto. now destruct (G a).
  Qed.

  Lemma mdeser_propagating t i : strict P -> propagating_act (fun a => fails (fst a)) (mdeserialize odd o env P t i).
  Proof.
    intros [H _]. destruct t as [t|id]; [apply known_propagating|]. cbn [mdeserialize].
    destruct (env id); [apply known_propagating|]. destruct (u_type P id) as [D|] eqn:E; [|apply known_propagating].
    eapply propagating_amap; [apply (lower_propagating fails)|]; auto.
    - exact (H id D i E).
    - intros x a; discriminate.
  Qed.

  Lemma mixed_propagating : strict P -> propagating (mixed odd o alg env P).
  Proof.
    intros HS [s|u] i; cbn [v_element mixed].
    - eapply propagating_amap; [apply gelement_propagating; intros; now apply mdeser_propagating|]. now intros [r s'].
    - eapply propagating_amap; [apply (lower_propagating (fun a => fails (fst a)))|].
      + destruct HS as [_ H]. exact (H u i).
      + intros a; apply Hodd.
      + intros x a; discriminate.
      + now intros [r u'].
  Qed.

End Total.

Theorem mixed_total {U} o alg env (P : user U) dbg t src fin :
  program env P (fun _ => False) -> oracles_total o -> has_deserialize env P t ->
  (dbg = true -> strict P) -> deliverable src fin ->
  no_abort (read_mixed o alg env P dbg t src fin).
Proof.
  intros HP Ho Ht HS Hdel. unfold read_mixed.
  set (odd := fun A => Err (Wrap "") : res verr A).
  assert (Hf : forall A, fails (odd A)) by (intros A a; discriminate).
  assert (HP' : program env P (fun x => reader_abort x)).
  { eapply program_mono; [|exact HP]. intros x []. }
  destruct (mixed_safe o alg env P _ (fun A => Abort ill_typed) odd dbg t src fin HP' Ho (fun x H => H) Ht) as [-> _].
  assert (H1 : forall k s, minv env P s -> both env P true k s s) by (intros; split; auto).
  assert (H2 : forall k s1 s2, both env P true k s1 s2 -> minv env P s1) by (intros k s1 s2 (_ & H & _); exact H).
  assert (Hodd : true = true -> forall A, same (within (fun _ => False)) (odd A) (odd A)).
  { intros _ A. split; auto. intros x. discriminate. }
  pose proof (mixed_rel o alg env P _ HP Ho true odd odd Hodd) as [V1 V2 V3].
  apply read_total with (Inv := minv env P); auto.
  - intro Hd. split; [now apply mixed_propagating, HS|]. intro i.
    eapply propagating_amap; [apply mdeser_propagating; [exact Hf|exact (HS Hd)]|]. now intros [r l].
  - constructor.
    + intros s n v Hs. destruct (V1 true s s n v (H1 _ _ Hs)) as [[_ G1] G2]. split; [exact G1|]. eapply H2; eauto.
    + intros s str p Hs. destruct (V2 true s s str p (H1 _ _ Hs)) as [[_ G1] G2]. split; [exact G1|]. eapply H2; eauto.
    + intros s i Hs. pose proof (V3 true s s i (H1 _ _ Hs)) as G.
      destruct (v_element _ s i); cbn in *.
      * destruct G as [[_ G1] G2]. split; [exact G1|]. eapply H2; eauto.
      * intro x. destruct (G x) as [[_ G1] G2]. split; [exact G1|]. eapply H2; eauto.
      * destruct G as (k' & HR & G). split; [eapply H2; eauto|]. intros x s' Hs'.
        destruct (G x s' s' (H1 _ _ Hs')) as [[_ G1] G2]. split; [exact G1|]. eapply H2; eauto.
  - intro i. pose proof (root_rel o env P _ HP Ho true odd odd Hodd t i Ht) as G.
    destruct (mixed_root odd o env P t i); cbn in *.
    + intros x E. now destruct G as [_ G]; apply (G x).
    + intros y x E. destruct (G y) as [_ G']. now apply (G' x).
    + destruct G as (k' & HR & G). split; [eapply H2; eauto|]. intros y s' Hs' x E.
      destruct (G y s' s' (H1 _ _ Hs')) as [_ G']. now apply (G' x).
Qed.
