(** Programs that neither catch panics nor call derived visitors are read as in DeriveMixed.v. *)
From Verif Require Import Base Normalize Text Find FindProofs Types Reader ReaderRel DeriveDe DeSpec DeMain DeTotal
  DeriveMixed MixedSpec MixedProofs Catch CatchSpec CatchOk CatchRel Visitor VisitorSpec VisitorSafe.

Lemma amap_amap {St A B C} (f : B -> C) (g : A -> B) (a : action St A) : amap f (amap g a) = amap (fun x => f (g x)) a.
Proof. destruct a; reflexivity. Qed.

(** ** What [element] does with the result of [T::deserialize] *)

Section Form.
  Context (alg : bs_alg).

  Definition enum_form (e : estate) (i : einfo) : Prop :=
    (forall St deser, genum_element (St := St) alg deser e i = None) \/
    (exists r e', forall St deser, genum_element (St := St) alg deser e i = Some (ANoRead (r, e', []))) \/
    (exists t h, (forall y, h (Abort y) = (Abort y, e)) /\ forall St deser, exists f,
       (forall r l, f (r, l) = (fst (h r), snd (h r), l)) /\
       genum_element (St := St) alg deser e i = Some (amap f (deser t i))).

  Lemma enum_has_form e i : enum_form e i.
  Proof.
    unfold enum_form, genum_element. destruct (e_init e).
    - right.
      assert (N : forall r e' (a : forall St (deser : ety -> einfo -> action St (res verr value * list value)), action St (res verr unit * estate * list value)),
        (forall St deser, a St deser = ANoRead (r, e', [])) ->
        (exists r e', forall St deser, Some (a St deser) = Some (ANoRead (r, e', []))) \/
        (exists t h, (forall y, h (Abort y) = (Abort y, e)) /\ forall St (deser : ety -> einfo -> action St (res verr value * list value)), exists f,
           (forall r l, f (r, l) = (fst (h r), snd (h r), l)) /\ Some (a St deser) = Some (amap f (deser t i)))).
      { intros r e' a H. left. exists r, e'. intros. now rewrite H. }
      destruct (e_mem e) as [[| |j p| | | |]|]; try (eapply N; intros; reflexivity).
      destruct (nth_error _ _) as [v|]; [|eapply N; intros; reflexivity].
      destruct (find _ _ _) as [j'|]; [|eapply N; intros; reflexivity].
      destruct (Nat.eqb _ _); [|eapply N; intros; reflexivity].
      destruct (v_ty v) as [[k t]|]; [|eapply N; intros; reflexivity].
      destruct p as [old|]; [|eapply N; intros; reflexivity].
      destruct k; [eapply N; intros; reflexivity..|]. right.
      exists t, (fun r => match bind r (push_value old) with
                          | Ok f' => (Ok tt, e_set e (VEnum j (Some f')))
                          | Err err => (Err err, e)
                          | Abort x => (Abort x, e)
                          end).
      split; [reflexivity|]. intros St deser. eexists. split.
      2:{ cbn [gfield_update]. rewrite amap_amap. reflexivity. }
      intros r l. cbn. destruct (bind r (push_value old)); reflexivity.
    - destruct (find _ _ _) as [j|]; [|left; reflexivity]. right.
      destruct (nth_error _ _) as [v|]; [|left; do 2 eexists; intros; reflexivity].
      destruct (v_ty v) as [[k t]|].
      + right. exists t, (fun r => match r with
                                   | Ok f => match e_mem e with
                                             | None => (Ok tt, e_set e (VEnum j (Some (init_value k f))))
                                             | Some _ => (Abort overwritten, e)
                                             end
                                   | Err err => (Err err, e)
                                   | Abort x => (Abort x, e)
                                   end).
        split; [reflexivity|]. intros St deser. eexists. split.
        2:{ unfold gfield_init. rewrite amap_amap. reflexivity. }
        intros r l. cbn. destruct r; cbn; [destruct (e_mem e)|..]; reflexivity.
      + left. destruct (e_mem e); do 2 eexists; intros; reflexivity.
  Qed.

  Definition delegate_form (ss : list slot) (i : einfo) : Prop :=
    (forall St deser, gdelegate_element (St := St) alg deser ss i = None) \/
    (exists r ss', forall St deser, gdelegate_element (St := St) alg deser ss i = Some (ANoRead (r, ss', []))) \/
    (exists t h, (forall y, h (Abort y) = (Abort y, ss)) /\ forall St deser, exists f,
       (forall r l, f (r, l) = (fst (h r), snd (h r), l)) /\
       gdelegate_element (St := St) alg deser ss i = Some (amap f (deser t i))).

  Lemma delegate_has_form ss i : delegate_form ss i.
  Proof.
    induction ss as [|s ss IH]; [left; reflexivity|].
    assert (H : forall (a : forall St (deser : ety -> einfo -> action St (res verr value * list value)), option (action St (res verr unit * list slot * list value))),
      (forall St deser, a St deser = option_map (amap (fun '(r, ss'', l) => (r, s :: ss'', l))) (gdelegate_element alg deser ss i)) ->
      (forall St deser, a St deser = None) \/
      (exists r ss', forall St deser, a St deser = Some (ANoRead (r, ss', []))) \/
      (exists t h, (forall y, h (Abort y) = (Abort y, s :: ss)) /\ forall St deser, exists f,
         (forall r l, f (r, l) = (fst (h r), snd (h r), l)) /\ a St deser = Some (amap f (deser t i)))).
    { intros a Ha. destruct IH as [IH|[(r & ss' & IH)|(t & h & Hh & IH)]].
      - left. intros. now rewrite Ha, IH.
      - right. left. exists r, (s :: ss'). intros. now rewrite Ha, IH.
      - right. right. exists t, (fun r => (fst (h r), s :: snd (h r))). split; [intro; now rewrite Hh|].
        intros St deser. destruct (IH St deser) as (f & Hf & E). eexists. split.
        2:{ rewrite Ha, E. cbn [option_map]. rewrite amap_amap. reflexivity. }
        intros r l. cbn. now rewrite Hf. }
    unfold delegate_form. cbn [gdelegate_element]. destruct s as [pr m|e]; [apply H; reflexivity|].
    destruct (enum_has_form e i) as [E|[(r & e' & E)|(t & h & Hh & E)]].
    - apply H. intros. now rewrite E.
    - right. left. exists r, (SFlat e' :: ss). intros. now rewrite E.
    - right. right. exists t, (fun r => (fst (h r), SFlat (snd (h r)) :: ss)). split; [intro; now rewrite Hh|].
      intros St deser. destruct (E St deser) as (f & Hf & E1). eexists. split.
      2:{ rewrite E1, amap_amap. reflexivity. }
      intros r l. cbn. now rewrite Hf.
  Qed.

  Definition element_form (k : vkind) (i : einfo) : Prop :=
    (exists r k', forall St deser lk, gelement (St := St) alg deser (VState k lk) i = ANoRead (r, VState k' lk)) \/
    (exists t h, (forall y, h (Abort y) = (Abort y, k)) /\ forall St deser lk, exists f,
       (forall r l, f (r, l) = (fst (h r), VState (snd (h r)) (l ++ lk))) /\
       gelement (St := St) alg deser (VState k lk) i = amap f (deser t i)).

  Lemma element_has_form k i : element_form k i.
  Proof.
    unfold element_form, gelement. cbn [vs_kind]. destruct k as [fs ss|e].
    - unfold gstruct_element. destruct (find_field _ _ _ _) as [p|].
      + destruct (nth_error fs p) as [[nm [k t|opt t|id|t] d]|] eqn:Ef; try (left; do 2 eexists; intros; reflexivity).
        destruct (nth_error ss p) as [[pr mem|e]|] eqn:Ep; try (left; do 2 eexists; intros; reflexivity).
        assert (Hset : set_nth p (SField pr mem) ss = ss) by now apply set_nth_self.
        unfold gelement_field. destruct pr.
        * destruct mem as [old|]; [|left; do 2 eexists; intros; reflexivity].
          destruct k; [left; do 2 eexists; intros; reflexivity..|]. right.
          exists t, (fun r => match bind r (push_value old) with
                              | Ok v => (Ok false, VkStruct fs (set_nth p (SField true (Some v)) ss))
                              | Err err => (Err err, VkStruct fs ss)
                              | Abort x => (Abort x, VkStruct fs ss)
                              end).
          split; [reflexivity|]. intros St deser lk. eexists. split.
          2:{ cbn [gfield_update]. rewrite !amap_amap. reflexivity. }
          intros r l. cbn. destruct (bind r (push_value old)); cbn; now rewrite ?Hset.
        * right. exists t, (fun r => match bind (map_ok (init_value k) r) (write_mem mem) with
                                     | Ok mem' => (Ok false, VkStruct fs (set_nth p (SField true mem') ss))
                                     | Err err => (Err err, VkStruct fs ss)
                                     | Abort x => (Abort x, VkStruct fs ss)
                                     end).
          split; [reflexivity|]. intros St deser lk. eexists. split.
          2:{ unfold gfield_init. rewrite !amap_amap. reflexivity. }
          intros r l. cbn. destruct (bind (map_ok (init_value k) r) (write_mem mem)); cbn; now rewrite ?Hset.
      + destruct (delegate_has_form ss i) as [E|[(r & ss' & E)|(t & h & Hh & E)]].
        * left. do 2 eexists. intros. rewrite E. reflexivity.
        * left. do 2 eexists. intros. rewrite E. reflexivity.
        * right. exists t, (fun r => (map_ok (fun _ => false) (fst (h r)), VkStruct fs (snd (h r)))).
          split; [intro; now rewrite Hh|]. intros St deser lk. destruct (E St deser) as (f & Hf & E1). eexists. split.
          2:{ rewrite E1, amap_amap. reflexivity. }
          intros r l. cbn. now rewrite Hf.
    - destruct (enum_has_form e i) as [E|[(r & e' & E)|(t & h & Hh & E)]].
      + left. do 2 eexists. intros. rewrite E. reflexivity.
      + left. do 2 eexists. intros. rewrite E. reflexivity.
      + right. exists t, (fun r => (map_ok (fun _ => false) (fst (h r)), VkEnum (snd (h r)))).
        split; [intro; now rewrite Hh|]. intros St deser lk. destruct (E St deser) as (f & Hf & E1). eexists. split.
        2:{ rewrite E1, amap_amap. reflexivity. }
        intros r l. cbn. now rewrite Hf.
  Qed.
End Form.

(** ** Programs *)

Section Same.
  Context {U : Type} (o : oracles) (alg : bs_alg) (env : tenv) (P : user U) (Q : abort -> Prop).
  Hypothesis HP : program env P Q.

  Notation kn := (has_deserialize env P).
  Notation odd := (fun A => Abort ill_typed : res verr A).
  Notation any := (fun _ : abort => True).

  Definition srel (derived : bool) (s1 : hstate U) (s2 : mstate U) : Prop :=
    match derived, s1, s2 with
    | true, HDerived w, MDerived s => exists s0, state_of o alg env w = Some s0 /\ vs_kind s0 = vs_kind s /\ inv kn s0
    | false, HUser u, MUser u' => u = u'
    | _, _, _ => False
    end.

  Lemma finalize_none s s0 : vs_kind s0 = vs_kind s -> finalize_with None s0 = fst (finalize s).
  Proof.
    intro E. unfold finalize_with, finalize. rewrite E. destruct (vs_kind s) as [fs ss|e].
    - destruct (finalize_slots fs ss) as [[[]| |] ss']; reflexivity.
    - unfold enum_finalize. destruct (e_init e); reflexivity.
  Qed.

  (** A [deserialize] as in DeriveMixed.v. *)
  Definition unwound (a : action (mstate U) (res verr value * list value)) : caction (mstate U) (res verr value) :=
    unwinding_act a (fun m _ => Abort (Panic m)) fst.

  Lemma known_same des t i : known_ty env t ->
    cact_rel srel any eq (hdeserialize1 o alg env (rethrowing P) des t i) (unwound (known_deserialize odd o env t i)).
  Proof.
    destruct t as [t|id]; cbn [known_ty hdeserialize1 known_deserialize]; intro Hk.
    - intros x _. destruct x as [s|[e|m]]; reflexivity.
    - destruct (new_visitor_in env P Q HP id Hk) as (s0 & E & Hi). rewrite E.
      assert (H : cact_rel srel any eq
        (CReadTo (HDerived (DVisitor id [])) (fun x s =>
            match s with
            | HDerived w => bind (as_res x) (fun _ => reply_finalize o alg env w None)
            | HUser _ => Abort ill_typed
            end))
        (unwound (AReadTo (MDerived s0) (fun x s =>
            match s with
            | MDerived s => match x with inl _ => finalize s | inr e => (Err e, live s) end
            | MUser _ => (Abort ill_typed, [])
            end)))).
      { exists true. split; [exists s0; unfold state_of; cbn; now rewrite E|].
        intros x s1 s2 _ Hs. destruct s1 as [w|u], s2 as [s|u']; cbn in Hs; try contradiction.
        destruct Hs as (s1 & Es & Ek & _). destruct x as [v|[e|m]]; cbn; auto.
        unfold reply_finalize. rewrite Es. now apply finalize_none. }
      destruct (env id) eqn:Ee; [|contradiction]. exact H.
  Qed.

  (** A hand-written decision, under what [c1] and [c2] make of its result. *)
  Lemma lower_same {A B1 B2} (G : B1 -> B2 -> Prop) (c1 : A -> B1) (c2 : A -> B2) ab des act i (panics : string -> B2) :
    (forall a, G (c1 a) (c2 a)) -> (forall m, G (c1 (ab (Panic m))) (panics m)) ->
    (forall t, known_ty env t -> cact_rel srel any eq (des t i) (unwound (known_deserialize odd o env t i))) ->
    every env (fun _ => True) act ->
    cact_rel srel any G
      (camap c1 (hlower o alg env des ab i (rethrowing_act ab act)))
      (unwinding_act (lower odd o env ab (ab ill_typed) act i) (fun m _ => panics m) c2).
  Proof.
    intros Hc Hp Hd He. destruct act as [a|k|u0 k|t k]; cbn [rethrowing_act hlower lower camap unwinding_act].
    - apply Hc.
    - intros x _. destruct x as [s|[e|m]]; cbn; auto. destruct (_ || _); apply Hp.
    - exists false. split; [reflexivity|]. intros x s1 s2 _ Hs. destruct s1 as [w|u], s2 as [s|u']; cbn in Hs; try contradiction.
      subst u'. destruct x as [s|[e|m]]; cbn; auto. destruct (_ || _); apply Hp.
    - destruct He as [Hk _]. specialize (Hd t Hk).
      assert (K : forall r, catching ab (fun x => match x with inl v => k (inl v) | inr (Failed e) => k (inr e) | inr (Panicked m) => ab (Panic m) end) r =
        match r with Ok v => k (inl v) | Err e => k (inr e) | Abort x => ab x end).
      { intros [v|e|x]; auto. cbn. unfold is_panic. destruct x as [m| |]; auto. destruct (_ || _); reflexivity. }
      destruct (known_deserialize odd o env t i) as [[r l]|k2|s2 k2], (des t i) as [r1|k1|s1 k1]; cbn in Hd; try contradiction; cbn [camap amap unwinding_act cact_rel].
      + subst r1. rewrite K. apply Hc.
      + intros x Hx. rewrite (Hd x Hx), K. destruct x as [s|[e|m]]; [destruct (k2 (inl s))|destruct (k2 (inr e))|]; cbn; auto.
      + destruct Hd as (b & Hs & Hd). exists b. split; [exact Hs|]. intros x t1 t2 Hx Ht. rewrite (Hd x t1 t2 Hx Ht), K.
        destruct x as [s|[e|m]]; [destruct (k2 (inl s) t2)|destruct (k2 (inr e) t2)|]; cbn; auto.
  Qed.

  Lemma unwinding_amap {St A B C} (g : A -> B) (f : B -> C) p (a : action St A) :
    unwinding_act (amap g a) p f = unwinding_act a p (fun x => f (g x)).
  Proof. destruct a; reflexivity. Qed.

  Lemma camap_id {St A} (a : caction St A) : camap (fun x => x) a = a.
  Proof. destruct a; reflexivity. Qed.

  Lemma mdeserialize_same des t i : kn t ->
    (forall t, known_ty env t -> cact_rel srel any eq (des t i) (unwound (known_deserialize odd o env t i))) ->
    cact_rel srel any eq (hdeserialize1 o alg env (rethrowing P) des t i) (unwound (mdeserialize odd o env P t i)).
  Proof.
    intros Hk Hd. destruct t as [t|id]; [now apply known_same|]. cbn [mdeserialize]. cbn in Hk.
    destruct (env id) eqn:Ee.
    - apply known_same. cbn. congruence.
    - destruct (u_type P id) as [D|] eqn:Eu; [|tauto]. cbn [hdeserialize1 rethrowing h_type]. rewrite Ee, Eu. cbn [option_map].
      unfold unwound. rewrite unwinding_amap. cbn [fst]. rewrite <- (camap_id (hlower _ _ _ _ _ _ _)).
      apply (lower_same eq (fun x => x) (fun x => x) Abort des (D i) i (fun m => Abort (Panic m))); auto.
      eapply every_mono; [|exact (p_type _ _ _ HP id D i Eu)]. auto.
  Qed.

  Lemma hdeserialize_same fuel t i : kn t ->
    cact_rel srel any eq (hdeserialize o alg env (rethrowing P) (S (S fuel)) t i) (unwound (mdeserialize odd o env P t i)).
  Proof.
    intro Hk. apply mdeserialize_same; [exact Hk|]. intros t' Hk'. now apply known_same.
  Qed.

  Definition step_rel (a : res verr bool * dvisitor) (b : res verr bool * mstate U) : Prop :=
    fst a = fst b /\ srel true (HDerived (snd a)) (snd b).

  Lemma state_called w s0 i r : state_of o alg env w = Some s0 ->
    state_of o alg env (called w (CallElement i r)) = Some (snd (element_reply alg s0 i r)).
  Proof. intro E. now rewrite fold_state, E. Qed.

  Lemma kind_eta s : VState (vs_kind s) (vs_leaked s) = s.
  Proof. now destruct s. Qed.

  Lemma call_same des w s i : srel true (HDerived w) (MDerived s) ->
    (forall t, kn t -> cact_rel srel any eq (des t i) (unwound (mdeserialize odd o env P t i))) ->
    cact_rel srel any step_rel (call_element o alg env des w i)
      (unwinding_act (gelement alg (mdeserialize odd o env P) s i) (fun m _ => (Abort (Panic m), MDerived s))
         (fun '(r, s') => (r, MDerived s'))).
  Proof.
    intros (s0 & Es & Ek & Hi) Hd. unfold call_element. rewrite Es.
    assert (R : forall r r' k' lk, element_reply alg s0 i r = (r', VState k' (vs_leaked s0)) ->
      step_rel (reply_element o alg env w i r, called w (CallElement i r)) (r', MDerived (VState k' lk))).
    { intros r r' k' lk E. split; cbn.
      - unfold reply_element. now rewrite Es, E.
      - exists (VState k' (vs_leaked s0)). rewrite (state_called w s0 i r Es), E. split; [reflexivity|]. split; [reflexivity|].
        pose proof (proj2 (reply_inv alg kn s0 i r Hi)) as H. now rewrite E in H. }
    destruct (element_has_form alg (vs_kind s) i) as [(r' & k' & E)|(t & h & Hh & E)].
    - assert (Ea : asks alg s0 i = None).
      { unfold asks. rewrite <- (kind_eta s0), Ek, E. reflexivity. }
      rewrite Ea. rewrite <- (kind_eta s), E. cbn. apply R.
      unfold element_reply. rewrite <- (kind_eta s0) at 1. rewrite Ek, E. reflexivity.
    - assert (Er : forall r, element_reply alg s0 i r = (fst (h r), VState (snd (h r)) (vs_leaked s0))).
      { intro r. unfold element_reply. destruct (E unit (fun _ _ => ANoRead (r, [])) (vs_leaked s0)) as (f & Hf & E1).
        rewrite <- (kind_eta s0) at 1. rewrite Ek, E1. cbn. now rewrite Hf. }
      assert (Ea : asks alg s0 i = Some t).
      { unfold asks. destruct (E ety (fun t _ => AReadTo t (fun _ _ => (Err (Wrap ""), []))) (vs_leaked s0)) as (f & Hf & E1).
        rewrite <- (kind_eta s0), Ek, E1. reflexivity. }
      rewrite Ea. specialize (Hd t (asks_known alg kn s0 i t Hi Ea)).
      destruct (E _ (mdeserialize odd o env P) (vs_leaked s)) as (f & Hf & E1). rewrite <- (kind_eta s) at 1. rewrite E1, unwinding_amap.
      assert (G : forall a : res verr value * list value,
        step_rel (reply_element o alg env w i (fst a), called w (CallElement i (fst a))) (let '(r, s') := f a in (r, MDerived s'))).
      { intros [r l]. rewrite Hf. cbn [fst]. apply R, Er. }
      assert (A : forall m, step_rel (reply_element o alg env w i (Abort (Panic m)), called w (CallElement i (Abort (Panic m))))
        (Abort (Panic m), MDerived s)).
      { intro m. rewrite <- (kind_eta s). apply R. now rewrite Er, Hh. }
      destruct (mdeserialize odd o env P t i) as [a|k2|s2 k2], (des t i) as [r1|k1|s1 k1]; cbn in Hd; try contradiction;
        cbn [camap unwinding_act cact_rel].
      + subst r1. apply G.
      + intros x Hx. rewrite (Hd x Hx). destruct x as [x|[e|m]]; auto.
      + destruct Hd as (b & Hs & Hd). exists b. split; [exact Hs|]. intros x t1 t2 Hx Ht. rewrite (Hd x t1 t2 Hx Ht).
        destruct x as [x|[e|m]]; auto.
  Qed.

  Lemma agree_any {E A} (r1 r2 : res E A) : r1 = r2 -> agree any r1 r2.
  Proof. intros ->. now split. Qed.

  Lemma cact_impl {S1 S2 K A1 A2} (R : K -> S1 -> S2 -> Prop) (G G' : A1 -> A2 -> Prop) a1 a2 :
    (forall x y, G x y -> G' x y) -> cact_rel R any G a1 a2 -> cact_rel R any G' a1 a2.
  Proof.
    intro H. destruct a1, a2; cbn; try contradiction; auto. intros (k' & H1 & H2). exists k'. auto.
  Qed.

  Lemma cact_camap {S1 S2 K A1 A2 B} (R : K -> S1 -> S2 -> Prop) (G : A1 -> A2 -> Prop) (G' : B -> A2 -> Prop) (f : A1 -> B) a1 a2 :
    (forall x y, G x y -> G' (f x) y) -> cact_rel R any G a1 a2 -> cact_rel R any G' (camap f a1) a2.
  Proof.
    intro H. destruct a1, a2; cbn; try contradiction; auto. intros (k' & H1 & H2). exists k'. auto.
  Qed.

  Lemma visitors_same fuel : cvis_rel srel any (hvisitors o alg env (rethrowing P) (S (S fuel))) (unwinding (mixed odd o alg env P)).
  Proof.
    constructor.
    - intros [|] s1 s2 n v Hs; destruct s1 as [w|u], s2 as [s|u']; cbn in Hs; try contradiction; cbn [c_attribute hvisitors unwinding mixed v_attribute].
      + destruct Hs as (s0 & Es & Ek & Hi).
        assert (E : fst (v_attribute (derived o alg env) s0 n v) = fst (v_attribute (derived o alg env) s n v) /\
          vs_kind (snd (v_attribute (derived o alg env) s0 n v)) = vs_kind (snd (v_attribute (derived o alg env) s n v))).
        { cbn. rewrite Ek. destruct (vs_kind s) as [fs ss|e] eqn:E; [|now split].
          unfold struct_attribute, put. rewrite Ek, E. destruct (find_field _ _ _ _) as [p|].
          - destruct (nth_error fs p) as [[nm [|opt t| |] d]|]; try solve [split; cbn; congruence]. destruct (nth_error ss p) as [[present mem|]|]; try solve [split; cbn; congruence].
            destruct (attribute_field o n opt t present mem v); now split.
          - destruct (delegate _ _ _); now split. }
        destruct (v_attribute (derived o alg env) s n v) as [r s']. cbn [fst snd] in *. destruct E as [E1 E2].
        split; [apply agree_any; cbn; unfold reply_attribute; now rewrite Es|].
        exists (snd (v_attribute (derived o alg env) s0 n v)). split; [now rewrite fold_state, Es|]. split; [exact E2|].
        now apply attribute_inv.
      + subst u'. cbn. destruct (u_attribute P u n v) as [r u']. now split; [apply agree_any|].
    - intros [|] s1 s2 n v Hs; destruct s1 as [w|u], s2 as [s|u']; cbn in Hs; try contradiction; cbn [c_characters hvisitors unwinding mixed v_characters].
      + destruct Hs as (s0 & Es & Ek & Hi). rewrite characters_trace. cbn [fst snd].
        split; [apply agree_any; unfold reply_characters; now rewrite Es, characters_trace|].
        exists s0. split; [|now split]. rewrite fold_state, Es. cbn [option_map after]. now rewrite characters_trace.
      + subst u'. cbn. destruct (u_characters P u n v) as [r u']. now split; [apply agree_any|].
    - intros [|] s1 s2 i Hs; destruct s1 as [w|u], s2 as [s|u']; cbn in Hs; try contradiction; cbn [c_element hvisitors unwinding mixed v_element];
        rewrite unwinding_amap.
      + eapply cact_camap; [|apply call_same; [exact Hs|intros; now apply hdeserialize_same]].
        intros [r w'] [r' s'] [H1 H2]. cbn in *. subst r'. split; [now apply agree_any|exact H2].
      + subst u'. apply (lower_same (fun a b => agree any (fst a) (fst b) /\ srel false (snd a) (snd b))
          (fun '(r, u') => (r, HUser u')) (fun '(r, u') => (r, MUser u')) (fun x => (Abort x, u)) _ _ _ (fun m => (Abort (Panic m), MUser u))).
        * intros [r u']. split; [now apply agree_any|reflexivity].
        * intro m. split; [now apply agree_any|reflexivity].
        * intros t Hk. now apply known_same.
        * eapply every_mono; [|exact (p_element _ _ _ HP u i)]. auto.
  Qed.

  Theorem hread_same fuel dbg t src fin : kn t ->
    hread o alg env (rethrowing P) (S (S fuel)) dbg t src fin = read_mixed o alg env P dbg t src fin.
  Proof.
    intro Hk. unfold read_mixed, read_with. rewrite <- unwinding_read. unfold hread.
    apply (cread_rel srel any (fun _ _ => I) dbg _ _ (visitors_same fuel)).
    intro i. unfold unwinding_root, mixed_root. rewrite unwinding_amap.
    eapply cact_impl; [|apply hdeserialize_same, Hk]. intros x y ->. now apply agree_any.
  Qed.
End Same.
