(** What programs with hand-written [Deserialize] implementations leak: proofs. *)
From Coq Require Import Lia.
From Verif Require Import Base Normalize Text TextProofs Find FindProofs Types Reader ReaderSpec ReaderProofs ReaderMore
  ReaderTotal ReaderRel DeriveDe DeSpec DeDet DeProofs DeMain DeTotal DeProps DeriveMixed MixedSpec MixedProofs
  MixedUser ErrSpec LeakSpec ErrProofs LeakProofs MixedLeak.

(** ** Recording does not change what is read *)

Section Erase.
  Context {S1 S2 K : Type} (R : K -> S1 -> S2 -> Prop) (alg : bs_alg).
  Context (deser1 : ety -> einfo -> action S1 (res verr value * list value)).
  Context (deser2 : ety -> einfo -> action S2 (res verr value * list value)).

  Definition unrecorded {A} (a b : A * list value) : Prop := fst a = fst b.

  Hypothesis Hd : forall t i, act_rel R unrecorded (deser1 t i) (deser2 t i).

  Lemma init_erase k t i : act_rel R unrecorded (gfield_init deser1 k t i) (gfield_init deser2 k t i).
  Proof.
    eapply act_rel_amap; [apply Hd|]. intros [r1 l1] [r2 l2] E. unfold unrecorded in *. cbn in *. now subst.
  Qed.

  Lemma update_erase k t old i : act_rel R unrecorded (gfield_update deser1 k t old i) (gfield_update deser2 k t old i).
  Proof.
    destruct k; cbn [gfield_update]; try reflexivity.
    eapply act_rel_amap; [apply Hd|]. intros [r1 l1] [r2 l2] E. unfold unrecorded in *. cbn in *. now subst.
  Qed.

  Definition opt_erase {A} (a1 : option (action S1 (A * list value))) (a2 : option (action S2 (A * list value))) : Prop :=
    match a1, a2 with None, None => True | Some a1, Some a2 => act_rel R unrecorded a1 a2 | _, _ => False end.

  Lemma enum_erase e i : opt_erase (genum_element alg deser1 e i) (genum_element alg deser2 e i).
  Proof.
    unfold genum_element. destruct (e_init e).
    - cbn [opt_erase]. destruct (e_mem e) as [[| |j p| | | |]|]; try reflexivity.
      destruct (nth_error _ j) as [v|]; try reflexivity. destruct (find _ _ _) as [j'|]; try reflexivity.
      destruct (Nat.eqb j' j); try reflexivity. destruct (v_ty v) as [[k t]|]; try reflexivity.
      destruct p as [f|]; try reflexivity.
      eapply act_rel_amap; [apply update_erase|]. intros [r1 l1] [r2 l2] E. unfold unrecorded in *. cbn in *. subst.
      now destruct r2.
    - destruct (find _ _ _) as [j|]; [|exact I]. cbn [opt_erase]. destruct (nth_error _ j) as [v|]; try reflexivity.
      destruct (v_ty v) as [[k t]|]; [|reflexivity].
      eapply act_rel_amap; [apply init_erase|]. intros [r1 l1] [r2 l2] E. unfold unrecorded in *. cbn in *. subst.
      destruct r2; try reflexivity. now destruct (e_mem e).
  Qed.

  Lemma delegate_erase ss i : opt_erase (gdelegate_element alg deser1 ss i) (gdelegate_element alg deser2 ss i).
  Proof.
    induction ss as [|s ss IH]; [exact I|]. cbn [gdelegate_element].
    assert (Hrest : opt_erase
      (option_map (amap (fun '(r, ss'', l) => (r, s :: ss'', l))) (gdelegate_element alg deser1 ss i))
      (option_map (amap (fun '(r, ss'', l) => (r, s :: ss'', l))) (gdelegate_element alg deser2 ss i))).
    { destruct (gdelegate_element alg deser1 ss i), (gdelegate_element alg deser2 ss i); cbn in *; try contradiction; auto.
      eapply act_rel_amap; [exact IH|]. intros [[r1 s1] l1] [[r2 s2] l2] [= -> ->]. reflexivity. }
    destruct s as [pr m|e]; [exact Hrest|].
    pose proof (enum_erase e i) as HE.
    destruct (genum_element alg deser1 e i), (genum_element alg deser2 e i); cbn [opt_erase] in HE; try contradiction; [|exact Hrest].
    cbn [opt_erase]. eapply act_rel_amap; [exact HE|]. intros [[r1 s1] l1] [[r2 s2] l2] [= -> ->]. reflexivity.
  Qed.

  Lemma field_erase k t pr m i : act_rel R unrecorded (gelement_field deser1 k t pr m i) (gelement_field deser2 k t pr m i).
  Proof.
    unfold gelement_field. destruct pr.
    - destruct m; try reflexivity.
      eapply act_rel_amap; [apply update_erase|]. intros [r1 l1] [r2 l2] E. unfold unrecorded in *. cbn in *. subst.
      now destruct r2.
    - eapply act_rel_amap; [apply init_erase|]. intros [r1 l1] [r2 l2] E. unfold unrecorded in *. cbn in *. subst.
      now destruct (bind r2 (write_mem m)).
  Qed.

  Definition same_kind (a b : res verr bool * vstate) : Prop := fst a = fst b /\ vs_kind (snd a) = vs_kind (snd b).

  Lemma element_erase s1 s2 i : vs_kind s1 = vs_kind s2 ->
    act_rel R same_kind (gelement alg deser1 s1 i) (gelement alg deser2 s2 i).
  Proof.
    destruct s1 as [k1 l1], s2 as [k l2]. cbn [vs_kind]. intros ->. unfold gelement. cbn [vs_kind].
    destruct k as [fs ss|e].
    - unfold gstruct_element. destruct (find_field alg is_element fs _) as [p|].
      + destruct (nth_error fs p) as [[nm [] d]|]; try (split; reflexivity).
        destruct (nth_error ss p) as [[pr m|]|]; try (split; reflexivity).
        eapply act_rel_amap; [apply field_erase|]. intros [[r3 s3] l3] [[r4 s4] l4] [= -> ->]. split; reflexivity.
      + pose proof (delegate_erase ss i) as HD.
        destruct (gdelegate_element alg deser1 ss i), (gdelegate_element alg deser2 ss i); cbn [opt_erase] in HD; try contradiction.
        * eapply act_rel_amap; [exact HD|]. intros [[r3 s3] l3] [[r4 s4] l4] [= -> ->]. split; reflexivity.
        * split; reflexivity.
    - pose proof (enum_erase e i) as HD.
      destruct (genum_element alg deser1 e i), (genum_element alg deser2 e i); cbn [opt_erase] in HD; try contradiction.
      + eapply act_rel_amap; [exact HD|]. intros [[r3 s3] l3] [[r4 s4] l4] [= -> ->]. split; reflexivity.
      + split; reflexivity.
  Qed.
End Erase.

Lemma attribute_kind o alg env s1 s2 n v : vs_kind s1 = vs_kind s2 ->
  fst (v_attribute (derived o alg env) s1 n v) = fst (v_attribute (derived o alg env) s2 n v) /\
  vs_kind (snd (v_attribute (derived o alg env) s1 n v)) = vs_kind (snd (v_attribute (derived o alg env) s2 n v)).
Proof.
  destruct s1 as [k1 l1], s2 as [k l2]. cbn [vs_kind]. intros ->. cbn. destruct k as [fs ss|e].
  - unfold struct_attribute. destruct (find_field alg is_attribute fs n) as [p|].
    + destruct (nth_error fs p) as [[nm [] d]|]; try (split; reflexivity).
      destruct (nth_error ss p) as [[pr m|]|]; try (split; reflexivity).
      destruct (attribute_field o n opt t pr m v). split; reflexivity.
    + rewrite delegate_pass by reflexivity. split; reflexivity.
  - split; reflexivity.
Qed.

Lemma characters_kind o alg env s1 s2 str p : vs_kind s1 = vs_kind s2 ->
  fst (v_characters (derived o alg env) s1 str p) = fst (v_characters (derived o alg env) s2 str p) /\
  vs_kind (snd (v_characters (derived o alg env) s1 str p)) = vs_kind (snd (v_characters (derived o alg env) s2 str p)).
Proof.
  destruct s1 as [k1 l1], s2 as [k l2]. cbn [vs_kind]. intros ->. cbn. destruct k as [fs ss|e].
  - unfold struct_characters. rewrite delegate_pass by reflexivity. split; reflexivity.
  - split; reflexivity.
Qed.

Lemma finalize_kind s1 s2 : vs_kind s1 = vs_kind s2 -> fst (finalize s1) = fst (finalize s2).
Proof.
  destruct s1 as [k1 l1], s2 as [k l2]. cbn [vs_kind]. intros ->. unfold finalize. cbn [vs_kind vs_leaked].
  destruct k as [fs ss|e].
  - now destruct (finalize_slots fs ss) as [[[]|e|x] ss'].
  - now destruct (enum_finalize e).
Qed.

Section Recorded.
  Context {U : Type} (o : oracles) (alg : bs_alg) (env : tenv) (P : user U).

  Definition erased (_ : unit) (s1 : mstate (U * list value)) (s2 : mstate U) : Prop :=
    match s1, s2 with
    | MDerived a, MDerived b => vs_kind a = vs_kind b
    | MUser (u, _), MUser u' => u = u'
    | _, _ => False
    end.

  Lemma known_erase t i : act_rel erased unrecorded
    (known_deserialize (U := U * list value) odd o env t i) (known_deserialize (U := U) (fun _ => Abort ill_typed) o env t i).
  Proof.
    destruct t as [t|id]; cbn.
    - intros x. reflexivity.
    - destruct (new_visitor env id) as [s0|]; cbn; [|reflexivity]. exists tt. split; [reflexivity|].
      intros x [s1|[u l]] [s2|u'] H; cbn in H; try contradiction.
      + destruct x as [x|e]; [exact (finalize_kind _ _ H)|reflexivity].
      + reflexivity.
  Qed.

  Lemma lower_erase {A} ab (oddA : A) act i :
    act_rel erased (fun a b => fst a = b) (llower o env ab oddA act i) (lower (fun _ => Abort ill_typed) o env ab oddA act i).
  Proof.
    destruct act; cbn [llower lower].
    - reflexivity.
    - intro x. reflexivity.
    - exists tt. split; [reflexivity|]. intros x [s1|[u l]] [s2|u'] H; cbn in H; try contradiction; [reflexivity|now subst].
    - eapply act_rel_amap; [apply known_erase|]. intros [r1 l1] [r2 l2] E. unfold unrecorded in E. cbn in *. now subst.
  Qed.

  Lemma deser_erase t i : act_rel erased unrecorded (ldeserialize o env P t i) (mdeserialize (fun _ => Abort ill_typed) o env P t i).
  Proof.
    destruct t as [t|id]; [apply known_erase|]. cbn [ldeserialize mdeserialize].
    destruct (env id); [apply known_erase|]. destruct (u_type P id) as [D|]; [|apply known_erase].
    pose proof (lower_erase Abort (odd value) (D i) i) as H. unfold odd in *.
    destruct (llower o env Abort _ (D i) i), (lower _ o env Abort _ (D i) i); cbn in *; try contradiction.
    - exact H.
    - exact H.
    - destruct H as (k' & H1 & H2). exists k'. split; [exact H1|]. exact H2.
  Qed.

  Theorem recorded dbg t src fin : lread o alg env P dbg t src fin = read_mixed o alg env P dbg t src fin.
  Proof.
    unfold lread, read_mixed, read_with.
    refine (proj1 (read_rel erased anyhow (fun _ _ => I) dbg _ _ _ _ _ _ _)).
    - constructor.
      + intros k [s1|[u l]] [s2|u'] n v H; cbn in H; try contradiction; cbn [v_attribute mixed lmixed].
        * destruct (attribute_kind o alg env s1 s2 n v H) as [E1 E2].
          destruct (v_attribute (derived o alg env) s1 n v), (v_attribute (derived o alg env) s2 n v). cbn in *. subst.
          split; [apply just_agree|exact E2].
        * subst u'. destruct (u_attribute P u n v). cbn. split; [apply just_agree|reflexivity].
      + intros k [s1|[u l]] [s2|u'] str p H; cbn in H; try contradiction; cbn [v_characters mixed lmixed].
        * destruct (characters_kind o alg env s1 s2 str p H) as [E1 E2].
          destruct (v_characters (derived o alg env) s1 str p), (v_characters (derived o alg env) s2 str p). cbn in *. subst.
          split; [apply just_agree|exact E2].
        * subst u'. destruct (u_characters P u str p). cbn. split; [apply just_agree|reflexivity].
      + intros k [s1|[u l]] [s2|u'] i H; cbn in H; try contradiction; cbn [v_element mixed lmixed].
        * eapply act_rel_amap; [apply (element_erase erased); [apply deser_erase|exact H]|].
          intros [r3 s3] [r4 s4] [E1 E2]. cbn in *. subst. split; [apply just_agree|exact E2].
        * subst u'. eapply act_rel_amap; [apply lower_erase|]. intros [[r1 u1] l1] [r2 u2] [= -> ->].
          cbn. split; [apply just_agree|reflexivity].
    - intro i. eapply act_rel_amap; [apply deser_erase|]. intros [r1 l1] [r2 l2] E. unfold unrecorded in E. cbn in *.
      subst. apply just_agree.
  Qed.
End Recorded.

(** ** Nothing is leaked when a read succeeds and no error was swallowed *)

Section Clean.
  Context {St : Type} (Inv : St -> Prop) (alg : bs_alg).
  Context (deser : ety -> einfo -> action St (res verr value * list value)).
  Hypothesis Hd : forall t i, ok_act Inv clean (deser t i).

  Lemma ginit_clean k t i : ok_act Inv clean (gfield_init deser k t i).
  Proof.
    eapply ok_amap; [apply Hd|]. intros [r l] H v l'. destruct r; cbn; try discriminate.
    intros [= _ <-]. eapply H; reflexivity.
  Qed.

  Lemma gupdate_clean k t old i : ok_act Inv clean (gfield_update deser k t old i).
  Proof.
    destruct k; cbn [gfield_update]; try (intros v l; discriminate).
    eapply ok_amap; [apply Hd|]. intros [r l] H v l'. destruct r; cbn; try discriminate.
    destruct (push_value old a); try discriminate. intros [= _ <-]. eapply H; reflexivity.
  Qed.

  Lemma genum_clean e i act : genum_element alg deser e i = Some act -> ok_act Inv clean3 act.
  Proof.
    unfold genum_element. destruct (e_init e).
    - intros [= <-]. destruct (e_mem e) as [[| |j p| | | |]|]; try (intros ? ? ?; discriminate).
      destruct (nth_error _ j) as [v|]; try (intros ? ? ?; discriminate).
      destruct (find _ _ _) as [j'|]; try (intros ? ? ? [= _ _ <-]; reflexivity).
      destruct (Nat.eqb j' j); try (intros ? ? ?; discriminate).
      destruct (v_ty v) as [[k t]|]; try (intros ? ? ? [= _ _ <-]; reflexivity).
      destruct p as [f|]; try (intros ? ? ?; discriminate).
      eapply ok_amap; [apply gupdate_clean|].
      intros [[r|r|r] l] H b s l'; try discriminate. intros [= _ _ <-]. eapply H; reflexivity.
    - destruct (find _ _ _) as [j|]; [|discriminate]. intros [= <-].
      destruct (nth_error _ j) as [v|]; try (intros ? ? ?; discriminate).
      destruct (v_ty v) as [[k t]|].
      + eapply ok_amap; [apply ginit_clean|].
        intros [[r|r|r] l] H b s l'; try discriminate. destruct (e_mem e); try discriminate.
        intros [= _ _ <-]. eapply H; reflexivity.
      + destruct (e_mem e); intros b s l; try discriminate. intros [= _ _ <-]. auto.
  Qed.

  Lemma gdelegate_clean ss i act : gdelegate_element alg deser ss i = Some act -> ok_act Inv clean3 act.
  Proof.
    revert act. induction ss as [|s ss IH]; cbn; intros act; [discriminate|].
    assert (Hrest : forall act, option_map (amap (fun '(r, ss'', l) => (r, s :: ss'', l))) (gdelegate_element alg deser ss i) = Some act ->
      ok_act Inv clean3 act).
    { intros act0. destruct (gdelegate_element alg deser ss i) as [a|]; cbn; [|discriminate]. intros [= <-].
      eapply ok_amap; [apply IH; reflexivity|]. intros [[r s1] l1] H b s' l [= -> _ <-]. eapply H; reflexivity. }
    destruct s as [pr m|e]; auto.
    destruct (genum_element alg deser e i) eqn:E; auto. intros [= <-].
    apply genum_clean in E. eapply ok_amap; [exact E|]. intros [[r s1] l1] H b s' l [= -> _ <-]. eapply H; reflexivity.
  Qed.

  Lemma gfield_clean k t pr m i : ok_act Inv clean3 (gelement_field deser k t pr m i).
  Proof.
    unfold gelement_field. destruct pr.
    - destruct m as [old|]; try (intros ? ? ?; discriminate). eapply ok_amap; [apply gupdate_clean|].
      intros [[r|r|r] l] H b s l'; try discriminate. intros [= _ _ <-]. eapply H; reflexivity.
    - eapply ok_amap; [apply ginit_clean|].
      intros [[r|r|r] l] H b s l'; cbn; try discriminate. destruct (write_mem m r); try discriminate.
      intros [= _ _ <-]. eapply H; reflexivity.
  Qed.

  Lemma gelement_clean s i : unleaked s ->
    ok_act Inv (fun a => forall b s', a = (Ok b, s') -> unleaked s') (gelement alg deser s i).
  Proof.
    intro Hs. unfold gelement. destruct (vs_kind s) as [fs ss|es] eqn:Ek.
    - unfold gstruct_element. destruct (find_field alg is_element fs _) as [p|].
      + destruct (nth_error fs p) as [[nm [] d]|]; try (intros ? ?; discriminate).
        destruct (nth_error ss p) as [[pr m|]|]; try (intros ? ?; discriminate).
        eapply ok_amap; [apply gfield_clean|]. intros [[r0 sl] l0] H b s2.
        destruct r0; cbn; try discriminate. intros [= _ <-]. apply put_unleaked; auto. eapply H; reflexivity.
      + destruct (gdelegate_element alg deser ss i) as [act0|] eqn:E0.
        * apply gdelegate_clean in E0. eapply ok_amap; [exact E0|]. intros [[r0 sl] l0] H b s2.
          destruct r0; cbn; try discriminate. intros [= _ <-]. apply put_unleaked; auto. eapply H; reflexivity.
        * intros b s2 [= _ <-]. exact Hs.
    - destruct (genum_element alg deser es i) as [act0|] eqn:E0.
      + apply genum_clean in E0. eapply ok_amap; [exact E0|]. intros [[r0 sl] l0] H b s2.
        destruct r0; cbn; try discriminate. intros [= _ <-]. unfold unleaked. cbn.
        assert (l0 = []) as -> by (eapply H; reflexivity). exact Hs.
      + intros b s2 [= _ <-]. exact Hs.
  Qed.
End Clean.

Lemma attribute_unleaked o alg env s n v x s' : unleaked s ->
  v_attribute (derived o alg env) s n v = (x, s') -> unleaked s'.
Proof.
  intro Hs. cbn. destruct (vs_kind s) as [fs ss|es] eqn:Ek.
  - unfold struct_attribute. destruct (find_field alg is_attribute fs n) as [p|].
    + destruct (nth_error fs p) as [[nm [] d]|]; try (intros [= _ <-]; exact Hs).
      destruct (nth_error ss p) as [[pr m|]|]; try (intros [= _ <-]; exact Hs).
      destruct (attribute_field o n opt t pr m v) as [r sl]. intros [= _ <-]. now apply put_unleaked.
    + rewrite delegate_pass by reflexivity. intros [= _ <-]. now apply put_unleaked.
  - cbn. intros [= _ <-]. exact Hs.
Qed.

Lemma characters_unleaked o alg env s str p x s' : unleaked s ->
  v_characters (derived o alg env) s str p = (x, s') -> unleaked s'.
Proof.
  intro Hs. cbn. destruct (vs_kind s) as [fs ss|es] eqn:Ek.
  - unfold struct_characters. rewrite delegate_pass by reflexivity. intros [= _ <-]. now apply put_unleaked.
  - cbn. intros [= _ <-]. exact Hs.
Qed.

Lemma run_amap {St A B} dbg (V : visitors St) body sp attrs ns (f : A -> B) (act : action St A) r :
  run_action dbg V body sp attrs ns (amap f act) r =
  let (x, r') := run_action dbg V body sp attrs ns act r in
  (match x with inl a => inl (f a) | inr x => inr x end, r').
Proof.
  destruct act as [a|k|s0 k]; cbn [amap run_action]; auto.
  - destruct (read_string dbg sp r) as [[s|e|x] r2]; auto.
  - destruct (nth_error (r_stack r) sp) as [el'|]; auto.
    destruct (attrs_loop V _ _ attrs s0) as [[[]|e|x] s1]; auto.
    destruct (body sp ns s1 r) as [[[i|e|x] s2] r2]; auto.
Qed.

Section Strict.
  Context {U : Type} (o : oracles) (alg : bs_alg) (env : tenv) (P : user U).

  Definition lclean (s : mstate (U * list value)) : Prop :=
    match s with MDerived s => unleaked s | MUser (_, l) => l = [] end.

  Lemma known_clean t i : ok_act lclean clean (known_deserialize (U := U * list value) odd o env t i).
  Proof.
    pose proof (deserialize_clean o env t i) as H. destruct t as [t|id]; cbn in *.
    - intros x v l [= _ <-]. auto.
    - destruct (new_visitor env id) as [s0|]; cbn in *; [|exact H]. destruct H as (H1 & H2 & H3).
      split; [exact H1|]. split.
      + intros j [s|[u l]] Hs; [now apply (H2 j)|]. intros v l'. discriminate.
      + intros e [s|[u l]] v l'; [exact (H3 e s v l')|discriminate].
  Qed.

  Lemma llower_clean {A} (okA : A -> Prop) ab oddA act i : (forall x, ~ okA (ab x)) -> ~ okA oddA ->
    hands_on (fun a => ~ okA a) act ->
    ok_act lclean (fun a => okA (fst a) -> snd a = []) (llower o env ab oddA act i).
  Proof.
    intros Hab Hodd. destruct act; cbn [llower hands_on ok_act]; intro H.
    - reflexivity.
    - reflexivity.
    - split; [reflexivity|]. split.
      + intros j [s|[u l]] Hs; cbn in *; [tauto|auto].
      + intros e [s|[u l]] Ha; cbn in *; [tauto|]. now elim (H e u).
    - eapply ok_amap; [apply known_clean|]. intros [[v|e|x] l] Hc; cbn.
      + intros _. eapply Hc. reflexivity.
      + intro Ha. now elim (H e).
      + intro Ha. now elim (Hab x).
  Qed.

  Hypothesis HS : strict P.

  Lemma ldeser_clean t i : ok_act lclean clean (ldeserialize o env P t i).
  Proof.
    destruct t as [t|id]; [apply known_clean|]. cbn [ldeserialize].
    destruct (env id); [apply known_clean|]. destruct (u_type P id) as [D|] eqn:E; [|apply known_clean].
    pose proof (llower_clean (fun r : res verr value => exists v, r = Ok v) Abort (odd value) (D i) i) as G.
    assert (G' : ok_act lclean (fun a => (exists v, fst a = Ok v) -> snd a = []) (llower o env Abort (odd value) (D i) i)).
    { apply G; [intros x [v Hv]; discriminate|intros [v Hv]; discriminate|].
      pose proof (proj1 HS id D i E) as H. destruct (D i); cbn in *; auto.
      - intros e [v Hv]. now apply (H e v).
      - intros e u [v Hv]. now apply (H e u v).
      - intros e [v Hv]. now apply (H e v). }
    assert (M : forall St A (I : St -> Prop) (g g' : A -> Prop) act, (forall a, g a -> g' a) -> ok_act I g act -> ok_act I g' act).
    { intros St A I g g' act Hg. destruct act; cbn; [auto|auto|]. intros (? & ? & ?). auto. }
    eapply M; [|exact G']. intros [r l] H v l' [= -> ->]. apply H. now exists v.
  Qed.

  Theorem strict_no_leak dbg t src fin v : read_mixed o alg env P dbg t src fin = Ok v ->
    leaked_mixed o alg env P dbg t src fin = [].
  Proof.
    rewrite <- recorded. unfold lread, read, leaked_mixed, leaked, lroot.
    destruct (root dbg (reader_new src fin)) as [[[attrs ns]|e|x] r1]; try discriminate.
    destruct (nth_error (r_stack r1) 0) as [el|]; [|discriminate]. rewrite run_amap.
    set (act := ldeserialize o env P t (EInfo (se_name el) ns 1)). set (V := lmixed o alg env P).
    destruct (run_action dbg V _ 0 attrs ns act r1) as [[[r l]|x] r2] eqn:E; [|discriminate].
    cbn. destruct r as [w|e|x]; try discriminate. intros _.
    assert (G : clean (Ok w, l)); [|eapply G; reflexivity].
    assert (Ha : forall s n v x s', lclean s -> v_attribute V s n v = (Ok x, s') -> lclean s').
    { intros [s|[u l0]] n u' x s' Hs; cbn [V v_attribute lmixed].
      - destruct (v_attribute (derived o alg env) s n u') as [r0 s0] eqn:E0. intros [= -> <-].
        cbn. eapply attribute_unleaked; eauto.
      - destruct (u_attribute P u n u') as [r0 u0]. intros [= -> <-]. exact Hs. }
    eapply (run_action_inv dbg V lclean Ha); [|apply ldeser_clean|exact E].
    intros ns1 s r i s' r' Hs. apply (read_loop_inv dbg V lclean Ha); auto.
    - intros [s1|[u l0]] str p x s1' Hs1; cbn [V v_characters lmixed].
      + destruct (v_characters (derived o alg env) s1 str p) as [r0 s0] eqn:E0. intros [= -> <-].
        cbn. eapply characters_unleaked; eauto.
      + destruct (u_characters P u str p) as [r0 u0]. intros [= -> <-]. exact Hs1.
    - intros [s1|[u l0]] j Hs1; cbn [V v_element lmixed].
      + eapply ok_amap; [apply (gelement_clean lclean); [apply ldeser_clean|exact Hs1]|].
        intros [r0 s0] H b s2 [= -> <-]. now apply (H b).
      + eapply ok_amap; [apply (llower_clean (fun a : res verr bool * U => exists b, fst a = Ok b))|].
        * intros x [b Hb]. discriminate.
        * intros [b Hb]. discriminate.
        * pose proof (proj2 HS u j) as H. destruct (u_element P u j); cbn in *; auto.
          -- intros e [b Hb]. now apply (H e b).
          -- intros e u1 [b Hb]. now apply (H e u1 b).
          -- intros e [b Hb]. now apply (H e b).
        * intros [[r0 u0] l1] H b s2 [= -> <-]. cbn in *. subst l0. cbn. apply H. now exists b.
  Qed.
End Strict.

(** ** Derived types that use no hand-written one leak what C55 says; delegating adds nothing *)

Lemma leaked_rel {S1 S2 K A} (R : K -> S1 -> S2 -> Prop) dbg V1 V2 (D1 : einfo -> action S1 (A * list value))
  (D2 : einfo -> action S2 (A * list value)) src fin :
  vis_rel R anyhow V1 V2 -> (forall i, act_rel R (fun a b => snd a = snd b) (D1 i) (D2 i)) ->
  leaked dbg V1 D1 src fin = leaked dbg V2 D2 src fin.
Proof.
  intros HV HD. unfold leaked. destruct (root dbg (reader_new src fin)) as [[[attrs ns]|e|x] r1]; try reflexivity.
  destruct (nth_error (r_stack r1) 0) as [el|]; [|reflexivity].
  pose proof (run_rel R anyhow (fun _ _ => I) dbg V1 V2 HV _ _ _ 0 attrs ns _ _ r1
    (read_loop_rel R anyhow (fun _ _ => I) dbg V1 V2 HV (S (List.length (r_src r1)))) (HD (EInfo (se_name el) ns 1))) as [H E].
  destruct (run_action dbg V1 _ _ _ _ _ r1) as [[[y1 l1]|x1] r2], (run_action dbg V2 _ _ _ _ _ r1) as [[[y2 l2]|x2] r3];
    cbn in H; try contradiction; auto.
Qed.

Lemma act_rel_map1 {S1 S2 K A1 A2 B1} (R : K -> S1 -> S2 -> Prop) (G : A1 -> A2 -> Prop) (G' : B1 -> A2 -> Prop)
  (f : A1 -> B1) (a1 : action S1 A1) (a2 : action S2 A2) :
  act_rel R G a1 a2 -> (forall a b, G a b -> G' (f a) b) -> act_rel R G' (amap f a1) a2.
Proof.
  destruct a1, a2; cbn; try contradiction; auto. intros (k' & HR & G1) H. exists k'. split; [exact HR|]. auto.
Qed.

Section Conservative.
  Context {U : Type} (o : oracles) (alg : bs_alg) (env : tenv) (P : user U).
  Hypothesis (Hc : compiles env) (Ho : oracles_total o).

  Definition as_derived (_ : unit) (s1 : mstate (U * list value)) (s2 : vstate) : Prop :=
    s1 = MDerived s2 /\ inv (known_ty env) s2.

  Lemma known_same t i : known_ty env t ->
    act_rel as_derived (same (fun a => within (fun _ => True) (fst a)))
      (known_deserialize odd o env t i) (deserialize o env t i).
  Proof.
    destruct t as [ty|id]; intro Hk.
    - intros [s|e]; (split; [reflexivity|]); now intros ? ?.
    - cbn in Hk. destruct (new_visitor_total env Hc id Hk) as (s0 & E0 & H0).
      cbn. rewrite E0. cbn. exists tt. split; [now split|]. intros x s1 s2 [-> Hs].
      split; [destruct x; reflexivity|]. now intros ? ?.
  Qed.

  Lemma ldeser_known t i : known_ty env t -> ldeserialize o env P t i = known_deserialize odd o env t i.
  Proof. destruct t as [ty|id]; [reflexivity|]. cbn [known_ty ldeserialize]. now destruct (env id). Qed.

  Lemma ldeser_same t i : known_ty env t ->
    act_rel as_derived (same (fun a => within (fun _ => True) (fst a))) (ldeserialize o env P t i) (deserialize o env t i).
  Proof. intro Hk. rewrite ldeser_known by auto. now apply known_same. Qed.

  Lemma derived_same : vis_rel as_derived anyhow (lmixed o alg env P) (derived o alg env).
  Proof.
    constructor.
    - intros k s1 s2 n v [-> Hs]. cbn [v_attribute lmixed].
      destruct (attribute_in alg _ o env s2 n v Ho Hs) as [G1 G2].
      destruct (v_attribute (derived o alg env) s2 n v) as [r s']. cbn in *. split; [apply just_agree|]. now split.
    - intros k s1 s2 str p [-> Hs]. cbn [v_characters lmixed].
      destruct (characters_in alg _ o env s2 str p Hs) as [G1 G2].
      destruct (v_characters (derived o alg env) s2 str p) as [r s']. cbn in *. split; [apply just_agree|]. now split.
    - intros k s1 s2 i [-> Hs]. cbn [v_element lmixed]. rewrite <- generic_same.
      eapply act_rel_map1; [exact (element_rel as_derived (fun _ => True) alg (known_ty env) _ _ ldeser_same s2 i Hs)|].
      intros [r s'] b [<- [_ G]]. split; [apply just_agree|]. now split.
  Qed.

  Theorem leaks_conservative dbg t src fin : known_ty env t ->
    leaked_mixed o alg env P dbg t src fin = leaked_by o alg env dbg t src fin.
  Proof.
    intro Hk. change (leaked_by o alg env dbg t src fin) with (leaked dbg (derived o alg env) (deserialize o env t) src fin).
    apply (leaked_rel as_derived); [apply derived_same|]. intro i.
    pose proof (act_rel_map1 _ _ (fun a b => snd a = snd b) (fun a => a) _ _ (ldeser_same t i Hk)) as G.
    replace (ldeserialize o env P t i) with (amap (fun a => a) (ldeserialize o env P t i))
      by now destruct (ldeserialize o env P t i).
    apply G. now intros a b [<- _].
  Qed.
End Conservative.

Theorem delegated_leaks {U} o alg env (P : user U) dbg id t D src fin : env id = None -> known_ty env t ->
  u_type P id = Some (fun _ => UDeserialize t D) ->
  leaked_mixed o alg env P dbg (ERef id) src fin = leaked_mixed o alg env P dbg t src fin.
Proof.
  intros Hid Ht Hu. unfold leaked_mixed, leaked.
  destruct (root dbg (reader_new src fin)) as [[[attrs ns]|e|x] r1]; try reflexivity.
  destruct (nth_error (r_stack r1) 0) as [el|]; [|reflexivity].
  rewrite (ldeser_known o env P t) by auto. unfold ldeserialize. rewrite Hid, Hu. cbn [llower]. rewrite run_amap.
  now destruct (run_action _ _ _ _ _ _ _ _) as [[[r l]|x] r2].
Qed.

(** ** Collecting values by hand *)

(** The tree semantics of corresponding programs. *)
Section SemRel.
  Context {S1 S2 K : Type} (R : K -> S1 -> S2 -> Prop) (V1 : visitors S1) (V2 : visitors S2).
  Hypothesis HV : vis_rel R anyhow V1 V2.

  Definition sem_same (k : K) (x1 : (res error endinfo * S1) * place) (x2 : (res error endinfo * S2) * place) : Prop :=
    fst (fst x1) = fst (fst x2) /\ R k (snd (fst x1)) (snd (fst x2)) /\ snd x1 = snd x2.

  Lemma sem_attrs_rel path p attrs k : forall s1 s2, R k s1 s2 ->
    fst (sem_attrs V1 path p attrs s1) = fst (sem_attrs V2 path p attrs s2) /\
    R k (snd (sem_attrs V1 path p attrs s1)) (snd (sem_attrs V2 path p attrs s2)).
  Proof.
    induction attrs as [|a attrs IH]; intros s1 s2 HR; cbn; [auto|].
    destruct (vr_attribute _ _ _ _ HV k s1 s2 (from_xml_name (a_name a)) (a_value a) HR) as [[E _] HR'].
    destruct (v_attribute V1 s1 _ _) as [r1 s1'], (v_attribute V2 s2 _ _) as [r2 s2']. cbn in *. subst r2.
    destruct r1; cbn; auto.
  Qed.

  Lemma sem_act_rel {A1 A2} (G : A1 -> A2 -> Prop) rd1 rd2 path p kids pe a1 a2 :
    (forall k s1 s2, R k s1 s2 -> sem_same k (rd1 s1) (rd2 s2)) -> act_rel R G a1 a2 ->
    match fst (sem_act rd1 path p kids pe a1), fst (sem_act rd2 path p kids pe a2) with
    | inl x, inl y => G x y | inr x, inr y => x = y | _, _ => False
    end /\ snd (sem_act rd1 path p kids pe a1) = snd (sem_act rd2 path p kids pe a2).
  Proof.
    intros Hrd. destruct a1 as [a1|k1|s1 k1], a2 as [a2|k2|s2 k2]; try contradiction; cbn [act_rel sem_act].
    - auto.
    - intro H. destruct (sem_string path "" kids pe) as [[s|e|x] pl]; cbn; auto.
    - intros (k & HR & H). destruct (Hrd k s1 s2 HR) as (E1 & E2 & E3).
      destruct (rd1 s1) as [[x1 s1'] pl1], (rd2 s2) as [[x2 s2'] pl2]. cbn in *. subst. destruct x2; cbn; auto.
  Qed.

  Lemma sem_read_rel : forall n parents k s1 s2, R k s1 s2 -> sem_same k (sem_read V1 n parents s1) (sem_read V2 n parents s2).
  Proof.
    induction n as [name attrs ns p kids pe IH| | |] using node_ind'; intros parents k s1 s2 HR;
      try (repeat split; auto; fail).
    cbn [sem_read]. set (path := parents ++ [SElem name p]).
    destruct (sem_attrs_rel path p attrs k s1 s2 HR) as [E HR'].
    destruct (sem_attrs V1 _ _ _ s1) as [x1 t1], (sem_attrs V2 _ _ _ s2) as [x2 t2]. cbn in E, HR'. subst x2.
    destruct x1 as [[]|e|x]; [|repeat split; auto|repeat split; auto].
    clear HR s1 s2. revert t1 t2 HR'. generalize (name, ns, pe) as fin. intro fin.
    induction IH as [|c kids Hc _ IHk]; intros t1 t2 HR; [repeat split; auto|].
    destruct c as [cn ca cns cp ck cpe|c str q|m q|str q]; cbn [sem_kids].
    - destruct (sem_act_rel (fun a b => agree anyhow (fst a) (fst b) /\ R k (snd a) (snd b))
        (sem_read V1 (NElem cn ca cns cp ck cpe) path) (sem_read V2 (NElem cn ca cns cp ck cpe) path)
        (path ++ [SElem cn cp]) cp ck cpe _ _ (Hc path)
        (vr_element _ _ _ _ HV k t1 t2 (EInfo cn cns (List.length (path ++ [SElem cn cp]))) HR)) as [H E].
      destruct (sem_act (sem_read V1 _ _) _ _ _ _ _) as [[[y1 u1]|x1] pl1], (sem_act (sem_read V2 _ _) _ _ _ _ _) as [[[y2 u2]|x2] pl2];
        cbn in H, E; try contradiction; subst.
      + destruct H as [[<- _] HR']. destruct y1; [now apply IHk| |]; repeat split; auto.
      + repeat split; auto.
    - destruct (vr_characters _ _ _ _ HV k t1 t2 str q HR) as [[E _] HR'].
      destruct (v_characters V1 t1 str q) as [y1 u1], (v_characters V2 t2 str q) as [y2 u2]. cbn in E, HR'. subst y2.
      destruct y1; [now apply IHk| |]; repeat split; auto.
    - now apply IHk.
    - now apply IHk.
  Qed.
End SemRel.

Section Collect.
  Context {U : Type} (o : oracles) (alg : bs_alg) (env : tenv) (P : user U).
  Hypothesis (Hok : names_ok env) (Hc : compiles env) (Ho : oracles_total o).
  Context (t : ety) (kont : U -> einfo -> value + verr -> res verr bool * U).
  Hypothesis Ht : known_ty env t.
  Hypothesis Hel : forall u i, u_element P u i = UDeserialize t (kont u i).
  Notation V := (lmixed o alg env P).

  (** What reading one child as [t] leaks. *)
  Definition child_leaks (c : node) (l : list value) : Prop :=
    (exists v, reads o env t c v) /\ l = [] \/ leaks o env t c l.

  Lemma child_sem name attrs ns p kids pe parents i x l pl : ei_name i = name ->
    sem_act (sem_read V (NElem name attrs ns p kids pe) parents) (parents ++ [SElem name p]) p kids pe
      (known_deserialize odd o env t i) = (inl (x, l), pl) -> (forall y, x <> Abort y) ->
    child_leaks (NElem name attrs ns p kids pe) l.
  Proof.
    intros Hi E Hx. set (n := NElem name attrs ns p kids pe) in *.
    destruct (sem_act_rel (as_derived env) (same (fun a => within (fun _ => True) (fst a)))
      (sem_read V n parents) (sem_read (derived o alg env) n parents) (parents ++ [SElem name p]) p kids pe _ _
      (sem_read_rel (as_derived env) _ _ (derived_same o alg env P Hc Ho) n parents) (known_same o env Hc t i Ht)) as [H E'].
    unfold lstate in *. rewrite E in H. cbn [fst] in H.
    destruct (errs_all o alg env Hok Hc n parents i t Hi) as (_ & _ & E3).
    destruct (sem_act (sem_read (derived o alg env) n parents) _ _ _ _ _) as [[[x' l']|x'] pl'] eqn:E2; cbn [fst] in H; [|contradiction].
    destruct H as [H _]. injection H as <- <-. pose proof (E3 x l pl' eq_refl) as G.
    destruct x as [v|e|y]; [|now right|now elim (Hx y)]. left. split; [|exact G].
    exists v. pose proof (reads_all o alg env Hok n parents i t Hi) as HR. unfold n in HR. cbn [reads_ok] in HR.
    fold n in HR.
    apply (proj1 HR (Ok v, l) v); [|reflexivity]. unfold run. now rewrite E2.
  Qed.

  Lemma kids_collect path fin kids : forall u l x s' pl,
    sem_kids V (sem_read V) path fin kids (MUser (u, l)) = ((Ok x, s'), pl) ->
    exists u' ls, s' = MUser (u', l ++ concat ls) /\ Forall2 child_leaks (filter is_elem kids) ls.
  Proof.
    induction kids as [|c kids IH]; intros u l x s' pl.
    - cbn. intros [= _ <- _]. exists u, []. cbn. rewrite app_nil_r. split; auto.
    - destruct c as [cn ca cns cp ck cpe|c str q|m q|str q]; cbn [filter is_elem].
      + cbn [sem_kids]. set (i := EInfo cn cns _). cbn [lmixed v_element]. rewrite Hel. cbn [llower].
        rewrite !sem_act_amap. fold V.
        destruct (sem_act (sem_read V _ path) _ cp ck cpe (known_deserialize odd o env t i)) as [[[r l1]|y] pl1] eqn:E;
          cbn [fst snd inl_map]; [|discriminate].
        destruct r as [v|e|y]; cbn.
        * destruct (kont u i (inl v)) as [[b|e|y] u']; try discriminate. intro H.
          destruct (IH _ _ _ _ _ H) as (u2 & ls & -> & HF). exists u2, (l1 :: ls). cbn [concat]. rewrite app_assoc.
          split; [reflexivity|]. constructor; [|exact HF]. eapply child_sem; [|exact E|discriminate]. reflexivity.
        * destruct (kont u i (inr e)) as [[b|e'|y] u']; try discriminate. intro H.
          destruct (IH _ _ _ _ _ H) as (u2 & ls & -> & HF). exists u2, (l1 :: ls). cbn [concat]. rewrite app_assoc.
          split; [reflexivity|]. constructor; [|exact HF]. eapply child_sem; [|exact E|discriminate]. reflexivity.
        * discriminate.
      + cbn [sem_kids lmixed v_characters]. destruct (u_characters P u str q) as [[b|m|y] u']; try discriminate. apply IH.
      + cbn [sem_kids]. apply IH.
      + cbn [sem_kids]. apply IH.
  Qed.

  Lemma lmixed_sem t' d pe : leaked_mixed o alg env P false t' (doc_events d) (FEndDocument pe) =
    match sem_act (sem_read V (d_root d) []) [SElem (d_name d) (d_pos d)] (d_pos d) (d_kids d) (d_pe d)
            (ldeserialize o env P t' (EInfo (d_name d) (d_ns d) 1)) with
    | (inl (_, l), _) => l
    | _ => []
    end.
  Proof.
    unfold leaked_mixed, leaked. destruct (root_doc false d pe) as (rest & _ & ->).
    set (r1 := at_elem _ _ _ _ _ _ _). unfold r1 at 1. cbn [at_elem r_stack app nth_error se_name].
    set (act := ldeserialize o env P t' _).
    assert (HA : agrees_act false (fun x => is_ok (fst x)) (FEndDocument pe) [] rest
      (run_action false V (read_loop false V (S (List.length (r_src r1)))) 0 (d_attrs d) (d_ns d) act r1)
      (sem_act (sem_read V (d_root d) []) [SElem (d_name d) (d_pos d)] (d_pos d) (d_kids d) (d_pe d) act)).
    { apply (run_action_sem false V).
      - apply read_loop_sem. discriminate.
      - unfold r1. cbn [at_elem r_src]. rewrite app_length. lia.
      - discriminate. }
    unfold agrees_act in HA. destruct (sem_act _ _ _ _ _ act) as [[[x l]|x] pl]; cbn [fst snd] in HA.
    - destruct HA as (r' & -> & _). reflexivity.
    - destruct (run_action _ _ _ _ _ _ _ _) as [? ?]. cbn in HA. subst. reflexivity.
  Qed.

  Theorem collector_leaks id u0 fin d pe v : env id = None -> u_type P id = Some (fun _ => UReadTo u0 fin) ->
    (forall e u v, fin (inr e) u <> Ok v) ->
    read_mixed o alg env P false (ERef id) (doc_events d) (FEndDocument pe) = Ok v ->
    exists ls, leaked_mixed o alg env P false (ERef id) (doc_events d) (FEndDocument pe) = concat ls /\
      Forall2 child_leaks (filter is_elem (d_kids d)) ls.
  Proof.
    intros Hid Hu Hf. rewrite <- recorded. unfold lread, lroot. rewrite read_sem by discriminate.
    unfold sem_doc. rewrite sem_act_amap, lmixed_sem. unfold ldeserialize. rewrite Hid, Hu. cbn [llower].
    cbn [sem_act]. unfold d_root. cbn [sem_read].
    assert (Ha : forall path p attrs u, exists u', snd (sem_attrs V path p attrs (MUser (u, []))) = MUser (u', [])).
    { intros path p attrs. induction attrs as [|a attrs IH]; intros u; cbn; [eauto|].
      destruct (u_attribute P u _ _) as [[x|e|x] u']; cbn; eauto. }
    destruct (Ha ([] ++ [SElem (d_name d) (d_pos d)]) (d_pos d) (d_attrs d) u0) as (u1 & E1).
    destruct (sem_attrs V _ _ _ (MUser (u0, []))) as [[[]|e|x] s1]; cbn [snd] in E1; subst s1; cbn [fst snd inl_map].
    - destruct (sem_kids V (sem_read V) _ _ (d_kids d) (MUser (u1, []))) as [[[x|e|x] s'] pl] eqn:E; cbn [fst snd inl_map]; try discriminate.
      + destruct (kids_collect _ _ _ _ _ _ _ _ E) as (u2 & ls & -> & HF). cbn [app]. intros _. exists ls. now split.
      + destruct s' as [s'|[u' l']]; cbn; [discriminate|]. destruct (fin (inr (Propagate e)) u') as [w| |] eqn:Ef; try discriminate.
        now elim (Hf _ _ _ Ef).
    - cbn. destruct (fin (inr (Propagate e)) u1) as [w| |] eqn:Ef; try discriminate. now elim (Hf _ _ _ Ef).
    - discriminate.
  Qed.

  (** The same child over and over again. *)
  Section Repeat.
    Context (cn : oname) (ca : list attr) (cns : nsmap) (cp : position) (ck : list node) (cpe : position).
    Context (path : list selem) (e : verr) (l0 : list value) (pl0 : place) (u : U).
    Let c := NElem cn ca cns cp ck cpe.
    Let i := EInfo cn cns (List.length (path ++ [SElem cn cp])).
    Hypothesis Hchild : sem_act (sem_read V c path) (path ++ [SElem cn cp]) cp ck cpe (known_deserialize odd o env t i)
      = (inl (Err e, l0), pl0).
    Hypothesis Hkont : exists b, kont u i (inr e) = (Ok b, u).

    Lemma kids_repeat fin n : forall l, sem_kids V (sem_read V) path fin (repeat c n) (MUser (u, l)) =
      ((Ok fin, MUser (u, l ++ concat (repeat l0 n))), (path, snd fin)).
    Proof.
      destruct Hkont as (b & Hb).
      induction n as [|n IH]; intro l; cbn [repeat concat]; [now rewrite app_nil_r|].
      unfold c at 1. cbn [sem_kids]. fold c i. cbn [lmixed v_element]. rewrite Hel. cbn [llower].
      rewrite !sem_act_amap. fold V. unfold lstate in *. rewrite Hchild. cbn. rewrite Hb. cbn.
      rewrite IH. now rewrite <- app_assoc.
    Qed.
  End Repeat.

  Lemma repeat_leaks id u0 fin cn ca cns cp ck cpe e l0 pl0 n d pe v : env id = None ->
    u_type P id = Some (fun _ => UReadTo u0 fin) -> d_attrs d = [] ->
    let path := [SElem (d_name d) (d_pos d)] in
    let c := NElem cn ca cns cp ck cpe in
    let i := EInfo cn cns (List.length (path ++ [SElem cn cp])) in
    d_kids d = repeat c n ->
    sem_act (sem_read V c path) (path ++ [SElem cn cp]) cp ck cpe (known_deserialize odd o env t i) = (inl (Err e, l0), pl0) ->
    (exists b, kont u0 i (inr e) = (Ok b, u0)) -> fin (inl (d_name d, d_ns d, d_pe d)) u0 = Ok v ->
    read_mixed o alg env P false (ERef id) (doc_events d) (FEndDocument pe) = Ok v /\
    leaked_mixed o alg env P false (ERef id) (doc_events d) (FEndDocument pe) = concat (repeat l0 n).
  Proof.
    intros Hid Hu Hat path c i Hk Hch Hb Hv. rewrite <- recorded. unfold lread, lroot. rewrite read_sem by discriminate.
    unfold sem_doc. rewrite sem_act_amap, lmixed_sem. unfold ldeserialize. rewrite Hid, Hu. cbn [llower sem_act].
    unfold d_root. cbn [sem_read]. rewrite Hat. cbn [sem_attrs app]. fold path.
    pose proof (kids_repeat _ _ _ _ _ _ _ _ _ _ _ Hch Hb (d_name d, d_ns d, d_pe d) n []) as E. fold c in E. rewrite Hk.
    unfold lstate in *. rewrite E. cbn. split; [|reflexivity]. unfold endinfo in *. now rewrite Hv.
  Qed.
End Collect.
