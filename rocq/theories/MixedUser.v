(** Hand-written code next to derived code is run as it is. *)
From Verif Require Import Base Normalize Text Find Types Reader ReaderSpec ReaderRel DeriveDe DeSpec DeriveMixed
  MixedSpec MixedReads ErrProofs.

(** The same visitor. *)
Definition just {U} (_ : unit) (s : mstate U) (u : U) : Prop := s = MUser u.
Definition anyhow (_ : abort) : Prop := True.

Lemma just_agree {E A} (r : res E A) : agree anyhow r r.
Proof. split; [reflexivity|]. intros; exact I. Qed.

Lemma lower_by_hand {U A} o env ab (oddA : A) (act : action U A) i :
  @lower U (fun _ => Abort ill_typed) o env A ab oddA (by_hand act) i =
  match act with
  | ANoRead a => ANoRead a
  | AReadString k => AReadString k
  | AReadTo u k => AReadTo (MUser u) (fun x s => match s with MUser u => k x u | MDerived _ => oddA end)
  end.
Proof. now destruct act. Qed.

Lemma hand_alone {U} o alg env (V : visitors U) D id dbg src fin : env id = None ->
  read_mixed o alg env (hand V D id) dbg (ERef id) src fin = read dbg V D (reader_new src fin).
Proof.
  intro Hid. unfold read_mixed, read_with.
  refine (proj1 (read_rel just anyhow (fun _ _ => I) dbg _ _ _ _ _ _ _)).
  - constructor.
    + intros k s u n v ->. cbn. destruct (v_attribute V u n v) as [r u']. split; [apply just_agree|reflexivity].
    + intros k s u str p ->. cbn. destruct (v_characters V u str p) as [r u']. split; [apply just_agree|reflexivity].
    + intros k s u i ->. cbn [mixed v_element hand u_element]. rewrite lower_by_hand.
      destruct (v_element V u i) as [[r u']|f|u0 f]; cbn.
      * split; [apply just_agree|reflexivity].
      * intro x. destruct (f x) as [r u']. split; [apply just_agree|reflexivity].
      * exists tt. split; [reflexivity|]. intros x s1 s2 ->. destruct (f x s2) as [r u'].
        split; [apply just_agree|reflexivity].
  - intro i. unfold mixed_root, mdeserialize. rewrite Hid. cbn [hand u_type]. rewrite Nat.eqb_refl, lower_by_hand.
    destruct (D i) as [r|f|u0 f]; cbn.
    + apply just_agree.
    + intro x. apply just_agree.
    + exists tt. split; [reflexivity|]. intros x s1 s2 ->. apply just_agree.
Qed.

(** Delegation to [T::deserialize]: what it returns is what the caller sees. *)
Lemma delegation {U} o alg env (P : user U) id D t n parents : env id = None -> known_ty env t ->
  u_type P id = Some (fun _ => UDeserialize t D) ->
  result_of o alg env P (ERef id) n parents =
  option_map (fun r => match r with Ok v => D (inl v) | Err e => D (inr e) | Abort x => Abort x end)
    (result_of o alg env P t n parents).
Proof.
  intros Hid Ht Hu. unfold result_of. destruct n as [name attrs ns p kids pe| | |]; try reflexivity.
  assert (E : mdeserialize (fun _ => Abort ill_typed) o env P t (EInfo name ns (List.length (parents ++ [SElem name p])))
    = known_deserialize (U := U) (fun _ => Abort ill_typed) o env t (EInfo name ns (List.length (parents ++ [SElem name p])))).
  { unfold mdeserialize. destruct t as [t|id']; [reflexivity|]. cbn in Ht. now destruct (env id'). }
  rewrite E. unfold mdeserialize. rewrite Hid, Hu. cbn [lower]. rewrite !sem_act_amap.
  destruct (sem_act _ _ _ _ _ _) as [[[r l]|x] pl]; cbn; [|reflexivity]. now destruct r.
Qed.
