(** Property theorem C51: what derived types read when some of their fields have types with
    hand-written [Deserialize] implementations.

    [R t n v]: the element [n] read as type [t] is [v]. [denotes o env P R]: for text types and derived
    types [R] is determined field by field, attribute by attribute and child by child as in C23, from
    what [R] says about the types of the fields. [hand_written_ok o alg env P R]: the hand-written
    implementations do what [R] says about them, provided that the types they use do (MixedReads.v). *)
From Verif Require Import Base Normalize Text TextProofs Find Types Reader ReaderSpec ReaderMore DeriveDe DeSpec DeProofs
  DeriveMixed MixedSpec MixedReads MixedDe MixedProofs PropReader PropDe PropMixed.

(** ** C51: hand-written implementations as black boxes *)

(** Reading a document gives a value exactly if [R] relates the value to the root element: derived code
    calls the hand-written implementations once for each element they have to read, on the right
    element, and does with the results what it does with those of derived types. *)
Theorem C51_reads : forall U o alg env (P : user U) R, names_ok env ->
  denotes o env P R -> hand_written_ok o alg env P R ->
  forall dbg t d pe v, (dbg = true -> strict P) ->
  read_mixed o alg env P dbg t (doc_events d) (FEndDocument pe) = Ok v <-> R t (d_root d) v.
Proof. intros U. exact mixed_iff. Qed.
Print Assumptions C51_reads.

(** The same for an element anywhere in the document. *)
Theorem C51_everywhere : forall U o alg env (P : user U) R, names_ok env ->
  denotes o env P R -> hand_written_ok o alg env P R ->
  forall n t, implements o alg env P R t n.
Proof. intros U. exact all_implement. Qed.
Print Assumptions C51_everywhere.

(** The conditions leave no choice of [R]. *)
Theorem C51_unique : forall U o alg env (P : user U) R1 R2, names_ok env ->
  denotes o env P R1 -> hand_written_ok o alg env P R1 -> denotes o env P R2 -> hand_written_ok o alg env P R2 ->
  forall t n v, R1 t n v <-> R2 t n v.
Proof. intros U. exact denotes_unique. Qed.
Print Assumptions C51_unique.

(** ** Example *)

(** [struct Club { name: String, members: Vec<Bag> }] next to [Person] and [Contact] of [env0]; [Bag] of PropMixed.v. *)
Definition club_fields : list field :=
  [ Field (un "name") (MElement KOne str_ty) None; Field (un "members") (MElement KVec (ERef 7)) None ].

Definition env2 : tenv := fun id =>
  if Nat.eqb id 6 then Some (TDStruct "Club" (ln "club") [] club_fields) else if Nat.leb id 1 then env0 id else None.

Definition bag2 : user (list value) := {|
  u_type := fun id => if Nat.eqb id 7 then u_type bag 7 else None;
  u_attribute := u_attribute bag;
  u_characters := u_characters bag;
  u_element := u_element bag;
|}.

(** A [Bag] holds a [Person] for each child element. *)
Inductive club_reads : ety -> node -> value -> Prop :=
| club_text : forall t name attrs ns p kids pe x,
    existsb is_elem kids = false -> parse_text oracles0 t (text_of kids) = Ok x ->
    club_reads (EText t) (NElem name attrs ns p kids pe) (VText x)
| club_struct : forall id ident root nss fs name attrs ns p kids pe vs,
    env2 id = Some (TDStruct ident root nss fs) ->
    fields_hold oracles0 env2 club_reads attrs kids (unclaimed fs kids) fs vs ->
    club_reads (ERef id) (NElem name attrs ns p kids pe) (VStruct vs)
| club_enum : forall id ident root nss variants sk name attrs ns p kids pe v,
    env2 id = Some (TDEnum ident root nss variants sk) ->
    choice club_reads variants kids v ->
    club_reads (ERef id) (NElem name attrs ns p kids pe) v
| club_bag : forall name attrs ns p kids pe vs,
    Forall2 (club_reads (ERef 0)) (filter is_elem kids) vs ->
    club_reads (ERef 7) (NElem name attrs ns p kids pe) (VVec vs).

Lemma club_denotes : denotes oracles0 env2 bag2 club_reads.
Proof.
  constructor.
  - intros. split.
    + intro H. inversion H; subst. eauto.
    + intros (x & -> & H1 & H2). now constructor.
  - intros id ident root nss fs name attrs ns p kids pe v Hid. split.
    + intro H. inversion H; subst; try congruence. all: try (cbn in Hid; discriminate).
      match goal with G : env2 _ = Some (TDStruct _ _ _ _) |- _ => rewrite Hid in G; injection G as <- <- <- <- end. eauto.
    + intros (vs & -> & H). econstructor; eauto.
  - intros id ident root nss vs sk name attrs ns p kids pe v Hid. split.
    + intro H. inversion H; subst; try congruence. all: try (cbn in Hid; discriminate).
    + intro H. econstructor; eauto.
  - intros t n v H. now inversion H.
  - intros id n v H1 H2 H. inversion H; subst; try congruence. discriminate.
Qed.

Definition bag_at (ks : list node) (s : mstate (list value)) : Prop :=
  exists vs, s = MUser vs /\ Forall2 (club_reads (ERef 0)) (filter is_elem ks) vs.

Lemma bag_attrs path p attrs u : sem_attrs (everything oracles0 Bisect env2 bag2) path p attrs (MUser u) = (Ok tt, MUser u).
Proof. induction attrs as [|a attrs IH]; [reflexivity|exact IH]. Qed.

Lemma env2_ok : names_ok env2.
Proof.
  intros id d. unfold env2. destruct (Nat.eqb id 6); [|destruct (Nat.leb id 1); [apply env0_ok|discriminate]]. intros [= <-].
  cbn. split; repeat constructor; cbn; intuition discriminate.
Qed.

Lemma bag_hand_written : hand_written_ok oracles0 Bisect env2 bag2 club_reads.
Proof.
  intros id n He Hu Hb _ Hn parents v.
  assert (id = 7) as ->. { cbn in Hu. destruct (Nat.eqb id 7) eqn:E; [now apply PeanoNat.Nat.eqb_eq|congruence]. }
  destruct n as [name attrs ns p kids pe| | |]; try discriminate. clear Hn Hu He.
  set (V := everything oracles0 Bisect env2 bag2).
  assert (Hr : Forall (reads_ok oracles0 Bisect env2 bag2 club_reads) kids).
  { apply Forall_forall. intros c Hc. destruct (is_elem c) eqn:E; [|now destruct c].
    apply implements_computes; auto. intro t. apply Hb. now constructor. }
  assert (K : forall path fin,
    (forall x s' pl, sem_kids V (sem_read V) path fin kids (MUser []) = ((Ok x, s'), pl) -> bag_at kids s') /\
    ((exists s', bag_at kids s') -> exists x s' pl, sem_kids V (sem_read V) path fin kids (MUser []) = ((Ok x, s'), pl))).
  { intros path fin. apply (kids_loop oracles0 Bisect env2 bag2 club_reads bag_at) with (ks := []); auto.
    - clear -V. intros ks s name attrs ns p ck pe parents i Hi c IH (vs & -> & Hs).
      change (v_element V (MUser vs) i) with (amap (fun '(r, u') => (r, MUser u'))
        (amap (fun '(r, _) => match r with
                              | Ok v => (Ok false, vs ++ [v]) | Err e => (Err e, vs) | Abort x => (Abort x, vs) end)
          (mdeserialize (fun _ => Abort ill_typed) oracles0 env2 bag2 (ERef 0) i)) : action (mstate (list value)) (res verr bool * mstate (list value))).
      eapply (computes_amap _ _ _ _ _ _ (fun a : res verr bool * list value => match a with (Ok _, us) => Some us | _ => None end)
        (fun us => Forall2 (club_reads (ERef 0)) (filter is_elem (ks ++ [c])) us)).
      + eapply computes_amap; [exact (IH (ERef 0))|..].
        * intros [[x|e|x] l] us; cbn; try discriminate. intros [= <-]. exists x. split; [reflexivity|].
          intro Hx. rewrite filter_app. cbn. apply Forall2_app; auto.
        * intros [[x|e|x] l] b; cbn; try discriminate. intros [= <-]. eauto.
        * intros (us & Hus). rewrite filter_app in Hus. apply Forall2_app_inv_l in Hus as (u1 & u2 & _ & H2 & _).
          cbn in H2. inversion H2; subst. eauto.
      + intros [[x|e|x] us] s; cbn; try discriminate. intros [= <-]. exists us. split; [reflexivity|].
        intro G. now exists us.
      + intros [[x|e|x] us] b; cbn; try discriminate. eauto.
      + intros (s & us & -> & G). eauto.
    - clear. intros ks s k Hk. unfold bag_at. rewrite filter_app. cbn. rewrite Hk, app_nil_r. tauto.
    - clear. intros ks s str p (vs & -> & H). cbn. do 2 eexists. split; [reflexivity|]. now exists vs.
    - clear. intros k1 k2 s (vs & -> & H). rewrite filter_app in H.
      apply Forall2_app_inv_l in H as (v1 & v2 & H1 & _). exists (MUser v1). now exists v1.
    - exists []. split; [reflexivity|constructor]. }
  unfold result_of.
  change (mdeserialize (fun _ => Abort ill_typed) oracles0 env2 bag2 (ERef 7) (EInfo name ns (List.length (parents ++ [SElem name p]))))
    with (AReadTo (MUser []) (fun x s =>
      (match s with MUser u => match x with inl _ => Ok (VVec u) | inr e => Err e end | MDerived _ => Abort ill_typed end, []))
      : action (mstate (list value)) (res verr value * list value)).
  cbn [sem_act sem_read]. fold V. rewrite bag_attrs. fold V.
  destruct (K (parents ++ [SElem name p]) (name, ns, pe)) as [K1 K2].
  assert (Hdet : forall ks, incl ks kids -> forall v1 v2,
    Forall2 (club_reads (ERef 0)) (filter is_elem ks) v1 -> Forall2 (club_reads (ERef 0)) (filter is_elem ks) v2 -> v1 = v2).
  { intro ks. induction ks as [|k ks IH]; intros Hi v1 v2; cbn [filter].
    - intros H1 H2. inversion H1; inversion H2; auto.
    - assert (Hi' : incl ks kids) by (intros x Hx; apply Hi; now right).
      destruct (is_elem k) eqn:E; [|now apply IH]. intros H1 H2.
      inversion H1 as [|? x1 ? l1 G1 F1]; subst. inversion H2 as [|? x2 ? l2 G2 F2]; subst. f_equal; [|now apply IH].
      assert (Hk : implements oracles0 Bisect env2 bag2 club_reads (ERef 0) k).
      { apply Hb. constructor. apply Hi. now left. }
      apply (Hk E []) in G1. apply (Hk E []) in G2. congruence. }
  destruct (sem_kids V (sem_read V) (parents ++ [SElem name p]) (name, ns, pe) kids (MUser [])) as [[[x|e|x] s2] pl].
  - destruct (K1 x s2 pl eq_refl) as (vs & -> & Hvs). cbn. split.
    + intros [= <-]. now constructor.
    + intro H. inversion H; subst; try discriminate. do 3 f_equal. eapply Hdet; eauto. now intro.
  - split.
    + cbn. destruct s2; discriminate.
    + intro H. inversion H; subst; try discriminate. destruct K2 as (? & ? & ? & E); [|discriminate].
      exists (MUser vs). now exists vs.
  - split.
    + cbn. destruct s2; discriminate.
    + intro H. inversion H; subst; try discriminate. destruct K2 as (? & ? & ? & E); [|discriminate].
      exists (MUser vs). now exists vs.
Qed.

Definition club_doc : doc := doc_of []
  [ uel "p" "members" [] [friend "p"; tx "-"; friend "q"];
    uel "p" "name" [] [tx "A"];
    uel "p" "members" [] [] ].

Definition club_value : value := VStruct [s_ "A"; VVec [VVec [bo; bo]; VVec []]].

Example C51_example : names_ok env2 /\ strict bag2 /\ denotes oracles0 env2 bag2 club_reads /\
  hand_written_ok oracles0 Bisect env2 bag2 club_reads /\
  read_mixed oracles0 Bisect env2 bag2 true (ERef 6) (doc_events club_doc) end0 = Ok club_value /\
  club_reads (ERef 6) (d_root club_doc) club_value.
Proof.
  assert (HS : strict bag2).
  { split.
    - intros id D i. cbn. destruct (Nat.eqb id 7); [|discriminate]. intros [= <-] e u v. discriminate.
    - intros u i e b. discriminate. }
  assert (H : read_mixed oracles0 Bisect env2 bag2 true (ERef 6) (doc_events club_doc) end0 = Ok club_value)
    by (vm_compute; reflexivity).
  split; [exact env2_ok|]. split; [exact HS|]. split; [exact club_denotes|]. split; [exact bag_hand_written|].
  split; [exact H|].
  exact (proj1 (C51_reads _ oracles0 Bisect env2 bag2 club_reads env2_ok club_denotes bag_hand_written
    true (ERef 6) club_doc _ club_value (fun _ => HS)) H).
Qed.
