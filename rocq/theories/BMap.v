(** Facts about the model of [BTreeMap]. *)
From Verif Require Import Base Find FindProofs.
From Coq Require Import Lia.

Lemma bm_get_insert {V} k k' (v : V) m :
  bm_get k (bm_insert k' v m) = if String.eqb k k' then Some v else bm_get k m.
Proof.
  induction m as [|[k0 v0] m IH]; cbn; [reflexivity|].
  destruct (String.compare k' k0) eqn:E; cbn.
  - apply str_compare_eq in E. subst k0. destruct (String.eqb k k'); reflexivity.
  - reflexivity.
  - rewrite IH. destruct (String.eqb_spec k k0); [|reflexivity].
    subst k0. destruct (String.eqb_spec k k'); [|reflexivity].
    subst k'. rewrite str_compare_refl in E. discriminate.
Qed.

Lemma bm_mem_insert {V} k k' (v : V) m :
  bm_mem k (bm_insert k' v m) = String.eqb k k' || bm_mem k m.
Proof. unfold bm_mem. rewrite bm_get_insert. destruct (String.eqb k k'); reflexivity. Qed.

Definition keys {V} (m : bmap V) : list string := map fst m.

Lemma bm_mem_keys {V} k (m : bmap V) : bm_mem k m = true <-> In k (keys m).
Proof.
  unfold bm_mem. induction m as [|[k0 v0] m IH]; cbn; [split; [discriminate|tauto]|].
  destruct (String.eqb_spec k k0); [subst; tauto|]. rewrite IH. split; [auto|].
  intros [H | H]; [congruence|assumption].
Qed.

Lemma bm_get_None {V} k (m : bmap V) : bm_get k m = None <-> ~ In k (keys m).
Proof.
  rewrite <- bm_mem_keys. unfold bm_mem. destruct (bm_get k m); split; congruence.
Qed.

Lemma bm_get_In {V} k (v : V) m : bm_get k m = Some v -> In (k, v) m.
Proof.
  induction m as [|[k0 v0] m IH]; cbn; [discriminate|].
  destruct (String.eqb_spec k k0); [intros [= ->]; subst; auto | auto].
Qed.

Lemma In_bm_get {V} k (v : V) m : NoDup (keys m) -> In (k, v) m -> bm_get k m = Some v.
Proof.
  induction m as [|[k0 v0] m IH]; cbn; [tauto|]. inversion 1; subst.
  intros [E | Hin].
  - inversion E; subst. now rewrite String.eqb_refl.
  - destruct (String.eqb_spec k k0); [|auto]. subst. exfalso.
    apply H2. apply in_map_iff. now exists (k0, v).
Qed.

(** The order of keys. *)
Inductive ksorted {V} : bmap V -> Prop :=
| ks_nil : ksorted []
| ks_cons : forall k v m, (forall k', In k' (keys m) -> String.compare k k' = Lt) -> ksorted m ->
    ksorted ((k, v) :: m).

Lemma keys_insert {V} k (v : V) m x : In x (keys (bm_insert k v m)) <-> x = k \/ In x (keys m).
Proof.
  rewrite <- !bm_mem_keys, bm_mem_insert, orb_true_iff, String.eqb_eq. tauto.
Qed.

Lemma insert_sorted {V} k (v : V) m : ksorted m -> ksorted (bm_insert k v m).
Proof.
  induction 1 as [|k0 v0 m Hlt Hs IH]; cbn; [constructor; [intros ? [] | constructor]|].
  destruct (String.compare k k0) eqn:E.
  - apply str_compare_eq in E. subst. now constructor.
  - constructor; [|now constructor]. cbn. intros k' [<- | Hin]; [assumption|].
    eapply str_compare_trans; [exact E|auto].
  - constructor; [|assumption]. intros k' Hin. apply keys_insert in Hin. destruct Hin as [-> | Hin].
    + now apply str_compare_gt.
    + auto.
Qed.

Lemma sorted_NoDup {V} (m : bmap V) : ksorted m -> NoDup (keys m).
Proof.
  induction 1 as [|k v m Hlt Hs IH]; cbn; constructor; auto.
  intro Hin. apply Hlt in Hin. rewrite str_compare_refl in Hin. discriminate.
Qed.

Lemma insert_length {V} k (v : V) m : bm_mem k m = false -> List.length (bm_insert k v m) = S (List.length m).
Proof.
  induction m as [|[k0 v0] m IH]; cbn; [reflexivity|].
  intro H. destruct (String.compare k k0) eqn:E; cbn.
  - apply str_compare_eq in E. subst. unfold bm_mem in H. cbn in H. now rewrite String.eqb_refl in H.
  - reflexivity.
  - rewrite IH; [reflexivity|]. unfold bm_mem in *. cbn in H.
    destruct (String.eqb_spec k k0); [discriminate|assumption].
Qed.
