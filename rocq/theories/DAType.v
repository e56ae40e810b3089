(** Proofs about type-level attributes, whole declarations and text types. *)
From Verif Require Import Base Normalize Text Find FindProofs Types BMap DeriveAttr DASpec DAProofs.
From Coq Require Import Lia.

(** ** [str::trim] *)

Lemma strip_app p l r : strip p l = Some r <-> l = p ++ r.
Proof.
  revert l. induction p as [|a p IH]; intros l; cbn; [split; congruence|].
  destruct l as [|b l]; [split; discriminate|]. destruct (Ascii.eqb_spec a b) as [->|N].
  - rewrite IH. split; congruence.
  - split; congruence.
Qed.

Lemma strip_any_app ps l r : strip_any ps l = Some r -> exists p, In p ps /\ l = p ++ r.
Proof.
  induction ps as [|p ps IH]; cbn; [discriminate|]. destruct (strip p l) as [l'|] eqn:E.
  - intros [= <-]. exists p. split; auto. now apply strip_app.
  - intros H. destruct (IH H) as (q & Hq & Eq). eauto.
Qed.
Lemma strip_any_none ps l : strip_any ps l = None <-> forall p r, In p ps -> l <> p ++ r.
Proof.
  induction ps as [|p ps IH]; cbn; [split; [tauto|auto]|]. destruct (strip p l) as [l'|] eqn:E.
  - split; [discriminate|]. intros H. apply strip_app in E. exfalso. eapply H; eauto.
  - rewrite IH. split.
    + intros H q r [<-|Hq]; [|auto]. intros X. apply strip_app in X. congruence.
    + auto.
Qed.

Lemma strip_all_spec ps : (forall p, In p ps -> p <> []) -> forall n l, List.length l <= n ->
  strip_any ps (strip_all ps n l) = None /\ exists w, l = concat w ++ strip_all ps n l /\ Forall (fun p => In p ps) w.
Proof.
  intros HP. induction n as [|n IH]; intros l HL.
  - destruct l; [|cbn in HL; lia]. cbn. split; [|exists []; split; [reflexivity|constructor]].
    apply strip_any_none. intros [|c p] r Hp E; [now apply HP in Hp|discriminate].
  - cbn [strip_all]. destruct (strip_any ps l) as [l'|] eqn:E.
    + apply strip_any_app in E as (p & Hp & ->). rewrite app_length in HL.
      assert (1 <= List.length p) by (destruct p; [now apply HP in Hp|cbn; lia]).
      destruct (IH l' ltac:(lia)) as (H1 & w & H2 & H3). split; auto. exists (p :: w). cbn. rewrite <- app_assoc, <- H2.
      split; auto.
    + split; auto. exists []. split; [reflexivity|constructor].
Qed.

Lemma white_nonempty p : In p white_chars -> p <> [].
Proof. cbn. intros H E. subst p. intuition discriminate. Qed.
Lemma white_rev_nonempty p : In p (map (@rev ascii) white_chars) -> p <> [].
Proof.
  intros H E. apply in_map_iff in H as (q & Eq & H). subst p. destruct q; [now apply white_nonempty in H|].
  apply (f_equal (@List.length _)) in E. rewrite rev_length in E. discriminate.
Qed.

Definition white (l : list ascii) : Prop := exists w, l = concat w /\ Forall (fun p => In p white_chars) w.

Lemma bytes_of_length s : List.length (bytes_of s) = String.length s.
Proof. induction s; cbn; congruence. Qed.
Lemma bytes_str l : bytes_of (str_of l) = l.
Proof. apply list_ascii_of_string_of_list_ascii. Qed.
Lemma str_bytes s : str_of (bytes_of s) = s.
Proof. apply string_of_list_ascii_of_string. Qed.

(** [str::trim] removes white space at both ends and all of it. *)
Theorem str_trim_spec s : exists a b, bytes_of s = a ++ bytes_of (str_trim s) ++ b /\ white a /\ white b /\
  (forall p r, In p white_chars -> bytes_of (str_trim s) <> p ++ r) /\
  (forall p r, In p white_chars -> bytes_of (str_trim s) <> r ++ p).
Proof.
  unfold str_trim. rewrite bytes_str. set (l := strip_all white_chars (String.length s) (bytes_of s)).
  set (l2 := strip_all (map (@rev ascii) white_chars) (List.length l) (rev l)).
  destruct (strip_all_spec white_chars white_nonempty (String.length s) (bytes_of s)) as (N1 & w1 & E1 & W1).
  { now rewrite bytes_of_length. }
  destruct (strip_all_spec (map (@rev ascii) white_chars) white_rev_nonempty (List.length l) (rev l)) as (N2 & w2 & E2 & W2).
  { now rewrite rev_length. }
  fold l in E1, N1. fold l2 in E2, N2.
  assert (El : l = rev l2 ++ concat (rev (map (@rev ascii) w2))).
  { rewrite <- (rev_involutive l), E2, rev_app_distr. f_equal. clear. induction w2 as [|p w IH]; [reflexivity|].
    cbn. rewrite rev_app_distr, IH, concat_app. cbn. now rewrite app_nil_r. }
  exists (concat w1), (concat (rev (map (@rev ascii) w2))). split; [now rewrite <- El|].
  split; [exists w1; auto|]. split.
  { eexists. split; [reflexivity|]. rewrite Forall_forall in *. intros p Hp. apply in_rev in Hp.
    apply in_map_iff in Hp as (q & <- & Hq). apply W2 in Hq. apply in_map_iff in Hq as (q' & <- & Hq).
    now rewrite rev_involutive. }
  split.
  - intros p r Hp E. rewrite E, <- app_assoc in El. rewrite strip_any_none in N1. eapply N1; eauto.
  - intros p r Hp E. rewrite strip_any_none in N2. apply (N2 (rev p) (rev r)); [apply in_map; exact Hp|].
    now rewrite <- rev_app_distr, <- E, rev_involutive.
Qed.

Lemma strip_all_none ps n l : strip_any ps l = None -> strip_all ps n l = l.
Proof. destruct n; cbn; [reflexivity|]. now intros ->. Qed.

Lemma str_trim_idem s : str_trim (str_trim s) = str_trim s.
Proof.
  destruct (str_trim_spec s) as (_ & _ & _ & _ & _ & N1 & N2). set (t := str_trim s) in *.
  unfold str_trim at 1. rewrite (strip_all_none white_chars) by (apply strip_any_none; exact N1).
  rewrite strip_all_none, rev_involutive; [apply str_bytes|]. apply strip_any_none.
  intros p r Hp E. apply in_map_iff in Hp as (q & <- & Hq). apply (N2 q (rev r) Hq).
  rewrite <- (rev_involutive (bytes_of t)), E, rev_app_distr, rev_involutive. reflexivity.
Qed.

(** ** [split_once] *)

Lemma starts_colon s : starts_with ": " s = true <-> exists u, s = (": " ++ u)%string.
Proof.
  split.
  - destruct s as [|a [|b s]]; cbn [starts_with]; try discriminate; [now rewrite andb_false_r|].
    intros H. apply andb_true_iff in H as [H1 H]. apply andb_true_iff in H as [H2 _].
    apply Ascii.eqb_eq in H1, H2. subst. exists s. reflexivity.
  - intros (u & ->). reflexivity.
Qed.

Lemma substring_all s : substring 0 (String.length s) s = s.
Proof. induction s; cbn; congruence. Qed.

Lemma split_colon_ok s p u : split_colon s = Some (p, u) <-> first_colon s p u.
Proof.
  revert p u. induction s as [|c s IH]; intros p u.
  - cbn. split; [discriminate|]. intros [H _]. destruct p; discriminate.
  - cbn [split_colon]. destruct (starts_with ": " (String c s)) eqn:E.
    + apply starts_colon in E as (u' & E). rewrite E.
      assert (S2 : substring 2 (String.length (": " ++ u') - 2) (": " ++ u') = u').
      { cbn. rewrite PeanoNat.Nat.sub_0_r. apply substring_all. }
      rewrite S2. split.
      * intros [= <- <-]. split; [reflexivity|]. intros. cbn. lia.
      * intros [H1 H2]. specialize (H2 ""%string u' eq_refl). destruct p; [|cbn in H2; lia]. cbn in H1. congruence.
    + assert (NE : forall q v, String c s = (q ++ ": " ++ v)%string -> exists q', q = String c q' /\ s = (q' ++ ": " ++ v)%string).
      { intros [|a q'] v Hq.
        - exfalso. assert (X : starts_with ": " (String c s) = true) by (apply starts_colon; exists v; exact Hq). congruence.
        - cbn in Hq. injection Hq as <- Hq. eauto. }
      split.
      * destruct (split_colon s) as [[a b]|]; [|discriminate]. intros [= <- <-].
        destruct (proj1 (IH a b) eq_refl) as [H1 H2]. split; [cbn; now rewrite H1|].
        intros q v Hq. apply NE in Hq as (q' & -> & Hq). apply H2 in Hq. cbn. lia.
      * intros [H1 H2]. apply NE in H1 as (p' & -> & H1).
        assert (F : first_colon s p' u).
        { split; auto. intros q v Hq. specialize (H2 (String c q) v). cbn in H2. rewrite Hq in H2 at 1. specialize (H2 eq_refl). lia. }
        apply IH in F. now rewrite F.
Qed.

Lemma split_colon_none s : split_colon s = None <-> forall p u, s <> (p ++ ": " ++ u)%string.
Proof.
  induction s as [|c s IH].
  - cbn. split; [|reflexivity]. intros _ p u H. destruct p; discriminate.
  - cbn [split_colon]. destruct (starts_with ": " (String c s)) eqn:E.
    + split; [discriminate|]. intros H. apply starts_colon in E as (u & E). exfalso. apply (H ""%string u). exact E.
    + destruct (split_colon s) as [[a b]|] eqn:ES.
      * split; [discriminate|]. intros H. exfalso. apply split_colon_ok in ES as [ES _].
        apply (H (String c a) b). now rewrite ES.
      * split; [|reflexivity]. intros _ [|a p] u H.
        -- assert (X : starts_with ": " (String c s) = true) by (apply starts_colon; exists u; exact H). congruence.
        -- cbn in H. injection H as _ H. exact (proj1 IH eq_refl _ _ H).
Qed.

(** ** Maps *)

Lemma ksorted_ext {V} (m1 m2 : bmap V) : ksorted m1 -> ksorted m2 -> (forall k, bm_get k m1 = bm_get k m2) -> m1 = m2.
Proof.
  intros H. revert m2. induction H as [|k v m Hlt Hs IH]; intros m2 H2 E.
  - destruct H2 as [|k v m Hlt Hs]; [reflexivity|]. specialize (E k). cbn in E. rewrite String.eqb_refl in E. discriminate.
  - destruct H2 as [|k2 v2 m2 Hlt2 Hs2].
    + specialize (E k). cbn in E. rewrite String.eqb_refl in E. discriminate.
    + assert (k = k2) as <-.
      { destruct (String.eqb_spec k k2) as [|N]; [assumption|]. exfalso.
        assert (A : In k2 (keys m)).
        { specialize (E k2). cbn in E. rewrite String.eqb_refl in E.
          destruct (String.eqb_spec k2 k) as [->|_]; [congruence|]. apply bm_mem_keys. unfold bm_mem. now rewrite E. }
        assert (B : In k (keys m2)).
        { specialize (E k). cbn in E. rewrite String.eqb_refl in E.
          destruct (String.eqb_spec k k2) as [->|_]; [congruence|]. apply bm_mem_keys. unfold bm_mem. now rewrite <- E. }
        apply Hlt in A. apply Hlt2 in B. pose proof (str_compare_trans _ _ _ A B) as X. rewrite str_compare_refl in X. discriminate. }
      assert (v = v2) as <-.
      { specialize (E k). cbn in E. rewrite String.eqb_refl in E. now injection E. }
      f_equal. apply IH; auto. intros k'. specialize (E k'). cbn in E.
      destruct (String.eqb_spec k' k) as [Ek|N]; [|exact E]. clear E. subst k'.
      transitivity (@None V); [|symmetry]; apply bm_get_None; intros X; [apply Hlt in X|apply Hlt2 in X];
        rewrite str_compare_refl in X; discriminate.
Qed.

Definition inserts (ds : list (string * string)) (m : bmap string) : bmap string :=
  fold_left (fun m d => bm_insert (fst d) (snd d) m) ds m.

Definition new_in (ds : list (string * string)) (m : bmap string) : Prop :=
  NoDup (map fst ds) /\ forall k, In k (map fst ds) -> bm_get k m = None.

Lemma inserts_sorted ds m : ksorted m -> ksorted (inserts ds m).
Proof.
  revert m. induction ds as [|[k v] ds IH]; intros m H; [exact H|]. cbn [inserts fold_left].
  apply (IH (bm_insert k v m)). now apply insert_sorted.
Qed.

Lemma inserts_get ds m : new_in ds m -> forall p u, bm_get p (inserts ds m) = Some u <-> In (p, u) ds \/ bm_get p m = Some u.
Proof.
  revert m. induction ds as [|[k v] ds IH]; intros m [ND N] p u; [cbn; tauto|].
  cbn [map fst] in ND, N. inversion ND as [|? ? Hk ND']; subst.
  assert (X : new_in ds (bm_insert k v m)).
  { split; auto. intros k' Hk'. rewrite bm_get_insert. destruct (String.eqb_spec k' k) as [->|_]; [contradiction|]. apply N. now right. }
  change (inserts ((k, v) :: ds) m) with (inserts ds (bm_insert k v m)). rewrite (IH _ X), bm_get_insert. cbn [In].
  destruct (String.eqb_spec p k) as [->|Np].
  - rewrite N by now left. split; [intros [?|[= <-]]; auto|]. intros [[[= <-]|?]|[=]]; auto.
  - split; [tauto|]. intros [[[= <- <-]|?]|?]; auto. now contradiction Np.
Qed.

Lemma inserts_agrees ds : NoDup (map fst ds) -> agrees (inserts ds []) ds.
Proof. intros H p u. rewrite inserts_get by (split; auto; reflexivity). cbn. intuition discriminate. Qed.

Lemma agrees_get m1 m2 ds : agrees m1 ds -> agrees m2 ds -> forall k, bm_get k m1 = bm_get k m2.
Proof.
  intros H1 H2 k. destruct (bm_get k m1) as [u|] eqn:E.
  - symmetry. apply H2, H1, E.
  - destruct (bm_get k m2) as [u|] eqn:E2; [|reflexivity]. apply H2, H1 in E2. congruence.
Qed.

Lemma new_in_cons d ds m : new_in (d :: ds) m <-> bm_get (fst d) m = None /\ new_in ds (bm_insert (fst d) (snd d) m).
Proof.
  destruct d as [k v]. unfold new_in. cbn [map fst snd]. split.
  - intros [ND N]. inversion ND as [|? ? Hk ND']; subst. split; [apply N; now left|]. split; auto.
    intros k' Hk'. rewrite bm_get_insert. destruct (String.eqb_spec k' k) as [->|_]; [contradiction|]. apply N. now right.
  - intros (H & ND & N). split.
    + constructor; auto. intros X. apply N in X. rewrite bm_get_insert, String.eqb_refl in X. discriminate.
    + intros k' [<-|Hk']; auto. apply N in Hk'. rewrite bm_get_insert in Hk'.
      destruct (String.eqb k' k); [discriminate|exact Hk'].
Qed.

Lemma add_internal_ok m p u m' : add_internal m p u = inl ([], m') <->
  new_in [(p, str_trim u)] m /\ m' = inserts [(p, str_trim u)] m.
Proof.
  unfold add_internal. rewrite new_in_cons. cbn [fst snd inserts fold_left].
  assert (X : new_in [] (bm_insert p (str_trim u) m)) by (split; [constructor|intros k []]).
  destruct (bm_get p m) as [old|] eqn:E.
  - rewrite push_ok. split; [tauto|]. intros [[H _] _]. discriminate.
  - rewrite ret_ok. split; [intros <-; auto|]. now intros [_ ->].
Qed.

Lemma new_in_nil m : new_in [] m.
Proof. split; [constructor|intros k []]. Qed.

Lemma first_colon_functional s p u p' u' : first_colon s p u -> first_colon s p' u' -> p = p' /\ u = u'.
Proof.
  intros H1 H2. apply split_colon_ok in H1, H2. rewrite H1 in H2. now injection H2 as -> ->.
Qed.
Lemma namespace_functional s d d' : namespace_means s d -> namespace_means s d' -> d = d'.
Proof.
  intros H1 H2. destruct H1 as [p u F X|p u F X Y Z|N]; destruct H2 as [p' u' F' X'|p' u' F' X' Y' Z'|N'];
    try reflexivity; try (destruct F as [F _]; exfalso; eapply N'; exact F); try (destruct F' as [F' _]; exfalso; eapply N; exact F');
    destruct (first_colon_functional _ _ _ _ _ F F') as [<- <-]; congruence.
Qed.

Lemma add_namespace_ok m l m' : add_namespace m l = inl ([], m') <->
  exists s d, l = LStr s /\ namespace_means s d /\ new_in d m /\ m' = inserts d m.
Proof.
  unfold add_namespace. rewrite with_lit_str_ok.
  enough (X : forall value, (match split_colon value with
    | Some (prefix_untrimmed, url_untrimmed) =>
        if starts_with "xml" prefix_untrimmed then
          if String.eqb (str_trim prefix_untrimmed) "xml" && String.eqb (str_trim url_untrimmed) XML_NS
          then ret m
          else inr (Panic "not yet implemented: unsupported special namespace combo")
        else add_internal m (str_trim prefix_untrimmed) url_untrimmed
    | None => add_internal m "" value end) = inl ([], m') <-> exists d, namespace_means value d /\ new_in d m /\ m' = inserts d m).
  { split.
    - intros (s & -> & H). apply X in H as (d & H). exists s, d. auto.
    - intros (s & d & -> & H). exists s. split; auto. apply X. eauto. }
  intros s. destruct (split_colon s) as [[p u]|] eqn:E.
  - apply split_colon_ok in E. destruct (starts_with "xml" p) eqn:Ex.
    + destruct (String.eqb_spec (str_trim p) "xml") as [E1|E1]; [destruct (String.eqb_spec (str_trim u) XML_NS) as [E2|E2]|]; cbn [andb].
      * rewrite ret_ok. split.
        -- intros <-. exists []. split; [eapply nm_xml; eauto|]. split; [apply new_in_nil|reflexivity].
        -- intros (d & H & _ & ->). rewrite (namespace_functional _ _ [] H); [reflexivity|]. eapply nm_xml; eauto.
      * split; [discriminate|]. intros (d & H & _). exfalso. destruct H as [p' u' F X|p' u' F X Y Z|N].
        -- destruct (first_colon_functional _ _ _ _ _ E F) as [<- <-]. congruence.
        -- destruct (first_colon_functional _ _ _ _ _ E F) as [<- <-]. congruence.
        -- destruct E as [E _]. eapply N; exact E.
      * split; [discriminate|]. intros (d & H & _). exfalso. destruct H as [p' u' F X|p' u' F X Y Z|N].
        -- destruct (first_colon_functional _ _ _ _ _ E F) as [<- <-]. congruence.
        -- destruct (first_colon_functional _ _ _ _ _ E F) as [<- <-]. congruence.
        -- destruct E as [E _]. eapply N; exact E.
    + rewrite add_internal_ok. split.
      * intros [H1 H2]. eexists. split; [eapply nm_prefix; eauto|]. auto.
      * intros (d & H & H1). rewrite (namespace_functional _ _ [(str_trim p, str_trim u)] H) in H1; [exact H1|].
        now apply nm_prefix.
  - pose proof (proj1 (split_colon_none s) E) as N. rewrite add_internal_ok. split.
    + intros [H1 H2]. eexists. split; [now apply nm_default|]. auto.
    + intros (d & H & H1). rewrite (namespace_functional _ _ [(""%string, str_trim s)] H) in H1; [exact H1|].
      now apply nm_default.
Qed.

Lemma add_default_ok m l m' : add_default_namespace m l = inl ([], m') <->
  exists s, l = LStr s /\ new_in [(""%string, str_trim s)] m /\ m' = inserts [(""%string, str_trim s)] m.
Proof. unfold add_default_namespace. rewrite with_lit_str_ok. setoid_rewrite add_internal_ok. setoid_rewrite str_trim_idem. reflexivity. Qed.

Lemma inserts_app d ds m : inserts (d ++ ds) m = inserts ds (inserts d m).
Proof. unfold inserts. apply fold_left_app. Qed.

Lemma new_in_app d ds m : new_in (d ++ ds) m <-> new_in d m /\ new_in ds (inserts d m).
Proof.
  revert m. induction d as [|x d IH]; intros m; cbn [app].
  - split; [intros H; split; [apply new_in_nil|exact H]|now intros [_ H]].
  - rewrite !new_in_cons, IH. change (inserts (x :: d) m) with (inserts d (bm_insert (fst x) (snd x) m)). tauto.
Qed.

(** ** Types *)

Definition last_lit (p : option lit) (l : list item) : option lit :=
  match rev (literals "prefix" l) with [] => p | v :: _ => Some v end.

Lemma last_lit_cons p v l : last_lit p (INameValue (Some "prefix"%string) v :: l) = last_lit (Some v) l.
Proof.
  unfold last_lit. change (literals "prefix" (INameValue (Some "prefix"%string) v :: l)) with (v :: literals "prefix" l).
  cbn [rev]. destruct (rev (literals "prefix" l)); reflexivity.
Qed.

Lemma attr_items_ok l : forall local m p local' m' p',
  dfold attr_item (local, m, p) l = inl ([], (local', m', p')) <->
  Forall type_item l /\ local' = last (values "rename" l) local /\ p' = last_lit p l /\
  exists ds, declarations l ds /\ new_in ds m /\ m' = inserts ds m.
Proof.
  induction l as [|i l IH]; intros local m p local' m' p'.
  - cbn [dfold]. rewrite ret_ok. split.
    + intros [= <- <- <-]. split; [constructor|]. split; [reflexivity|]. split; [reflexivity|]. exists []. split; [constructor|].
      split; [apply new_in_nil|reflexivity].
    + intros (_ & -> & -> & ds & H & _ & ->). inversion H; subst. reflexivity.
  - rewrite dfold_cons.
    assert (NO : forall P : Prop, ~ type_item i -> (Forall type_item (i :: l) /\ P <-> False)).
    { intros P HN. split; [|tauto]. intros [H _]. now inversion H. }
    destruct i as [q|q v|].
    + rewrite NO. 2:{ intros [[s E]|[[s E]|[[s E]|[s E]]]]; discriminate. }
      split; [|tauto]. intros (s & H & _). cbn [attr_item] in H. now apply push_ok in H.
    + cbn [attr_item]. ident q "rename"%string.
      { setoid_rewrite dbind_ok. setoid_rewrite ret_ok. setoid_rewrite with_lit_str_ok. setoid_rewrite ret_ok. split.
        - intros (st' & (loc & (s & -> & <-) & <-) & H). apply IH in H as (H1 & H2 & H3 & ds & H4 & H5).
          split; [constructor; auto; left; now exists s|].
          change (values "rename" (INameValue (Some "rename"%string) (LStr s) :: l)) with (s :: values "rename" l).
          rewrite last_cons. split; auto. split; auto. exists ds. split; auto. constructor; auto.
        - intros (H1 & H2 & H3 & ds & H4 & H5). inversion H1 as [|? ? Hi Hl]; subst.
          destruct Hi as [[s E]|[[s E]|[[s E]|[s E]]]]; try discriminate. injection E as ->.
          exists (s, m, p). split; [exists s; split; [now exists s|reflexivity]|]. apply IH. split; auto. split.
          { change (values "rename" (INameValue (Some "rename"%string) (LStr s) :: l)) with (s :: values "rename" l). apply last_cons. }
          split; [reflexivity|]. exists ds. split; auto. inversion H4; auto. }
      ident q "prefix"%string.
      { setoid_rewrite ret_ok. split.
        - intros (st' & <- & H). apply IH in H as (H1 & H2 & H3 & ds & H4 & H5).
          split; [constructor; auto; right; right; right; now exists v|].
          assert (EV : values "rename" (INameValue (Some "prefix"%string) v :: l) = values "rename" l) by (destruct v; reflexivity).
          rewrite EV, last_lit_cons. split; auto. split; auto. exists ds. split; auto. constructor; auto.
        - intros (H1 & H2 & H3 & ds & H4 & H5). eexists. split; [reflexivity|]. apply IH. rewrite last_lit_cons in H3.
          assert (EV : values "rename" (INameValue (Some "prefix"%string) v :: l) = values "rename" l) by (destruct v; reflexivity).
          rewrite EV in H2. split; [now inversion H1|]. split; auto. split; auto. exists ds. split; auto. inversion H4; auto. }
      ident q "namespace"%string.
      { setoid_rewrite dbind_ok. setoid_rewrite ret_ok. setoid_rewrite add_namespace_ok. split.
        - intros (st' & (m1 & (s & d & -> & D1 & D2 & ->) & <-) & H). apply IH in H as (H1 & H2 & H3 & ds & H4 & H5 & ->).
          split; [constructor; auto; right; left; now exists s|]. split; auto. split; auto. exists (d ++ ds).
          split; [now constructor|]. rewrite new_in_app, inserts_app. auto.
        - intros (H1 & H2 & H3 & ds & H4 & H5 & H6).
          inversion H4 as [|s l' d ds' D1 D2|s l' ds' D|k v' l' ds' [Ek|Ek] D]; subst; try discriminate.
          rewrite new_in_app in H5. rewrite inserts_app.
          exists (local, inserts d m, p). split.
          { exists (inserts d m). split; [|reflexivity]. exists s, d. tauto. }
          apply IH. split; [now inversion H1|]. split; [reflexivity|]. split; [reflexivity|]. exists ds'. tauto. }
      ident q "default_namespace"%string.
      { setoid_rewrite dbind_ok. setoid_rewrite ret_ok. setoid_rewrite add_default_ok. split.
        - intros (st' & (m1 & (s & -> & D2 & ->) & <-) & H). apply IH in H as (H1 & H2 & H3 & ds & H4 & H5 & ->).
          split; [constructor; auto; right; right; left; now exists s|]. split; auto. split; auto. exists ([(""%string, str_trim s)] ++ ds).
          split; [now constructor|]. rewrite new_in_app, inserts_app. auto.
        - intros (H1 & H2 & H3 & ds & H4 & H5 & H6).
          inversion H4 as [|s l' d ds' D1 D2|s l' ds' D|k v' l' ds' [Ek|Ek] D]; subst; try discriminate.
          change ((""%string, str_trim s) :: ds') with ([(""%string, str_trim s)] ++ ds') in *.
          rewrite new_in_app in H5. rewrite inserts_app.
          exists (local, inserts [(""%string, str_trim s)] m, p). split.
          { eexists. split; [|reflexivity]. exists s. tauto. }
          apply IH. split; [now inversion H1|]. split; [reflexivity|]. split; [reflexivity|]. exists ds'. tauto. }
      rewrite NO. 2:{ intros [[s E]|[[s E]|[[s E]|[s E]]]]; congruence. }
      split; [|tauto]. intros (s & H & _). now apply push_ok in H.
    + rewrite NO. 2:{ intros [[s E]|[[s E]|[[s E]|[s E]]]]; discriminate. }
      split; [|tauto]. intros (s & H & _). cbn [attr_item] in H. now apply push_ok in H.
Qed.

Theorem element_attr_ok ident attrs r :
  element_attr ident attrs = inl ([], r) <-> exists decls, type_attrs ident attrs decls r.
Proof.
  unfold element_attr. rewrite dbind_ok. setoid_rewrite get_meta_items_ok. setoid_rewrite dbind_ok. split.
  - intros (items & (HW & ->) & [[local m] p] & H1 & H2). apply attr_items_ok in H1 as (H1 & -> & -> & ds & H4 & H5 & ->).
    pose proof (inserts_agrees ds (proj1 H5)) as HA. pose proof (inserts_sorted ds [] (ks_nil)) as HS.
    exists ds. unfold last_lit in H2. destruct (rev (literals "prefix" (items_in attrs))) as [|v rest] eqn:EL.
    + apply ret_ok in H2 as <-. eapply ty_attrs; eauto; [apply H5|unfold last_prefix; now rewrite EL|constructor].
    + apply dbind_ok in H2 as (nm & H2 & H3). apply ret_ok in H3 as <-.
      apply (process_prefix_ok _ _ _ _ _ HA) in H2 as (s & -> & H2).
      eapply ty_attrs; eauto; [apply H5|]. unfold last_prefix. rewrite EL. eauto.
  - intros (decls & H). inversion H as [ps nm nss HW HF HD ND HP HN HS HA]; subst.
    exists (items_in attrs). split; [auto|].
    exists (last (values "rename" (items_in attrs)) ident, inserts decls [], last_lit None (items_in attrs)).
    split.
    { apply attr_items_ok. split; auto. split; auto. split; auto. exists decls. split; auto. split; [|reflexivity].
      split; auto; reflexivity. }
    pose proof (inserts_agrees decls ND) as HA'.
    assert (EM : inserts decls [] = nss).
    { apply ksorted_ext; [apply inserts_sorted; constructor|assumption|]. eapply agrees_get; eauto. }
    rewrite EM. unfold last_lit. unfold last_prefix in HP. destruct (rev (literals "prefix" (items_in attrs))) as [|v rest].
    + subst ps. inversion HN; subst. reflexivity.
    + destruct HP as (s & -> & ->). rewrite dbind_ok. exists nm. split; [|reflexivity].
      apply (process_prefix_ok _ decls _ _ _ HA). eauto.
Qed.

(** ** Declarations *)

Lemma somes_map {A} (l : list A) : somes (map Some l) = l.
Proof. induction l; cbn; congruence. Qed.

Theorem derive_serialize_ok i r :
  derive_serialize i = inl ([], r) <-> exists d, r = Some d /\ input_means i d.
Proof.
  unfold derive_serialize. destruct i as [ident attrs data]. cbn [si_data si_ident si_attrs]. destruct data as [fs|vs|].
  - rewrite dbind_ok. setoid_rewrite ret_ok. unfold element_struct. setoid_rewrite dbind_ok. setoid_rewrite element_attr_ok. split.
    + intros (s & (attr & (decls & HT) & H) & <-). destruct fs as [fs|fs|]; [|now apply push_ok in H|now apply push_ok in H].
      apply dbind_ok in H as (l & Hl & H). apply dmap_ok in Hl.
      assert (HA : agrees (ea_nss attr) decls) by (destruct HT; assumption).
      assert (exists efs, l = map Some efs /\ Forall2 (field_means decls) fs efs) as (efs & -> & HF).
      { clear H. induction Hl as [|f o fs l Hf _ (efs & -> & HF)]; [exists []; split; [reflexivity|constructor]|].
        apply (element_field_ok _ decls _ _ HA) in Hf as (ef & -> & Hf). exists (ef :: efs). split; [reflexivity|now constructor]. }
      rewrite somes_map in H. destruct (Nat.leb_spec 2 (List.length (filter is_etext efs))) as [_|HL]; [now apply push_ok in H|].
      apply ret_ok in H as <-. eexists. split; [reflexivity|]. apply (in_struct (SInput ident attrs _) fs decls attr efs); auto. lia.
    + intros (d & -> & H). inversion H as [fs' decls attr efs E HT HF HL|vs' decls attr evs E]; subst; cbn [si_data si_ident si_attrs] in *; [|discriminate].
      injection E as ->. exists (Some (EStruct ident attr efs)). split; [|reflexivity]. exists attr. split; [eauto|].
      assert (HA : agrees (ea_nss attr) decls) by (destruct HT; assumption).
      rewrite dbind_ok. exists (map Some efs). split.
      { apply dmap_ok. clear HL H. induction HF; constructor; auto. apply (element_field_ok _ decls _ _ HA). eauto. }
      rewrite somes_map. destruct (Nat.leb_spec 2 (List.length (filter is_etext efs))); [lia|reflexivity].
  - rewrite dbind_ok. setoid_rewrite ret_ok. unfold element_enum. setoid_rewrite dbind_ok. setoid_rewrite element_attr_ok.
    setoid_rewrite dbind_ok. setoid_rewrite dmap_ok. setoid_rewrite ret_ok. split.
    + intros (e & (attr & (decls & HT) & l & Hl & <-) & <-). eexists. split; [reflexivity|].
      assert (HA : agrees (ea_nss attr) decls) by (destruct HT; assumption).
      assert (exists evs, l = map (fun e => (is_none e, e)) evs /\ Forall2 (variant_means decls) vs evs) as (evs & -> & HF).
      { induction Hl as [|v o vs l Hv _ (evs & -> & HF)]; [exists []; split; [reflexivity|constructor]|].
        apply (element_variant_ok _ decls _ _ HA) in Hv as (ev & -> & Hv). exists (ev :: evs). split; [reflexivity|now constructor]. }
      rewrite map_map. cbn [snd]. rewrite map_id.
      replace (existsb fst (map (fun e : option evariant => (is_none e, e)) evs)) with (existsb is_none evs).
      2:{ clear. induction evs; cbn; congruence. }
      apply (in_enum (SInput ident attrs _) vs decls attr evs); auto.
    + intros (d & -> & H). inversion H as [fs' decls attr efs E HT HF HL|vs' decls attr evs E HT HF]; subst; cbn [si_data si_ident si_attrs] in *; [discriminate|].
      injection E as ->. eexists. split; [|reflexivity]. exists attr. split; [eauto|].
      assert (HA : agrees (ea_nss attr) decls) by (destruct HT; assumption).
      exists (map (fun e => (is_none e, e)) evs). split.
      { clear H. induction HF; constructor; auto. apply (element_variant_ok _ decls _ _ HA). eauto. }
      rewrite map_map. cbn [snd]. rewrite map_id.
      replace (existsb fst (map (fun e : option evariant => (is_none e, e)) evs)) with (existsb is_none evs); [reflexivity|].
      clear. induction evs; cbn; congruence.
  - rewrite push_ok. split; [tauto|]. intros (d & _ & H). inversion H; discriminate.
Qed.

Definition textless (d : edesc) : Prop :=
  match d with EDStruct s => Forall (fun f => ef_mode f <> EText_) (es_fields s) | EDEnum _ => True end.

Theorem derive_deserialize_ok i r :
  derive_deserialize i = inl ([], r) <-> exists d, r = Some d /\ input_means i d /\ textless d.
Proof.
  unfold derive_deserialize. rewrite dbind_ok. setoid_rewrite derive_serialize_ok.
  assert (TL : forall l, existsb is_etext l = false <-> Forall (fun f => ef_mode f <> EText_) l).
  { intros l. rewrite Forall_forall. split.
    - intros H f Hf E. assert (X : existsb is_etext l = true); [|congruence]. apply existsb_exists. exists f. split; auto.
      unfold is_etext. now rewrite E.
    - intros H. destruct (existsb is_etext l) eqn:E; [|reflexivity]. apply existsb_exists in E as (f & Hf & E).
      apply H in Hf. unfold is_etext in E. destruct (ef_mode f); congruence. }
  split.
  - intros (d & (d' & -> & H1) & H2). destruct d' as [s|e].
    + destruct (existsb is_etext (es_fields s)) eqn:E; [discriminate|]. apply ret_ok in H2 as <-. eexists. split; [reflexivity|].
      split; auto. cbn. now apply TL.
    + apply ret_ok in H2 as <-. eexists. split; [reflexivity|]. split; auto. exact I.
  - intros (d & -> & H1 & H2). exists (Some d). split; [eauto|]. destruct d as [s|e]; [|reflexivity].
    cbn in H2. apply TL in H2. now rewrite H2.
Qed.
