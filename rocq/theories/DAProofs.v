(** Proofs that the model of the derive attributes meets DASpec.v. *)
From Verif Require Import Base Normalize Text Find Types BMap DeriveAttr DASpec.
From Coq Require Import Lia.

(** ** The error monad *)

Lemma dbind_ok {A B} (m : der A) (f : A -> der B) b :
  dbind m f = inl ([], b) <-> exists a, m = inl ([], a) /\ f a = inl ([], b).
Proof.
  unfold dbind. destruct m as [[es a]|x].
  - destruct (f a) as [[es' b']|x] eqn:E; split.
    + intros [= H <-]. apply app_eq_nil in H as [-> ->]. eauto.
    + intros (a' & [= -> <-] & E'). rewrite E in E'. now injection E' as -> ->.
    + discriminate.
    + intros (a' & [= -> <-] & E'). congruence.
  - split; [discriminate|]. intros (a & [=] & _).
Qed.

Lemma push_ok {B} e (m : der B) b : dbind (push e) (fun _ => m) = inl ([], b) <-> False.
Proof. rewrite dbind_ok. split; [intros (a & [=] & _)|tauto]. Qed.

Lemma ret_ok {A} (a b : A) : ret a = inl ([], b) <-> a = b.
Proof. unfold ret. split; [now intros [=]|now intros ->]. Qed.

Lemma dmap_ok {A B} (f : A -> der B) l r :
  dmap f l = inl ([], r) <-> Forall2 (fun x y => f x = inl ([], y)) l r.
Proof.
  revert r. induction l as [|x l IH]; intros r; cbn [dmap].
  - rewrite ret_ok. split; [intros <-; constructor|now inversion 1].
  - rewrite dbind_ok. setoid_rewrite dbind_ok. setoid_rewrite ret_ok. split.
    + intros (y & Hy & ys & Hys & <-). constructor; auto. now apply IH.
    + inversion 1; subst. exists y. split; auto. exists l'. split; auto. now apply IH.
Qed.

Lemma dfold_cons {A S} (f : S -> A -> der S) s x l r :
  dfold f s (x :: l) = inl ([], r) <-> exists s', f s x = inl ([], s') /\ dfold f s' l = inl ([], r).
Proof. cbn [dfold]. apply dbind_ok. Qed.

Lemma with_lit_str_ok {S} (s : S) l f r :
  with_lit_str s l f = inl ([], r) <-> exists v, l = LStr v /\ f v = inl ([], r).
Proof.
  destruct l as [v|]; cbn [with_lit_str].
  - split; [eauto|]. now intros (v' & [= <-] & H).
  - rewrite push_ok. split; [tauto|]. now intros (v & [=] & _).
Qed.

Lemma get_meta_items_ok attrs l :
  get_meta_items attrs = inl ([], l) <-> well_formed attrs /\ l = items_in attrs.
Proof.
  unfold well_formed, items_in. revert l. induction attrs as [|a attrs IH]; intros l.
  - cbn. rewrite ret_ok. intuition.
  - destruct a; cbn [get_meta_items flat_map app In].
    + rewrite IH. intuition discriminate.
    + rewrite dbind_ok. setoid_rewrite ret_ok. setoid_rewrite IH. split.
      * intros (out & (H & ->) & <-). intuition discriminate.
      * intros (H & ->). eexists. split; [|reflexivity]. intuition.
    + rewrite push_ok. intuition.
    + rewrite push_ok. intuition.
Qed.

Lemma is_ident_eq p s : is_ident p s = true <-> p = Some s.
Proof.
  destruct p as [i|]; cbn; [|split; discriminate]. rewrite String.eqb_eq. split; [congruence|now intros [= ->]].
Qed.
Lemma is_ident_case p s : {p = Some s /\ is_ident p s = true} + {p <> Some s /\ is_ident p s = false}.
Proof.
  destruct (is_ident p s) eqn:E; [left|right]; (split; [|reflexivity]).
  - now apply is_ident_eq.
  - intros H. apply is_ident_eq in H. congruence.
Qed.

Ltac ident p s := let E := fresh "E" in let H := fresh "Np" in
  destruct (is_ident_case p s) as [[H E]|[H E]]; rewrite E; clear E; [subst p|].

(** ** Names *)

(** What is bound in the map [m]. *)
Definition agrees (m : bmap string) (decls : list (string * string)) : Prop :=
  forall p u, bm_get p m = Some u <-> In (p, u) decls.

Lemma agrees_none m decls p : agrees m decls -> bm_get p m = None -> forall u, ~ In (p, u) decls.
Proof. intros H E u Hu. apply H in Hu. congruence. Qed.

Lemma process_prefix_ok m decls l local nm' : agrees m decls ->
  process_prefix m l (PName local None None) = inl ([], nm') <->
  exists s, l = LStr s /\ names decls local [s] nm'.
Proof.
  intros HA. unfold process_prefix. rewrite with_lit_str_ok. cbn [pn_prefix pn_local pn_ns].
  enough (X : forall s, (match bm_get (str_trim s) m with
        | Some u => ret (PName local (Some (str_trim s)) (Some u))
        | None =>
            if String.eqb (str_trim s) "xml" then ret (PName local (Some (str_trim s)) (Some XML_NS))
            else if String.eqb (str_trim s) "" then ret (PName local (Some (str_trim s)) None)
            else dlet _ := push (EPrefixNotFound (str_trim s)) in ret (PName local (Some (str_trim s)) None)
        end) = inl ([], nm') <-> names decls local [s] nm').
  { split; intros (s & -> & H); exists s; (split; [reflexivity|]); now apply X. }
  intros s. destruct (bm_get (str_trim s) m) as [u|] eqn:E.
  - rewrite ret_ok. split.
    + intros <-. constructor. constructor. now apply HA.
    + inversion 1 as [|s' ns P]; subst. inversion P as [p u' H1 H2 H3|H1 H2 H3|H1 H2 H3]; subst.
      * apply HA in H1. congruence.
      * rewrite <- H2 in E. apply HA in E. exfalso. eapply H1; eauto.
      * rewrite <- H2 in E. apply HA in E. exfalso. eapply H1; eauto.
  - pose proof (agrees_none _ _ _ HA E) as HN. destruct (String.eqb_spec (str_trim s) "xml") as [Ex|Ex].
    + rewrite ret_ok. split.
      * intros <-. constructor. rewrite Ex in *. now constructor.
      * inversion 1 as [|s' ns P]; subst. inversion P as [p u' H1 H2 H3|H1 H2 H3|H1 H2 H3]; subst.
        -- exfalso. eapply HN; eauto.
        -- reflexivity.
        -- rewrite <- H2 in Ex. discriminate.
    + destruct (String.eqb_spec (str_trim s) "") as [Ee|Ee].
      * rewrite ret_ok. split.
        -- intros <-. constructor. rewrite Ee in *. now constructor.
        -- inversion 1 as [|s' ns P]; subst. inversion P as [p u' H1 H2 H3|H1 H2 H3|H1 H2 H3]; subst.
           ++ exfalso. eapply HN; eauto.
           ++ congruence.
           ++ reflexivity.
      * rewrite push_ok. split; [tauto|].
        inversion 1 as [|s' ns P]; subst. inversion P as [p u' H1 H2 H3|H1 H2 H3|H1 H2 H3]; subst.
        -- eapply HN; eauto.
        -- congruence.
        -- congruence.
Qed.

Lemma process_prefix_twice m l local p ns nm' :
  process_prefix m l (PName local (Some p) ns) = inl ([], nm') <-> False.
Proof.
  unfold process_prefix. rewrite with_lit_str_ok. cbn [pn_prefix]. setoid_rewrite push_ok. firstorder.
Qed.

(** The name after some [rename] and [prefix] items. *)
Definition step (decls : list (string * string)) (nm : pname) (l : list item) (nm' : pname) : Prop :=
  match pn_prefix nm with
  | None => pn_ns nm = None /\ names decls (last (values "rename" l) (pn_local nm)) (values "prefix" l) nm'
  | Some p => values "prefix" l = [] /\ nm' = PName (last (values "rename" l) (pn_local nm)) (Some p) (pn_ns nm)
  end.

Lemma last_cons {A} (x d : A) l : last (x :: l) d = last l x.
Proof.
  revert x d. induction l as [|y l IH]; intros x d; [reflexivity|]. change (last (x :: y :: l) d) with (last (y :: l) d).
  now rewrite !IH.
Qed.

Lemma step_rename decls nm s l nm' :
  step decls nm (INameValue (Some "rename"%string) (LStr s) :: l) nm' <-> step decls (rename nm s) l nm'.
Proof.
  unfold step, rename. cbn [pn_prefix pn_ns pn_local].
  change (values "rename" (INameValue (Some "rename"%string) (LStr s) :: l)) with (s :: values "rename" l).
  change (values "prefix" (INameValue (Some "rename"%string) (LStr s) :: l)) with (values "prefix" l).
  rewrite last_cons. reflexivity.
Qed.

Definition fresh_name (nm : pname) : Prop := pn_prefix nm = None -> pn_ns nm = None.

Lemma names_local decls local ps nm local' : names decls local ps nm ->
  names decls local' ps (PName local' (pn_prefix nm) (pn_ns nm)).
Proof. destruct 1; cbn; now constructor. Qed.
Lemma names_pn_local decls local ps nm : names decls local ps nm -> pn_local nm = local.
Proof. now destruct 1. Qed.

Lemma step_prefix m decls nm v l nm' : agrees m decls -> fresh_name nm ->
  step decls nm (INameValue (Some "prefix"%string) (LStr v) :: l) nm' <->
  exists nm1, process_prefix m (LStr v) nm = inl ([], nm1) /\ step decls nm1 l nm'.
Proof.
  intros HA HF. destruct nm as [local [p|] ns].
  - setoid_rewrite process_prefix_twice. unfold step. cbn [pn_prefix pn_ns pn_local].
    split; [|firstorder]. intros [H _]. discriminate.
  - unfold fresh_name in HF. cbn in HF. specialize (HF eq_refl). subst ns. setoid_rewrite (process_prefix_ok _ _ _ _ _ HA).
    unfold step. cbn [pn_prefix pn_ns pn_local].
    change (values "rename" (INameValue (Some "prefix"%string) (LStr v) :: l)) with (values "rename" l).
    change (values "prefix" (INameValue (Some "prefix"%string) (LStr v) :: l)) with (v :: values "prefix" l).
    split.
    + intros [_ H]. inversion H as [|s ns P E]; subst.
      exists (PName local (Some (str_trim v)) ns). split; [exists v; split; [reflexivity|now constructor]|].
      cbn. auto.
    + intros (nm1 & (s & [= <-] & H1) & H2). split; [reflexivity|].
      inversion H1 as [|s ns P]; subst. cbn in H2. destruct H2 as [E ->]. rewrite E. now constructor.
Qed.

Lemma process_prefix_fresh m v nm nm1 : fresh_name nm -> process_prefix m (LStr v) nm = inl ([], nm1) -> fresh_name nm1.
Proof.
  intros HF. unfold process_prefix. cbn [with_lit_str]. destruct (pn_prefix nm); [now rewrite push_ok|].
  destruct (bm_get (str_trim v) m); [rewrite ret_ok; intros <-; discriminate|].
  destruct (String.eqb (str_trim v) "xml"); [rewrite ret_ok; intros <-; discriminate|].
  destruct (String.eqb (str_trim v) ""); [rewrite ret_ok; intros <-; discriminate|]. now rewrite push_ok.
Qed.

Lemma step_start decls local l nm' :
  step decls (from_ident local) l nm' <-> names decls (last (values "rename" l) local) (values "prefix" l) nm'.
Proof. unfold step, from_ident. cbn. tauto. Qed.

(** Items that are no [prefix] or [rename]. *)
Lemma values_other key i l : values key [i] = [] -> values key (i :: l) = values key l.
Proof. intros H. change (i :: l) with ([i] ++ l). unfold values in *. rewrite flat_map_app, H. reflexivity. Qed.
Lemma step_other decls nm i l nm' : values "rename" [i] = [] -> values "prefix" [i] = [] ->
  step decls nm (i :: l) nm' <-> step decls nm l nm'.
Proof. intros H1 H2. unfold step. now rewrite !values_other. Qed.

(** ** Fields *)

Lemma field_items_ok m decls l : agrees m decls -> forall st st', fresh_name (fs_name st) ->
  dfold (field_item m) st l = inl ([], st') <->
  Forall field_item_ok l /\ fs_attribute st' = fs_attribute st || has_flag "attribute" l /\
  fs_default st' = fs_default st || has_flag "default" l /\
  fs_flatten st' = fs_flatten st || has_flag "flatten" l /\
  fs_text st' = fs_text st || has_flag "text" l /\ step decls (fs_name st) l (fs_name st').
Proof.
  intros HA. induction l as [|i l IH]; intros [a d f t nm] [a' d' f' t' nm'] HF; cbn [fs_attribute fs_default fs_flatten fs_text fs_name] in *.
  - cbn [dfold]. rewrite ret_ok. split.
    + intros [= <- <- <- <- <-]. rewrite !orb_false_r. repeat (split; [auto; fail|]).
      unfold step. cbn. destruct nm as [local [p|] ns]; cbn in *; auto. assert (ns = None) as -> by now apply HF. split; auto; constructor.
    + rewrite !orb_false_r. intros (_ & -> & -> & -> & -> & H). f_equal. unfold step in H. cbn in H.
      destruct nm as [local [p|] ns]; cbn in *; [now destruct H|]. destruct H as [-> H]. now inversion H.
  - rewrite dfold_cons.
    assert (NO : forall P : Prop, ~ field_item_ok i -> (Forall field_item_ok (i :: l) /\ P <-> False)).
    { intros P HN. split; [|tauto]. intros [H _]. now inversion H. }
    destruct i as [p|p v|].
    + assert (S1 : values "rename" [IPath p] = []) by reflexivity.
      assert (S2 : values "prefix" [IPath p] = []) by reflexivity.
      rewrite (step_other _ _ _ _ _ S1 S2).
      assert (FO : forall k, In k ["attribute"; "default"; "flatten"; "text"]%string -> field_item_ok (IPath (Some k))).
      { intros k Hk. left. cbn in Hk. cbn. intuition subst; auto. }
      cbn [field_item]. ident p "attribute"%string.
      { setoid_rewrite ret_ok. split.
        - intros (st' & <- & H). apply IH in H; [|exact HF]. cbn in H |- *. rewrite ?orb_true_r. split; [|tauto].
          constructor; [|tauto]. apply FO. cbn. auto.
        - intros (H & H'). eexists. split; [reflexivity|]. apply IH; [exact HF|]. inversion H. cbn in H' |- *.
          rewrite ?orb_true_r in *. tauto. }
      ident p "default"%string.
      { setoid_rewrite ret_ok. split.
        - intros (st' & <- & H). apply IH in H; [|exact HF]. cbn in H |- *. rewrite ?orb_true_r. split; [|tauto].
          constructor; [|tauto]. apply FO. cbn. auto.
        - intros (H' & H''). eexists. split; [reflexivity|]. apply IH; [exact HF|]. inversion H'. cbn in H'' |- *.
          rewrite ?orb_true_r in *. tauto. }
      ident p "flatten"%string.
      { setoid_rewrite ret_ok. split.
        - intros (st' & <- & H'). apply IH in H'; [|exact HF]. cbn in H' |- *. rewrite ?orb_true_r. split; [|tauto].
          constructor; [|tauto]. apply FO. cbn. auto.
        - intros (H' & H''). eexists. split; [reflexivity|]. apply IH; [exact HF|]. inversion H'. cbn in H'' |- *.
          rewrite ?orb_true_r in *. tauto. }
      ident p "text"%string.
      { setoid_rewrite ret_ok. split.
        - intros (st' & <- & H'). apply IH in H'; [|exact HF]. cbn in H' |- *. rewrite ?orb_true_r. split; [|tauto].
          constructor; [|tauto]. apply FO. cbn. auto.
        - intros (H' & H''). eexists. split; [reflexivity|]. apply IH; [exact HF|]. inversion H'. cbn in H'' |- *.
          rewrite ?orb_true_r in *. tauto. }
      rewrite NO.
      2:{ intros [Hi|[[s Hi]|[s Hi]]]; [|discriminate|discriminate]. cbn in Hi. unfold flag in Hi. intuition congruence. }
      split; [|tauto]. intros (st' & H' & _). now apply push_ok in H'.
    + cbn [field_item].
      assert (HFl : forall k, has_flag k (INameValue p v :: l) = has_flag k l) by reflexivity.
      rewrite !HFl. ident p "rename"%string.
      { setoid_rewrite dbind_ok. setoid_rewrite ret_ok. setoid_rewrite with_lit_str_ok. setoid_rewrite ret_ok. split.
        - intros (st' & (nm1 & (s & -> & <-) & <-) & H). apply IH in H; [|exact HF]. cbn [fs_attribute fs_default fs_flatten fs_text fs_name] in *.
          split; [constructor; [right; left; now exists s|tauto]|]. rewrite step_rename. tauto.
        - intros (H & H'). inversion H as [|? ? Hi Hl]; subst. destruct Hi as [Hi|[[s Hi]|[s Hi]]]; try discriminate.
          { cbn in Hi. unfold flag in Hi. intuition discriminate. }
          injection Hi as ->. exists (FState a d f t (rename nm s)). split.
          { exists (rename nm s). split; [|reflexivity]. now exists s. }
          apply IH; [exact HF|]. cbn [fs_attribute fs_default fs_flatten fs_text fs_name]. rewrite step_rename in H'. tauto. }
      ident p "prefix"%string.
      { setoid_rewrite dbind_ok. setoid_rewrite ret_ok. split.
        - intros (st' & (nm1 & H1 & <-) & H2). destruct v as [v|]; [|now apply push_ok in H1].
          apply IH in H2; cbn [fs_name] in *; [|eapply process_prefix_fresh; eauto]. cbn [fs_attribute fs_default fs_flatten fs_text fs_name] in *.
          split; [constructor; [right; right; now exists v|tauto]|]. rewrite (step_prefix m); auto.
          repeat (split; [tauto|]). exists nm1. tauto.
        - intros (H' & H''). inversion H' as [|? ? Hi Hl]; subst. destruct Hi as [Hi|[[s Hi]|[s Hi]]]; try discriminate.
          { cbn in Hi. unfold flag in Hi. intuition discriminate. }
          injection Hi as ->. rewrite (step_prefix m) in H''; auto.
          destruct H'' as (E1 & E2 & E3 & E4 & nm1 & P & S).
          exists (FState a d f t nm1). split; [now exists nm1|]. apply IH; cbn [fs_attribute fs_default fs_flatten fs_text fs_name]; [eapply process_prefix_fresh; eauto|].
          tauto. }
      rewrite NO.
      2:{ intros [Hi|[[s Hi]|[s Hi]]]; [|congruence|congruence]. cbn in Hi. unfold flag in Hi. intuition discriminate. }
      split; [|tauto]. intros (st' & H' & _). now apply push_ok in H'.
    + rewrite NO. 2:{ intros [Hi|[[s Hi]|[s Hi]]]; try discriminate. cbn in Hi. unfold flag in Hi. intuition discriminate. }
      split; [|tauto]. intros (st' & H' & _). cbn [field_item] in H'. now apply push_ok in H'.
Qed.

Lemma has_flag_In key l : has_flag key l = true <-> In (flag key) l.
Proof.
  unfold has_flag. rewrite existsb_exists. unfold flag. split.
  - intros (i & Hi & E). destruct i as [[k|]| |]; try discriminate. apply String.eqb_eq in E. now subst.
  - intros H. exists (IPath (Some key)). split; auto. apply String.eqb_refl.
Qed.
Lemma has_flag_not key l : has_flag key l = false <-> ~ In (flag key) l.
Proof. rewrite <- has_flag_In. destruct (has_flag key l); split; congruence. Qed.

Lemma mode_functional l m1 m2 : mode_is l m1 -> mode_is l m2 -> m1 = m2.
Proof. destruct 1; destruct 1; auto; contradiction. Qed.

Theorem element_field_ok m decls sf r : agrees m decls ->
  element_field m sf = inl ([], r) <-> exists ef, r = Some ef /\ field_means decls sf ef.
Proof.
  intros HA. unfold element_field. rewrite dbind_ok. setoid_rewrite get_meta_items_ok. setoid_rewrite dbind_ok.
  assert (HF : fresh_name (fs_name (FState false false false false (from_ident (sf_ident sf))))) by (intros _; reflexivity).
  split.
  - intros (items & (HW & ->) & [a d f t nm] & H1 & H2). apply (field_items_ok m decls _ HA) in H1; auto.
    cbn [fs_attribute fs_default fs_flatten fs_text fs_name orb] in H1. rewrite step_start in H1.
    set (l := items_in (sf_attrs sf)) in *. destruct H1 as (Hok & -> & -> & -> & -> & Hn).
    assert (MK : forall mode, mode_is l mode -> field_means decls sf (EField sf mode (has_flag "default" l) nm)) by (intros; now constructor).
    destruct (has_flag "attribute" l) eqn:Ea, (has_flag "flatten" l) eqn:Ef, (has_flag "text" l) eqn:Et;
      cbn [andb negb] in H2; rewrite ?has_flag_In, ?has_flag_not in *;
      try (apply push_ok in H2; destruct H2).
    + apply ret_ok in H2 as <-. eexists. split; [reflexivity|]. apply MK. now constructor.
    + destruct (has_flag "default" l) eqn:Ed; [now apply push_ok in H2|].
      apply ret_ok in H2 as <-. eexists. split; [reflexivity|]. apply MK. constructor; auto. now apply has_flag_not.
    + apply ret_ok in H2 as <-. eexists. split; [reflexivity|]. apply MK. now constructor.
    + apply ret_ok in H2 as <-. eexists. split; [reflexivity|]. apply MK. now constructor.
  - intros (ef & -> & H). inversion H as [mode nm HW Hok Hm Hn]; subst.
    exists (items_in (sf_attrs sf)). split; [auto|]. set (l := items_in (sf_attrs sf)) in *.
    exists (FState (has_flag "attribute" l) (has_flag "default" l) (has_flag "flatten" l) (has_flag "text" l) nm).
    split.
    + apply (field_items_ok m decls _ HA); auto. cbn [fs_attribute fs_default fs_flatten fs_text fs_name orb].
      rewrite step_start. auto 8.
    + destruct Hm as [H1 H2 H3|H1 H2 H3|H1 H2 H3 H4|H1 H2 H3]; rewrite <- ?has_flag_In in *; rewrite <- ?has_flag_not in *;
        rewrite ?not_true_iff_false in *.
      * now rewrite H1, H2, H3.
      * now rewrite H1, H2, H3.
      * now rewrite H1, H2, H3, H4.
      * now rewrite H1, H2, H3.
Qed.

(** ** Variants *)

Lemma variant_items_ok m decls l : agrees m decls -> forall nm r, fresh_name nm ->
  variant_items m nm l = inl ([], r) <->
  match r with
  | inl nm' => Forall variant_item_ok l /\ step decls nm l nm'
  | inr _ => exists l1 l2 nm', l = l1 ++ flag "skip" :: l2 /\ Forall variant_item_ok l1 /\ step decls nm l1 nm'
  end.
Proof.
  intros HA. induction l as [|i l IH]; intros nm r HF; cbn [variant_items].
  - rewrite ret_ok. split.
    + intros <-. split; [constructor|]. unfold step. cbn. destruct nm as [local [p|] ns]; cbn in *; auto.
      assert (ns = None) as -> by now apply HF. split; auto; constructor.
    + destruct r as [nm'|].
      * intros [_ H]. f_equal. unfold step in H. cbn in H. destruct nm as [local [p|] ns]; cbn in *; [now destruct H|].
        destruct H as [-> H]. now inversion H.
      * intros (l1 & l2 & nm' & H & _). now destruct l1.
  - assert (NO : ~ variant_item_ok i -> i <> flag "skip" ->
        (match r with inl nm' => Forall variant_item_ok (i :: l) /\ step decls nm (i :: l) nm'
         | inr _ => exists l1 l2 nm', i :: l = l1 ++ flag "skip" :: l2 /\ Forall variant_item_ok l1 /\ step decls nm l1 nm' end <-> False)).
    { intros HN HS. split; [|tauto]. destruct r; [intros [H _]; now inversion H|].
      intros ([|i' l1] & l2 & nm' & E & H & _); [now injection E as -> _|]. injection E as <- _. now inversion H. }
    assert (REN : forall s, i = INameValue (Some "rename"%string) (LStr s) ->
        (variant_items m (rename nm s) l = inl ([], r) <->
         match r with inl nm' => Forall variant_item_ok (i :: l) /\ step decls nm (i :: l) nm'
         | inr _ => exists l1 l2 nm', i :: l = l1 ++ flag "skip" :: l2 /\ Forall variant_item_ok l1 /\ step decls nm l1 nm' end)).
    { intros s ->. rewrite IH by exact HF. destruct r as [nm'|].
      - rewrite step_rename. split; intros [H1 H2]; (split; [|exact H2]); [constructor; auto; left; now exists s|now inversion H1].
      - split.
        + intros (l1 & l2 & nm' & -> & H1 & H2). exists (INameValue (Some "rename"%string) (LStr s) :: l1), l2, nm'.
          split; [reflexivity|]. rewrite step_rename. split; [constructor; auto; left; now exists s|exact H2].
        + intros ([|i' l1] & l2 & nm' & E & H1 & H2); [discriminate|]. injection E as <- ->. exists l1, l2, nm'.
          rewrite step_rename in H2. inversion H1; auto. }
    assert (PRE : forall s, i = INameValue (Some "prefix"%string) (LStr s) ->
        ((exists nm1, process_prefix m (LStr s) nm = inl ([], nm1) /\ variant_items m nm1 l = inl ([], r)) <->
         match r with inl nm' => Forall variant_item_ok (i :: l) /\ step decls nm (i :: l) nm'
         | inr _ => exists l1 l2 nm', i :: l = l1 ++ flag "skip" :: l2 /\ Forall variant_item_ok l1 /\ step decls nm l1 nm' end)).
    { intros s ->. destruct r as [nm'|].
      - rewrite (step_prefix m) by auto. split.
        + intros (nm1 & H1 & H2). apply IH in H2; [|eapply process_prefix_fresh; eauto].
          split; [constructor; [right; now exists s|tauto]|]. exists nm1. tauto.
        + intros (H1 & nm1 & H2 & H3). exists nm1. split; auto. apply IH; [eapply process_prefix_fresh; eauto|].
          now inversion H1.
      - split.
        + intros (nm1 & H1 & H2). apply IH in H2; [|eapply process_prefix_fresh; eauto].
          destruct H2 as (l1 & l2 & nm' & -> & H3 & H4). exists (INameValue (Some "prefix"%string) (LStr s) :: l1), l2, nm'.
          split; [reflexivity|]. split; [constructor; auto; right; now exists s|]. rewrite (step_prefix m); eauto.
        + intros ([|i' l1] & l2 & nm' & E & H1 & H2); [discriminate|]. injection E as <- ->.
          rewrite (step_prefix m) in H2 by auto. destruct H2 as (nm1 & H2 & H3). exists nm1. split; auto.
          apply IH; [eapply process_prefix_fresh; eauto|]. exists l1, l2, nm'. inversion H1; auto. }
    destruct i as [p|p v|].
    + ident p "skip"%string.
      * rewrite ret_ok. split.
        -- intros <-. exists [], l, (match pn_prefix nm with Some _ => nm | None => PName (pn_local nm) None None end).
           split; [reflexivity|]. split; [constructor|]. unfold step. cbn. destruct nm as [local [q|] ns]; cbn in *; auto.
           assert (ns = None) as -> by now apply HF. split; auto; constructor.
        -- destruct r as [nm'|[]]; [|reflexivity]. intros [H _]. inversion H as [|? ? [[s E]|[s E]]]; discriminate.
      * rewrite push_ok. rewrite NO; [tauto| |unfold flag; congruence]. intros [[s E]|[s E]]; discriminate.
    + ident p "rename"%string.
      * rewrite dbind_ok. setoid_rewrite with_lit_str_ok. setoid_rewrite ret_ok. destruct v as [s|].
        -- rewrite <- (REN s eq_refl). split.
           ++ intros (nm1 & (s' & E & <-) & HV). injection E as <-. exact HV.
           ++ intros H. exists (rename nm s). split; [now exists s|exact H].
        -- rewrite NO; [|intros [[s E]|[s E]]; discriminate|discriminate]. split; [|tauto].
           intros (nm1 & (s & [=] & _) & _).
      * ident p "prefix"%string.
        -- rewrite dbind_ok. destruct v as [s|].
           ++ exact (PRE s eq_refl).
           ++ rewrite NO; [|intros [[s E]|[s E]]; discriminate|discriminate]. split; [|tauto].
              intros (nm1 & H1 & _). now apply push_ok in H1.
        -- rewrite push_ok, NO; [tauto| |discriminate]. intros [[s E]|[s E]]; congruence.
    + rewrite push_ok, NO; [tauto| |discriminate]. intros [[s E]|[s E]]; discriminate.
Qed.

Lemma payload_ok {T} (fs : fields T) r :
  optional_unnamed_field fs = inl ([], r) <-> exists ty, r = Some ty /\ payload_is fs ty.
Proof.
  assert (BAD : (forall ty, ~ payload_is fs ty) -> (dlet _ := push EPayload in ret (@None (option T))) = inl ([], r) <->
                exists ty, r = Some ty /\ payload_is fs ty).
  { intros H. rewrite push_ok. firstorder. }
  destruct fs as [l|[|t [|t2 l]]|]; cbn [optional_unnamed_field].
  - apply BAD. intros ty. now inversion 1.
  - apply BAD. intros ty. now inversion 1.
  - rewrite ret_ok. split; [intros <-; eexists; split; [reflexivity|constructor]|].
    intros (ty & -> & H). now inversion H.
  - apply BAD. intros ty. now inversion 1.
  - rewrite ret_ok. split; [intros <-; eexists; split; [reflexivity|constructor]|].
    intros (ty & -> & H). now inversion H.
Qed.

Theorem element_variant_ok m decls v r : agrees m decls ->
  element_variant m v = inl ([], r) <-> exists ev, r = (is_none ev, ev) /\ variant_means decls v ev.
Proof.
  intros HA. unfold element_variant. rewrite dbind_ok. setoid_rewrite get_meta_items_ok. setoid_rewrite dbind_ok.
  assert (HF : fresh_name (from_ident (sv_ident v))) by (intros _; reflexivity).
  split.
  - intros (items & (HW & ->) & [nm|[]] & H1 & H2); apply (variant_items_ok m decls _ HA) in H1; auto.
    + rewrite step_start in H1. destruct H1 as [H1 H3]. apply dbind_ok in H2 as (ty & H4 & H2). apply ret_ok in H2 as <-.
      apply payload_ok in H4 as (ty' & -> & H4). exists (Some (EVariant (sv_ident v) nm ty')). split; [reflexivity|].
      now constructor.
    + apply ret_ok in H2 as <-. exists None. split; [reflexivity|]. destruct H1 as (l1 & l2 & nm & E & H1 & H3).
      rewrite step_start in H3. eapply va_skip; eauto.
  - intros (ev & -> & H). inversion H as [l1 l2 nm HW E H1 H2|nm ty HW H1 H2 H3]; subst;
      exists (items_in (sv_attrs v)); (split; [auto|]).
    + exists (inr tt). split; [|reflexivity]. apply (variant_items_ok m decls _ HA); auto. exists l1, l2, nm.
      now rewrite step_start.
    + exists (inl nm). split; [apply (variant_items_ok m decls _ HA); auto; now rewrite step_start|].
      rewrite dbind_ok. exists (Some ty). split; [|reflexivity]. apply payload_ok. eauto.
Qed.
