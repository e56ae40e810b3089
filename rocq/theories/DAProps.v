(** Proofs about derive attributes: panics, text types, and programs given by their source. *)
From Verif Require Import Base Normalize Text Find FindProofs Types BMap SerSpec DSerSpec DeSpec DeriveAttr DASpec DAProofs DAType.
From Coq Require Import Lia.

(** ** Panics *)

Lemma dbind_panic {A B} (m : der A) (f : A -> der B) x :
  dbind m f = inr x <-> m = inr x \/ exists es a, m = inl (es, a) /\ f a = inr x.
Proof.
  unfold dbind. destruct m as [[es a]|y].
  - destruct (f a) as [[es' b]|y] eqn:E; split.
    + discriminate.
    + intros [[=]|(es0 & a0 & [= <- <-] & H)]. congruence.
    + intros [= <-]. right. eauto.
    + intros [[=]|(es0 & a0 & [= <- <-] & H)]. congruence.
  - split; [intros [= <-]; now left|]. intros [[= <-]|(es & a & [=] & _)]. reflexivity.
Qed.

Definition calm {A} (m : der A) : Prop := forall x, m <> inr x.
Lemma ret_calm {A} (a : A) : calm (ret a).
Proof. discriminate. Qed.
Lemma push_calm e : calm (push e).
Proof. discriminate. Qed.
Lemma dbind_calm {A B} (m : der A) (f : A -> der B) : calm m -> (forall a, calm (f a)) -> calm (dbind m f).
Proof. intros H1 H2 x H. apply dbind_panic in H as [H|(es & a & _ & H)]; [now apply H1 in H|now apply H2 in H]. Qed.
Lemma push_then_calm {B} e (m : der B) : calm m -> calm (dbind (push e) (fun _ => m)).
Proof. intros H. apply dbind_calm; [apply push_calm|auto]. Qed.
Lemma with_lit_str_calm {S} (s : S) l f : (forall v, calm (f v)) -> calm (with_lit_str s l f).
Proof. intros H. destruct l; [apply H|discriminate]. Qed.
Lemma dfold_calm {A S} (f : S -> A -> der S) s l : (forall s x, calm (f s x)) -> calm (dfold f s l).
Proof. intros H. revert s. induction l as [|x l IH]; intros s; cbn; [apply ret_calm|]. apply dbind_calm; auto. Qed.
Lemma dmap_calm {A B} (f : A -> der B) l : (forall x, calm (f x)) -> calm (dmap f l).
Proof.
  intros H. induction l as [|x l IH]; cbn; [apply ret_calm|]. apply dbind_calm; [apply H|]. intros y.
  apply dbind_calm; [exact IH|]. intros ys. apply ret_calm.
Qed.
Lemma get_meta_items_calm attrs : calm (get_meta_items attrs).
Proof.
  induction attrs as [|[]]; cbn [get_meta_items]; auto using ret_calm, push_then_calm.
  apply dbind_calm; auto. intros; apply ret_calm.
Qed.

Lemma process_prefix_calm m l nm : calm (process_prefix m l nm).
Proof.
  unfold process_prefix. apply with_lit_str_calm. intros v. cbn zeta.
  destruct (pn_prefix nm); [discriminate|]. destruct (bm_get _ m); [discriminate|].
  destruct (_ =? _)%string; [discriminate|]. destruct (_ =? _)%string; discriminate.
Qed.

Ltac calmly := repeat first
  [ apply process_prefix_calm | apply ret_calm | apply push_calm | apply push_then_calm | apply with_lit_str_calm | apply get_meta_items_calm
  | apply dbind_calm | apply dfold_calm | apply dmap_calm
  | match goal with |- forall _, _ => intro end
  | match goal with |- calm (match ?x with _ => _ end) => destruct x end ].

Lemma add_internal_calm m p u : calm (add_internal m p u).
Proof. unfold add_internal. calmly. Qed.
Lemma element_field_calm m sf : calm (element_field m sf).
Proof.
  unfold element_field. apply dbind_calm; [calmly|]. intros items. apply dbind_calm; [|intros st; calmly].
  apply dfold_calm. intros [a d f t nm] i. unfold field_item. calmly.
Qed.
Lemma variant_items_calm m l : forall nm, calm (variant_items m nm l).
Proof.
  induction l as [|i l IH]; intros nm; cbn [variant_items]; [calmly|]. destruct i as [p|p v|].
  - destruct (is_ident p "skip"); [calmly|]. apply push_then_calm, IH.
  - destruct (is_ident p "rename"); [apply dbind_calm; [calmly|intros; apply IH]|].
    destruct (is_ident p "prefix"); [apply dbind_calm; [apply process_prefix_calm|intros; apply IH]|].
    apply push_then_calm, IH.
  - apply push_then_calm, IH.
Qed.
Lemma element_variant_calm m v : calm (element_variant m v).
Proof.
  unfold element_variant. apply dbind_calm; [calmly|]. intros items. apply dbind_calm; [apply variant_items_calm|].
  intros [nm|]; [|calmly]. apply dbind_calm; [unfold optional_unnamed_field; calmly|]. calmly.
Qed.

(** A [namespace] value for which the macro panics. *)
Definition special_namespace (s : string) : Prop := exists p u, first_colon s p u /\
  starts_with "xml" p = true /\ ~ (str_trim p = "xml"%string /\ str_trim u = XML_NS).

Definition todo_namespace : abort := Panic "not yet implemented: unsupported special namespace combo".

Lemma add_namespace_panic m l x : add_namespace m l = inr x <->
  exists s, l = LStr s /\ special_namespace s /\ x = todo_namespace.
Proof.
  unfold add_namespace. destruct l as [s|]; cbn [with_lit_str]; [|split; [discriminate|now intros (s & [=] & _)]].
  assert (NS : (exists s0, LStr s = LStr s0 /\ special_namespace s0 /\ x = todo_namespace) <-> special_namespace s /\ x = todo_namespace).
  { split; [intros (s0 & [= <-] & H); exact H|]. intros H. exists s. auto. }
  rewrite NS. clear NS. destruct (split_colon s) as [[p u]|] eqn:E.
  - apply split_colon_ok in E.
    assert (SP : special_namespace s <-> starts_with "xml" p = true /\ ~ (str_trim p = "xml"%string /\ str_trim u = XML_NS)).
    { split; [|intros H; exists p, u; auto]. intros (p' & u' & F & H).
      destruct (first_colon_functional _ _ _ _ _ E F) as [-> ->]. exact H. }
    rewrite SP. destruct (starts_with "xml" p).
    + destruct (String.eqb_spec (str_trim p) "xml") as [E1|E1]; [destruct (String.eqb_spec (str_trim u) XML_NS) as [E2|E2]|]; cbn [andb].
      * split; [discriminate|]. tauto.
      * unfold todo_namespace. split; [intros [= <-]|intros [_ ->]]; [|reflexivity]. split; [|reflexivity]. split; auto. tauto.
      * unfold todo_namespace. split; [intros [= <-]|intros [_ ->]]; [|reflexivity]. split; [|reflexivity]. split; auto. tauto.
    + split; [intros H; now apply add_internal_calm in H|]. intros [[? _] _]. discriminate.
  - split; [intros H; now apply add_internal_calm in H|]. intros [(p & u & F & _) _].
    apply split_colon_ok in F. congruence.
Qed.

Definition panics_on (l : list item) : Prop :=
  exists s, In (INameValue (Some "namespace"%string) (LStr s)) l /\ special_namespace s.

Lemma attr_items_panic l : forall st x, dfold attr_item st l = inr x <-> panics_on l /\ x = todo_namespace.
Proof.
  induction l as [|i l IH]; intros st x; cbn [dfold].
  - split; [intros H; now apply ret_calm in H|]. intros [(s & [] & _) _].
  - rewrite dbind_panic. setoid_rewrite IH.
    assert (CASE : panics_on (i :: l) <-> (exists s, i = INameValue (Some "namespace"%string) (LStr s) /\ special_namespace s) \/ panics_on l).
    { unfold panics_on. cbn [In]. split.
      - intros (s & [->|H] & H'); [left; eauto|right; eauto].
      - intros [(s & -> & H)|(s & H & H')]; eauto. }
    rewrite CASE.
    assert (HEAD : attr_item st i = inr x <-> (exists s, i = INameValue (Some "namespace"%string) (LStr s) /\ special_namespace s) /\ x = todo_namespace).
    { destruct st as [[local m] p]. destruct i as [q|q v|]; cbn [attr_item].
      - split; [intros H; now apply push_then_calm in H; try apply ret_calm|]. intros [(s & [=] & _) _].
      - ident q "rename"%string.
        { split; [|intros [(s & [=] & _) _]]. intros H. exfalso. revert x H. change (calm (dlet local := with_lit_str local v (fun s => ret s) in ret (local, m, p))). calmly. }
        ident q "prefix"%string.
        { split; [intros H; now apply ret_calm in H|]. intros [(s & [=] & _) _]. }
        ident q "namespace"%string.
        { rewrite dbind_panic, add_namespace_panic. split.
          - intros [(s & -> & H & ->)|(es & a & _ & H)]; [|now apply ret_calm in H]. split; eauto.
          - intros [(s & [= ->] & H) ->]. left. eauto. }
        ident q "default_namespace"%string.
        { split; [|intros [(s & [=] & _) _]]. intros H. exfalso. apply dbind_panic in H as [H|(es & a & _ & H)]; [|now apply ret_calm in H].
          unfold add_default_namespace in H. revert H. apply with_lit_str_calm. intros. apply add_internal_calm. }
        split; [intros H; now apply push_then_calm in H; try apply ret_calm|]. intros [(s & [= -> _] & _) _]. congruence.
      - split; [intros H; now apply push_then_calm in H; try apply ret_calm|]. intros [(s & [=] & _) _]. }
    rewrite HEAD. split.
    + intros [[H ->]|(es & a & _ & H & ->)]; auto.
    + intros [[H|H] ->]; [auto|]. destruct (attr_item st i) as [[es a]|y] eqn:E; [right; eauto|].
      left. assert (y = todo_namespace) as ->; [|apply HEAD; congruence].
      clear - E. destruct st as [[local m] p]. destruct i as [q|q v|]; cbn [attr_item] in E.
      * exfalso. revert E. apply push_then_calm, ret_calm.
      * revert E. ident q "rename"%string; [intros E; exfalso; revert y E; change (calm (dlet local := with_lit_str local v (fun s => ret s) in ret (local, m, p))); calmly|].
        ident q "prefix"%string; [intros E; now apply ret_calm in E|].
        ident q "namespace"%string.
        { intros E. apply dbind_panic in E as [E|(es & a & _ & E)]; [|now apply ret_calm in E].
          apply add_namespace_panic in E as (s & _ & _ & E). exact E. }
        ident q "default_namespace"%string.
        { intros E. apply dbind_panic in E as [E|(es & a & _ & E)]; [|now apply ret_calm in E].
          exfalso. revert E. unfold add_default_namespace. apply with_lit_str_calm. intros. apply add_internal_calm. }
        intros E. exfalso. revert E. apply push_then_calm, ret_calm.
      * exfalso. revert E. apply push_then_calm, ret_calm.
Qed.

Lemma get_meta_items_value attrs : exists es, get_meta_items attrs = inl (es, items_in attrs).
Proof.
  unfold items_in. induction attrs as [|a attrs (es & IH)]; [eexists; reflexivity|].
  destruct a; cbn [get_meta_items flat_map app]; rewrite IH; cbn; eauto.
Qed.

Lemma element_attr_panic ident attrs x :
  element_attr ident attrs = inr x <-> panics_on (items_in attrs) /\ x = todo_namespace.
Proof.
  unfold element_attr. rewrite dbind_panic. destruct (get_meta_items_value attrs) as (es & E). rewrite E.
  split.
  - intros [[=]|(es' & a & [= <- <-] & H)]. apply dbind_panic in H as [H|(es' & [[local m] p] & _ & H)].
    + now apply attr_items_panic in H.
    + exfalso. destruct p; [|now apply ret_calm in H]. revert H. apply dbind_calm; [apply process_prefix_calm|]. intros. apply ret_calm.
  - intros H. right. exists es, (items_in attrs). split; auto. apply dbind_panic. left. now apply attr_items_panic.
Qed.

Theorem derive_panic i x : derive_serialize i = inr x <->
  si_data i <> SUnion /\ panics_on (items_in (si_attrs i)) /\ x = todo_namespace.
Proof.
  unfold derive_serialize. destruct i as [ident attrs data]. cbn [si_data si_ident si_attrs]. destruct data as [fs|vs|].
  - unfold element_struct. rewrite dbind_panic, dbind_panic, element_attr_panic. split.
    + intros [[H|(es & a & _ & H)]|(es & a & _ & H)]; [split; [discriminate|exact H]| |now apply ret_calm in H].
      exfalso. destruct fs; [|revert H; calmly|revert H; calmly]. revert H.
      apply dbind_calm; [apply dmap_calm, element_field_calm|]. intros l'. calmly.
    + intros [_ H]. auto.
  - unfold element_enum. rewrite dbind_panic, dbind_panic, element_attr_panic. split.
    + intros [[H|(es & a & _ & H)]|(es & a & _ & H)]; [split; [discriminate|exact H]| |now apply ret_calm in H].
      exfalso. revert H. apply dbind_calm; [apply dmap_calm, element_variant_calm|]. intros l'. calmly.
    + intros [_ H]. auto.
  - split; [intros H; exfalso; revert H; calmly|]. now intros [H _].
Qed.

(** ** Text types *)

Definition mode_named (s : string) (m : tmode) : Prop :=
  (s = "std" /\ m = TMStd \/ s = "restriction" /\ m = TMRestriction \/ s = "union" /\ m = TMUnion)%string.

Definition modes (m : option tmode) (l : list item) (m' : option tmode) : Prop :=
  match values "mode" l with
  | [] => m' = m
  | [s] => m = None /\ exists x, mode_named s x /\ m' = Some x
  | _ => False
  end.

Definition spaces (w : whitespace) (l : list item) (w' : whitespace) : Prop :=
  match rev (values "whitespace" l) with [] => w' = w | s :: _ => space_means s w' end.

Lemma set_whitespace_ok w l w' : set_whitespace w l = inl ([], w') <-> exists s, l = LStr s /\ space_means s w'.
Proof.
  unfold set_whitespace. rewrite with_lit_str_ok.
  enough (X : forall s, (if String.eqb s "preserve" then ret Preserve
    else if String.eqb s "replace" then ret Replace
    else if String.eqb s "collapse" then ret Collapse
    else dlet _ := push EWhitespace in ret w) = inl ([], w') <-> space_means s w').
  { split; intros (s & -> & H); exists s; (split; [reflexivity|]); now apply X. }
  intros s. destruct (String.eqb_spec s "preserve") as [->|N1]; [rewrite ret_ok; split; [intros <-; constructor|now inversion 1]|].
  destruct (String.eqb_spec s "replace") as [->|N2]; [rewrite ret_ok; split; [intros <-; constructor|now inversion 1]|].
  destruct (String.eqb_spec s "collapse") as [->|N3]; [rewrite ret_ok; split; [intros <-; constructor|now inversion 1]|].
  rewrite push_ok. split; [tauto|]. inversion 1; subst; congruence.
Qed.

Lemma spaces_cons w s w1 l w' : space_means s w1 ->
  spaces w (INameValue (Some "whitespace"%string) (LStr s) :: l) w' <-> spaces w1 l w'.
Proof.
  intros H. unfold spaces.
  change (values "whitespace" (INameValue (Some "whitespace"%string) (LStr s) :: l)) with (s :: values "whitespace" l).
  cbn [rev]. destruct (rev (values "whitespace" l)) as [|s' r]; cbn [app]; [|reflexivity].
  split; [|intros ->; exact H]. destruct H; now inversion 1.
Qed.

Lemma text_items_ok l : forall w m w' m', dfold text_item (w, m) l = inl ([], (w', m')) <->
  Forall text_item_ok l /\ spaces w l w' /\ modes m l m'.
Proof.
  induction l as [|i l IH]; intros w m w' m'.
  - cbn [dfold]. rewrite ret_ok. cbv [spaces modes values flat_map rev]. split.
    + intros [= <- <-]. repeat constructor.
    + now intros (_ & -> & ->).
  - rewrite dfold_cons.
    assert (NO : forall P : Prop, ~ text_item_ok i -> (Forall text_item_ok (i :: l) /\ P <-> False)).
    { intros P HN. split; [|tauto]. intros [H _]. now inversion H. }
    destruct i as [p|p v|]; cbn [text_item].
    + rewrite NO. 2:{ intros [(s & x & [=] & _)|[s [=]]]. }
      split; [|tauto]. intros (st & H & _). now apply push_ok in H.
    + ident p "whitespace"%string.
      { setoid_rewrite dbind_ok. setoid_rewrite ret_ok. setoid_rewrite set_whitespace_ok. split.
        - intros (st & (w1 & (s & -> & Hs) & <-) & H). apply IH in H as (H1 & H2 & H3).
          split; [constructor; auto; left; exists s, w1; auto|]. rewrite (spaces_cons _ _ _ _ _ Hs). auto.
        - intros (H1 & H2 & H3). inversion H1 as [|? ? Hi Hl]; subst.
          destruct Hi as [(s & x & [= ->] & Hs)|[s [=]]]. rewrite (spaces_cons _ _ _ _ _ Hs) in H2.
          exists (x, m). split; [exists x; split; [exists s; auto|reflexivity]|]. apply IH. auto. }
      ident p "mode"%string.
      { assert (SP : forall s, spaces w (INameValue (Some "mode"%string) (LStr s) :: l) w' <-> spaces w l w') by reflexivity.
        assert (MV : forall s, values "mode" (INameValue (Some "mode"%string) (LStr s) :: l) = s :: values "mode" l) by reflexivity.
        destruct m as [x|].
        - split; [intros (st & H & _); now apply push_ok in H|]. intros (H1 & _ & H3). exfalso.
          inversion H1 as [|? ? Hi Hl]; subst. destruct Hi as [(s & y & [=] & _)|[s [= ->]]].
          unfold modes in H3. rewrite MV in H3. destruct (values "mode" l); [|contradiction]. now destruct H3.
        - setoid_rewrite with_lit_str_ok.
          assert (X : forall s st, (if String.eqb s "std" then ret (w, Some TMStd)
              else if String.eqb s "restriction" then ret (w, Some TMRestriction)
              else if String.eqb s "union" then ret (w, Some TMUnion)
              else dlet _ := push EUnknownMode in ret (w, None)) = inl ([], st) <->
              exists y, mode_named s y /\ st = (w, Some y)).
          { intros s st. unfold mode_named.
            destruct (String.eqb_spec s "std") as [->|N1]; [rewrite ret_ok; split; [intros <-; eexists; split; [left; auto|reflexivity]|intros (y & [[_ ->]|[[[=] _]|[[=] _]]] & ->); reflexivity]|].
            destruct (String.eqb_spec s "restriction") as [->|N2]; [rewrite ret_ok; split; [intros <-; eexists; split; [right; left; auto|reflexivity]|intros (y & [[[=] _]|[[_ ->]|[[=] _]]] & ->); reflexivity]|].
            destruct (String.eqb_spec s "union") as [->|N3]; [rewrite ret_ok; split; [intros <-; eexists; split; [right; right; auto|reflexivity]|intros (y & [[[=] _]|[[[=] _]|[_ ->]]] & ->); reflexivity]|].
            rewrite push_ok. split; [tauto|]. intros (y & [[-> _]|[[-> _]|[-> _]]] & _); congruence. }
          split.
          + intros (st & (s & -> & H) & H'). apply X in H as (y & Hy & ->). apply IH in H' as (H1 & H2 & H3).
            split; [constructor; auto; right; now exists s|]. rewrite SP. split; auto. unfold modes in *. rewrite MV.
            destruct (values "mode" l) as [|s1 [|s2 r]]; [|destruct H3 as [[=] _]|destruct H3]. split; auto. exists y. auto.
          + intros (H1 & H2 & H3). inversion H1 as [|? ? Hi Hl]; subst. destruct Hi as [(s & y & [=] & _)|[s [= ->]]].
            unfold modes in H3. rewrite MV in H3. destruct (values "mode" l) eqn:EV; [|contradiction].
            destruct H3 as (_ & y & Hy & ->). exists (w, Some y). split; [exists s; split; auto; apply X; eauto|].
            apply IH. split; auto. split; auto. unfold modes. now rewrite EV. }
      rewrite NO. 2:{ intros [(s & x & E & _)|[s E]]; congruence. }
      split; [|tauto]. intros (st & H & _). now apply push_ok in H.
    + rewrite NO. 2:{ intros [(s & x & [=] & _)|[s [=]]]. }
      split; [|tauto]. intros (st & H & _). now apply push_ok in H.
Qed.

Definition restr_item_ok (i : item) : Prop := i = flag "unknown" \/ is_value "rename" i.

Definition last_opt (l : list string) (x : option string) : option string :=
  match rev l with [] => x | s :: _ => Some s end.

Lemma last_opt_cons s l x : last_opt (s :: l) x = last_opt l (Some s).
Proof. unfold last_opt. cbn [rev]. now destruct (rev l). Qed.
Lemma last_opt_last l d : match last_opt l None with Some s => s | None => d end = last l d.
Proof.
  revert d. induction l as [|s l IH]; intros d; [reflexivity|]. rewrite last_opt_cons, last_cons, <- IH.
  unfold last_opt. now destruct (rev l).
Qed.

Lemma restr_items_ok l : forall text unknown text' unknown',
  dfold restr_item (text, unknown) l = inl ([], (text', unknown')) <->
  Forall restr_item_ok l /\ text' = last_opt (values "rename" l) text /\ unknown' = unknown || has_flag "unknown" l.
Proof.
  induction l as [|i l IH]; intros text unknown text' unknown'.
  - cbn [dfold]. rewrite ret_ok. cbn. rewrite orb_false_r. split.
    + intros [= <- <-]. repeat constructor.
    + now intros (_ & -> & ->).
  - rewrite dfold_cons.
    assert (NO : forall P : Prop, ~ restr_item_ok i -> (Forall restr_item_ok (i :: l) /\ P <-> False)).
    { intros P HN. split; [|tauto]. intros [H _]. now inversion H. }
    destruct i as [p|p v|]; cbn [restr_item].
    + ident p "unknown"%string.
      { setoid_rewrite ret_ok. split.
        - intros (st & <- & H). apply IH in H as (H1 & H2 & H3). split; [constructor; auto; now left|]. split; auto.
          cbn. now rewrite orb_true_r.
        - intros (H1 & H2 & H3). eexists. split; [reflexivity|]. apply IH. split; [now inversion H1|]. split; auto.
          cbn in H3. now rewrite orb_true_r in H3. }
      rewrite NO. 2:{ intros [E|[s E]]; [|discriminate]. unfold flag in E. congruence. }
      split; [|tauto]. intros (st & H & _). now apply push_ok in H.
    + ident p "rename"%string.
      { setoid_rewrite dbind_ok. setoid_rewrite ret_ok. setoid_rewrite with_lit_str_ok. setoid_rewrite ret_ok. split.
        - intros (st & (t1 & (s & -> & <-) & <-) & H). apply IH in H as (H1 & H2 & H3).
          split; [constructor; auto; right; now exists s|].
          change (values "rename" (INameValue (Some "rename"%string) (LStr s) :: l)) with (s :: values "rename" l).
          rewrite last_opt_cons. auto.
        - intros (H1 & H2 & H3). inversion H1 as [|? ? Hi Hl]; subst. destruct Hi as [[=]|[s [= ->]]].
          change (values "rename" (INameValue (Some "rename"%string) (LStr s) :: l)) with (s :: values "rename" l).
          rewrite last_opt_cons. exists (Some s, unknown). split; [exists (Some s); split; [now exists s|reflexivity]|].
          apply IH. auto. }
      rewrite NO. 2:{ intros [E|[s E]]; [discriminate|congruence]. }
      split; [|tauto]. intros (st & H & _). now apply push_ok in H.
    + rewrite NO. 2:{ intros [E|[s E]]; discriminate. }
      split; [|tauto]. intros (st & H & _). now apply push_ok in H.
Qed.

Lemma when_ok b e {B} (m : der B) r : (dlet _ := when b (push e) in m) = inl ([], r) <-> b = false /\ m = inl ([], r).
Proof.
  unfold when. destruct b.
  - rewrite push_ok. split; [tauto|]. now intros [? _].
  - rewrite dbind_ok. split; [intros (u & _ & H); auto|]. intros [_ H]. exists tt. auto.
Qed.

Lemma last_opt_none l : last_opt l None = None <-> l = [].
Proof.
  unfold last_opt. destruct l as [|s l]; [easy|]. cbn [rev]. destruct (rev l); split; discriminate.
Qed.

Lemma restr_unknown_only l : Forall restr_item_ok l -> values "rename" l = [] -> Forall (eq (flag "unknown")) l.
Proof.
  induction 1 as [|i l [->|[s ->]] _ IH]; intros H; [constructor|constructor; auto|discriminate].
Qed.
Lemma restr_known_only l : Forall restr_item_ok l -> has_flag "unknown" l = false -> Forall (is_value "rename") l.
Proof.
  induction 1 as [|i l [->|[s ->]] _ IH]; intros H; [constructor|discriminate|constructor; auto]. now exists s.
Qed.

Lemma restr_variant_ok seen v r : restr_variant seen v = inl ([], r) <->
  exists rv, restr_means v rv /\ r = (seen || is_runknown rv, rv) /\ (seen = true -> is_runknown rv = false).
Proof.
  unfold restr_variant. rewrite dbind_ok. setoid_rewrite get_meta_items_ok. setoid_rewrite dbind_ok.
  set (l := items_in (sv_attrs v)). split.
  - intros (items & (HW & ->) & [text unknown] & H1 & H2). fold l in H1. apply restr_items_ok in H1 as (H1 & -> & ->).
    cbn [orb] in H2. destruct (has_flag "unknown" l) eqn:EF.
    + apply when_ok in H2 as [E1 H2]. apply when_ok in H2 as [E2 H2]. apply when_ok in H2 as [E3 H2]. apply ret_ok in H2 as <-.
      exists RUnknown. split; [|split; [now rewrite orb_true_r|congruence]].
      destruct (single_unnamed_field (sv_fields v)) as [t|] eqn:ES; [|discriminate].
      assert (sv_fields v = FUnnamed [t]) as HFs.
      { destruct (sv_fields v) as [|[|t1 [|t2 r]]|]; try discriminate. cbn in ES. congruence. }
      apply re_unknown with (t := t); auto; fold l.
      * intros E. rewrite E in EF. discriminate.
      * apply restr_unknown_only; auto. apply last_opt_none. destruct (last_opt (values "rename" l) None); [discriminate|reflexivity].
    + apply when_ok in H2 as [E1 H2]. apply ret_ok in H2 as <-. rewrite last_opt_last.
      exists (RKnown (last (values "rename" l) (sv_ident v))). split; [|split; [now rewrite orb_false_r|auto]].
      apply re_known; auto; fold l; [now apply restr_known_only|]. destruct (sv_fields v); try discriminate. reflexivity.
  - intros (rv & H & -> & HS). exists l. split; [destruct H; auto|].
    exists (last_opt (values "rename" l) None, has_flag "unknown" l).
    destruct H as [t HW HN HU HF|HW HR HF]; [fold l in HN; fold l in HU|fold l in HR]; fold l; clearbody l.
    + assert (ER : values "rename" l = []).
      { clear - HU. induction HU as [|i l0 <- _ IH]; [reflexivity|exact IH]. }
      assert (EU : has_flag "unknown" l = true).
      { apply has_flag_In. destruct l as [|i l']; [congruence|]. inversion HU; subst. now left. }
      split.
      { apply restr_items_ok. split; [|auto]. eapply Forall_impl; [|exact HU]. intros i <-. now left. }
      rewrite EU, ER. cbn [last_opt rev]. rewrite !when_ok. rewrite HF. cbn. cbn in HS. destruct seen; [specialize (HS eq_refl); discriminate|].
      repeat split.
    + assert (EU : has_flag "unknown" l = false).
      { clear - HR. induction HR as [|i l0 [s ->] _ IH]; [reflexivity|exact IH]. }
      split.
      { apply restr_items_ok. split; [|auto]. eapply Forall_impl; [|exact HR]. intros i Hi. now right. }
      rewrite EU, when_ok, HF. split; [reflexivity|]. rewrite last_opt_last. cbn. now rewrite orb_false_r.
Qed.

Lemma restr_variants_ok vs : forall seen rs, restr_variants seen vs = inl ([], rs) <->
  Forall2 restr_means vs rs /\ (if seen : bool then 1 else 0) + List.length (filter is_runknown rs) <= 1.
Proof.
  induction vs as [|v vs IH]; intros seen rs; cbn [restr_variants].
  - rewrite ret_ok. split; [intros <-; split; [constructor|destruct seen; cbn; lia]|]. intros [H _]. now inversion H.
  - rewrite dbind_ok. setoid_rewrite restr_variant_ok. split.
    + intros ([seen1 r] & (rv & H1 & E & H2) & H3). injection E as -> ->. apply dbind_ok in H3 as (rs' & H3 & H4).
      apply ret_ok in H4 as <-. apply IH in H3 as [H3 H4]. split; [now constructor|].
      cbn [filter]. destruct (is_runknown rv) eqn:EU; cbn [List.length]; destruct seen; cbn [orb] in H4;
        try (specialize (H2 eq_refl); discriminate); lia.
    + intros [H HL]. inversion H as [|? rv ? rs' H1 H2]; subst. exists (seen || is_runknown rv, rv). split.
      * exists rv. split; auto. split; auto. intros ->. destruct (is_runknown rv) eqn:EU; [|reflexivity].
        cbn [filter] in HL. rewrite EU in HL. cbn [List.length] in HL. lia.
      * rewrite dbind_ok. exists rs'. split; [|reflexivity]. apply IH. split; auto.
        cbn [filter] in HL. destruct (is_runknown rv) eqn:EU; cbn [List.length] in HL; destruct seen; cbn [orb]; lia.
Qed.

Lemma complain_ok l : dfold (fun (_ : unit) (_ : item) => push ENotUnderstood) tt l = inl ([], tt) <-> l = [].
Proof.
  destruct l as [|i l]; [easy|]. rewrite dfold_cons. split; [|discriminate]. now intros (s & [=] & _).
Qed.

Lemma union_variant_ok v r : union_variant v = inl ([], r) <->
  exists t, r = Some t /\ well_formed (sv_attrs v) /\ items_in (sv_attrs v) = [] /\ sv_fields v = FUnnamed [t].
Proof.
  unfold union_variant. rewrite dbind_ok. setoid_rewrite get_meta_items_ok. setoid_rewrite dbind_ok. split.
  - intros (items & (HW & ->) & [] & H1 & H2). apply complain_ok in H1.
    destruct (single_unnamed_field (sv_fields v)) as [t|] eqn:ES; [|now apply push_ok in H2].
    apply ret_ok in H2 as <-. exists t. repeat (split; [auto; fail|]).
    destruct (sv_fields v) as [|[|t1 [|t2 r]]|]; try discriminate. cbn in ES. congruence.
  - intros (t & -> & HW & HI & HF). exists (items_in (sv_attrs v)). split; auto. exists tt. rewrite HI, HF. split; reflexivity.
Qed.

Theorem derive_text_ok i r : derive_text i = inl ([], r) <-> exists t, r = Some t /\ text_input_means i t.
Proof.
  unfold derive_text, text_attr. rewrite dbind_ok. setoid_rewrite dbind_ok. setoid_rewrite get_meta_items_ok.
  unfold text_input_means. set (l := items_in (ti_attrs i)).
  assert (MODE : forall m', modes None l m' <-> (values "mode" l = [] /\ m' = None) \/
            exists s x, values "mode" l = [s] /\ mode_named s x /\ m' = Some x).
  { intros m'. unfold modes. destruct (values "mode" l) as [|s [|s2 r']].
    - split; [auto|]. intros [[_ H]|(s & x & [=] & _)]. exact H.
    - split; [intros (_ & x & H & ->); right; eauto|]. intros [[[=] _]|(s' & x & [= <-] & H & ->)]. eauto.
    - split; [tauto|]. intros [[[=] _]|(s' & x & [=] & _)]. }
  split.
  - intros ([w m] & (items & (HW & ->) & H1) & H2). fold l in H1. apply text_items_ok in H1 as (H1 & H3 & H4).
    apply MODE in H4 as [[_ ->]|(s & x & EV & HN & ->)]; [now apply push_ok in H2|].
    destruct HN as [[-> ->]|[[-> ->]|[-> ->]]].
    + apply ret_ok in H2 as <-. eexists. split; [reflexivity|]. repeat (split; auto). now apply te_std.
    + destruct (ti_data i) as [vs|] eqn:ED; [|now apply push_ok in H2]. apply dbind_ok in H2 as (rs & H2 & H5).
      apply ret_ok in H5 as <-. apply restr_variants_ok in H2 as [H2 H5]. eexists. split; [reflexivity|]. repeat (split; auto).
      eapply te_restriction; eauto.
    + destruct (ti_data i) as [vs|] eqn:ED; [|now apply push_ok in H2]. apply dbind_ok in H2 as (ts & H2 & H5).
      apply ret_ok in H5 as <-. apply dmap_ok in H2. eexists. split; [reflexivity|]. repeat (split; auto).
      eapply te_union; eauto. clear - H2. induction H2 as [|v o vs l Hv _ IH]; [constructor|].
      apply union_variant_ok in Hv as (t & -> & Hv). cbn. constructor; auto.
  - intros (t & -> & HW & HF & HT). destruct HT as [w EV HS|w vs rs EV HS ED H1 H2|w vs ts EV HS ED H1].
    + exists (w, Some TMStd). split; [|reflexivity]. exists l. split; [auto|]. apply text_items_ok. split; auto. split; auto.
      apply MODE. right. exists "std"%string, TMStd. repeat (split; auto). now left.
    + exists (w, Some TMRestriction). split.
      * exists l. split; [auto|]. apply text_items_ok. split; auto. split; auto.
        apply MODE. right. exists "restriction"%string, TMRestriction. repeat (split; auto). right. now left.
      * rewrite ED, dbind_ok. exists rs. split; [|reflexivity]. apply restr_variants_ok. auto.
    + exists (w, Some TMUnion). split.
      * exists l. split; [auto|]. apply text_items_ok. split; auto. split; auto.
        apply MODE. right. exists "union"%string, TMUnion. repeat (split; auto). right. now right.
      * rewrite ED, dbind_ok. exists (map Some ts). rewrite somes_map. split; [|reflexivity]. apply dmap_ok.
        clear - H1. induction H1 as [|v t vs ts Hv _ IH]; constructor; auto. apply union_variant_ok. eauto.
Qed.

Lemma restr_variants_calm vs : forall seen, calm (restr_variants seen vs).
Proof.
  induction vs as [|v vs IH]; intros seen; cbn [restr_variants]; [calmly|]. apply dbind_calm.
  - unfold restr_variant. apply dbind_calm; [calmly|]. intros items. apply dbind_calm.
    + apply dfold_calm. intros [a b] i. unfold restr_item. calmly.
    + unfold when. calmly.
  - intros [seen' r]. apply dbind_calm; [apply IH|]. calmly.
Qed.

Theorem derive_text_calm i x : derive_text i <> inr x.
Proof.
  revert x. change (calm (derive_text i)). unfold derive_text, text_attr. apply dbind_calm.
  - apply dbind_calm; [calmly|]. intros items. apply dfold_calm. intros [w m] it. unfold text_item, set_whitespace. calmly.
  - intros [w m]. destruct m as [[| |]|]; [calmly| | |calmly]; destruct (ti_data i).
    + apply dbind_calm; [apply restr_variants_calm|calmly].
    + calmly.
    + apply dbind_calm; [|calmly]. apply dmap_calm. intros v. unfold union_variant. calmly.
    + calmly.
Qed.

Theorem accepted_restriction i r name w rs : derive_text i = inl ([], r) -> r = Some (TRestr name w rs) ->
  exists vs, ti_data i = TDataEnum vs /\ Forall2 restr_means vs rs /\
    List.length (filter is_runknown rs) <= 1 /\ text_space (items_in (ti_attrs i)) w.
Proof.
  intros E ->. apply derive_text_ok in E as (t & [= <-] & _ & _ & H). inversion H; subst. eauto.
Qed.
