(** Values with texts that cannot be printed: what comes first is decided, and serialization returns
    its error. *)
From Verif Require Import Base Normalize Text Find FindProofs TextProofs Types BMap Ser SerSpec SerTree SerPoison SerProofs NsProofs NsSpec
  NsMain NsMeaning NsChoice DeriveSer DSerSpec DSerProofs DSerPanic DSerProps HandTextSpec.

(** ** Texts *)

Lemma printing_text o t : forall x,
  match to_text o t x, text_error o t x with
  | Some s, None => to_text (printing o) t x = Some s
  | None, Some _ => to_text (printing o) t x <> None
  | None, None => to_text (printing o) t x = None
  | Some _, Some _ => False
  end.
Proof.
  induction t as [| |k|w|name ws vs|name ws vs IH|i ws|i] using tty_ind'; intros x; destruct x; try exact eq_refl; cbn.
  - destruct (in_range k z); reflexivity.
  - destruct (nth_error vs i) as [[]|]; reflexivity.
  - destruct (existsb is_unknown vs); reflexivity.
  - revert i. induction IH as [|t vs Ht _ IHv]; intros [|i]; cbn; try reflexivity; [apply Ht|apply IHv].
  - destruct (o_hand_show o i n); cbn; [reflexivity|discriminate].
Qed.

Lemma printed_or_error o t x : to_text (printing o) t x <> None ->
  (exists s, to_text o t x = Some s) \/ (exists m, text_error o t x = Some m).
Proof.
  intros H. pose proof (printing_text o t x) as P.
  destruct (to_text o t x); [eauto|]. destruct (text_error o t x); [eauto|]. contradiction.
Qed.

Lemma error_no_text o t x m : text_error o t x = Some m -> to_text o t x = None.
Proof. intros E. pose proof (printing_text o t x) as P. rewrite E in P. destruct (to_text o t x); [contradiction|reflexivity]. Qed.

Section Decided.
  Context (o : oracles) (env : tenv).
  Notation of_type := (of_type o env).
  Notation content := (content o env).
  Notation tag := (tag o env).
  Notation tag_fails := (tag_fails o env).
  Notation kids_fail := (kids_fail o env).
  Notation fails := (fails o env).
  Notation typed_fields := (Forall2 (typed_field (printing o) of_type)).

  Hypothesis flat : flats_enums env.

  Lemma attrs_decided fs vs : typed_fields fs vs ->
    (exists l, attrs_are o fs vs l) \/ (exists m, attr_fails o fs vs m).
  Proof.
    induction 1 as [|f v fs vs Hf _ IH]; [left; exists []; constructor|].
    destruct Hf as [k t v0 l0 M I F|t x M T|t M|t x M T|id v0 M T|t x M T].
    - assert (is_attribute f = false) by (unfold is_attribute; now rewrite M).
      destruct IH as [(l & IH)|(m & IH)]; [left; exists l; now apply aa_other|right; exists m; now apply af_other].
    - destruct (printed_or_error _ _ _ T) as [(s & E)|(m & E)].
      + destruct IH as [(l & IH)|(m & IH)].
        * left. eexists. apply (aa_here o f fs false t x s vs l); auto.
        * right. exists m. apply (af_later o f fs false t x s vs m); auto.
      + right. exists m. apply (af_here o f fs false t x vs m); auto.
    - destruct IH as [(l & IH)|(m & IH)]; [left; exists l; now apply (aa_none o f fs t)|right; exists m; now apply (af_none o f fs t)].
    - destruct (printed_or_error _ _ _ T) as [(s & E)|(m & E)].
      + destruct IH as [(l & IH)|(m & IH)].
        * left. eexists. apply (aa_here o f fs true t x s vs l); auto.
        * right. exists m. apply (af_later o f fs true t x s vs m); auto.
      + right. exists m. apply (af_here o f fs true t x vs m); auto.
    - assert (is_attribute f = false) by (unfold is_attribute; now rewrite M).
      destruct IH as [(l & IH)|(m & IH)]; [left; exists l; now apply aa_other|right; exists m; now apply af_other].
    - assert (is_attribute f = false) by (unfold is_attribute; now rewrite M).
      destruct IH as [(l & IH)|(m & IH)]; [left; exists l; now apply aa_other|right; exists m; now apply af_other].
  Qed.

  Lemma enum_shape id ident root nss ws sk v : env id = Some (TDEnum ident root nss ws sk) -> of_type (ERef id) v ->
    (exists i p, v = VEnum i p) \/ v = VSkipped.
  Proof. intros E T. inversion T; subst; eauto; congruence. Qed.

  Lemma flat_tags_total fs vs : (forall f id', In f fs -> f_mode f = MFlatten id' ->
      exists ident' root' nss' ws sk, env id' = Some (TDEnum ident' root' nss' ws sk)) ->
    typed_fields fs vs -> exists l, flat_tags env fs vs l.
  Proof.
    intros F. induction 1 as [|f v fs vs Hf _ IH]; [exists []; constructor|].
    destruct IH as (l & IH). { intros g id' Hg. apply F. now right. }
    destruct (is_flatten f) eqn:Ef; [|exists l; now apply ft_other].
    unfold is_flatten in Ef. destruct Hf as [k t v0 l0 M I F'|t x M T|t M|t x M T|id v0 M T|t x M T];
      rewrite M in Ef; try discriminate.
    destruct (F f id (or_introl eq_refl) M) as (i' & r' & n' & w' & s' & E).
    exists (mappings n' ++ l). eapply ft_here; eauto. eapply enum_shape; eauto.
  Qed.

  Lemma tag_decided t v : of_type t v -> (exists l, tag t v l) \/ (exists m, tag_fails t v m).
  Proof.
    intros T. inversion T; subst.
    - left. eexists. constructor.
    - destruct (attrs_decided _ _ ltac:(eassumption)) as [(l & A)|(m & A)].
      + destruct (flat_tags_total fs vs) as (l' & F); auto. { intros f id'. now apply flat with id ident root nss. }
        left. eexists. eapply tag_struct; eauto.
      + right. exists m. eapply tag_fails_struct; eauto.
    - left. eexists. eapply tag_enum; eauto.
    - left. eexists. eapply tag_enum; eauto.
    - left. eexists. eapply tag_enum; eauto.
  Qed.

  (** All children can be written. *)
  Definition kids_done (t : ety) (v : value) (ks : list rtree) : Prop := forall l, tag t v l -> content t v l ks.
  Definition kids_decided (v : value) : Prop := forall t, of_type t v ->
    (exists ks, kids_done t v ks) \/ (exists ks p m, kids_fail t v ks p m).

  Lemma elem_decided n t v : kids_decided v -> of_type t v ->
    (exists l ks, content t v l ks) \/ (exists p m, fails n t v p m).
  Proof.
    intros H T. destruct (tag_decided t v T) as [(l & A)|(m & A)]; [|right; exists Nothing, m; now apply ef_tag].
    destruct (H t T) as [(ks & K)|(ks & p & m & K)]; [left; eauto|].
    right. exists (Opened n l ks p), m. now apply ef_kids.
  Qed.

  Lemma items_decided n t vs : Forall kids_decided vs -> Forall (of_type t) vs ->
    (exists ks, elems_are content n t vs ks) \/ (exists ks p m, items_fail o env kids_fail n t vs ks p m).
  Proof.
    induction 1 as [|v vs Hv _ IH]; intros T; [left; exists []; constructor|].
    inversion T as [|v' vs' Tv Ts]; subst.
    destruct (elem_decided n t v Hv Tv) as [(l & ks & C)|(p & m & F)].
    - destruct (IH Ts) as [(ks' & E)|(ks' & p & m & F)].
      + left. eexists. constructor; eauto.
      + right. do 3 eexists. eapply if_later; eauto.
    - right. do 3 eexists. apply if_here; eauto.
  Qed.

  Lemma own_decided fs vs : Forall (below kids_decided) vs -> typed_fields fs vs ->
    (exists ks, own_kids content fs vs ks) \/ (exists ks p m, own_fail o env kids_fail fs vs ks p m).
  Proof.
    intros Hb H. revert Hb. induction H as [|f v fs vs Hf _ IH]; intros Hb; [left; exists []; constructor|].
    inversion Hb as [|v' vs' Hv Hb']; subst. specialize (IH Hb').
    destruct Hf as [k t v l M I F|t x M T|t M|t x M T|id v M T|t x M T].
    { destruct (items_decided (expanded (f_name f)) t l) as [(ks & E)|(ks & p & m & E)]; auto.
      - eapply below_items; eauto.
      - destruct IH as [(ks' & IH)|(ks' & p & m & IH)].
        + left. eexists. eapply ok_here; eauto.
        + right. do 3 eexists. eapply of_later; eauto.
      - right. do 3 eexists. eapply of_here; eauto. }
    all: assert (is_element f = false) by (unfold is_element; now rewrite M);
      (destruct IH as [(ks' & IH)|(ks' & p & m & IH)];
       [left; exists ks'; now apply ok_other|right; exists ks', p, m; now apply of_other]).
  Qed.

  Lemma flat_decided fs vs : Forall (below kids_decided) vs -> typed_fields fs vs ->
    (forall f id', In f fs -> f_mode f = MFlatten id' ->
      exists ident' root' nss' ws sk, env id' = Some (TDEnum ident' root' nss' ws sk)) ->
    (exists ks, forall l, flat_tags env fs vs l -> flattened content fs vs l ks) \/
    (exists ks p m, flat_fail o env kids_fail fs vs ks p m).
  Proof.
    intros Hb H. revert Hb. induction H as [|f v fs vs Hf _ IH]; intros Hb F.
    { left. exists []. intros l H. inversion H. constructor. }
    inversion Hb as [|v' vs' Hv Hb']; subst.
    specialize (IH Hb' ltac:(intros g id' Hg; apply F; now right)).
    destruct (is_flatten f) eqn:Ef.
    - unfold is_flatten in Ef. destruct Hf as [k t v0 l0 M I F'|t x M T|t M|t x M T|id v0 M T|t x M T];
        rewrite M in Ef; try discriminate.
      destruct (proj1 Hv (ERef id) T) as [(ks & K)|(ks & p & m & K)].
      + destruct IH as [(ks' & IH)|(ks' & p & m & IH)].
        * left. exists (ks ++ ks'). intros l H. inversion H as [|f1 fs1 id1 i1 r1 n1 w1 s1 v1 vs1 l1 M1 E1 S1 H1|f1 fs1 v1 vs1 l1 M1 H1]; subst.
          -- rewrite M in M1. injection M1 as <-. eapply fl_here; eauto. apply K. eapply tag_enum; eauto.
          -- unfold is_flatten in M1. rewrite M in M1. discriminate.
        * right. destruct (F f id (or_introl eq_refl) M) as (i' & r' & n' & w' & s' & E).
          do 3 eexists. eapply ff_later; eauto. apply K. eapply tag_enum; eauto. eapply enum_shape; eauto.
      + right. do 3 eexists. eapply ff_here; eauto.
    - destruct IH as [(ks' & IH)|(ks' & p & m & IH)].
      + left. exists ks'. intros l H. inversion H as [|f1 fs1 id1 i1 r1 n1 w1 s1 v1 vs1 l1 M1 E1 S1 H1|f1 fs1 v1 vs1 l1 M1 H1]; subst.
        * unfold is_flatten in Ef. rewrite M1 in Ef. discriminate.
        * apply fl_other; auto.
      + right. exists ks', p, m. now apply ff_other.
  Qed.

  Lemma value_decided v : kids_decided v.
  Proof.
    induction v using value_ind''; intros t T; inversion T; subst.
    - destruct (printed_or_error _ _ _ ltac:(eassumption)) as [(s & E)|(m & E)].
      + left. exists [RText s]. intros l Hl. inversion Hl; subst. now constructor.
      + right. do 3 eexists. apply kf_text; eauto.
    - destruct (own_decided fs vs) as [(ks & K)|(ks & p & m & K)]; auto.
      + destruct (flat_decided fs vs) as [(ks' & K')|(ks' & p & m & K')]; auto.
        { intros f id'. now apply flat with id ident root nss. }
        * left. exists (ks ++ ks'). intros l Hl. inversion Hl; subst; [|congruence].
          match goal with E1 : env id = _, E2 : env id = _ |- _ => rewrite E1 in E2; injection E2 as <- <- <- <- end.
          eapply co_struct; eauto.
        * right. do 3 eexists. eapply kf_flat; eauto.
      + right. do 3 eexists. eapply kf_own; eauto.
    - left. eexists. intros l Hl. inversion Hl; subst.
      match goal with E1 : env id = _, E2 : env id = _ |- _ => rewrite E1 in E2; injection E2 as <- <- <- <- <- end.
      eapply co_unit; eauto.
    - destruct (items_decided (expanded (v_name w)) t0 l) as [(ks & E)|(ks & p & m & E)]; auto.
      + eapply below_items; [apply H; reflexivity|eauto].
      + left. exists ks. intros l' Hl. inversion Hl; subst.
        match goal with E1 : env id = _, E2 : env id = _ |- _ => rewrite E1 in E2; injection E2 as <- <- <- <- <- end.
        eapply co_payload; eauto.
      + right. do 3 eexists. eapply kf_payload; eauto.
    - left. exists []. intros l Hl. inversion Hl; subst.
      match goal with E1 : env id = _, E2 : env id = _ |- _ => rewrite E1 in E2; injection E2 as <- <- <- <- <- end.
      eapply co_skipped; eauto.
  Qed.

  Theorem content_or_fails n t v : of_type t v ->
    (exists l ks, content t v l ks) \/ (exists p m, fails n t v p m).
  Proof. apply elem_decided, value_decided. Qed.
End Decided.

(** ** Only one of them comes first *)
Section Unique.
  Context (o : oracles) (env : tenv).
  Notation content := (content o env).
  Notation tag := (tag o env).
  Notation tag_fails := (tag_fails o env).
  Notation kids_fail := (kids_fail o env).
  Notation fails := (fails o env).

  Ltac same_mode := match goal with
    | A : f_mode ?f = _, B : f_mode ?f = _ |- _ => rewrite A in B; try discriminate B; injection B as ->; try subst
    | A : f_mode ?f = _, B : is_attribute ?f = false |- _ => unfold is_attribute in B; rewrite A in B; discriminate B
    | A : f_mode ?f = _, B : is_element ?f = false |- _ => unfold is_element in B; rewrite A in B; discriminate B
    | A : f_mode ?f = _, B : is_flatten ?f = false |- _ => unfold is_flatten in B; rewrite A in B; discriminate B
    end.

  Lemma text_or_error t x s m : to_text o t x = Some s -> text_error o t x = Some m -> False.
  Proof. intros E F. apply error_no_text in F. congruence. Qed.

  Definition shape (opt : bool) (x : tval) : value := if opt then VSome (VText x) else VText x.
  Lemma shape_inj opt x y : shape opt x = shape opt y -> x = y.
  Proof. destruct opt; cbn; congruence. Qed.
  Lemma shape_none opt x : shape opt x <> VNone.
  Proof. now destruct opt. Qed.

  Lemma attr_fails_inv f fs v vs m : attr_fails o (f :: fs) (v :: vs) m ->
    match f_mode f with
    | MAttribute opt t =>
        (exists x, v = shape opt x /\ (text_error o t x = Some m \/
           exists s, to_text o t x = Some s /\ attr_fails o fs vs m)) \/
        v = VNone /\ attr_fails o fs vs m
    | _ => attr_fails o fs vs m
    end.
  Proof.
    inversion 1; subst.
    - match goal with M : f_mode f = _ |- _ => rewrite M end. left. eexists. split; [reflexivity|]. auto.
    - match goal with M : f_mode f = _ |- _ => rewrite M end. left. eexists. split; [reflexivity|]. eauto.
    - match goal with M : f_mode f = _ |- _ => rewrite M end. auto.
    - match goal with M : is_attribute f = false |- _ => unfold is_attribute in M; destruct (f_mode f); auto; discriminate M end.
  Qed.

  Lemma attrs_are_inv f fs v vs l : attrs_are o (f :: fs) (v :: vs) l ->
    match f_mode f with
    | MAttribute opt t =>
        (exists x s l', v = shape opt x /\ to_text o t x = Some s /\ attrs_are o fs vs l') \/
        v = VNone /\ attrs_are o fs vs l
    | _ => attrs_are o fs vs l
    end.
  Proof.
    inversion 1; subst.
    - match goal with M : f_mode f = _ |- _ => rewrite M end. left. eexists. eexists. eexists. split; [reflexivity|]. eauto.
    - match goal with M : f_mode f = _ |- _ => rewrite M end. auto.
    - match goal with M : is_attribute f = false |- _ => unfold is_attribute in M; destruct (f_mode f); auto; discriminate M end.
  Qed.

  Lemma attr_fails_not fs vs m : attr_fails o fs vs m -> forall l, ~ attrs_are o fs vs l.
  Proof.
    induction 1 as [f fs opt t x vs m M E|f fs opt t x s vs m M E F IH|f fs t vs m M F IH|f fs v vs m M F IH]; intros l A;
      apply attrs_are_inv in A; try rewrite M in A.
    - destruct A as [(y & s & l' & Y & T & _)|[Y _]]; [|destruct (shape_none _ _ Y)].
      apply shape_inj in Y. subst y. eapply text_or_error; eauto.
    - destruct A as [(y & s' & l' & Y & T & A)|[Y _]]; [|destruct (shape_none _ _ Y)]. eapply IH; eauto.
    - destruct A as [(y & s' & l' & Y & T & A)|[_ A]]; eapply IH; eauto.
    - unfold is_attribute in M. destruct (f_mode f); try discriminate M; eapply IH; eauto.
  Qed.

  Lemma attr_fails_det fs vs m : attr_fails o fs vs m -> forall m', attr_fails o fs vs m' -> m = m'.
  Proof.
    induction 1 as [f fs opt t x vs m M E|f fs opt t x s vs m M E F IH|f fs t vs m M F IH|f fs v vs m M F IH]; intros m' A;
      apply attr_fails_inv in A; try rewrite M in A.
    - destruct A as [(y & Y & T)|[Y _]]; [|destruct (shape_none _ _ Y)]. apply shape_inj in Y. subst y.
      destruct T as [T|(s & T & _)]; [congruence|]. exfalso. eapply text_or_error; eauto.
    - destruct A as [(y & Y & T)|[Y _]]; [|destruct (shape_none _ _ Y)]. apply shape_inj in Y. subst y.
      destruct T as [T|(s' & T & A)]; [|auto]. exfalso. eapply text_or_error; eauto.
    - destruct A as [(y & Y & _)|[_ A]]; [symmetry in Y; destruct (shape_none _ _ Y)|auto].
    - unfold is_attribute in M. destruct (f_mode f); try discriminate M; auto.
  Qed.

  Lemma flat_tags_det fs vs l : flat_tags env fs vs l -> forall l', flat_tags env fs vs l' -> l = l'.
  Proof.
    induction 1 as [|f fs id i r nss ws sk v vs l M E S F IH|f fs v vs l M F IH]; intros l' A.
    - now inversion A.
    - inversion A; subst; try same_mode.
      match goal with E1 : env ?i = _, E2 : env ?i = _ |- _ => rewrite E1 in E2; injection E2 as -> -> -> -> -> end.
      f_equal. auto.
    - inversion A; subst; try same_mode. auto.
  Qed.

  Lemma tag_det t v l l' : tag t v l -> tag t v l' -> l = l'.
  Proof.
    intros A B. inversion A; subst; inversion B; subst; auto; try congruence.
    - match goal with E1 : env ?i = _, E2 : env ?i = _ |- _ => rewrite E1 in E2; injection E2 as -> -> -> -> end.
      f_equal. f_equal; [eapply attrs_det; eauto|eapply flat_tags_det; eauto].
  Qed.

  Lemma tag_fails_not t v m : tag_fails t v m -> (forall l, ~ tag t v l) /\ (forall l ks, ~ content t v l ks).
  Proof.
    intros []. split.
    - intros l T. inversion T; subst; [|congruence].
      match goal with E1 : env ?i = _, E2 : env ?i = _ |- _ => rewrite E1 in E2; injection E2 as -> -> -> -> end.
      eapply attr_fails_not; eauto.
    - intros l ks C. inversion C; subst.
      match goal with E1 : env ?i = _, E2 : env ?i = _ |- _ => rewrite E1 in E2; injection E2 as -> -> -> -> end.
      eapply attr_fails_not; eauto.
  Qed.

  Definition one_fault (v : value) : Prop := forall t ks p m, kids_fail t v ks p m ->
    (forall l ks', ~ content t v l ks') /\
    (forall ks' p' m', kids_fail t v ks' p' m' -> ks = ks' /\ p = p' /\ m = m').

  Lemma elem_one n t v p m : one_fault v -> fails n t v p m ->
    (forall l ks', ~ content t v l ks') /\ (forall p' m', fails n t v p' m' -> p = p' /\ m = m').
  Proof.
    intros H F. destruct F as [m F|l ks p m T F].
    - split; [apply (tag_fails_not _ _ _ F)|]. intros p' m' F'. destruct F' as [m' F'|l ks p m' T F'].
      + split; auto. destruct F. inversion F'; subst.
        match goal with E1 : env ?i = _, E2 : env ?i = _ |- _ => rewrite E1 in E2; injection E2 as -> -> -> -> end.
        eapply attr_fails_det; eauto.
      + destruct (proj1 (tag_fails_not _ _ _ F) _ T).
    - destruct (H _ _ _ _ F) as [H1 H2]. split; auto. intros p' m' F'. destruct F' as [m' F'|l' ks' p' m' T' F'].
      + destruct (proj1 (tag_fails_not _ _ _ F') _ T).
      + destruct (H2 _ _ _ F') as (<- & <- & <-). rewrite (tag_det _ _ _ _ T' T). auto.
  Qed.

  Lemma items_one n t vs : Forall one_fault vs -> forall ks p m, items_fail o env kids_fail n t vs ks p m ->
    (forall ks', ~ elems_are content n t vs ks') /\
    (forall ks' p' m', items_fail o env kids_fail n t vs ks' p' m' -> ks = ks' /\ p = p' /\ m = m').
  Proof.
    intros Ha ks p m F. revert Ha. induction F as [v vs p m F|v vs rq kd l p m C F IH]; intros Ha;
      inversion Ha as [|v' vs' Hv Hs]; subst.
    - destruct (elem_one n t v p m Hv F) as [H1 H2]. split.
      + intros ks' E. inversion E; subst. eapply H1; eauto.
      + intros ks' p' m' F'. inversion F'; subst.
        * match goal with E : elem_fails _ _ _ _ _ _ _ _ |- _ => destruct (H2 _ _ E) as [<- <-]; auto end.
        * exfalso. eapply H1; eauto.
    - destruct (IH Hs) as [H1 H2]. split.
      + intros ks' E. inversion E; subst. eapply H1; eauto.
      + intros ks' p' m' F'. inversion F'; subst.
        * exfalso. match goal with E : elem_fails _ _ _ _ _ _ _ _ |- _ => eapply (proj1 (elem_one n t v _ _ Hv E)); eauto end.
        * match goal with E : items_fail _ _ _ _ _ _ _ _ _ |- _ => destruct (H2 _ _ _ E) as (<- & <- & <-) end.
          match goal with C1 : content t v _ _, C2 : content t v _ _ |- _ =>
            destruct (content_det o env v t _ _ _ _ C1 C2) as [<- <-] end. auto.
  Qed.

  Lemma own_one fs vs ks p m : Forall (below one_fault) vs -> own_fail o env kids_fail fs vs ks p m ->
    (forall ks', ~ own_kids content fs vs ks') /\
    (forall ks' p' m', own_fail o env kids_fail fs vs ks' p' m' -> ks = ks' /\ p = p' /\ m = m').
  Proof.
    intros Ha F. revert Ha.
    induction F as [f fs k t v xs vs l p m M I F|f fs k t v xs vs l l' p m M I E F IH|f fs v vs l p m M F IH];
      intros Ha; inversion Ha as [|v' vs' Hv Hs]; subst.
    - destruct (items_one (expanded (f_name f)) t xs (below_items _ _ _ _ Hv I) _ _ _ F) as [H1 H2]. split.
      + intros ks' E. inversion E; subst; try same_mode.
        match goal with I1 : items _ v ?a, I2 : items _ v ?b |- _ => tryif constr_eq a b then fail else rewrite (items_det _ _ _ _ I1 I2) in * end.
        eapply H1; eauto.
      + intros ks' p' m' F'. inversion F'; subst; try same_mode;
          match goal with I1 : items _ v ?a, I2 : items _ v ?b |- _ => tryif constr_eq a b then fail else rewrite (items_det _ _ _ _ I1 I2) in * end.
        * eauto.
        * exfalso. eapply H1; eauto.
    - destruct (IH Hs) as [H1 H2]. split.
      + intros ks' E'. inversion E'; subst; try same_mode. eapply H1; eauto.
      + intros ks' p' m' F'. inversion F'; subst; try same_mode;
          match goal with I1 : items _ v ?a, I2 : items _ v ?b |- _ => tryif constr_eq a b then fail else rewrite (items_det _ _ _ _ I1 I2) in * end.
        * exfalso. match goal with F1 : items_fail _ _ _ _ _ _ _ _ _ |- _ =>
            eapply (proj1 (items_one _ _ _ (below_items _ _ _ _ Hv ltac:(eassumption)) _ _ _ F1)); eauto end.
        * match goal with F1 : own_fail _ _ _ fs vs _ _ _ |- _ => destruct (H2 _ _ _ F1) as (<- & <- & <-) end.
          match goal with E1 : elems_are _ _ _ ?a ?x, E2 : elems_are _ _ _ ?a ?y |- _ =>
            tryif constr_eq x y then fail else
            rewrite (elems_det o env _ _ _ (Forall_impl _ (fun v _ => content_det o env v) (below_items _ _ _ _ Hv ltac:(eassumption))) _ _ E1 E2) end.
          auto.
    - destruct (IH Hs) as [H1 H2]. split.
      + intros ks' E'. inversion E'; subst; try same_mode. eapply H1; eauto.
      + intros ks' p' m' F'. inversion F'; subst; try same_mode. eauto.
  Qed.

  Lemma flat_one fs vs ks p m : Forall (below one_fault) vs -> flat_fail o env kids_fail fs vs ks p m ->
    (forall l ks', ~ flattened content fs vs l ks') /\
    (forall ks' p' m', flat_fail o env kids_fail fs vs ks' p' m' -> ks = ks' /\ p = p' /\ m = m').
  Proof.
    intros Ha F. revert Ha.
    induction F as [f fs id v vs l p m M F|f fs id v vs rq l l' p m M C F IH|f fs v vs l p m M F IH];
      intros Ha; inversion Ha as [|v' vs' [Hv _] Hs]; subst.
    - destruct (Hv _ _ _ _ F) as [H1 H2]. split.
      + intros l' ks' E. inversion E; subst; try same_mode. eapply H1; eauto.
      + intros ks' p' m' F'. inversion F'; subst; try same_mode.
        * eauto.
        * exfalso. eapply H1; eauto.
    - destruct (IH Hs) as [H1 H2]. split.
      + intros l2 ks' E. inversion E; subst; try same_mode. eapply H1; eauto.
      + intros ks' p' m' F'. inversion F'; subst; try same_mode.
        * exfalso. match goal with F1 : HandTextSpec.kids_fail _ _ _ _ _ _ _ |- _ => eapply (proj1 (Hv _ _ _ _ F1)); eauto end.
        * match goal with F1 : flat_fail _ _ _ fs vs _ _ _ |- _ => destruct (H2 _ _ _ F1) as (<- & <- & <-) end.
          match goal with C1 : content ?t v _ _, C2 : content ?t v ?a ?b |- _ =>
            tryif constr_eq b l then fail else destruct (content_det o env v t _ _ _ _ C1 C2) as [<- <-] end. auto.
    - destruct (IH Hs) as [H1 H2]. split.
      + intros l2 ks' E'. inversion E'; subst; try same_mode. eapply H1; eauto.
      + intros ks' p' m' F'. inversion F'; subst; try same_mode. eauto.
  Qed.

  Lemma value_one v : one_fault v.
  Proof.
    assert (SE : forall id i r n f i' r' n' f', env id = Some (TDStruct i r n f) -> env id = Some (TDStruct i' r' n' f') -> f' = f)
      by congruence.
    induction v using value_ind''; intros t ks p0 m F.
    - inversion F; subst. split.
      + intros l ks' C. inversion C; subst. eapply text_or_error; eauto.
      + intros ks' p' m' F'. inversion F'; subst. split; [|split]; congruence.
    - inversion F as [|id i r n fs vs0 l p1 m1 E Fo|id i r n fs vs0 l l' p1 m1 E O Ff|]; subst.
      + destruct (own_one _ _ _ _ _ H Fo) as [H1 H2]. split.
        * intros l ks' C. inversion C; subst. pose proof (SE _ _ _ _ _ _ _ _ _ E ltac:(eassumption)). subst. eapply H1; eauto.
        * intros ks' p' m' F'. inversion F'; subst; pose proof (SE _ _ _ _ _ _ _ _ _ E ltac:(eassumption)); subst; [eauto|].
          exfalso. eapply H1; eauto.
      + destruct (flat_one _ _ _ _ _ H Ff) as [H1 H2]. split.
        * intros l2 ks' C. inversion C; subst. pose proof (SE _ _ _ _ _ _ _ _ _ E ltac:(eassumption)). subst. eapply H1; eauto.
        * intros ks' p' m' F'. inversion F' as [|id' i' r' n' fs' vs' l2 p2 m2 E' Fo'|id' i' r' n' fs' vs' l2 l2' p2 m2 E' O' Ff'|]; subst;
            pose proof (SE _ _ _ _ _ _ _ _ _ E ltac:(eassumption)); subst.
          -- exfalso. eapply (proj1 (own_one _ _ _ _ _ H Fo')); eauto.
          -- destruct (H2 _ _ _ Ff') as (<- & <- & <-).
             rewrite (own_det o env fs vs l) with (l' := l2); auto.
             eapply Forall_impl; [|exact H]. intros x _. split; [apply content_det|].
             destruct x; auto; [apply content_det|]. apply Forall_forall. intros; apply content_det.
    - inversion F as [| | |id i0 r n ws sk i1 w k t0 x xs l p1 m1 E N V I Fi]; subst.
      destruct (items_one _ _ xs (below_items _ _ _ _ (H _ eq_refl) I) _ _ _ Fi) as [H1 H2]. split.
      + intros l ks' C. inversion C; subst.
        match goal with E1 : env ?i = _, E2 : env ?i = _ |- _ => rewrite E1 in E2; injection E2 as -> -> -> -> -> end.
        match goal with E1 : nth_error ?a ?i = _, E2 : nth_error ?a ?i = _ |- _ => rewrite E1 in E2; injection E2 as -> end.
        match goal with E1 : v_ty ?a = _, E2 : v_ty ?a = _ |- _ => rewrite E1 in E2; injection E2 as -> -> end.
        match goal with I1 : items _ x ?a, I2 : items _ x ?b |- _ => tryif constr_eq a b then fail else rewrite (items_det _ _ _ _ I1 I2) in * end.
        eapply H1; eauto.
      + intros ks' p' m' F'. inversion F'; subst.
        match goal with E1 : env ?i = _, E2 : env ?i = _ |- _ => rewrite E1 in E2; injection E2 as -> -> -> -> -> end.
        match goal with E1 : nth_error ?a ?i = _, E2 : nth_error ?a ?i = _ |- _ => rewrite E1 in E2; injection E2 as -> end.
        match goal with E1 : v_ty ?a = _, E2 : v_ty ?a = _ |- _ => rewrite E1 in E2; injection E2 as -> -> end.
        match goal with I1 : items _ x ?a, I2 : items _ x ?b |- _ => tryif constr_eq a b then fail else rewrite (items_det _ _ _ _ I1 I2) in * end.
        eauto.
    - inversion F.
    - inversion F.
    - inversion F.
    - inversion F.
  Qed.

  Theorem fails_unique n t v p m : fails n t v p m ->
    (forall l ks, ~ content t v l ks) /\ (forall p' m', fails n t v p' m' -> p' = p /\ m' = m).
  Proof.
    intros F. destruct (elem_one n t v p m (value_one v) F) as [H1 H2]. split; auto.
    intros p' m' F'. destruct (H2 _ _ F') as [<- <-]. auto.
  Qed.
End Unique.

(** ** Values all of whose texts can be printed *)

Lemma printed_printing o t x : to_text o t x <> None -> to_text (printing o) t x <> None.
Proof.
  intros H. pose proof (printing_text o t x) as P. destruct (to_text o t x); [|congruence].
  destruct (text_error o t x); [contradiction|congruence].
Qed.

Theorem typed_of_type o env v : forall t, typed o env t v -> of_type o env t v.
Proof.
  assert (F : forall k t (v : value) l, below (fun v => forall t, typed o env t v -> of_type o env t v) v -> items k v l ->
            Forall (typed o env t) l -> Forall (of_type o env t) l).
  { intros k t v0 l Hb I T. pose proof (below_items _ _ _ _ Hb I) as Hs. rewrite Forall_forall in *. eauto. }
  induction v using value_ind''; intros t T; inversion T; subst.
  - constructor. now apply printed_printing.
  - eapply ty_struct; [eassumption|].
    match goal with X : Forall2 _ fs vs |- _ => rename X into Hf end. clear - Hf H F.
    assert (Hf' : Forall2 (typed_field (printing o) (of_type o env)) fs vs); [|exact Hf'].
    induction Hf as [|f v fs vs Hv _ IH]; [constructor|]. inversion H as [|v' vs' Hb Hb']; subst.
    constructor; [|now apply IH].
    destruct Hv as [k t v0 l0 M I F'|t x M T|t M|t x M T|id' v0 M T|t x M T].
    + eapply tf_element; eauto.
    + eapply tf_attribute; eauto. now apply printed_printing.
    + eapply tf_no_attribute; eauto.
    + eapply tf_opt_attribute; eauto. now apply printed_printing.
    + eapply tf_flatten; eauto. now apply (proj1 Hb).
    + eapply tf_text; eauto. now apply printed_printing.
  - eapply ty_unit; eauto.
  - eapply ty_payload; eauto.
  - eapply ty_skipped; eauto.
Qed.

(** ** No panic *)

Lemma prints_printing o : prints o (printing o).
Proof.
  intros t x s H. pose proof (printing_text o t x) as P.
  destruct (to_text o t x) as [s'|]; destruct (text_error o t x) as [m|]; [contradiction| |eauto|congruence].
  left. congruence.
Qed.

Theorem of_type_no_panic o env dbg w t v n : of_type o env t v ->
  names_declared env -> prefixes_ok env -> no_default env ->
  (xn_ns n = ""%string /\ (forall id d u, env id = Some d -> ~ In (""%string, u) (td_nss d)) \/
   xn_ns n = XML_NS \/
   exists id d p, t = ERef id /\ env id = Some d /\ In (p, xn_ns n) (td_nss d)) ->
  exists r k, serialize_with_name o env dbg w t v n = inl (r, k).
Proof.
  intros T Hn Hp Hd Hu. destruct (names_of_env env Hn Hd Hp) as (A & HA & H1 & H2 & H3).
  destruct (content_total _ env v _ T) as (rs & ks & C).
  destruct (values_fine o (printing o) env dbg w A (prints_printing o) H1 (fun id d n E Hin => H2 id d n E (or_intror Hin)) H3
              t v n rs ks C) as ([r k] & ->); [|eauto].
  destruct Hu as [[U1 U2]|[U|(id & d & p & -> & E & Hin)]]; [left; split; auto; now apply HA|now right; left|].
  right; right. exists p.
  inversion C; subst; match goal with E' : env id = Some _ |- _ => rewrite E in E'; injection E' as -> end;
    cbn [td_nss] in Hin; try apply in_or_app; try left; now apply In_mappings.
Qed.

Lemma of_type_env o env id v : of_type o env (ERef id) v -> exists d, env id = Some d.
Proof. intros T. inversion T; eauto. Qed.

Lemma root_named env id d : env id = Some d -> root_name env id = Some (expanded (td_root d)).
Proof. intros E. unfold root_name. rewrite E. destruct d; reflexivity. Qed.

Lemma root_is_named env id d : names_declared env -> no_default env -> env id = Some d ->
  let n := expanded (td_root d) in
  xn_ns n = ""%string /\ (forall id d u, env id = Some d -> ~ In (""%string, u) (td_nss d)) \/
  xn_ns n = XML_NS \/
  exists id' d' p, ERef id = ERef id' /\ env id' = Some d' /\ In (p, xn_ns n) (td_nss d').
Proof.
  intros Hn Hd E n. pose proof (Hn id d E) as F. inversion F as [|? ? [F1|[F1|(p & F1)]] _]; subst; fold n in F1.
  - left. split; auto. destruct Hd as [Hd|Hd]; [exact Hd|]. exfalso. eapply (Hd id d n); eauto. now left.
  - auto.
  - right. right. exists id, d, p. auto.
Qed.

Theorem of_type_root_no_panic o env dbg w id v : of_type o env (ERef id) v ->
  names_declared env -> prefixes_ok env -> no_default env ->
  exists r k, serialize_root o env dbg w id v = inl (r, k).
Proof.
  intros T Hn Hp Hd. destruct (of_type_env _ _ _ _ T) as (d & E). unfold serialize_root. rewrite (root_named _ _ _ E).
  eapply of_type_no_panic; eauto. now apply root_is_named.
Qed.

(** ** Never [Ok] *)
Section Never.
  Context (o : oracles) (env : tenv).
  Notation content := (content o env).
  Notation kids_fail := (kids_fail o env).
  Notation fails := (fails o env).

  (** [p k] asks for nothing: it ends with an error. *)
  Definition quits {d} (p : (option serr -> wprog d) -> wprog d) : Prop :=
    forall k root st, strict k -> ask_w (p k) root st = None.

  Lemma quits_ext {d} (p q : (option serr -> wprog d) -> wprog d) : (forall k, p k = q k) -> quits q -> quits p.
  Proof. intros E H k root st Hk. rewrite E. auto. Qed.

  Lemma quits_now {d} (p q : (option serr -> wprog d) -> wprog d) : quits p -> quits (fun k => p (on_ok k (q k))).
  Proof. intros H k root st Hk. apply H. now apply strict_on_ok. Qed.

  Lemma quits_then {d} (p q : (option serr -> wprog d) -> wprog d) ks : puts p ks -> quits q ->
    quits (fun k => p (on_ok k (q k))).
  Proof.
    intros H1 H2 k root st Hk. rewrite H1 by now apply strict_on_ok. destruct (forallb tree_ok ks); [|reflexivity].
    destruct (add_kids ks (root, st)) as [root' st']. now apply H2.
  Qed.

  Lemma ask_attr_fails fs vs m w : attr_fails o fs vs m ->
    (forall f v, w f v = match f_mode f with
                         | MAttribute opt t => write_attr o (expanded (f_name f)) opt t v
                         | _ => APanic ill_typed
                         end) ->
    forall l, ask_a (a_each is_attribute w vs fs) l = None.
  Proof.
    intros H Hw. induction H as [f fs opt t x vs m M E|f fs opt t x s vs m M E F IH|f fs t vs m M F IH|f fs v vs m M F IH];
      intros l; cbn [a_each].
    - unfold is_attribute. rewrite M, ask_a_then, Hw, M. pose proof (error_no_text _ _ _ _ E) as N.
      destruct opt; cbn; rewrite N, E; reflexivity.
    - unfold is_attribute. rewrite M, ask_a_then, Hw, M. destruct opt; cbn; rewrite E; cbn;
        (destruct (add_attr (expanded (f_name f)) s l) as [[e|] l']; [reflexivity|apply IH]).
    - unfold is_attribute. rewrite M, ask_a_then, Hw, M. cbn. apply IH.
    - rewrite M. apply IH.
  Qed.

  Lemma ask_tag_fails t v m : tag_fails o env t v m -> forall l, ask_a (ser_attrs o env v t) l = None.
  Proof.
    intros [id ident root nss fs vs m' E F] l. cbn [ser_attrs]. rewrite E, ask_namespaces, ask_a_then.
    erewrite ask_attr_fails; [reflexivity|eassumption|intros ? ?; reflexivity].
  Qed.

  Lemma quits_one {d} n t v (kids : (option serr -> wprog (S d)) -> wprog (S d)) :
    (exists m, tag_fails o env t v m) \/ quits kids -> quits (write_one n (ser_attrs o env v t) kids).
  Proof.
    intros H k root st K. unfold write_one. cbn [ask_w]. rewrite ask_embed by (intros; reflexivity).
    destruct H as [(m & H)|H]; [now rewrite (ask_tag_fails _ _ _ H)|].
    destruct (ask_a (ser_attrs o env v t) []) as [l|]; [|reflexivity]. cbn [ask_b].
    apply H. intros e r s. reflexivity.
  Qed.

  Definition quits_kids (v : value) : Prop := forall t ks p m, kids_fail t v ks p m ->
    forall d, quits (fun k : option serr -> wprog d => ser_kids o env v t k).

  Lemma quits_elem d n t v p m : quits_kids v -> fails n t v p m ->
    quits (fun k : option serr -> wprog d => write_one n (ser_attrs o env v t) (fun k' => ser_kids o env v t k') k).
  Proof.
    intros H F. apply quits_one. destruct F as [m F|l ks p m T F]; [eauto|]. right. eapply H; eauto.
  Qed.

  Lemma quits_items {d} n t vs ks p m : Forall quits_kids vs -> items_fail o env kids_fail n t vs ks p m ->
    quits (for_each (fun v (k : option serr -> wprog d) =>
                       write_one n (ser_attrs o env v t) (fun k' => ser_kids o env v t k') k) vs).
  Proof.
    intros Ha F. revert Ha. induction F as [v vs p m F|v vs rq kd l p m C F IH]; intros Ha;
      inversion Ha as [|v' vs' Hv Hs]; subst; (eapply quits_ext; [intros k; cbn [for_each]; reflexivity|]).
    - eapply quits_now with (q := for_each _ vs), quits_elem; eauto.
    - eapply quits_then with (q := for_each _ vs); [|now apply IH]. apply puts_elem; [apply ask_kids|exact C].
  Qed.

  Lemma quits_field {d} n t kd v vs ks p m : below quits_kids v -> items kd v vs ->
    items_fail o env kids_fail n t vs ks p m ->
    quits (write_field (fun v (k : option serr -> wprog d) =>
                       write_one n (ser_attrs o env v t) (fun k' => ser_kids o env v t k') k) kd v).
  Proof.
    intros Hb I F. pose proof (below_items _ _ _ _ Hb I) as Hs.
    destruct I as [v| |v|vs]; cbn [write_field].
    - inversion F as [v' vs' p' m' F'|v' vs' rq kd l p' m' C F']; subst; [|inversion F'].
      inversion Hs; subst. eapply quits_elem; eauto.
    - inversion F.
    - inversion F as [v' vs' p' m' F'|v' vs' rq kd l p' m' C F']; subst; [|inversion F'].
      inversion Hs; subst. eapply quits_elem; eauto.
    - eapply quits_items; eauto.
  Qed.

  Lemma quits_own {d} w fs vs ks p m : Forall (below quits_kids) vs ->
    (forall f v (k : option serr -> wprog d), w f v k = match f_mode f with
       | MElement kd t => write_field (fun v k => write_one (expanded (f_name f)) (ser_attrs o env v t)
                                                     (fun k' => ser_kids o env v t k') k) kd v k
       | _ => WPanic ill_typed
       end) ->
    own_fail o env kids_fail fs vs ks p m -> quits (w_each is_element w vs fs).
  Proof.
    intros Ha Hw F. revert Ha.
    induction F as [f fs k t v xs vs l p m M I F|f fs k t v xs vs l l' p m M I E F IH|f fs v vs l p m M F IH];
      intros Ha; inversion Ha as [|v' vs' Hv Hs]; subst.
    - eapply quits_ext; [intros k0; cbn [w_each]; unfold is_element; rewrite M; reflexivity|].
      apply quits_now with (q := w_each is_element w vs fs).
      eapply quits_ext; [intros k0; rewrite Hw, M; reflexivity|]. eapply quits_field; eauto.
    - eapply quits_ext; [intros k0; cbn [w_each]; unfold is_element; rewrite M; reflexivity|].
      eapply quits_then with (q := w_each is_element w vs fs); [|now apply IH].
      eapply puts_ext; [intros k0; rewrite Hw, M; reflexivity|].
      eapply puts_field; eauto. intros x rs ks Hx C. apply puts_elem; [apply ask_kids|exact C].
    - eapply quits_ext; [intros k0; cbn [w_each]; rewrite M; reflexivity|]. now apply IH.
  Qed.

  Lemma quits_flat {d} w fs vs ks p m : Forall (below quits_kids) vs ->
    (forall f v (k : option serr -> wprog d), w f v k = match f_mode f with
       | MFlatten id => ser_kids o env v (ERef id) k
       | _ => WPanic ill_typed
       end) ->
    flat_fail o env kids_fail fs vs ks p m -> quits (w_each is_flatten w vs fs).
  Proof.
    intros Ha Hw F. revert Ha.
    induction F as [f fs id v vs l p m M F|f fs id v vs rq l l' p m M C F IH|f fs v vs l p m M F IH];
      intros Ha; inversion Ha as [|v' vs' [Hv _] Hs]; subst.
    - eapply quits_ext; [intros k0; cbn [w_each]; unfold is_flatten; rewrite M; reflexivity|].
      apply quits_now with (q := w_each is_flatten w vs fs).
      eapply quits_ext; [intros k0; rewrite Hw, M; reflexivity|]. eapply Hv; eauto.
    - eapply quits_ext; [intros k0; cbn [w_each]; unfold is_flatten; rewrite M; reflexivity|].
      eapply quits_then with (q := w_each is_flatten w vs fs); [|now apply IH].
      eapply puts_ext; [intros k0; rewrite Hw, M; reflexivity|]. eapply ask_kids; eauto.
    - eapply quits_ext; [intros k0; cbn [w_each]; rewrite M; reflexivity|]. now apply IH.
  Qed.

  Lemma kids_quit v : quits_kids v.
  Proof.
    induction v using value_ind''; intros t ks p0 m F d; inversion F; subst.
    - intros k root st Hk. cbn [ser_kids]. match goal with E : text_error _ _ _ = _ |- _ => rewrite (error_no_text _ _ _ _ E), E end. apply Hk.
    - eapply quits_ext; [intros k; cbn [ser_kids]; match goal with E : env _ = _ |- _ => rewrite E end; reflexivity|].
      match goal with |- quits (fun k => w_each is_element ?w1 vs fs (on_ok k (w_each is_flatten ?w2 vs fs k))) =>
        apply (quits_now (w_each is_element w1 vs fs) (w_each is_flatten w2 vs fs)) end.
      eapply quits_own; eauto; intros ? ? ?; reflexivity.
    - eapply quits_ext; [intros k; cbn [ser_kids]; match goal with E : env _ = _ |- _ => rewrite E end; reflexivity|].
      match goal with |- quits (fun k => w_each is_element ?w1 vs fs (on_ok k (w_each is_flatten ?w2 vs fs k))) =>
        eapply (quits_then (w_each is_element w1 vs fs) (w_each is_flatten w2 vs fs)) end.
      + eapply puts_own; [|intros ? ? ?; reflexivity|eassumption].
        eapply Forall_impl; [|exact H]. intros x _. split; [apply ask_kids|].
        destruct x; auto; [apply ask_kids|]. apply Forall_forall. intros; apply ask_kids.
      + eapply quits_flat; eauto; intros ? ? ?; reflexivity.
    - match goal with E : env _ = Some _, N : nth_error _ _ = Some _, V : v_ty _ = Some _ |- _ =>
        eapply quits_ext; [intros k0; cbn [ser_kids]; rewrite E, N, V; reflexivity|] end.
      eapply quits_field; eauto.
  Qed.

  Theorem fails_asked n t v p m : fails n t v p m -> asked n (ser_value o env t v) = None.
  Proof.
    intros F. unfold asked, ser_value. cbn [s_attrs s_kids]. destruct F as [m F|l ks p m T F].
    - now rewrite (ask_tag_fails _ _ _ F).
    - destruct (ask_a (ser_attrs o env v t) []); [|reflexivity].
      rewrite (kids_quit v _ _ _ _ F 0 WRet [] []); [reflexivity|]. intros e r s. reflexivity.
  Qed.

  Theorem never_ok dbg w n t v p m k : fails n t v p m -> serialize_with_name o env dbg w t v n <> inl (None, k).
  Proof.
    intros F H. apply to_asked in H. destruct H as (tr & H & _). rewrite (fails_asked _ _ _ _ _ F) in H. discriminate.
  Qed.
End Never.

(** ** The error, and what is written before it *)

Lemma NoDup_front {T} (a b : list T) : NoDup (a ++ b) -> NoDup a.
Proof.
  induction a as [|x a IH]; cbn; intros H; [constructor|]. inversion H as [|? ? H1 H2]; subst.
  constructor; auto. intros Hin. apply H1, in_or_app. now left.
Qed.

Lemma run_b_start {d} dbg w (p : wprog (S d)) pe b nss s : run_b dbg w (BStart p pe) b nss s =
  match builder_start w b s with
  | inr x => inr x
  | inl (inl m, s') => run_w dbg w p (m :: nss) s'
  | inl (inr e, s') => run_w dbg w (pe e) nss s'
  end.
Proof. reflexivity. Qed.

Section Exact.
  Context (o : oracles) (env : tenv) (dbg : bool) (w : io) (A : Prop).
  Notation content := (content o env).
  Notation tag := (tag o env).
  Notation kids_fail := (kids_fail o env).
  Notation fails := (fails o env).

  Hypothesis env_maps : forall id d p u, env id = Some d -> In (p, u) (td_nss d) -> map_ok A p u.
  Hypothesis env_elems : forall id d n, env id = Some d -> In n (elem_names d) ->
    (xn_ns n = ""%string /\ A) \/ xn_ns n = XML_NS \/ exists p, In (p, xn_ns n) (td_nss d).
  Hypothesis env_attrs : forall id d n, env id = Some d -> In n (attr_names d) ->
    xn_ns n = ""%string \/ xn_ns n = XML_NS \/ exists p, In (p, xn_ns n) (td_nss d).
  Hypothesis apart : attrs_apart env.
  Hypothesis io_ok : forall i, w i = None.

  Notation reqs_good := (reqs_good A).
  Notation serves := (serves A).
  Notation nok := (nok A).

  Definition adds (k k' : sink) (evs : list sev) : Prop :=
    map ev_sev (k_out k') = map ev_sev (k_out k) ++ evs.

  Lemma adds_nil k : adds k k [].
  Proof. unfold adds. now rewrite app_nil_r. Qed.

  Lemma adds_app k k1 k2 a b : adds k k1 a -> adds k1 k2 b -> adds k k2 (a ++ b).
  Proof. unfold adds. intros H1 H2. rewrite H2, H1. now rewrite app_assoc. Qed.

  Lemma write_ok ev k : k_poison k = None -> exists k', write w ev k = (None, k') /\ k_poison k' = None /\ adds k k' [ev_sev ev].
  Proof.
    intros H. unfold write. rewrite H, io_ok. eexists. split; [reflexivity|]. split; [reflexivity|].
    unfold adds. cbn. now rewrite map_app.
  Qed.

  (** [p k] writes [evs] and goes on with [k]. *)
  Definition emits {d} (m : namespaces) (p : (option serr -> wprog d) -> wprog d) (evs : list sev) : Prop :=
    forall k nss s, k_poison s = None -> exists s', k_poison s' = None /\ adds s s' evs /\
    run_w dbg w (p k) (m :: nss) s = run_w dbg w (k None) (m :: nss) s'.

  (** [p k] writes [evs] and goes on with [k] and the error [e]. *)
  Definition stops {d} (m : namespaces) (p : (option serr -> wprog d) -> wprog d) (evs : list sev) (e : serr) : Prop :=
    forall k nss s, k_poison s = None -> exists s', adds s s' evs /\
    run_w dbg w (p k) (m :: nss) s = run_w dbg w (k (Some e)) (m :: nss) s'.

  Lemma emits_nil {d} m : emits m (fun k : option serr -> wprog d => k None) [].
  Proof. intros k nss s H. exists s. split; [exact H|]. split; [apply adds_nil|reflexivity]. Qed.

  Lemma emits_ext {d} m (p q : (option serr -> wprog d) -> wprog d) evs : (forall k, p k = q k) -> emits m q evs -> emits m p evs.
  Proof. intros E H k nss s P. rewrite E. auto. Qed.
  Lemma stops_ext {d} m (p q : (option serr -> wprog d) -> wprog d) evs e : (forall k, p k = q k) -> stops m q evs e -> stops m p evs e.
  Proof. intros E H k nss s P. rewrite E. auto. Qed.

  Lemma emits_then {d} m (p q : (option serr -> wprog d) -> wprog d) a b : emits m p a -> emits m q b ->
    emits m (fun k => p (on_ok k (q k))) (a ++ b).
  Proof.
    intros H1 H2 k nss s P. destruct (H1 (on_ok k (q k)) nss s P) as (s1 & P1 & A1 & ->). cbn [on_ok].
    destruct (H2 k nss s1 P1) as (s2 & P2 & A2 & ->). exists s2. split; [exact P2|]. split; [|reflexivity].
    eapply adds_app; eauto.
  Qed.

  Lemma stops_now {d} m (p q : (option serr -> wprog d) -> wprog d) a e : stops m p a e ->
    stops m (fun k => p (on_ok k (q k))) a e.
  Proof. intros H k nss s P. apply (H (on_ok k (q k)) nss s P). Qed.

  Lemma stops_then {d} m (p q : (option serr -> wprog d) -> wprog d) a b e : emits m p a -> stops m q b e ->
    stops m (fun k => p (on_ok k (q k))) (a ++ b) e.
  Proof.
    intros H1 H2 k nss s P. destruct (H1 (on_ok k (q k)) nss s P) as (s1 & P1 & A1 & ->). cbn [on_ok].
    destruct (H2 k nss s1 P1) as (s2 & A2 & ->). exists s2. split; [|reflexivity].
    eapply adds_app; eauto.
  Qed.

  (** *** Start tags *)

  Lemma flats : flats_enums env.
  Proof. intros id ident root nss fs f id' E Hf M. exact (proj2 (apart _ _ _ _ _ E) f id' Hf M). Qed.

  Lemma content_tag t v rs ks : content t v rs ks -> tag t v rs.
  Proof.
    intros C. inversion C; subst.
    - constructor.
    - eapply tag_struct; eauto.
      assert (F : forall f id', In f fs -> f_mode f = MFlatten id' ->
        exists ident' root' nss' ws sk, env id' = Some (TDEnum ident' root' nss' ws sk)) by (intros f id'; now apply flats with id ident root nss).
      match goal with H : flattened content fs vs reqs' kids' |- _ => rename H into H'; clear - H' F end.
      induction H' as [|f fs id v vs r k r2 k2 M C _ IH|f fs v vs r l M _ IH].
      + constructor.
      + destruct (F f id (or_introl eq_refl) M) as (i' & r' & n' & w' & s' & E).
        inversion C; subst; try congruence;
          (match goal with E1 : env id = _, E2 : env id = _ |- _ => rewrite E1 in E2; injection E2 as <- <- <- <- <- end;
           eapply ft_here; [eassumption|eassumption|eauto|apply IH; intros g id' Hg; apply F; now right]).
      + apply ft_other; auto. apply IH. intros g id' Hg. apply F. now right.
    - eapply tag_enum; eauto.
    - eapply tag_enum; eauto.
    - eapply tag_enum; eauto.
  Qed.

  Lemma flat_tags_good fs vs l : flat_tags env fs vs l -> reqs_good l /\ req_attrs l = [].
  Proof.
    induction 1 as [|f fs id i r nss ws sk v vs l M E S F IH|f fs v vs l M F IH]; [split; [split; [intros ? ? []|exact I]|reflexivity]| |auto].
    destruct IH as [I1 I2]. split.
    - apply reqs_good_app; auto. exact (mappings_good env A env_maps id _ E).
    - now rewrite req_attrs_app, mappings_attrs.
  Qed.

  (** The mappings of a struct and its first attributes. *)
  Lemma some_attrs_good id ident root nss fs1 fs2 vs l : env id = Some (TDStruct ident root nss (fs1 ++ fs2)) ->
    attrs_are o fs1 vs l ->
    reqs_good (mappings nss ++ l) /\ NoDup (map fst (req_attrs (mappings nss ++ l))).
  Proof.
    intros E H. pose proof (mappings_good env A env_maps id _ E) as [M1 _].
    destruct (declared_attrs o (map snd nss) _ _ _ H) as [D1 D2].
    { intros f Hf Ha. cbn. destruct (env_attrs id _ (expanded (f_name f)) E) as [?|[?|(p & Hp)]]; auto.
      - cbn. apply in_map_iff. exists f. split; auto. apply filter_In. split; auto. apply in_or_app. now left.
      - right. right. apply in_map_iff. exists (p, xn_ns (expanded (f_name f))). auto. }
    split; [split|].
    - intros p u Hin. apply in_app_or in Hin. destruct Hin as [Hin|Hin]; [auto|]. now apply D2 in Hin.
    - apply declared_in_ns.
      + intros r Hr. unfold mappings in Hr. apply in_map_iff in Hr. destruct Hr as ([p u] & <- & _). eauto.
      + cbn. eapply declared_in_mono; [|exact D1]. unfold mappings. rewrite map_map. cbn. intros x Hx. exact Hx.
    - rewrite req_attrs_app, mappings_attrs. cbn [app].
      destruct (attrs_req_attrs o fs1 vs l H) as (keep & -> & K & _). apply K.
      pose proof (proj1 (apart _ _ _ _ _ E)) as N. cbn in N. rewrite filter_app, map_app in N.
      eapply NoDup_front; exact N.
  Qed.

  Lemma tag_good t v rs : tag t v rs -> reqs_good rs /\ NoDup (map fst (req_attrs rs)).
  Proof.
    intros [t0 v0|id ident root nss fs vs attrs l E H F|id ident root nss ws sk v0 E S].
    - split; [split; [intros ? ? []|exact I]|constructor].
    - destruct (flat_tags_good _ _ _ F) as [F1 F2].
      destruct (some_attrs_good id ident root nss fs [] vs attrs) as [G1 G2]; [now rewrite app_nil_r|exact H|].
      rewrite app_assoc. split; [now apply reqs_good_app|]. now rewrite req_attrs_app, F2, app_nil_r.
    - split; [exact (mappings_good env A env_maps id _ E)|]. rewrite mappings_attrs. constructor.
  Qed.

  (** Requests as a program. *)
  Fixpoint prog_of (rs : list req) : aprog :=
    match rs with
    | [] => ARet None
    | ReqNs p u :: rs' => ANs p u (prog_of rs')
    | ReqAttr n v :: rs' => AAttr n v (fun r => match r with None => prog_of rs' | Some e => ARet (Some e) end)
    end.

  Lemma run_prog rs : forall b, run_a dbg (prog_of rs) b = run_reqs dbg rs b.
  Proof.
    induction rs as [|[p u|n v] rs IH]; intros b; cbn; [reflexivity| |].
    - destruct (builder_namespace dbg p u b); auto.
    - destruct (builder_attribute n v b) as [[[e|] b']|x]; cbn; auto.
  Qed.

  Lemma ask_prog rs : forall l, ask_a (prog_of rs) l = add_reqs l rs.
  Proof.
    induction rs as [|[p u|n v] rs IH]; intros l; cbn; [reflexivity|auto|].
    unfold add_attr. destruct (attr_value n l); cbn; auto.
  Qed.

  Lemma reqs_run rs base n b : reqs_good rs -> NoDup (map fst (req_attrs rs)) -> built dbg base n [] b -> binv A b ->
    exists b', run_reqs dbg rs b = inl (None, b') /\ built dbg base n rs b' /\ binv A b' /\
      (name_ok A b -> name_ok A b') /\ (forall p u, In (ReqNs p u) rs -> has_url b' u) /\ b_name b' = b_name b.
  Proof.
    intros [G1 G2] N B I.
    destruct (reqs_fine A dbg rs [] b I ltac:(intros ? []) G1 G2) as (r & b' & E & B' & Nb & K & P & Q).
    destruct (ask_run_a dbg (prog_of rs) base n [] b rs r b' B) as [-> B2].
    - rewrite ask_prog. apply (add_reqs_NoDup rs []). exact N.
    - now rewrite run_prog.
    - exists b'. split; [exact E|]. split; [exact B2|]. split; [exact B'|]. split; [exact K|]. split; [exact (Q eq_refl)|exact Nb].
  Qed.

  Lemma run_flat_tags fs vs l w' :
    (forall f v, w' f v = match f_mode f with
                         | MFlatten id => ser_attrs o env v (ERef id)
                         | _ => APanic ill_typed
                         end) ->
    flat_tags env fs vs l -> forall b, run_a dbg (a_each is_flatten w' vs fs) b = run_reqs dbg l b.
  Proof.
    intros Hw. induction 1 as [|f fs id i r nss ws sk v vs l M E S F IH|f fs v vs l M F IH]; intros b; cbn [a_each].
    - reflexivity.
    - unfold is_flatten. rewrite M, run_a_then, Hw, M, run_reqs_app.
      assert (X : ser_attrs o env v (ERef id) = write_namespaces nss (ARet None)).
      { destruct S as [(j & p & ->)| ->]; cbn [ser_attrs]; now rewrite E. }
      rewrite X, run_namespaces. pose proof (run_mappings dbg nss b) as P.
      destruct (run_reqs dbg (mappings nss) b) as [[[e|] b']|y]; [easy|apply IH|reflexivity].
    - rewrite M. apply IH.
  Qed.

  Lemma run_tag t v rs : tag t v rs -> forall b, run_a dbg (ser_attrs o env v t) b = run_reqs dbg rs b.
  Proof.
    intros [t0 v0|id ident root nss fs vs attrs l E H F|id ident root nss ws sk v0 E S] b.
    - destruct v0; reflexivity.
    - cbn [ser_attrs]. rewrite E, run_namespaces, run_reqs_app. pose proof (run_mappings dbg nss b) as P.
      destruct (run_reqs dbg (mappings nss) b) as [[[e|] b']|y]; [easy| |reflexivity].
      rewrite run_a_then, run_reqs_app. erewrite run_attr_fields; [|intros ? ?; reflexivity|eassumption].
      destruct (run_reqs dbg attrs b') as [[[e|] b'']|y]; auto.
      eapply run_flat_tags; eauto; intros ? ?; reflexivity.
    - assert (X : ser_attrs o env v0 (ERef id) = write_namespaces nss (ARet None)).
      { destruct S as [(j & p & ->)| ->]; cbn [ser_attrs]; now rewrite E. }
      rewrite X, run_namespaces. pose proof (run_mappings dbg nss b) as P.
      destruct (run_reqs dbg (mappings nss) b) as [[[e|] b']|y]; easy.
  Qed.

  (** A builder of an element whose name can be written. *)
  Definition ready (n : xname) (b : bstate) : Prop :=
    exists base, built dbg base n [] b /\ binv A b.

  Definition may_start (n : xname) (rs : list req) (b : bstate) : Prop :=
    name_ok A b \/ (exists p, In (ReqNs p (xn_ns n)) rs).

  Lemma tag_starts t v rs n b : tag t v rs -> ready n b -> may_start n rs b ->
    exists b' m, run_a dbg (ser_attrs o env v t) b = inl (None, b') /\ serves m rs /\
      forall s, k_poison s = None -> exists s', builder_start w b' s = inl (inl m, s') /\ k_poison s' = None /\
        adds s s' [SStart (xn_local n) (map (fun a => (xn_local (fst a), snd a)) (req_attrs rs))].
  Proof.
    intros T (base & B & I) N. destruct (tag_good _ _ _ T) as [G D].
    destruct (reqs_run rs base n b G D B I) as (b' & E & B' & I' & K & U & Nb).
    rewrite (run_tag _ _ _ T), E.
    assert (N' : name_ok A b').
    { destruct N as [N|(p & N)]; [auto|]. destruct (U _ _ N) as (e & He & Hr). unfold name_ok.
      replace (b_name b') with n by (symmetry; apply B'). now rewrite He. }
    destruct (start_fine A w b' sink0 I' N') as (r & k' & Es & M).
    pose proof (built_start dbg w base n rs b') as St.
    rewrite (St sink0 B') in Es.
    destruct (begin_tag dbg base n rs) as [[ev m]|] eqn:T'; [|discriminate].
    destruct (write_ok ev sink0 eq_refl) as (k0 & W0 & _ & _). rewrite W0 in Es. injection Es as <- _.
    destruct (M _ eq_refl) as [M1 M2].
    exists b', m. split; [reflexivity|]. split; [split; [exact M1|]|].
    - intros p u Hin. eapply M2, U; eauto.
    - intros s P. rewrite (St s B'). destruct (write_ok ev s P) as (s' & -> & P' & A').
      exists s'. split; [reflexivity|]. split; [exact P'|]. now rewrite <- (begin_tag_local _ _ _ _ _ _ T').
  Qed.

  Lemma attr_fails_run fs vs m w' : attr_fails o fs vs m ->
    (forall f v, w' f v = match f_mode f with
                         | MAttribute opt t => write_attr o (expanded (f_name f)) opt t v
                         | _ => APanic ill_typed
                         end) ->
    exists fs1 fs2 vs1 l, fs = fs1 ++ fs2 /\ attrs_are o fs1 vs1 l /\
      forall b, run_a dbg (a_each is_attribute w' vs fs) b =
        match run_reqs dbg l b with inl (None, b') => inl (Some (SMsg m), b') | x => x end.
  Proof.
    intros H Hw. induction H as [f fs opt t x vs m M E|f fs opt t x s vs m M E F IH|f fs t vs m M F IH|f fs v vs m M F IH].
    - exists [], (f :: fs), [], []. split; [reflexivity|]. split; [constructor|]. intros b. cbn [a_each].
      unfold is_attribute. rewrite M, run_a_then, Hw, M. pose proof (error_no_text _ _ _ _ E) as N.
      destruct opt; cbn; rewrite N, E; reflexivity.
    - destruct IH as (fs1 & fs2 & vs1 & l & -> & R & IH).
      exists (f :: fs1), fs2, ((if opt then VSome (VText x) else VText x) :: vs1), (ReqAttr (expanded (f_name f)) s :: l).
      split; [reflexivity|]. split; [eapply aa_here; eauto|]. intros b. cbn [a_each].
      unfold is_attribute. rewrite M, run_a_then, Hw, M. cbn [run_reqs].
      assert (X : write_attr o (expanded (f_name f)) opt t (if opt then VSome (VText x) else VText x)
                  = AAttr (expanded (f_name f)) s ARet) by (destruct opt; cbn; now rewrite E).
      rewrite X. cbn [run_a]. destruct (builder_attribute (expanded (f_name f)) s b) as [[[e|] b']|y]; cbn; auto.
    - destruct IH as (fs1 & fs2 & vs1 & l & -> & R & IH).
      exists (f :: fs1), fs2, (VNone :: vs1), l.
      split; [reflexivity|]. split; [eapply aa_none; eauto|]. intros b. cbn [a_each].
      unfold is_attribute. rewrite M, run_a_then, Hw, M. cbn. apply IH.
    - destruct IH as (fs1 & fs2 & vs1 & l & -> & R & IH).
      exists (f :: fs1), fs2, (v :: vs1), l.
      split; [reflexivity|]. split; [now apply aa_other|]. intros b. cbn [a_each]. rewrite M. apply IH.
  Qed.

  Lemma tag_fails_run t v m n b : tag_fails o env t v m -> ready n b ->
    exists b', run_a dbg (ser_attrs o env v t) b = inl (Some (SMsg m), b').
  Proof.
    intros [id ident root nss fs vs m' E F] (base & B & I). cbn [ser_attrs]. rewrite E.
    match goal with |- exists b', run_a dbg (write_namespaces nss (a_then (a_each is_attribute ?w1 vs fs) _)) b = _ =>
      destruct (attr_fails_run fs vs m' w1 F) as (fs1 & fs2 & vs1 & l & Ef & H & R); [intros ? ?; reflexivity|] end.
    subst fs. destruct (some_attrs_good _ _ _ _ _ _ _ _ E H) as [G D].
    destruct (reqs_run _ base n b G D B I) as (b' & E' & _).
    rewrite run_namespaces. rewrite run_reqs_app in E'.
    destruct (run_reqs dbg (mappings nss) b) as [[[e|] b1]|y]; [discriminate| |discriminate].
    rewrite run_a_then, R, E'. eexists. reflexivity.
  Qed.

  (** *** Elements *)

  Lemma child_ready m n rs : minv A m -> nok m n -> ready n (writer_element m n) /\ may_start n rs (writer_element m n).
  Proof.
    intros M N. destruct (child_fine A m n M N) as [B K]. split; [|now left].
    exists (ns_child m (xn_ns n)). split; [apply built_new|exact B].
  Qed.

  Lemma emits_one {d} m n t v rs evs (kids : (option serr -> wprog (S d)) -> wprog (S d)) :
    minv A m -> nok m n -> tag t v rs -> (forall m', serves m' rs -> emits m' kids evs) ->
    emits m (write_one n (ser_attrs o env v t) kids)
      (SStart (xn_local n) (map (fun a => (xn_local (fst a), snd a)) (req_attrs rs)) :: evs ++ [SEnd]).
  Proof.
    intros Hm Hn T Hk k nss s P. unfold write_one. rewrite run_w_elem, run_embed.
    destruct (child_ready m n rs Hm Hn) as [R St].
    destruct (tag_starts t v rs n _ T R St) as (b' & m' & -> & Sv & H). rewrite run_b_start.
    destruct (H s P) as (s1 & -> & P1 & A1).
    match goal with |- context [kids ?k0] => destruct (Hk m' Sv k0 (m :: nss) s1 P1) as (s2 & P2 & A2 & ->) end.
    cbn [run_w]. destruct (write_ok WEnd s2 P2) as (s3 & -> & P3 & A3). exists s3. split; [exact P3|].
    split; [|reflexivity]. apply (adds_app s s1 s3 [_] (evs ++ [SEnd])); [exact A1|]. eapply adds_app; eauto.
  Qed.

  Lemma stops_one {d} m n t v rs evs e (kids : (option serr -> wprog (S d)) -> wprog (S d)) :
    minv A m -> nok m n -> tag t v rs -> (forall m', serves m' rs -> stops m' kids evs e) ->
    stops m (write_one n (ser_attrs o env v t) kids)
      (SStart (xn_local n) (map (fun a => (xn_local (fst a), snd a)) (req_attrs rs)) :: evs) e.
  Proof.
    intros Hm Hn T Hk k nss s P. unfold write_one. rewrite run_w_elem, run_embed.
    destruct (child_ready m n rs Hm Hn) as [R St].
    destruct (tag_starts t v rs n _ T R St) as (b' & m' & -> & Sv & H). rewrite run_b_start.
    destruct (H s P) as (s1 & -> & P1 & A1).
    match goal with |- context [kids ?k0] => destruct (Hk m' Sv k0 (m :: nss) s1 P1) as (s2 & A2 & ->) end.
    cbn [run_w tl]. exists (poison writer_dropped s2). split; [|reflexivity].
    apply (adds_app s s1 _ [_] evs); [exact A1|]. exact A2.
  Qed.

  Lemma stops_tag {d} m n t v x (kids : (option serr -> wprog (S d)) -> wprog (S d)) :
    minv A m -> nok m n -> tag_fails o env t v x ->
    stops m (write_one n (ser_attrs o env v t) kids) [] (SMsg x).
  Proof.
    intros Hm Hn T k nss s P. unfold write_one. rewrite run_w_elem, run_embed.
    destruct (child_ready m n [] Hm Hn) as [R _].
    destruct (tag_fails_run t v x n _ T R) as (b' & ->). cbn [run_b].
    exists (poison builder_dropped s). split; [|reflexivity]. exact (adds_nil s).
  Qed.

  Notation kid_sevs := (flat_map (fun t => tree_sevs (tree_of t))).

  Lemma elem_sevs n rs ks : tree_sevs (tree_of (RElem n rs ks)) =
    SStart (xn_local n) (map (fun a => (xn_local (fst a), snd a)) (req_attrs rs)) :: kid_sevs ks ++ [SEnd].
  Proof. cbn. f_equal. f_equal. induction ks as [|k ks IH]; cbn; [reflexivity|]. now rewrite IH. Qed.

  Definition emits_kids (v : value) : Prop := forall t rs ks, content t v rs ks ->
    forall m, serves m rs -> forall d, emits m (fun k : option serr -> wprog d => ser_kids o env v t k) (kid_sevs ks).

  Lemma emits_elem d m n t v rs ks : emits_kids v -> content t v rs ks -> minv A m -> nok m n ->
    emits m (fun k : option serr -> wprog d => write_one n (ser_attrs o env v t) (fun k' => ser_kids o env v t k') k)
      (tree_sevs (tree_of (RElem n rs ks))).
  Proof.
    intros H C M N. rewrite elem_sevs. apply emits_one; auto; [eapply content_tag; eauto|].
    intros m' S. eapply H; eauto.
  Qed.

  Lemma emits_items {d} m n t vs ks : Forall emits_kids vs -> elems_are content n t vs ks -> minv A m -> nok m n ->
    emits m (for_each (fun v (k : option serr -> wprog d) =>
                       write_one n (ser_attrs o env v t) (fun k' => ser_kids o env v t k') k) vs) (kid_sevs ks).
  Proof.
    intros Ha E M N. revert Ha. induction E as [|v vs rs kids l C _ IH]; intros Ha; [apply emits_nil|].
    inversion Ha as [|v' vs' Hv Hs]; subst. eapply emits_ext; [intros k; cbn [for_each]; reflexivity|].
    cbn [flat_map]. apply emits_then with (q := for_each _ vs); [now apply emits_elem|now apply IH].
  Qed.

  Lemma emits_field {d} m n t kd v vs ks : below emits_kids v -> items kd v vs -> elems_are content n t vs ks ->
    minv A m -> nok m n ->
    emits m (write_field (fun v (k : option serr -> wprog d) =>
                       write_one n (ser_attrs o env v t) (fun k' => ser_kids o env v t k') k) kd v) (kid_sevs ks).
  Proof.
    intros Hb I E M N. pose proof (below_items _ _ _ _ Hb I) as Hs.
    destruct I as [v| |v|vs]; cbn [write_field].
    - inversion E as [|v' vs' rs kids l R1 E1]; subst. inversion E1; subst. inversion Hs; subst.
      cbn [flat_map]. rewrite app_nil_r. now apply emits_elem.
    - inversion E; subst. apply emits_nil.
    - inversion E as [|v' vs' rs kids l R1 E1]; subst. inversion E1; subst. inversion Hs; subst.
      cbn [flat_map]. rewrite app_nil_r. now apply emits_elem.
    - now apply emits_items.
  Qed.

  Lemma emits_own {d} m w' fs vs ks : Forall (below emits_kids) vs -> minv A m ->
    (forall f, In f fs -> is_element f = true -> nok m (expanded (f_name f))) ->
    (forall f v (k : option serr -> wprog d), w' f v k = match f_mode f with
       | MElement kd t => write_field (fun v k => write_one (expanded (f_name f)) (ser_attrs o env v t)
                                                     (fun k' => ser_kids o env v t k') k) kd v k
       | _ => WPanic ill_typed
       end) ->
    own_kids content fs vs ks -> emits m (w_each is_element w' vs fs) (kid_sevs ks).
  Proof.
    intros Hb Hm Hn Hw H. revert Hb Hn.
    induction H as [|f fs k t v xs l vs l2 M I E _ IH|f fs v vs l M _ IH]; intros Hb Hn.
    - apply emits_nil.
    - inversion Hb as [|v' vs' Hv Hb']; subst. assert (Ef : is_element f = true) by (unfold is_element; now rewrite M).
      eapply emits_ext; [intros k0; cbn [w_each]; rewrite Ef; reflexivity|]. rewrite flat_map_app.
      apply emits_then with (q := w_each is_element w' vs fs).
      + eapply emits_ext; [intros k0; rewrite Hw, M; reflexivity|]. eapply emits_field; eauto. apply Hn; auto. now left.
      + apply IH; auto. intros g Hg. apply Hn. now right.
    - inversion Hb as [|v' vs' Hv Hb']; subst. eapply emits_ext; [intros k0; cbn [w_each]; rewrite M; reflexivity|].
      apply IH; auto. intros g Hg. apply Hn. now right.
  Qed.

  Lemma emits_flat {d} m w' fs vs rs ks : Forall (below emits_kids) vs -> serves m rs ->
    (forall f v (k : option serr -> wprog d), w' f v k = match f_mode f with
       | MFlatten id => ser_kids o env v (ERef id) k
       | _ => WPanic ill_typed
       end) ->
    flattened content fs vs rs ks -> emits m (w_each is_flatten w' vs fs) (kid_sevs ks).
  Proof.
    intros Hb S Hw H. revert Hb S.
    induction H as [|f fs id v vs r k r2 k2 M C _ IH|f fs v vs r l M _ IH]; intros Hb S.
    - apply emits_nil.
    - inversion Hb as [|v' vs' [Hv _] Hb']; subst. apply serves_app in S. destruct S as [S1 S2].
      assert (Ef : is_flatten f = true) by (unfold is_flatten; now rewrite M).
      eapply emits_ext; [intros k0; cbn [w_each]; rewrite Ef; reflexivity|]. rewrite flat_map_app.
      apply emits_then with (q := w_each is_flatten w' vs fs); [|now apply IH].
      eapply emits_ext; [intros k0; rewrite Hw, M; reflexivity|]. eapply Hv; eauto.
    - inversion Hb as [|v' vs' Hv Hb']; subst. eapply emits_ext; [intros k0; cbn [w_each]; rewrite M; reflexivity|].
      now apply IH.
  Qed.

  Lemma own_names m id ident root nss fs : env id = Some (TDStruct ident root nss fs) -> serves m (mappings nss) ->
    forall f, In f fs -> is_element f = true -> nok m (expanded (f_name f)).
  Proof.
    intros E S f Hf Ef. eapply (serves_name env A env_elems m id (TDStruct ident root nss fs)); eauto.
    cbn. apply in_map_iff. exists f. split; auto. apply filter_In. auto.
  Qed.

  Lemma variant_name m id ident root nss ws sk i v : env id = Some (TDEnum ident root nss ws sk) -> serves m (mappings nss) ->
    nth_error (sorted_variants ws) i = Some v -> nok m (expanded (v_name v)).
  Proof.
    intros E S N. eapply (serves_name env A env_elems m id (TDEnum ident root nss ws sk)); eauto.
    cbn. apply in_map_iff. exists v. split; auto.
    eapply Permutation.Permutation_in; [apply sort_perm|]. eapply nth_error_In; eauto.
  Qed.

  Lemma kids_emit v : emits_kids v.
  Proof.
    induction v using value_ind''; intros t rs ks C m S d; inversion C; subst.
    - intros k nss s0 P. cbn [ser_kids]. match goal with E : to_text _ _ _ = Some _ |- _ => rewrite E end. cbn [run_w].
      destruct (write_ok (WChars s) s0 P) as (s' & -> & P' & A'). exists s'. auto.
    - apply serves_app in S. destruct S as [S1 S2]. apply serves_app in S2. destruct S2 as [_ S2].
      eapply emits_ext; [intros k; cbn [ser_kids]; match goal with E : env _ = _ |- _ => rewrite E end; reflexivity|].
      rewrite flat_map_app.
      match goal with |- emits m (fun k => w_each is_element ?w1 vs fs (on_ok k (w_each is_flatten ?w2 vs fs k))) _ =>
        apply (emits_then m (w_each is_element w1 vs fs) (w_each is_flatten w2 vs fs)) end.
      + eapply emits_own; [exact H|exact (proj1 S1)| |intros ? ? ?; reflexivity|eassumption]. eapply own_names; eauto.
      + eapply emits_flat; eauto; intros ? ? ?; reflexivity.
    - match goal with E : env _ = Some _, N : nth_error _ _ = Some _, V : v_ty _ = _ |- _ =>
        eapply emits_ext; [intros k0; cbn [ser_kids]; rewrite E, N, V; reflexivity|] end.
      assert (Hn : nok m (expanded (v_name w0))) by (eapply variant_name; eauto).
      intros k nsl s P. rewrite run_w_elem, run_b_start.
      destruct (child_fine A m _ (proj1 S) Hn) as [B N].
      destruct (tag_starts (EText TBool) (VText (TVBool true)) [] (expanded (v_name w0)) (writer_element m (expanded (v_name w0))))
        as (b' & m' & R & _ & Hs).
      + constructor.
      + exact (proj1 (child_ready m _ [] (proj1 S) Hn)).
      + now left.
      + cbn in R. injection R as <-. destruct (Hs s P) as (s1 & -> & P1 & A1). cbn [run_w].
        destruct (write_ok WEnd s1 P1) as (s2 & -> & P2 & A2). exists s2. split; [exact P2|]. split; [|reflexivity].
        cbn. exact (adds_app _ _ _ [_] [_] A1 A2).
    - match goal with E : env _ = Some _, N : nth_error _ _ = Some _, V : v_ty _ = Some _ |- _ =>
        eapply emits_ext; [intros k0; cbn [ser_kids]; rewrite E, N, V; reflexivity|] end.
      eapply emits_field; eauto; [exact (proj1 S)|]. eapply variant_name; eauto.
    - eapply emits_ext; [intros k; cbn [ser_kids]; match goal with E : env _ = _ |- _ => rewrite E end; reflexivity|].
      apply emits_nil.
  Qed.

  Lemma all_emit vs : Forall (below emits_kids) vs.
  Proof.
    apply Forall_forall. intros x _. split; [apply kids_emit|].
    destruct x; auto; [apply kids_emit|]. apply Forall_forall. intros; apply kids_emit.
  Qed.

  (** *** Elements that fail *)

  (** [rs]: what the start tag asks for. *)
  Definition stops_kids (v : value) : Prop := forall t rs ks p e, tag t v rs -> kids_fail t v ks p e ->
    forall m, serves m rs -> forall d,
    stops m (fun k : option serr -> wprog d => ser_kids o env v t k) (kid_sevs ks ++ part_sevs p) (SMsg e).

  Lemma stops_elem d m n t v p e : stops_kids v -> fails n t v p e -> minv A m -> nok m n ->
    stops m (fun k : option serr -> wprog d => write_one n (ser_attrs o env v t) (fun k' => ser_kids o env v t k') k)
      (part_sevs p) (SMsg e).
  Proof.
    intros H F M N. destruct F as [e F|l ks p e T F].
    - now apply stops_tag.
    - cbn [part_sevs]. apply stops_one; auto. intros m' S. eapply H; eauto.
  Qed.

  Lemma stops_items {d} m n t vs ks p e : Forall stops_kids vs -> items_fail o env kids_fail n t vs ks p e ->
    minv A m -> nok m n ->
    stops m (for_each (fun v (k : option serr -> wprog d) =>
                       write_one n (ser_attrs o env v t) (fun k' => ser_kids o env v t k') k) vs)
      (kid_sevs ks ++ part_sevs p) (SMsg e).
  Proof.
    intros Ha F M N. revert Ha. induction F as [v vs p e F|v vs rq kd l p e C F IH]; intros Ha;
      inversion Ha as [|v' vs' Hv Hs]; subst; (eapply stops_ext; [intros k; cbn [for_each]; reflexivity|]).
    - apply stops_now with (q := for_each _ vs). now apply (stops_elem d m n).
    - cbn [flat_map]. rewrite <- app_assoc. apply stops_then with (q := for_each _ vs); [|now apply IH].
      apply emits_elem; auto. apply kids_emit.
  Qed.

  Lemma stops_field {d} m n t kd v vs ks p e : below stops_kids v -> items kd v vs ->
    items_fail o env kids_fail n t vs ks p e -> minv A m -> nok m n ->
    stops m (write_field (fun v (k : option serr -> wprog d) =>
                       write_one n (ser_attrs o env v t) (fun k' => ser_kids o env v t k') k) kd v)
      (kid_sevs ks ++ part_sevs p) (SMsg e).
  Proof.
    intros Hb I F M N. pose proof (below_items _ _ _ _ Hb I) as Hs.
    destruct I as [v| |v|vs]; cbn [write_field].
    - inversion F as [v' vs' p' m' F'|v' vs' rq kd l p' m' C F']; subst; [|inversion F'].
      inversion Hs; subst. now apply (stops_elem d m n).
    - inversion F.
    - inversion F as [v' vs' p' m' F'|v' vs' rq kd l p' m' C F']; subst; [|inversion F'].
      inversion Hs; subst. now apply (stops_elem d m n).
    - now apply stops_items.
  Qed.

  Lemma stops_own {d} m w' fs vs ks p e : Forall (below stops_kids) vs -> minv A m ->
    (forall f, In f fs -> is_element f = true -> nok m (expanded (f_name f))) ->
    (forall f v (k : option serr -> wprog d), w' f v k = match f_mode f with
       | MElement kd t => write_field (fun v k => write_one (expanded (f_name f)) (ser_attrs o env v t)
                                                     (fun k' => ser_kids o env v t k') k) kd v k
       | _ => WPanic ill_typed
       end) ->
    own_fail o env kids_fail fs vs ks p e -> stops m (w_each is_element w' vs fs) (kid_sevs ks ++ part_sevs p) (SMsg e).
  Proof.
    intros Ha Hm Hn Hw F. revert Ha Hn.
    induction F as [f fs k t v xs vs l p e M I F|f fs k t v xs vs l l' p e M I E F IH|f fs v vs l p e M F IH];
      intros Ha Hn; inversion Ha as [|v' vs' Hv Hs]; subst.
    - assert (Ef : is_element f = true) by (unfold is_element; now rewrite M).
      eapply stops_ext; [intros k0; cbn [w_each]; rewrite Ef; reflexivity|].
      apply stops_now with (q := w_each is_element w' vs fs).
      eapply stops_ext; [intros k0; rewrite Hw, M; reflexivity|]. eapply stops_field; eauto. apply Hn; auto. now left.
    - assert (Ef : is_element f = true) by (unfold is_element; now rewrite M).
      eapply stops_ext; [intros k0; cbn [w_each]; rewrite Ef; reflexivity|].
      rewrite flat_map_app, <- app_assoc. apply stops_then with (q := w_each is_element w' vs fs).
      + eapply emits_ext; [intros k0; rewrite Hw, M; reflexivity|].
        eapply emits_field; eauto; [|apply Hn; auto; now left].
        pose proof (all_emit [v]) as X. inversion X; assumption.
      + apply IH; auto. intros g Hg. apply Hn. now right.
    - eapply stops_ext; [intros k0; cbn [w_each]; rewrite M; reflexivity|]. apply IH; auto. intros g Hg. apply Hn. now right.
  Qed.

  Lemma stops_flat {d} m w' fs vs rs ks p e : Forall (below stops_kids) vs -> flat_tags env fs vs rs -> serves m rs ->
    (forall f v (k : option serr -> wprog d), w' f v k = match f_mode f with
       | MFlatten id => ser_kids o env v (ERef id) k
       | _ => WPanic ill_typed
       end) ->
    flat_fail o env kids_fail fs vs ks p e -> stops m (w_each is_flatten w' vs fs) (kid_sevs ks ++ part_sevs p) (SMsg e).
  Proof.
    intros Ha T S Hw F. revert Ha rs T S.
    induction F as [f fs id v vs l p e M F|f fs id v vs rq l l' p e M C F IH|f fs v vs l p e M F IH];
      intros Ha rs T S; inversion Ha as [|v' vs' [Hv _] Hs]; subst.
    - assert (Ef : is_flatten f = true) by (unfold is_flatten; now rewrite M).
      inversion T as [|f1 fs1 id1 i1 r1 n1 w1 s1 v1 vs1 l1 M1 E1 Sh1 T1|f1 fs1 v1 vs1 l1 M1 T1]; subst; [|congruence].
      rewrite M in M1. injection M1 as <-. apply serves_app in S. destruct S as [S1 S2].
      eapply stops_ext; [intros k0; cbn [w_each]; rewrite Ef; reflexivity|].
      apply stops_now with (q := w_each is_flatten w' vs fs).
      eapply stops_ext; [intros k0; rewrite Hw, M; reflexivity|]. apply (Hv (ERef id) (mappings n1)); auto. eapply tag_enum; eauto.
    - assert (Ef : is_flatten f = true) by (unfold is_flatten; now rewrite M).
      inversion T as [|f1 fs1 id1 i1 r1 n1 w1 s1 v1 vs1 l1 M1 E1 Sh1 T1|f1 fs1 v1 vs1 l1 M1 T1]; subst; [|congruence].
      rewrite M in M1. injection M1 as <-. apply serves_app in S. destruct S as [S1 S2].
      eapply stops_ext; [intros k0; cbn [w_each]; rewrite Ef; reflexivity|].
      rewrite flat_map_app, <- app_assoc. apply stops_then with (q := w_each is_flatten w' vs fs); [|eapply IH; eauto].
      eapply emits_ext; [intros k0; rewrite Hw, M; reflexivity|]. eapply kids_emit; eauto.
      rewrite (tag_det o env (ERef id) v rq (mappings n1)); [exact S1|eapply content_tag; eauto|eapply tag_enum; eauto].
    - inversion T as [|f1 fs1 id1 i1 r1 n1 w1 s1 v1 vs1 l1 M1 E1 Sh1 T1|f1 fs1 v1 vs1 l1 M1 T1]; subst.
      { unfold is_flatten in M. rewrite M1 in M. discriminate. }
      eapply stops_ext; [intros k0; cbn [w_each]; rewrite M; reflexivity|]. eapply IH; eauto.
  Qed.

  Lemma kids_stop v : stops_kids v.
  Proof.
    induction v using value_ind''; intros t rs ks p0 e T F m S d; inversion F; subst.
    - intros k nss s P. cbn [ser_kids].
      match goal with E : text_error _ _ _ = _ |- _ => rewrite (error_no_text _ _ _ _ E), E end.
      exists s. split; [apply adds_nil|reflexivity].
    - inversion T; subst; [|congruence].
      match goal with E1 : env id = _, E2 : env id = _ |- _ => rewrite E1 in E2; injection E2 as -> -> -> -> end.
      apply serves_app in S. destruct S as [S1 S2].
      eapply stops_ext; [intros k; cbn [ser_kids]; match goal with E : env _ = _ |- _ => rewrite E end; reflexivity|].
      match goal with |- stops m (fun k => w_each is_element ?w1 vs ?gs (on_ok k (w_each is_flatten ?w2 vs _ k))) _ _ =>
        apply (stops_now m (w_each is_element w1 vs gs) (w_each is_flatten w2 vs gs)) end.
      eapply stops_own; [exact H|exact (proj1 S1)| |intros ? ? ?; reflexivity|eassumption]. eapply own_names; eauto.
    - inversion T; subst; [|congruence].
      match goal with E1 : env id = _, E2 : env id = _ |- _ => rewrite E1 in E2; injection E2 as -> -> -> -> end.
      apply serves_app in S. destruct S as [S1 S2]. apply serves_app in S2. destruct S2 as [_ S2].
      eapply stops_ext; [intros k; cbn [ser_kids]; match goal with E : env _ = _ |- _ => rewrite E end; reflexivity|].
      rewrite flat_map_app, <- app_assoc.
      match goal with |- stops m (fun k => w_each is_element ?w1 vs ?gs (on_ok k (w_each is_flatten ?w2 vs _ k))) _ _ =>
        apply (stops_then m (w_each is_element w1 vs gs) (w_each is_flatten w2 vs gs)) end.
      + eapply emits_own; [apply all_emit|exact (proj1 S1)| |intros ? ? ?; reflexivity|eassumption]. eapply own_names; eauto.
      + eapply stops_flat; eauto; intros ? ? ?; reflexivity.
    - inversion T; subst.
      match goal with E1 : env id = _, E2 : env id = _ |- _ => rewrite E1 in E2; injection E2 as -> -> -> -> -> end.
      match goal with E : env _ = Some _, N : nth_error _ _ = Some _, V : v_ty _ = Some _ |- _ =>
        eapply stops_ext; [intros k0; cbn [ser_kids]; rewrite E, N, V; reflexivity|] end.
      eapply stops_field; eauto; [exact (proj1 S)|]. eapply variant_name; eauto.
  Qed.

  Theorem value_stops t v n p e : fails n t v p e ->
    (xn_ns n = ""%string /\ A \/ xn_ns n = XML_NS \/
     exists id d q, t = ERef id /\ env id = Some d /\ In (q, xn_ns n) (td_nss d)) ->
    exists k, serialize_with_name o env dbg w t v n = inl (Some (SMsg e), k) /\
      map ev_sev (k_out k) = part_sevs p.
  Proof.
    intros F Hn. unfold serialize_with_name, to, ser_value. cbn [s_attrs s_kids].
    assert (B : binv A (BState n [] [] [])).
    { split; cbn; [apply wf_nil|split; [constructor|tauto]|intros _ u x; discriminate|intros ? ? []]. }
    assert (R : ready n (BState n [] [] [])) by (exists []; split; [apply built_new|exact B]).
    destruct F as [e F|l ks p e T F].
    - destruct (tag_fails_run t v e n _ F R) as (b' & ->). eexists. split; reflexivity.
    - destruct (tag_starts t v l n _ T R) as (b' & m' & -> & Sv & H).
      + destruct Hn as [Hn|[Hn|(id & d & q & -> & E & Hq)]].
        * left. unfold name_ok. cbn. auto.
        * left. unfold name_ok. cbn. auto.
        * right. exists q. inversion T; subst; match goal with E' : env id = Some _ |- _ => rewrite E in E'; injection E' as -> end;
            cbn [td_nss] in Hq; try apply in_or_app; try left; now apply In_mappings.
      + destruct (H sink0 eq_refl) as (s1 & -> & P1 & A1).
        destruct (kids_stop v _ _ _ _ _ T F m' Sv 0 WRet [] s1 P1) as (s2 & A2 & ->). cbn [run_w].
        eexists. split; [reflexivity|]. cbn [k_out poison part_sevs].
        exact (adds_app _ _ _ [_] _ A1 A2).
  Qed.
End Exact.

Theorem fails_error o env dbg w t v n p e : attrs_apart env ->
  names_declared env -> prefixes_ok env -> no_default env -> (forall i, w i = None) ->
  (xn_ns n = ""%string /\ (forall id d u, env id = Some d -> ~ In (""%string, u) (td_nss d)) \/
   xn_ns n = XML_NS \/
   exists id d p, t = ERef id /\ env id = Some d /\ In (p, xn_ns n) (td_nss d)) ->
  fails o env n t v p e ->
  exists k, serialize_with_name o env dbg w t v n = inl (Some (SMsg e), k) /\ map ev_sev (k_out k) = part_sevs p.
Proof.
  intros Ap Hn Hp Hd Io Hu F. destruct (names_of_env env Hn Hd Hp) as (A & HA & H1 & H2 & H3).
  apply (value_stops o env dbg w A H1 (fun id d n E Hin => H2 id d n E (or_intror Hin)) H3 Ap Io t v n p e F).
  destruct Hu as [[U1 U2]|[U|U]]; [left; split; auto; now apply HA|now right; left|now right; right].
Qed.

Theorem fails_root_error o env dbg w id v d p e : attrs_apart env ->
  names_declared env -> prefixes_ok env -> no_default env -> (forall i, w i = None) ->
  env id = Some d -> fails o env (expanded (td_root d)) (ERef id) v p e ->
  exists k, serialize_root o env dbg w id v = inl (Some (SMsg e), k) /\ map ev_sev (k_out k) = part_sevs p.
Proof.
  intros Ap Hn Hp Hd Io E F. unfold serialize_root. rewrite (root_named _ _ _ E).
  apply fails_error; auto. now apply root_is_named.
Qed.

(** ** Success *)

Theorem content_succeeds o env dbg w t v n rs ks : attrs_apart env -> of_type o env t v ->
  names_declared env -> prefixes_ok env -> no_default env -> (forall i, w i = None) ->
  (xn_ns n = ""%string /\ (forall id d u, env id = Some d -> ~ In (""%string, u) (td_nss d)) \/
   xn_ns n = XML_NS \/
   exists id d p, t = ERef id /\ env id = Some d /\ In (p, xn_ns n) (td_nss d)) ->
  content o env t v rs ks ->
  exists k, serialize_with_name o env dbg w t v n = inl (None, k) /\
    map ev_sev (k_out k) = tree_sevs (tree_of (RElem n rs ks)).
Proof.
  intros Ap T Hn Hp Hd Io Hu C. destruct (of_type_no_panic o env dbg w t v n T Hn Hp Hd Hu) as (r & k & H).
  pose proof (asked_content o env Ap t v rs ks n C) as As.
  rewrite (asked_to dbg w n _ _ r k As Io H) in H. exists k. split; [exact H|].
  destruct (to_asked _ _ _ _ _ H) as (t' & As' & L & _). rewrite As in As'. injection As' as <-.
  eapply layout_sevs; eauto.
Qed.

Theorem root_content_succeeds o env dbg w id v d rs ks : attrs_apart env -> of_type o env (ERef id) v ->
  names_declared env -> prefixes_ok env -> no_default env -> (forall i, w i = None) ->
  env id = Some d -> content o env (ERef id) v rs ks ->
  exists k, serialize_root o env dbg w id v = inl (None, k) /\
    map ev_sev (k_out k) = tree_sevs (tree_of (RElem (expanded (td_root d)) rs ks)).
Proof.
  intros Ap T Hn Hp Hd Io E C. unfold serialize_root. rewrite (root_named _ _ _ E).
  apply content_succeeds; auto. now apply root_is_named.
Qed.

Theorem root_never_ok o env dbg w id v d p m k : env id = Some d -> fails o env (expanded (td_root d)) (ERef id) v p m ->
  serialize_root o env dbg w id v <> inl (None, k).
Proof.
  intros E F. unfold serialize_root. rewrite (root_named _ _ _ E). eapply never_ok; eauto.
Qed.

(** An element with a hand-written text type is written with the text its [ToText] returns. *)
Theorem hand_printed o env dbg w i n x s : (forall j, w j = None) -> o_hand_show o i x = inl s ->
  exists k, serialize_with_name o env dbg w (EText (THand i)) (VText (TVHand x)) (XName "" n) = inl (None, k) /\
    map ev_sev (k_out k) = [SStart n []; SChars s; SEnd].
Proof.
  intros Io E. unfold serialize_with_name, to, ser_value. cbn. rewrite E. cbn. unfold write. cbn. repeat (rewrite Io; cbn).
  eexists. split; [reflexivity|]. reflexivity.
Qed.
