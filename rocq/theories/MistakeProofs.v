(** Proofs about the errors of the derive macros. *)
From Verif Require Import Base Normalize Text Find Types BMap DeriveAttr DASpec DAProofs DAType DAProps DeriveEntry MistakeSpec.
From Coq Require Import Lia.

Lemma dbind_inl {A B} (m : der A) (f : A -> der B) es b : dbind m f = inl (es, b) <->
  exists e1 a e2, m = inl (e1, a) /\ f a = inl (e2, b) /\ es = e1 ++ e2.
Proof.
  unfold dbind. destruct m as [[e1 a]|x].
  - destruct (f a) as [[e2 b']|x] eqn:E.
    + split; [intros [= <- <-]; now exists e1, a, e2|]. intros (e1' & a' & e2' & [= <- <-] & H & ->). rewrite E in H. now injection H as -> ->.
    + split; [discriminate|]. intros (e1' & a' & e2' & [= <- <-] & H & ->). congruence.
  - split; [discriminate|]. now intros (e1' & a' & e2' & [=] & _).
Qed.
Lemma push_inl {B} e (m : der B) es b : dbind (push e) (fun _ => m) = inl (es, b) <-> exists e2, m = inl (e2, b) /\ es = e :: e2.
Proof.
  rewrite dbind_inl. unfold push. split.
  - intros (e1 & a & e2 & [= <- <-] & H & ->). now exists e2.
  - intros (e2 & H & ->). now exists [e], tt, e2.
Qed.
Lemma ret_inl {A} (a b : A) es : ret a = inl (es, b) <-> es = [] /\ b = a.
Proof. unfold ret. split; [now intros [= <- <-]|now intros [-> ->]]. Qed.

Lemma meta_errors attrs : get_meta_items attrs = inl (shape_errors attrs, items_in attrs).
Proof.
  unfold shape_errors, items_in. induction attrs as [|a attrs IH]; [reflexivity|].
  destruct a; cbn [get_meta_items flat_map app]; rewrite IH; cbn; [reflexivity| |reflexivity..]. now rewrite app_nil_r.
Qed.

Lemma dfold_judged {S} (f : S -> item -> der S) judge (I : list item -> S -> Prop) :
  (forall before st i es st', I before st -> f st i = inl (es, st') -> es = judge before i /\ I (before ++ [i]) st') ->
  forall l before st es st', I before st -> dfold f st l = inl (es, st') ->
  es = judged judge before l /\ I (before ++ l) st'.
Proof.
  intros Hf. induction l as [|i l IH]; intros before st es st' HI H; cbn [dfold judged] in *.
  - apply ret_inl in H as [-> ->]. now rewrite app_nil_r.
  - apply dbind_inl in H as (e1 & s1 & e2 & H1 & H2 & ->). apply (Hf _ _ _ _ _ HI) in H1 as [-> H1].
    apply (IH _ _ _ _ H1) in H2 as [-> H2]. rewrite <- app_assoc in H2. auto.
Qed.

Lemma dmap_judged {A B} (f : A -> der B) (E : A -> list derr) (P : A -> B -> Prop) :
  (forall a es b, f a = inl (es, b) -> es = E a /\ P a b) ->
  forall l es bs, dmap f l = inl (es, bs) -> es = flat_map E l /\ Forall2 P l bs.
Proof.
  intros Hf. induction l as [|a l IH]; intros es bs H; cbn [dmap flat_map] in *.
  - apply ret_inl in H as [-> ->]. auto.
  - apply dbind_inl in H as (e1 & b & e2 & H1 & H2 & ->). apply dbind_inl in H2 as (e3 & bs' & e4 & H3 & H4 & ->).
    apply ret_inl in H4 as [-> ->]. apply Hf in H1 as [-> H1]. apply IH in H3 as [-> H3]. rewrite app_nil_r. auto.
Qed.

(** ** Lists of items *)

Lemma values_app key l1 l2 : values key (l1 ++ l2) = values key l1 ++ values key l2.
Proof. apply flat_map_app. Qed.
Lemma literals_app key l1 l2 : literals key (l1 ++ l2) = literals key l1 ++ literals key l2.
Proof. apply flat_map_app. Qed.
Lemma has_flag_app key l1 l2 : has_flag key (l1 ++ l2) = has_flag key l1 || has_flag key l2.
Proof. apply existsb_app. Qed.
Lemma offers_app l1 l2 : offers (l1 ++ l2) = offers l1 ++ offers l2.
Proof. apply flat_map_app. Qed.
Lemma url_of_app d1 d2 p : url_of (d1 ++ d2) p = match url_of d1 p with Some u => Some u | None => url_of d2 p end.
Proof.
  unfold url_of. induction d1 as [|[k u] d1 IH]; [reflexivity|]. cbn. now destruct (String.eqb k p).
Qed.

(** ** Names *)

Definition same_map (m : bmap string) (decls : list (string * string)) : Prop := forall p, bm_get p m = url_of decls p.

Lemma prefix_judged m decls earlier v nm es nm' : same_map m decls ->
  pn_prefix nm = option_map str_trim (hd_error earlier) ->
  process_prefix m v nm = inl (es, nm') ->
  es = prefix_errors decls earlier v /\
  pn_prefix nm' = option_map str_trim (hd_error (earlier ++ match v with LStr s => [s] | LOther => [] end)).
Proof.
  intros HM HP. unfold process_prefix, with_lit_str. destruct v as [s|].
  - rewrite HP. unfold prefix_errors. destruct earlier as [|p earlier]; cbn [hd_error option_map app].
    + rewrite HM. destruct (url_of decls (str_trim s)) as [u|]; cbn [is_none negb].
      * rewrite orb_true_r. intros H. apply ret_inl in H as [-> ->]. auto.
      * rewrite orb_false_r. destruct (String.eqb (str_trim s) "xml").
        -- rewrite orb_true_r. intros H. apply ret_inl in H as [-> ->]. auto.
        -- rewrite orb_false_r. destruct (String.eqb (str_trim s) "").
           ++ intros H. apply ret_inl in H as [-> ->]. auto.
           ++ rewrite push_inl. intros (e2 & H & ->). apply ret_inl in H as [-> ->]. auto.
    + rewrite push_inl. intros (e2 & H & ->). apply ret_inl in H as [-> ->]. auto.
  - rewrite push_inl. intros (e2 & H & ->). apply ret_inl in H as [-> ->]. now rewrite app_nil_r.
Qed.

Lemma about_other key i : (forall v, i <> INameValue (Some key) v) -> about key i = None.
Proof.
  unfold about. destruct i as [p|[k|] v|]; try reflexivity. intros H.
  destruct (String.eqb_spec k key) as [->|]; [|reflexivity]. now contradiction (H v).
Qed.
Lemma about_some p key v : about key (INameValue p v) = if is_ident p key then Some v else None.
Proof. now destruct p. Qed.
Lemma about_path p key : about key (IPath p) = None. Proof. reflexivity. Qed.
Lemma flag_path keys p : is_flag keys (IPath p) = existsb (is_ident p) keys.
Proof. destruct p as [k|]; cbn [is_flag is_ident]; [reflexivity|]. induction keys; auto. Qed.
Lemma has_path key p : has_flag key [IPath p] = is_ident p key.
Proof. unfold has_flag. cbn. rewrite orb_false_r. reflexivity. Qed.
Lemma values_value key p v : values key [INameValue p v] =
  if is_ident p key then match v with LStr s => [s] | LOther => [] end else [].
Proof.
  unfold values, is_ident. cbn. rewrite app_nil_r. destruct p as [k|]; [|reflexivity]. destruct v; [reflexivity|]. now destruct (String.eqb k key).
Qed.
Lemma literals_value key p v : literals key [INameValue p v] = if is_ident p key then [v] else [].
Proof. unfold literals. cbn. rewrite app_nil_r. now destruct p. Qed.

(** ** Fields *)

Definition field_inv (before : list item) (st : fstate) : Prop :=
  fs_attribute st = has_flag "attribute" before /\ fs_default st = has_flag "default" before /\
  fs_flatten st = has_flag "flatten" before /\ fs_text st = has_flag "text" before /\
  pn_prefix (fs_name st) = option_map str_trim (hd_error (values "prefix" before)).

Definition field_flags : list string := ["attribute"; "default"; "flatten"; "text"]%string.

Lemma field_judged m decls : same_map m decls -> forall before st i es st', field_inv before st ->
  field_item m st i = inl (es, st') -> es = name_judge decls field_flags before i /\ field_inv (before ++ [i]) st'.
Proof.
  intros HM before [a d f t nm] i es st' (Ha & Hd & Hf & Ht & Hn). unfold field_inv. rewrite !has_flag_app, values_app.
  cbn [fs_attribute fs_default fs_flatten fs_text fs_name] in *. destruct i as [p|p v|]; cbn [field_item].
  - rewrite !has_path. unfold name_judge. rewrite flag_path, !about_path. cbn [values flat_map]. rewrite app_nil_r.
    destruct p as [k|].
    2: { cbn [is_ident existsb field_flags orb]. rewrite push_inl. intros (e2 & H & ->). apply ret_inl in H as [-> ->].
      cbn [fs_attribute fs_default fs_flatten fs_text fs_name]. rewrite !orb_false_r. auto 10. }
    cbn [is_ident existsb field_flags].
    destruct (String.eqb_spec k "attribute") as [->|N1].
    { intros H. apply ret_inl in H as [-> ->]. cbn. rewrite ?orb_false_r, ?orb_true_r. auto 10. }
    destruct (String.eqb_spec k "default") as [->|N2].
    { intros H. apply ret_inl in H as [-> ->]. cbn. rewrite ?orb_false_r, ?orb_true_r. auto 10. }
    destruct (String.eqb_spec k "flatten") as [->|N3].
    { intros H. apply ret_inl in H as [-> ->]. cbn. rewrite ?orb_false_r, ?orb_true_r. auto 10. }
    destruct (String.eqb_spec k "text") as [->|N4].
    { intros H. apply ret_inl in H as [-> ->]. cbn. rewrite ?orb_false_r, ?orb_true_r. auto 10. }
    rewrite push_inl. intros (e2 & H & ->). apply ret_inl in H as [-> ->]. cbn. rewrite ?orb_false_r. auto 10.
  - change (has_flag "attribute" [INameValue p v]) with false. change (has_flag "default" [INameValue p v]) with false.
    change (has_flag "flatten" [INameValue p v]) with false. change (has_flag "text" [INameValue p v]) with false.
    rewrite !orb_false_r. unfold name_judge. change (is_flag field_flags (INameValue p v)) with false.
    rewrite !about_some, values_value. ident p "rename"%string.
    + change (is_ident (Some "rename"%string) "prefix") with false. rewrite app_nil_r.
      destruct v as [s|]; cbn [with_lit_str].
      * rewrite dbind_inl. intros (e1 & nm1 & e2 & H1 & H2 & ->). apply ret_inl in H1 as [-> ->]. apply ret_inl in H2 as [-> ->].
        cbn. auto 10.
      * rewrite dbind_inl. intros (e1 & nm1 & e2 & H1 & H2 & ->). apply push_inl in H1 as (e3 & H1 & ->).
        apply ret_inl in H1 as [-> ->]. apply ret_inl in H2 as [-> ->]. cbn. auto 10.
    + ident p "prefix"%string.
      * rewrite dbind_inl. intros (e1 & nm1 & e2 & H1 & H2 & ->). apply ret_inl in H2 as [-> ->]. rewrite app_nil_r.
        destruct (prefix_judged _ _ _ _ _ _ _ HM Hn H1) as [-> H3]. cbn. auto 10.
      * rewrite app_nil_r, push_inl. intros (e2 & H & ->). apply ret_inl in H as [-> ->]. cbn. auto 10.
  - rewrite push_inl. intros (e2 & H & ->). apply ret_inl in H as [-> ->]. cbn. rewrite !orb_false_r, app_nil_r. auto 10.
Qed.

Lemma element_field_judged m decls : same_map m decls -> forall sf es r, element_field m sf = inl (es, r) ->
  es = field_errors decls sf /\ match r with Some f => is_etext f | None => false end = text_field sf.
Proof.
  intros HM sf es r H. unfold element_field in H. rewrite meta_errors in H. apply dbind_inl in H as (e1 & l & e2 & [= <- <-] & H & ->).
  apply dbind_inl in H as (e3 & st & e4 & H1 & H2 & ->). unfold field_errors, text_field.
  set (l := items_in (sf_attrs sf)) in *.
  apply (dfold_judged _ _ _ (field_judged m decls HM) _ []) in H1 as [-> H1]; [|repeat split].
  destruct st as [a d f t nm]. cbn [app] in H1. destruct H1 as (Ha & Hd & Hf & Ht & Hn).
  cbn [fs_attribute fs_default fs_flatten fs_text fs_name] in *. fold field_flags. unfold mode_errors. rewrite <- Ha, <- Hd, <- Hf, <- Ht.
  enough (X : e4 = match a, f, t with
    | true, true, _ | true, _, true | _, true, true => [EExclusive]
    | false, true, false => if d then [EDefaultFlatten] else []
    | _, _, _ => []
    end /\ match r with Some f => is_etext f | None => false end = t && negb a && negb f).
  { destruct X as [-> X]. split; [reflexivity|exact X]. }
  destruct a, f, t; cbn [andb negb] in H2;
    try (apply push_inl in H2 as (e5 & H2 & ->)); try (apply ret_inl in H2 as [-> ->]; auto; fail).
  destruct d; [apply push_inl in H2 as (e5 & H2 & ->)|]; apply ret_inl in H2 as [-> ->]; auto.
Qed.

(** ** Variants *)

Lemma variant_items_judged m decls : same_map m decls -> forall l before nm es r,
  pn_prefix nm = option_map str_trim (hd_error (values "prefix" before)) ->
  variant_items m nm l = inl (es, r) ->
  es = judged (name_judge decls []) before (fst (until_skip l)) /\
  (if snd (until_skip l) then r = inr tt else exists nm', r = inl nm').
Proof.
  intros HM. induction l as [|i l IH]; intros before nm es r Hn; cbn [variant_items until_skip].
  - intros H. apply ret_inl in H as [-> ->]. cbn. eauto.
  - specialize (IH (before ++ [i])). rewrite values_app in IH. destruct (until_skip l) as [u s] eqn:EU. cbn [fst snd] in IH.
    destruct i as [p|p v|].
    + rewrite flag_path. cbn [existsb]. rewrite orb_false_r. ident p "skip"%string.
      * intros H. apply ret_inl in H as [-> ->]. cbn. auto.
      * rewrite push_inl. intros (e2 & H & ->). apply IH in H as [-> H]; [|cbn; now rewrite app_nil_r].
        cbn [fst snd judged]. split; [|exact H]. unfold name_judge at 2. rewrite flag_path. reflexivity.
    + change (is_flag ["skip"%string] (INameValue p v)) with false. rewrite values_value in IH. cbn [fst snd judged].
      unfold name_judge at 1. change (is_flag [] (INameValue p v)) with false. rewrite !about_some. ident p "rename"%string.
      * change (is_ident (Some "rename"%string) "prefix") with false in *. rewrite app_nil_r in IH.
        rewrite dbind_inl. intros (e1 & nm1 & e2 & H1 & H2 & ->). destruct v as [s'|]; cbn [with_lit_str] in H1.
        -- apply ret_inl in H1 as [-> ->]. apply IH in H2 as [-> H2]; [|exact Hn]. auto.
        -- apply push_inl in H1 as (e3 & H1 & ->). apply ret_inl in H1 as [-> ->]. apply IH in H2 as [-> H2]; [|exact Hn]. auto.
      * ident p "prefix"%string.
        -- rewrite dbind_inl. intros (e1 & nm1 & e2 & H1 & H2 & ->). destruct (prefix_judged _ _ _ _ _ _ _ HM Hn H1) as [-> H3].
           apply IH in H2 as [-> H2]; [|exact H3]. auto.
        -- rewrite push_inl. intros (e2 & H & ->). destruct (is_ident_case p "prefix") as [[X _]|[_ X]]; [contradiction|].
           rewrite X, app_nil_r in IH. apply IH in H as [-> H]; [|exact Hn]. auto.
    + cbn [is_flag]. rewrite push_inl. intros (e2 & H & ->). cbn [values flat_map] in IH. rewrite app_nil_r in IH. apply IH in H as [-> H]; [|exact Hn].
      cbn [fst snd judged]. auto.
Qed.

Lemma element_variant_judged m decls : same_map m decls -> forall v es r, element_variant m v = inl (es, r) ->
  es = variant_errors decls v /\ True.
Proof.
  intros HM v es r H. split; [|exact I]. unfold element_variant in H. rewrite meta_errors in H.
  apply dbind_inl in H as (e1 & l & e2 & [= <- <-] & H & ->).
  apply dbind_inl in H as (e3 & q & e4 & H1 & H2 & ->). unfold variant_errors.
  eapply (variant_items_judged m decls HM _ []) in H1 as [-> H1]; [|reflexivity].
  destruct (until_skip (items_in (sv_attrs v))) as [l s]. cbn [fst snd] in *. destruct s.
  - subst q. apply ret_inl in H2 as [-> ->]. reflexivity.
  - destruct H1 as (nm & ->). apply dbind_inl in H2 as (e5 & ty & e6 & H2 & H3 & ->). apply ret_inl in H3 as [-> ->].
    do 2 f_equal. rewrite app_nil_r. unfold optional_unnamed_field in H2.
    destruct (sv_fields v) as [l'|[|t [|t' l']]|]; cbn [payload_errors];
      try (apply push_inl in H2 as (e7 & H2 & ->)); apply ret_inl in H2 as [-> ->]; reflexivity.
Qed.

(** ** Types *)

Definition type_inv (before : list item) (st : (string * bmap string) * option lit) : Prop :=
  let '(_, m, p) := st in same_map m (offers before) /\ p = hd_error (rev (literals "prefix" before)).

Lemma add_internal_judged m decls p u es m' : same_map m decls -> add_internal m p u = inl (es, m') ->
  es = match url_of decls p with Some old => [EReassign p old (str_trim u)] | None => [] end /\
  same_map m' (decls ++ [(p, str_trim u)]).
Proof.
  intros HM. unfold add_internal. rewrite HM. destruct (url_of decls p) as [old|] eqn:E.
  - rewrite push_inl. intros (e2 & H & ->). apply ret_inl in H as [-> ->]. split; [reflexivity|].
    intros k. rewrite HM, url_of_app. destruct (url_of decls k) eqn:E'; [reflexivity|].
    unfold url_of. cbn. destruct (String.eqb_spec p k) as [->|]; [congruence|reflexivity].
  - intros H. apply ret_inl in H as [-> ->]. split; [reflexivity|]. intros k. rewrite bm_get_insert, url_of_app, HM.
    unfold url_of at 3. cbn. rewrite (String.eqb_sym p k). destruct (String.eqb_spec k p) as [->|]; [now rewrite E|]. now destruct (url_of decls k).
Qed.

Lemma same_map_nil m decls : same_map m decls -> same_map m (decls ++ []).
Proof. now rewrite app_nil_r. Qed.

Lemma offers_namespace s : offers [INameValue (Some "namespace"%string) (LStr s)] =
  match split_colon s with
  | Some (p, u) => if starts_with "xml" p then [] else [(str_trim p, str_trim u)]
  | None => [(""%string, str_trim s)]
  end.
Proof. unfold offers. cbn [flat_map about]. rewrite String.eqb_refl. apply app_nil_r. Qed.
Lemma offers_default s : offers [INameValue (Some "default_namespace"%string) (LStr s)] = [(""%string, str_trim s)].
Proof. reflexivity. Qed.

Lemma attr_judged before st i es st' : type_inv before st -> attr_item st i = inl (es, st') ->
  es = type_judge before i /\ type_inv (before ++ [i]) st'.
Proof.
  destruct st as [[local m] p]. intros (HM & Hp). unfold type_inv. rewrite offers_app, literals_app, rev_app_distr.
  destruct i as [q|q v|]; cbn [attr_item].
  - rewrite push_inl. intros (e2 & H & ->). apply ret_inl in H as [-> ->]. cbn [offers literals flat_map about rev app].
    split; [reflexivity|]. split; [now apply same_map_nil|exact Hp].
  - unfold type_judge. rewrite !about_some, literals_value. ident q "rename"%string.
    { cbn [is_ident]. change (String.eqb "rename" "prefix") with false. cbn [rev app]. intros H.
      apply dbind_inl in H as (e1 & s1 & e2 & H1 & H2 & ->). apply ret_inl in H2 as [-> ->]. rewrite app_nil_r.
      split; [|split; [now apply same_map_nil|exact Hp]].
      destruct v as [s|]; cbn [with_lit_str] in H1; [now apply ret_inl in H1 as [-> _]|].
      apply push_inl in H1 as (e3 & H1 & ->). now apply ret_inl in H1 as [-> _]. }
    ident q "prefix"%string.
    { cbn [rev app]. intros H. apply ret_inl in H as [-> ->]. split; [reflexivity|]. split; [now apply same_map_nil|reflexivity]. }
    cbn [rev app]. ident q "namespace"%string.
    { rewrite dbind_inl. intros (e1 & m1 & e2 & H1 & H2 & ->). apply ret_inl in H2 as [-> ->]. rewrite app_nil_r.
      unfold add_namespace, with_lit_str in H1. destruct v as [s|].
      - rewrite offers_namespace. destruct (split_colon s) as [[a b]|].
        + destruct (starts_with "xml" a).
          * destruct (String.eqb (str_trim a) "xml" && String.eqb (str_trim b) XML_NS); [|discriminate].
            apply ret_inl in H1 as [-> ->]. split; [reflexivity|]. split; [now apply same_map_nil|exact Hp].
          * destruct (add_internal_judged _ _ _ _ _ _ HM H1) as [-> H2]. cbn [string_only app flat_map fst snd]. rewrite app_nil_r. auto.
        + destruct (add_internal_judged _ _ _ _ _ _ HM H1) as [-> H2]. cbn [string_only app flat_map fst snd]. rewrite app_nil_r. auto.
      - apply push_inl in H1 as (e3 & H1 & ->). apply ret_inl in H1 as [-> ->]. split; [reflexivity|]. split; [now apply same_map_nil|exact Hp]. }
    ident q "default_namespace"%string.
    { rewrite dbind_inl. intros (e1 & m1 & e2 & H1 & H2 & ->). apply ret_inl in H2 as [-> ->]. rewrite app_nil_r.
      unfold add_default_namespace, with_lit_str in H1. destruct v as [s|].
      - destruct (add_internal_judged _ _ _ _ _ _ HM H1) as [-> H2]. rewrite str_trim_idem in *.
        rewrite offers_default. cbn [string_only app flat_map fst snd]. rewrite app_nil_r. auto.
      - apply push_inl in H1 as (e3 & H1 & ->). apply ret_inl in H1 as [-> ->]. split; [reflexivity|]. split; [now apply same_map_nil|exact Hp]. }
    rewrite push_inl. intros (e2 & H & ->). apply ret_inl in H as [-> ->]. split; [reflexivity|]. split; [|exact Hp].
    unfold offers at 2. cbn [flat_map]. rewrite !about_some. ident q "namespace"%string; [congruence|].
    ident q "default_namespace"%string; [congruence|]. now apply same_map_nil.
  - rewrite push_inl. intros (e2 & H & ->). apply ret_inl in H as [-> ->]. cbn [offers literals flat_map about rev app].
    split; [reflexivity|]. split; [now apply same_map_nil|exact Hp].
Qed.

Lemma element_attr_judged ident attrs es a : element_attr ident attrs = inl (es, a) ->
  es = type_errors attrs /\ same_map (ea_nss a) (offers (items_in attrs)).
Proof.
  unfold element_attr. rewrite meta_errors. intros H. apply dbind_inl in H as (e1 & l & e2 & [= <- <-] & H & ->).
  apply dbind_inl in H as (e3 & [[local m] p] & e4 & H1 & H2 & ->). unfold type_errors.
  apply (dfold_judged _ _ _ attr_judged _ []) in H1 as [-> [HM Hp]]; [|split; [intros k; reflexivity|reflexivity]].
  cbn [app] in HM, Hp. destruct (rev (literals "prefix" (items_in attrs))) as [|v r]; cbn [hd_error] in Hp; subst p.
  - apply ret_inl in H2 as [-> ->]. auto.
  - apply dbind_inl in H2 as (e5 & nm & e6 & H2 & H3 & ->). apply ret_inl in H3 as [-> ->]. rewrite app_nil_r.
    destruct (prefix_judged _ _ [] _ (PName local None None) _ _ HM eq_refl H2) as [-> _]. auto.
Qed.

Lemma text_count l r : Forall2 (fun sf r => match r with Some f => is_etext f | None => false end = text_field sf) l r ->
  List.length (filter is_etext (somes r)) = List.length (filter text_field l).
Proof.
  induction 1 as [|sf r l rs H HF IH]; [reflexivity|]. cbn [filter]. rewrite <- H. destruct r as [f|]; cbn [somes filter]; [|exact IH].
  destruct (is_etext f); cbn [List.length]; now rewrite IH.
Qed.

Lemma serialize_judged i es r : derive_serialize i = inl (es, r) -> es = input_errors i.
Proof.
  unfold derive_serialize, input_errors. destruct i as [ident attrs data]. cbn [si_data si_ident si_attrs]. destruct data as [fs|vs|].
  - intros H. apply dbind_inl in H as (e1 & s & e2 & H & H2 & ->). apply ret_inl in H2 as [-> ->]. rewrite app_nil_r.
    unfold element_struct in H. apply dbind_inl in H as (e3 & a & e4 & H1 & H2 & ->). apply element_attr_judged in H1 as [-> HM].
    destruct fs as [l|l|].
    + apply dbind_inl in H2 as (e5 & l' & e6 & H2 & H3 & ->).
      apply (dmap_judged _ _ _ (element_field_judged _ _ HM)) in H2 as [-> H2]. apply text_count in H2. rewrite H2 in H3.
      destruct (Nat.leb 2 (List.length (filter text_field l))).
      * apply push_inl in H3 as (e7 & H3 & ->). now apply ret_inl in H3 as [-> _].
      * now apply ret_inl in H3 as [-> _].
    + apply push_inl in H2 as (e7 & H3 & ->). now apply ret_inl in H3 as [-> _].
    + apply push_inl in H2 as (e7 & H3 & ->). now apply ret_inl in H3 as [-> _].
  - intros H. apply dbind_inl in H as (e1 & s & e2 & H & H2 & ->). apply ret_inl in H2 as [-> ->]. rewrite app_nil_r.
    unfold element_enum in H. apply dbind_inl in H as (e3 & a & e4 & H1 & H2 & ->). apply element_attr_judged in H1 as [-> HM].
    apply dbind_inl in H2 as (e5 & l & e6 & H2 & H3 & ->). apply ret_inl in H3 as [-> _]. rewrite app_nil_r.
    now apply (dmap_judged _ _ _ (element_variant_judged _ _ HM)) in H2 as [-> _].
  - rewrite push_inl. intros (e2 & H & ->). now apply ret_inl in H as [-> _].
Qed.

(** ** Text types *)

Definition text_inv (before : list item) (st : whitespace * option tmode) : Prop :=
  match mode_of before, snd st with
  | None, None => True
  | Some s, Some m => mode_named s m
  | _, _ => False
  end.

Lemma mode_of_app l1 l2 : mode_of (l1 ++ l2) = match mode_of l1 with Some s => Some s | None => mode_of l2 end.
Proof.
  unfold mode_of. rewrite values_app. induction (values "mode" l1) as [|s l IH]; [reflexivity|]. cbn [app List.find].
  now destruct (a_mode s).
Qed.

Lemma mode_of_value p v : mode_of [INameValue p v] =
  if is_ident p "mode" then List.find a_mode (match v with LStr s => [s] | LOther => [] end) else None.
Proof. unfold mode_of. rewrite values_value. now destruct (is_ident p "mode"). Qed.

Lemma text_judged before st i es st' : text_inv before st -> text_item st i = inl (es, st') ->
  es = text_judge before i /\ text_inv (before ++ [i]) st'.
Proof.
  destruct st as [w m]. unfold text_inv. rewrite mode_of_app. cbn [snd]. intros HI.
  destruct i as [q|q v|]; cbn [text_item].
  - rewrite push_inl. intros (e2 & H & ->). apply ret_inl in H as [-> ->]. split; [reflexivity|]. cbn. now destruct (mode_of before).
  - unfold text_judge. rewrite !about_some, mode_of_value. ident q "whitespace"%string.
    { change (is_ident (Some "whitespace"%string) "mode") with false. rewrite dbind_inl. intros (e1 & w' & e2 & H1 & H2 & ->).
      apply ret_inl in H2 as [-> ->]. rewrite app_nil_r. split; [|cbn; now destruct (mode_of before)].
      unfold set_whitespace, with_lit_str in H1. destruct v as [s|].
      - cbn [existsb].
        destruct (String.eqb s "preserve"); [now apply ret_inl in H1 as [-> _]|].
        destruct (String.eqb s "replace"); [now apply ret_inl in H1 as [-> _]|].
        destruct (String.eqb s "collapse"); [now apply ret_inl in H1 as [-> _]|].
        apply push_inl in H1 as (e3 & H1 & ->). now apply ret_inl in H1 as [-> _].
      - apply push_inl in H1 as (e3 & H1 & ->). now apply ret_inl in H1 as [-> _]. }
    ident q "mode"%string.
    { destruct m as [m|].
      - rewrite push_inl. intros (e2 & H & ->). apply ret_inl in H as [-> ->]. destruct (mode_of before); [auto|contradiction].
      - destruct (mode_of before) as [s0|] eqn:EB; [contradiction|]. unfold with_lit_str. destruct v as [s|].
        + cbn [List.find]. unfold a_mode. cbn [existsb].
          destruct (String.eqb_spec s "std") as [->|N1]; [intros H; apply ret_inl in H as [-> ->]; split; [reflexivity|]; left; auto|].
          destruct (String.eqb_spec s "restriction") as [->|N2]; [intros H; apply ret_inl in H as [-> ->]; split; [reflexivity|]; right; left; auto|].
          destruct (String.eqb_spec s "union") as [->|N3]; [intros H; apply ret_inl in H as [-> ->]; split; [reflexivity|]; right; right; auto|].
          rewrite push_inl. intros (e2 & H & ->). now apply ret_inl in H as [-> ->].
        + rewrite push_inl. intros (e2 & H & ->). now apply ret_inl in H as [-> ->]. }
    rewrite push_inl. intros (e2 & H & ->). apply ret_inl in H as [-> ->]. split; [reflexivity|]. cbn. now destruct (mode_of before).
  - rewrite push_inl. intros (e2 & H & ->). apply ret_inl in H as [-> ->]. split; [reflexivity|]. cbn. now destruct (mode_of before).
Qed.

Definition restr_inv (before : list item) (st : option string * bool) : Prop :=
  is_none (fst st) = match values "rename" before with [] => true | _ => false end /\ snd st = has_flag "unknown" before.

Lemma restr_judged before st i es st' : restr_inv before st -> restr_item st i = inl (es, st') ->
  es = restr_judge before i /\ restr_inv (before ++ [i]) st'.
Proof.
  destruct st as [t u]. unfold restr_inv. rewrite values_app, has_flag_app. cbn [fst snd]. intros [Ht Hu].
  destruct i as [q|q v|]; cbn [restr_item].
  - rewrite has_path. unfold restr_judge. rewrite flag_path, about_path. cbn [values flat_map existsb]. rewrite app_nil_r, orb_false_r.
    ident q "unknown"%string.
    + intros H. apply ret_inl in H as [-> ->]. rewrite orb_true_r. auto.
    + rewrite push_inl. intros (e2 & H & ->). apply ret_inl in H as [-> ->]. rewrite orb_false_r. auto.
  - change (has_flag "unknown" [INameValue q v]) with false. rewrite orb_false_r, values_value. unfold restr_judge.
    change (is_flag ["unknown"%string] (INameValue q v)) with false. rewrite about_some. ident q "rename"%string.
    + rewrite dbind_inl. intros (e1 & t' & e2 & H1 & H2 & ->). apply ret_inl in H2 as [-> ->]. rewrite app_nil_r. cbn [fst snd].
      destruct v as [s|]; cbn [with_lit_str] in H1.
      * apply ret_inl in H1 as [-> ->]. split; [reflexivity|]. split; [|exact Hu]. cbn. now destruct (values "rename" before).
      * apply push_inl in H1 as (e3 & H1 & ->). apply ret_inl in H1 as [-> ->]. split; [reflexivity|]. rewrite app_nil_r. auto.
    + rewrite push_inl. intros (e2 & H & ->). apply ret_inl in H as [-> ->]. rewrite app_nil_r. auto.
  - rewrite push_inl. intros (e2 & H & ->). apply ret_inl in H as [-> ->]. cbn. rewrite app_nil_r, orb_false_r. auto.
Qed.

Lemma when_inl b e es x : when b (push e) = inl (es, x) <-> es = if b then [e] else [].
Proof.
  unfold when, push, ret. destruct b, x; (split; [intros [= <-]; reflexivity|intros ->; reflexivity]).
Qed.

Lemma restr_variant_judged before seen v es seen' r : seen = existsb is_unknown before ->
  restr_variant seen v = inl (es, (seen', r)) -> es = restr_errors before v /\ seen' = existsb is_unknown (before ++ [v]).
Proof.
  intros -> H. unfold restr_variant in H. rewrite meta_errors in H. apply dbind_inl in H as (e1 & l & e2 & [= <- <-] & H & ->).
  apply dbind_inl in H as (e3 & [t u] & e4 & H1 & H2 & ->).
  apply (dfold_judged _ _ _ restr_judged _ []) in H1 as [-> [Ht Hu]]; [|split; reflexivity].
  cbn [app fst snd] in Ht, Hu. unfold restr_errors. rewrite existsb_app. cbn [existsb]. unfold is_unknown at 1 4. rewrite <- Hu.
  rewrite orb_false_r. destruct u.
  - apply dbind_inl in H2 as (e5 & x5 & e6 & H2 & H3 & ->). apply when_inl in H2 as ->.
    apply dbind_inl in H3 as (e7 & x7 & e8 & H3 & H4 & ->). apply when_inl in H3 as ->.
    apply dbind_inl in H4 as (e9 & x9 & e10 & H4 & H5 & ->). apply when_inl in H4 as ->.
    apply ret_inl in H5 as [-> [= -> ->]]. rewrite app_nil_r. split; [|now rewrite orb_true_r]. do 3 f_equal.
    + rewrite Ht. now destruct (values "rename" (items_in (sv_attrs v))).
    + f_equal. now destruct (sv_fields v) as [l'|[|x [|y l']]|].
  - apply dbind_inl in H2 as (e5 & x5 & e6 & H2 & H3 & ->). apply when_inl in H2 as ->. apply ret_inl in H3 as [-> [= -> ->]].
    rewrite app_nil_r, orb_false_r. split; [|reflexivity]. do 2 f_equal. now destruct (sv_fields v) as [l'|[|x [|y l']]|].
Qed.

Lemma restr_variants_judged vs : forall before seen es rs, seen = existsb is_unknown before ->
  restr_variants seen vs = inl (es, rs) -> es = restrs_errors before vs.
Proof.
  induction vs as [|v vs IH]; intros before seen es rs Hs H; cbn [restr_variants restrs_errors] in *.
  - now apply ret_inl in H as [-> _].
  - apply dbind_inl in H as (e1 & [seen' r] & e2 & H1 & H2 & ->). apply (restr_variant_judged before) in H1 as [-> H1]; [|exact Hs].
    apply dbind_inl in H2 as (e3 & rs' & e4 & H2 & H3 & ->). apply ret_inl in H3 as [-> _]. rewrite app_nil_r.
    apply (IH (before ++ [v])) in H2 as ->; [reflexivity|exact H1].
Qed.

Lemma complaints l x y : dfold (fun (_ : unit) (_ : item) => push ENotUnderstood) x l = inl (map (fun _ => ENotUnderstood) l, y).
Proof. revert x. destruct y. induction l as [|i l IH]; intros []; [reflexivity|]. cbn [dfold]. unfold dbind, push at 1. now rewrite IH. Qed.

Lemma union_judged v es r : union_variant v = inl (es, r) -> es = union_errors v /\ True.
Proof.
  unfold union_variant. rewrite meta_errors. intros H. split; [|exact I]. apply dbind_inl in H as (e1 & l & e2 & [= <- <-] & H & ->).
  apply dbind_inl in H as (e3 & [] & e4 & H1 & H2 & ->). rewrite (complaints _ _ tt) in H1. injection H1 as <-. unfold union_errors. do 2 f_equal.
  destruct (sv_fields v) as [l'|[|x [|y l']]|]; cbn [single_unnamed_field] in H2;
    try (apply push_inl in H2 as (e5 & H2 & ->)); now apply ret_inl in H2 as [-> _].
Qed.

Lemma text_type_judged i es r : derive_text i = inl (es, r) -> es = text_errors i.
Proof.
  unfold derive_text, text_attr, text_errors. rewrite meta_errors. intros H. apply dbind_inl in H as (e1 & [w m] & e2 & H & H2 & ->).
  apply dbind_inl in H as (e3 & l & e4 & [= <- <-] & H & ->).
  apply (dfold_judged _ _ _ text_judged _ []) in H as [-> HI]; [|exact I]. cbn [app] in HI. unfold text_inv in HI. cbn [snd] in HI.
  rewrite <- app_assoc. do 2 f_equal. destruct m as [m|].
  - destruct (mode_of (items_in (ti_attrs i))) as [s|]; [|contradiction].
    destruct HI as [[-> ->]|[[-> ->]|[-> ->]]].
    + now apply ret_inl in H2 as [-> _].
    + cbn [String.eqb]. change (String.eqb "restriction" "std") with false. change (String.eqb "restriction" "restriction") with true. cbn match.
      destruct (ti_data i) as [vs|].
      * apply dbind_inl in H2 as (e5 & rs & e6 & H2 & H3 & ->). apply ret_inl in H3 as [-> _]. rewrite app_nil_r.
        now apply (restr_variants_judged _ []) in H2.
      * apply push_inl in H2 as (e5 & H2 & ->). now apply ret_inl in H2 as [-> _].
    + change (String.eqb "union" "std") with false. change (String.eqb "union" "restriction") with false. cbn match.
      destruct (ti_data i) as [vs|].
      * apply dbind_inl in H2 as (e5 & rs & e6 & H2 & H3 & ->). apply ret_inl in H3 as [-> _]. rewrite app_nil_r.
        now apply (dmap_judged _ _ _ union_judged) in H2 as [-> _].
      * apply push_inl in H2 as (e5 & H2 & ->). now apply ret_inl in H2 as [-> _].
  - destruct (mode_of (items_in (ti_attrs i))) as [s|]; [contradiction|]. apply push_inl in H2 as (e5 & H2 & ->). now apply ret_inl in H2 as [-> _].
Qed.

(** ** The entry points *)

Lemma push_all_some es : forall l, push_all es (Some l) = inl (Some (l ++ es)).
Proof.
  induction es as [|e es IH]; intros l; cbn [push_all errors_push]; [now rewrite app_nil_r|]. now rewrite IH, <- app_assoc.
Qed.

Lemma entry_ok {I A} (i : I) (f : I -> der (option A)) es out : f i = inl (es, out) -> derive_entry (Some i) f = Expanded es out.
Proof. intros H. unfold derive_entry, with_errors, errors_new. rewrite H, push_all_some. reflexivity. Qed.
Lemma entry_panic {I A} (i : I) (f : I -> der (option A)) x : f i = inr x -> derive_entry (Some i) f = Panicked x.
Proof. intros H. unfold derive_entry, with_errors. now rewrite H. Qed.

(** What a macro comes to when syn parses its input. *)
Lemma entry_iff {I A} (i : I) (f : I -> der (option A)) es out : derive_entry (Some i) f = Expanded es out <-> f i = inl (es, out).
Proof.
  split; [|apply entry_ok]. destruct (f i) as [[es' out']|x] eqn:E.
  - rewrite (entry_ok _ _ _ _ E). now intros [= -> ->].
  - rewrite (entry_panic _ _ _ E). discriminate.
Qed.
Lemma entry_panic_iff {I A} (i : I) (f : I -> der (option A)) x : derive_entry (Some i) f = Panicked x <-> f i = inr x.
Proof.
  split; [|apply entry_panic]. destruct (f i) as [[es' out']|y] eqn:E.
  - rewrite (entry_ok _ _ _ _ E). discriminate.
  - rewrite (entry_panic _ _ _ E). now intros [= ->].
Qed.

(** A single text field: the deserializer's [todo!]. *)
Definition one_text (i : sinput) : bool :=
  match si_data i with SStruct (FNamed fs) => Nat.eqb 1 (List.length (filter text_field fs)) | _ => false end.

Lemma existsb_filter {A} (p : A -> bool) l : existsb p l = negb (Nat.eqb 0 (List.length (filter p l))).
Proof. induction l as [|x l IH]; [reflexivity|]. cbn. now destruct (p x). Qed.

Lemma serialize_text i es d : derive_serialize i = inl (es, d) ->
  one_text i = match d with Some (EDStruct s) => existsb is_etext (es_fields s) | _ => false end.
Proof.
  unfold derive_serialize, one_text. destruct i as [ident attrs data]. cbn [si_data si_ident si_attrs]. destruct data as [fs|vs|].
  - intros H. apply dbind_inl in H as (e1 & s & e2 & H & H2 & ->). apply ret_inl in H2 as [-> ->].
    unfold element_struct in H. apply dbind_inl in H as (e3 & a & e4 & H1 & H2 & ->). apply element_attr_judged in H1 as [-> HM].
    destruct fs as [l|l|].
    + apply dbind_inl in H2 as (e5 & l' & e6 & H2 & H3 & ->).
      apply (dmap_judged _ _ _ (element_field_judged _ _ HM)) in H2 as [-> H2]. apply text_count in H2.
      destruct (Nat.leb_spec 2 (List.length (filter is_etext (somes l')))) as [L|L].
      * apply push_inl in H3 as (e7 & H3 & ->). apply ret_inl in H3 as [_ ->]. cbn [option_map]. apply PeanoNat.Nat.eqb_neq. lia.
      * apply ret_inl in H3 as [_ ->]. cbn [option_map es_fields]. rewrite existsb_filter, H2.
        destruct (List.length (filter text_field l)) as [|[|n]] eqn:EL; [reflexivity|reflexivity|lia].
    + apply push_inl in H2 as (e7 & H3 & ->). now apply ret_inl in H3 as [_ ->].
    + apply push_inl in H2 as (e7 & H3 & ->). now apply ret_inl in H3 as [_ ->].
  - intros H. apply dbind_inl in H as (e1 & s & e2 & H & H2 & ->). now apply ret_inl in H2 as [_ ->].
  - rewrite push_inl. intros (e2 & H & ->). now apply ret_inl in H as [_ ->].
Qed.

Definition todo_text : abort := Panic "not yet implemented: text fields unimplemented".

Lemma deserialize_spec i :
  (forall es d, derive_serialize i = inl (es, d) -> one_text i = false -> derive_deserialize i = inl (es, d)) /\
  (forall es d, derive_serialize i = inl (es, d) -> one_text i = true -> derive_deserialize i = inr todo_text) /\
  (forall x, derive_serialize i = inr x -> derive_deserialize i = inr x).
Proof.
  unfold derive_deserialize. split; [|split].
  - intros es d H HT. rewrite (serialize_text _ _ _ H) in HT. rewrite H. cbn [dbind].
    destruct d as [[s|e]|]; [rewrite HT|..]; cbn; now rewrite app_nil_r.
  - intros es d H HT. rewrite (serialize_text _ _ _ H) in HT. rewrite H. cbn [dbind].
    destruct d as [[s|e]|]; [rewrite HT|..]; try discriminate. reflexivity.
  - intros x H. now rewrite H.
Qed.

Theorem serialize_reports i :
  (panics_on (items_in (si_attrs i)) /\ si_data i <> SUnion -> macro_serialize (Some i) = Panicked todo_namespace) /\
  (~ panics_on (items_in (si_attrs i)) \/ si_data i = SUnion ->
    exists code, macro_serialize (Some i) = Expanded (input_errors i) code).
Proof.
  split.
  - intros [H1 H2]. apply entry_panic, derive_panic. auto.
  - intros H. unfold macro_serialize. destruct (derive_serialize i) as [[es d]|x] eqn:E.
    + exists d. pose proof (serialize_judged _ _ _ E) as ->. now apply entry_ok.
    + apply derive_panic in E as (H1 & H2 & _). destruct H; contradiction.
Qed.

Theorem deserialize_reports i :
  (panics_on (items_in (si_attrs i)) /\ si_data i <> SUnion -> macro_deserialize (Some i) = Panicked todo_namespace) /\
  (~ panics_on (items_in (si_attrs i)) -> one_text i = true -> macro_deserialize (Some i) = Panicked todo_text) /\
  (~ panics_on (items_in (si_attrs i)) \/ si_data i = SUnion -> one_text i = false ->
    exists code, macro_deserialize (Some i) = Expanded (input_errors i) code).
Proof.
  destruct (deserialize_spec i) as (D1 & D2 & D3). split; [|split].
  - intros [H1 H2]. apply entry_panic, D3, derive_panic. auto.
  - intros H HT. destruct (derive_serialize i) as [[es d]|x] eqn:E.
    + apply entry_panic. eapply D2; eauto.
    + apply derive_panic in E as (H1 & H2 & _). contradiction.
  - intros H HT. unfold macro_deserialize. destruct (derive_serialize i) as [[es d]|x] eqn:E.
    + exists d. pose proof (serialize_judged _ _ _ E) as ->. apply entry_ok. now apply D1.
    + apply derive_panic in E as (H1 & H2 & _). destruct H; contradiction.
Qed.

Theorem text_reports i : exists code, macro_parse_text (Some i) = Expanded (text_errors i) code /\
  macro_to_text (Some i) = Expanded (text_errors i) code.
Proof.
  destruct (derive_text i) as [[es d]|x] eqn:E; [|now apply derive_text_calm in E].
  exists d. pose proof (text_type_judged _ _ _ E) as ->. split; now apply entry_ok.
Qed.

(** A type is accepted exactly if there are no errors (and no panic). *)
Theorem serialize_accepted i d : accepted (derive_serialize i) = Some d -> input_errors i = [].
Proof.
  unfold accepted. destruct (derive_serialize i) as [[[|e es] [d'|]]|x] eqn:E; try discriminate. intros _.
  now apply serialize_judged in E.
Qed.

Theorem not_parsed {I A} (f : I -> der (option A)) :
  derive_entry None f = Panicked (Panic "Errors dropped without take_compile_errors call").
Proof. reflexivity. Qed.

Theorem entry_spec {I A} (i : I) (f : I -> der (option A)) :
  (forall errs code, derive_entry (Some i) f = Expanded errs code <-> f i = inl (errs, code)) /\
  (forall x, derive_entry (Some i) f = Panicked x <-> f i = inr x) /\
  derive_entry (Some i) f <> Killed /\ derive_entry (Some i) f <> NotParsed.
Proof.
  split; [intros; apply entry_iff|]. split; [intros; apply entry_panic_iff|].
  destruct (f i) as [[es d]|x] eqn:E; [rewrite (entry_ok _ _ _ _ E)|rewrite (entry_panic _ _ _ E)]; split; discriminate.
Qed.

Theorem unparsable {I A} (f : I -> der (option A)) :
  derive_entry None f <> NotParsed /\
  derive_entry None f = Panicked (Panic "Errors dropped without take_compile_errors call").
Proof. split; [discriminate|reflexivity]. Qed.

Theorem serialize_code i code : macro_serialize (Some i) = Expanded [] code <-> exists d, code = Some d /\ input_means i d.
Proof. unfold macro_serialize. rewrite entry_iff. apply derive_serialize_ok. Qed.
Theorem text_code i code : macro_parse_text (Some i) = Expanded [] code <-> exists t, code = Some t /\ text_input_means i t.
Proof. unfold macro_parse_text. rewrite entry_iff. apply derive_text_ok. Qed.

Theorem field_reported i fs1 sf fs2 errs code : si_data i = SStruct (FNamed (fs1 ++ sf :: fs2)) ->
  macro_serialize (Some i) = Expanded errs code ->
  exists a b, errs = a ++ field_errors (offers (items_in (si_attrs i))) sf ++ b /\
    forall sf', exists b', macro_serialize (Some (SInput (si_ident i) (si_attrs i) (SStruct (FNamed (fs1 ++ sf' :: fs2))))) =
      Expanded (a ++ field_errors (offers (items_in (si_attrs i))) sf' ++ fst b') (snd b').
Proof.
  intros HD H. assert (NP : ~ panics_on (items_in (si_attrs i))).
  { intros X. rewrite (proj1 (serialize_reports i)) in H; [discriminate|]. split; auto. rewrite HD. discriminate. }
  set (decls := offers (items_in (si_attrs i))).
  assert (R : forall j, si_attrs j = si_attrs i -> forall x, si_data j = SStruct (FNamed (fs1 ++ x :: fs2)) ->
    exists b code, macro_serialize (Some j) = Expanded ((type_errors (si_attrs i) ++ flat_map (field_errors decls) fs1) ++
      field_errors decls x ++ b) code).
  { intros j EA x EJ. destruct (proj2 (serialize_reports j)) as (c & E); [left; now rewrite EA|]. rewrite E.
    unfold input_errors. rewrite EJ, EA, flat_map_app. cbn [flat_map]. fold decls.
    do 2 eexists. rewrite <- !app_assoc. reflexivity. }
  destruct (R i eq_refl _ HD) as (b & c & E). rewrite E in H. injection H as <- _.
  exists (type_errors (si_attrs i) ++ flat_map (field_errors decls) fs1), b. split; [reflexivity|].
  intros sf'. destruct (R (SInput (si_ident i) (si_attrs i) (SStruct (FNamed (fs1 ++ sf' :: fs2)))) eq_refl sf' eq_refl) as (b' & c' & E').
  exists (b', c'). exact E'.
Qed.
