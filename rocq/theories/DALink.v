(** Corollaries about rejected declarations, and programs given by their source. *)
From Verif Require Import Base Normalize Text Find FindProofs Types BMap Ser SerSpec NsSpec DeriveSer DSerSpec
  DSerProps Reader ReaderSpec DeSpec DeriveDe DeProps RTSpec RTProps DeriveAttr DASpec DAProofs DAType DAProps.
From Coq Require Import Lia.

(** The macro reports an error or panics: rustc does not compile the program. *)
Definition rejected {A} (m : der A) : Prop := forall r, m <> inl ([], r).

(** Neither derivation compiles. *)
Definition not_derived (i : sinput) : Prop := rejected (derive_serialize i) /\ rejected (derive_deserialize i).

Lemma rejected_iff i : rejected (derive_serialize i) <-> ~ exists d, input_means i d.
Proof.
  split.
  - intros H (d & Hd). apply (H (Some d)). apply derive_serialize_ok. eauto.
  - intros H r E. apply derive_serialize_ok in E as (d & _ & Hd). eauto.
Qed.

Lemma not_derived_intro i : (forall d, ~ input_means i d) -> not_derived i.
Proof.
  intros H. split; intros r E.
  - apply derive_serialize_ok in E as (d & _ & Hd). now apply (H d).
  - apply derive_deserialize_ok in E as (d & _ & Hd & _). now apply (H d).
Qed.

Lemma declarations_functional l ds ds' : declarations l ds -> declarations l ds' -> ds = ds'.
Proof.
  intros H. revert ds'. induction H as [|s l d ds Hs _ IH|s l ds _ IH|k v l ds Hk _ IH]; intros ds' H'.
  - now inversion H'.
  - inversion H' as [|s1 l1 d1 ds1 Hs1 Hl1|s1 l1 ds1 Hl1|k1 v1 l1 ds1 Hk1 Hl1]; subst; [|destruct Hk1 as [[=]|[=]]].
    rewrite (IH _ Hl1). f_equal. eapply namespace_functional; eauto.
  - inversion H' as [|s1 l1 d1 ds1 Hs1 Hl1|s1 l1 ds1 Hl1|k1 v1 l1 ds1 Hk1 Hl1]; subst; [|destruct Hk1 as [[=]|[=]]].
    now rewrite (IH _ Hl1).
  - inversion H' as [|s1 l1 d1 ds1 Hs1 Hl1|s1 l1 ds1 Hl1|k1 v1 l1 ds1 Hk1 Hl1]; subst; auto; destruct Hk as [[=]|[=]].
Qed.

(** ** Fields *)

(** The fields of a struct (with the mappings the struct declares). *)
Definition has_field (i : sinput) (f : sfield) : Prop := exists fs, si_data i = SStruct (FNamed fs) /\ In f fs.
Definition has_variant (i : sinput) (v : svariant (fkind * ety)) : Prop := exists vs, si_data i = SEnum vs /\ In v vs.
Definition declares (i : sinput) (decls : list (string * string)) : Prop := declarations (items_in (si_attrs i)) decls.

Lemma means_field i d f : input_means i d -> has_field i f ->
  exists s decls ef, d = EDStruct s /\ declares i decls /\ field_means decls f ef /\ In ef (es_fields s).
Proof.
  intros H (fs & E & HI). destruct H as [fs' decls attr efs E' HT HF _|vs decls attr evs E' HT HV]; rewrite E in E'; [|discriminate].
  injection E' as <-. destruct HT as [ps nm nss _ _ HD _ _ _ _ _].
  assert (exists ef, In ef efs /\ field_means decls f ef) as (ef & H1 & H2).
  { clear - HF HI. induction HF as [|a b l l' Hab _ IH]; [destruct HI|]. destruct HI as [->|HI].
    - exists b. split; [now left|assumption].
    - destruct (IH HI) as (ef & H1 & H2). exists ef. split; [now right|assumption]. }
  eexists _, decls, ef. split; [reflexivity|]. auto.
Qed.

Lemma means_variant i d v : input_means i d -> has_variant i v ->
  exists e decls ev, d = EDEnum e /\ declares i decls /\ variant_means decls v ev /\
    (forall x, ev = Some x -> In x (ee_variants e)).
Proof.
  intros H (vs & E & HI). destruct H as [fs' decls attr efs E' HT HF _|vs' decls attr evs E' HT HV]; rewrite E in E'; [discriminate|].
  injection E' as <-. destruct HT as [ps nm nss _ _ HD _ _ _ _ _].
  assert (exists ev, variant_means decls v ev /\ forall x, ev = Some x -> In x (somes evs)) as (ev & H1 & H2).
  { clear - HV HI. induction HV as [|a b l l' Hab _ IH]; [destruct HI|]. destruct HI as [->|HI].
    - exists b. split; [assumption|]. intros x ->. now left.
    - destruct (IH HI) as (ev & H1 & H2). exists ev. split; [assumption|]. intros x Hx. destruct b; cbn [somes]; auto. now right; auto. }
  eexists _, decls, ev. split; [reflexivity|]. auto.
Qed.

Lemma means_type i d : input_means i d -> exists decls attr, type_attrs (si_ident i) (si_attrs i) decls attr /\
  attr = match d with EDStruct s => es_attr s | EDEnum e => ee_attr e end.
Proof. intros []; eauto. Qed.

(** Where a prefix is used: by a field, by a variant (before any [skip]), or by the type, for which the
    last one counts. *)
Definition unskipped (l : list item) : Prop := ~ In (flag "skip") l.

Definition uses_prefix (i : sinput) (p : string) : Prop := exists s, p = str_trim s /\
  ((exists f, has_field i f /\ In s (values "prefix" (items_in (sf_attrs f)))) \/
   (exists v, has_variant i v /\ unskipped (items_in (sv_attrs v)) /\ In s (values "prefix" (items_in (sv_attrs v)))) \/
   (exists l, literals "prefix" (items_in (si_attrs i)) = l ++ [LStr s])).

(** What a prefix can refer to. *)
Definition known_prefix (i : sinput) (p : string) : Prop :=
  p = ""%string \/ p = "xml"%string \/ forall decls, declares i decls -> exists u, In (p, u) decls.

Lemma names_in decls local ps nm s : names decls local ps nm -> In s ps -> exists ns, prefix_means decls (str_trim s) ns.
Proof. intros []; [intros []|]. intros [<-|[]]. eauto. Qed.

Lemma prefix_known i decls p ns : declares i decls -> prefix_means decls p ns -> known_prefix i p.
Proof.
  intros HD H. destruct H as [p u HI|_|_]; [|right; now left|now left]. right. right. intros decls' HD'.
  rewrite <- (declarations_functional _ _ _ HD HD'). eauto.
Qed.

Theorem prefixes_known i d p : input_means i d -> uses_prefix i p -> known_prefix i p.
Proof.
  intros H (s & -> & [(f & Hf & Hs)|[(v & Hv & HU & Hs)|(l & Hl)]]).
  - destruct (means_field _ _ _ H Hf) as (st & decls & ef & _ & HD & HF & _). destruct HF as [mode nm _ _ _ HN].
    destruct (names_in _ _ _ _ _ HN Hs) as (ns & Hns). eapply prefix_known; eauto.
  - destruct (means_variant _ _ _ H Hv) as (st & decls & ev & _ & HD & HF & _).
    destruct HF as [l1 l2 nm _ E _ _|nm ty _ _ HN _].
    + exfalso. apply HU. rewrite E. apply in_or_app. right. now left.
    + destruct (names_in _ _ _ _ _ HN Hs) as (ns & Hns). eapply prefix_known; eauto.
  - destruct (means_type _ _ H) as (decls & attr & HT & _). destruct HT as [ps nm nss _ _ HD _ HL HN _ _].
    unfold last_prefix in HL. rewrite Hl, rev_app_distr in HL. cbn [rev app] in HL. destruct HL as (s' & [= <-] & ->).
    destruct (names_in _ _ _ _ s HN (or_introl eq_refl)) as (ns & Hns). eapply prefix_known; eauto.
Qed.

Theorem undeclared_rejected i p : uses_prefix i p -> ~ known_prefix i p -> not_derived i.
Proof. intros H HN. apply not_derived_intro. intros d Hd. apply HN. eapply prefixes_known; eauto. Qed.

(** Two prefixes on a field or variant. *)
Theorem two_prefixes_rejected i l : 
  (exists f, has_field i f /\ l = items_in (sf_attrs f)) \/
  (exists v, has_variant i v /\ l = items_in (sv_attrs v) /\ unskipped l) ->
  2 <= List.length (values "prefix" l) -> not_derived i.
Proof.
  intros HL H2. apply not_derived_intro. intros d H.
  assert (NO : forall decls local nm, ~ names decls local (values "prefix" l) nm).
  { intros decls local nm HN. inversion HN as [E|s ns _ E]; rewrite <- E in H2; cbn in H2; lia. }
  destruct HL as [(f & Hf & ->)|(v & Hv & -> & HU)].
  - destruct (means_field _ _ _ H Hf) as (st & decls & ef & _ & HD & HF & _). destruct HF as [mode nm _ _ _ HN]. now apply NO in HN.
  - destruct (means_variant _ _ _ H Hv) as (st & decls & ev & _ & HD & HF & _).
    destruct HF as [l1 l2 nm _ E _ _|nm ty _ _ HN _]; [|now apply NO in HN].
    apply HU. rewrite E. apply in_or_app. right. now left.
Qed.

(** A prefix is declared twice. *)
Theorem redeclared_rejected i decls : declares i decls -> ~ NoDup (map fst decls) -> not_derived i.
Proof.
  intros HD HN. apply not_derived_intro. intros d H. destruct (means_type _ _ H) as (decls' & attr & HT & _).
  destruct HT as [ps nm nss _ _ HD' HND _ _ _ _]. apply HN. now rewrite (declarations_functional _ _ _ HD HD').
Qed.

(** Items. *)
Definition understood (flags keys : list string) (it : item) : Prop :=
  match it with
  | IPath (Some k) => In k flags
  | INameValue (Some k) (LStr _) => In k keys
  | _ => False
  end.

Lemma value_understood flags keys key it : is_value key it -> In key keys -> understood flags keys it.
Proof. intros [s ->] H. exact H. Qed.

Theorem field_items_understood i d f it : input_means i d -> has_field i f -> In it (items_in (sf_attrs f)) ->
  understood ["attribute"; "default"; "flatten"; "text"]%string ["rename"; "prefix"]%string it.
Proof.
  intros H Hf HI. destruct (means_field _ _ _ H Hf) as (st & decls & ef & _ & _ & HF & _). destruct HF as [mode nm _ HA _ _].
  rewrite Forall_forall in HA. destruct (HA it HI) as [HF|[HF|HF]].
  - cbn [In] in HF. destruct HF as [<-|[<-|[<-|[<-|[]]]]]; cbn; auto.
  - eapply value_understood; [exact HF|cbn; auto].
  - eapply value_understood; [exact HF|cbn; auto].
Qed.

Theorem variant_items_understood i d v it : input_means i d -> has_variant i v -> unskipped (items_in (sv_attrs v)) ->
  In it (items_in (sv_attrs v)) -> understood [] ["rename"; "prefix"]%string it.
Proof.
  intros H Hv HU HI. destruct (means_variant _ _ _ H Hv) as (st & decls & ev & _ & HD & HF & _).
  destruct HF as [l1 l2 nm _ E _ _|nm ty _ HA HN _].
  - exfalso. apply HU. rewrite E. apply in_or_app. right. now left.
  - rewrite Forall_forall in HA. destruct (HA it HI) as [HF|HF]; eapply value_understood; try exact HF; cbn; auto.
Qed.

Theorem type_items_understood i d it : input_means i d -> In it (items_in (si_attrs i)) ->
  understood [] ["rename"; "namespace"; "default_namespace"; "prefix"]%string it \/
  it = INameValue (Some "prefix"%string) LOther.
Proof.
  intros H HI. destruct (means_type _ _ H) as (decls & attr & HT & _). destruct HT as [ps nm nss _ HA _ _ _ _ _ _].
  rewrite Forall_forall in HA. destruct (HA it HI) as [HF|[HF|[HF|[[s|] ->]]]].
  - left. eapply value_understood; [exact HF|cbn; auto].
  - left. eapply value_understood; [exact HF|cbn; auto].
  - left. eapply value_understood; [exact HF|cbn; auto].
  - left. cbn. auto.
  - now right.
Qed.

(** A field, a variant or the type has an item that it should not. *)
Definition misplaced_item (i : sinput) : Prop :=
  (exists f it, has_field i f /\ In it (items_in (sf_attrs f)) /\
     ~ understood ["attribute"; "default"; "flatten"; "text"]%string ["rename"; "prefix"]%string it) \/
  (exists v it, has_variant i v /\ unskipped (items_in (sv_attrs v)) /\ In it (items_in (sv_attrs v)) /\
     ~ understood [] ["rename"; "prefix"]%string it) \/
  (si_data i <> SUnion /\ exists it, In it (items_in (si_attrs i)) /\
     it <> INameValue (Some "prefix"%string) LOther /\
     ~ understood [] ["rename"; "namespace"; "default_namespace"; "prefix"]%string it).

Theorem misplaced_rejected i : misplaced_item i -> not_derived i.
Proof.
  intros HM. apply not_derived_intro. intros d H. destruct HM as [(f & it & Hf & HI & HN)|[(v & it & Hv & HU & HI & HN)|(_ & it & HI & HL & HN)]].
  - apply HN. eapply field_items_understood; eauto.
  - apply HN. eapply variant_items_understood; eauto.
  - destruct (type_items_understood _ _ _ H HI); auto.
Qed.

(** Field modes. *)
Definition mode_flags : list string := ["attribute"; "flatten"; "text"]%string.

Theorem exclusive_rejected i f a b : has_field i f -> In a mode_flags -> In b mode_flags -> a <> b ->
  In (flag a) (items_in (sf_attrs f)) -> In (flag b) (items_in (sf_attrs f)) -> not_derived i.
Proof.
  intros Hf Ha Hb N HA HB. apply not_derived_intro. intros d H.
  destruct (means_field _ _ _ H Hf) as (st & decls & ef & _ & _ & HF & _). destruct HF as [mode nm _ _ HM _].
  cbn in Ha, Hb. destruct Ha as [<-|[<-|[<-|[]]]]; destruct Hb as [<-|[<-|[<-|[]]]]; try congruence; destruct HM; contradiction.
Qed.

Theorem default_flatten_rejected i f : has_field i f ->
  In (flag "default") (items_in (sf_attrs f)) -> In (flag "flatten") (items_in (sf_attrs f)) -> not_derived i.
Proof.
  intros Hf HA HB. apply not_derived_intro. intros d H.
  destruct (means_field _ _ _ H Hf) as (st & decls & ef & _ & _ & HF & _). destruct HF as [mode nm _ _ HM _].
  destruct HM; contradiction.
Qed.

Lemma text_field_mode decls f ef : field_means decls f ef -> In (flag "text") (items_in (sf_attrs f)) -> is_etext ef = true.
Proof. intros [mode nm _ _ HM _] HI. destruct HM; try contradiction. reflexivity. Qed.

Theorem two_texts_rejected i f1 f2 l1 l2 l3 : si_data i = SStruct (FNamed (l1 ++ f1 :: l2 ++ f2 :: l3)) ->
  In (flag "text") (items_in (sf_attrs f1)) -> In (flag "text") (items_in (sf_attrs f2)) -> not_derived i.
Proof.
  intros E H1 H2. apply not_derived_intro. intros d H.
  destruct H as [fs' decls attr efs E' HT HF HL|vs decls attr evs E' HT HV]; rewrite E in E'; [|discriminate].
  injection E' as <-. apply Forall2_app_inv_l in HF as (e1 & er & _ & HF & ->). inversion HF as [|? ef1 ? er' HF1 HF']; subst.
  apply Forall2_app_inv_l in HF' as (e2 & er & _ & HF' & ->). inversion HF' as [|? ef2 ? er'' HF2 _]; subst.
  apply text_field_mode in HF1; auto. apply text_field_mode in HF2; auto.
  rewrite filter_app in HL. cbn [filter] in HL. rewrite HF1 in HL. rewrite filter_app in HL. cbn [filter] in HL. rewrite HF2 in HL.
  rewrite app_length in HL. cbn [List.length] in HL. rewrite app_length in HL. cbn [List.length] in HL. lia.
Qed.

(** Deserialization with text fields. *)
Theorem text_not_deserialized i f : has_field i f -> In (flag "text") (items_in (sf_attrs f)) ->
  rejected (derive_deserialize i).
Proof.
  intros Hf HI r E. apply derive_deserialize_ok in E as (d & _ & H & HT).
  destruct (means_field _ _ _ H Hf) as (s & decls & ef & -> & _ & HF & Hin).
  apply text_field_mode in HF; auto. cbn in HT. rewrite Forall_forall in HT. specialize (HT ef Hin).
  unfold is_etext in HF. destruct (ef_mode ef); congruence.
Qed.

(** Shapes of declarations that are not supported. *)
Theorem shape_rejected i :
  match si_data i with
  | SUnion | SStruct FUnit | SStruct (FUnnamed _) => True
  | SStruct (FNamed _) => False
  | SEnum vs => exists v, In v vs /\ unskipped (items_in (sv_attrs v)) /\ forall ty, ~ payload_is (sv_fields v) ty
  end -> not_derived i.
Proof.
  intros HS. apply not_derived_intro. intros d H. destruct (si_data i) as [[fs|fs|]|vs|] eqn:E; try contradiction.
  - destruct H; congruence.
  - destruct H; congruence.
  - destruct HS as (v & Hv & HU & HP). assert (has_variant i v) as HV by (exists vs; auto).
    destruct (means_variant _ _ _ H HV) as (st & decls & ev & _ & HD & HF & _).
    destruct HF as [l1 l2 nm _ E' _ _|nm ty _ _ _ HPA]; [|now apply HP in HPA].
    apply HU. rewrite E'. apply in_or_app. right. now left.
  - destruct H; congruence.
Qed.

(** ** Panics *)

Theorem panics_iff i x : derive_serialize i = inr x <->
  si_data i <> SUnion /\
  (exists s p u, In (INameValue (Some "namespace"%string) (LStr s)) (items_in (si_attrs i)) /\ first_colon s p u /\
     starts_with "xml" p = true /\ ~ (str_trim p = "xml"%string /\ str_trim u = XML_NS)) /\
  x = todo_namespace.
Proof.
  rewrite derive_panic. unfold panics_on, special_namespace. split.
  - intros (H1 & (s & H2 & p & u & H3 & H4 & H5) & H6). split; [assumption|]. split; [|assumption]. exists s, p, u. auto.
  - intros (H1 & (s & p & u & H2 & H3 & H4 & H5) & H6). split; [assumption|]. split; [|assumption].
    exists s. split; [assumption|]. exists p, u. auto.
Qed.

(** ** What the names mean *)

(** Namespaces of accepted names, by the source: without [prefix] there is none; with [prefix = "s"]
    it is what [s] means. *)
Definition name_ns (i : sinput) (ps : list string) (ns : option string) : Prop :=
  match ps with
  | [] => ns = None
  | [s] => exists decls, declares i decls /\ prefix_means decls (str_trim s) ns
  | _ => False
  end.

Lemma names_ns i decls local ps nm : declares i decls -> names decls local ps nm -> name_ns i ps (pn_ns nm) /\ pn_local nm = local.
Proof. intros HD []; cbn; eauto. Qed.

Theorem accepted_struct_names i r s : derive_serialize i = inl ([], r) -> r = Some (EDStruct s) ->
  exists fs, si_data i = SStruct (FNamed fs) /\
    Forall2 (fun f ef => ef_field ef = f /\
      pn_local (ef_name ef) = last (values "rename" (items_in (sf_attrs f))) (sf_ident f) /\
      name_ns i (values "prefix" (items_in (sf_attrs f))) (pn_ns (ef_name ef)) /\
      mode_is (items_in (sf_attrs f)) (ef_mode ef) /\
      (ef_default ef = true <-> In (flag "default") (items_in (sf_attrs f)))) fs (es_fields s).
Proof.
  intros E ->. apply derive_serialize_ok in E as (d & [= <-] & H).
  inversion H as [fs decls attr efs ED HT HF HL|]; subst. exists fs. split; [assumption|]. cbn.
  destruct HT as [ps nm nss _ _ HD _ _ _ _ _].
  assert (declares i decls) as HD' by exact HD. clear - HF HD'. induction HF as [|f ef fs efs Hf _ IH]; constructor; auto.
  destruct Hf as [mode nm _ _ HM HN]. destruct (names_ns _ _ _ _ _ HD' HN) as [H1 H2]. cbn.
  split; [reflexivity|]. split; [assumption|]. split; [assumption|]. split; [assumption|]. apply has_flag_In.
Qed.

Theorem accepted_enum_names i r e : derive_serialize i = inl ([], r) -> r = Some (EDEnum e) ->
  exists vs evs, si_data i = SEnum vs /\ ee_variants e = somes evs /\ ee_skipped e = existsb is_none evs /\
    Forall2 (fun v ev => match ev with
      | None => In (flag "skip") (items_in (sv_attrs v))
      | Some x => ~ In (flag "skip") (items_in (sv_attrs v)) /\ ev_ident x = sv_ident v /\
          pn_local (ev_name x) = last (values "rename" (items_in (sv_attrs v))) (sv_ident v) /\
          name_ns i (values "prefix" (items_in (sv_attrs v))) (pn_ns (ev_name x)) /\
          payload_is (sv_fields v) (ev_ty x)
      end) vs evs.
Proof.
  intros E ->. apply derive_serialize_ok in E as (d & [= <-] & H).
  inversion H as [|vs decls attr evs ED HT HV]; subst. exists vs, evs. split; [assumption|]. split; [reflexivity|]. split; [reflexivity|].
  destruct HT as [ps nm nss _ _ HD _ _ _ _ _].
  assert (declares i decls) as HD' by exact HD. clear - HV HD'. induction HV as [|v ev vs evs Hv _ IH]; constructor; auto.
  destruct Hv as [l1 l2 nm _ E _ _|nm ty _ HA HN HP].
  - rewrite E. apply in_or_app. right. now left.
  - destruct (names_ns _ _ _ _ _ HD' HN) as [H1 H2]. cbn.
    split; [|auto]. intros HI. rewrite Forall_forall in HA. destruct (HA _ HI) as [[s [=]]|[s [=]]].
Qed.

Theorem accepted_type_name i r d : derive_serialize i = inl ([], r) -> r = Some d ->
  let attr := match d with EDStruct s => es_attr s | EDEnum e => ee_attr e end in
  pn_local (ea_name attr) = last (values "rename" (items_in (si_attrs i))) (si_ident i) /\
  (exists ps, last_prefix (items_in (si_attrs i)) ps /\ name_ns i ps (pn_ns (ea_name attr))) /\
  exists decls, declares i decls /\ NoDup (map fst decls) /\ forall p u, bm_get p (ea_nss attr) = Some u <-> In (p, u) decls.
Proof.
  intros E ->. apply derive_serialize_ok in E as (d' & [= <-] & H).
  destruct (means_type _ _ H) as (decls & attr & HT & EA). cbn zeta. rewrite <- EA.
  destruct HT as [ps nm nss _ _ HD HND HL HN HS HG]. cbn.
  destruct (names_ns i _ _ _ _ HD HN) as [H1 H2]. split; [assumption|]. split; [eauto|]. exists decls. auto.
Qed.

(** ** Programs *)

(** The declarations of a program, by type. *)
Definition program := nat -> option sinput.
Definition env_of (prog : program) : tenv := fun id => match prog id with Some i => declaration i | None => None end.

Lemma declaration_means i d : declaration i = Some d -> exists e, input_means i e /\ textless e /\ tdesc_of e = Some d.
Proof.
  unfold declaration, accepted. destruct (derive_deserialize i) as [[[|] [e|]]|] eqn:E; try discriminate.
  intros H. apply derive_deserialize_ok in E as (d' & [= <-] & H1 & H2). eauto.
Qed.

Lemma all_somes_map {A} (l : list (option A)) r : all_somes l = Some r -> l = map Some r.
Proof.
  revert r. induction l as [|[x|] l IH]; intros r H; cbn in H; [now injection H as <-| |discriminate].
  destruct (all_somes l) as [r'|]; [|discriminate]. injection H as <-. cbn. now rewrite (IH r' eq_refl).
Qed.

Lemma field_of_name ef f : field_of ef = Some f -> f_name f = dname_of (ef_name ef).
Proof.
  unfold field_of. destruct (match ef_mode ef with EElement => _ | _ => _ end) as [mode|]; [|discriminate].
  destruct (if ef_default ef then _ else _) as [dflt|]; [|discriminate]. now intros [= <-].
Qed.

Lemma names_are_declared decls local ps nm nss :
  names decls local ps nm -> (forall p u, bm_get p nss = Some u <-> In (p, u) decls) ->
  xn_ns (expanded (dname_of nm)) = ""%string \/ xn_ns (expanded (dname_of nm)) = XML_NS \/
  exists p, In (p, xn_ns (expanded (dname_of nm))) nss.
Proof.
  intros HN HG. destruct HN as [|s ns HP]; [now left|]. unfold dname_of, expanded. cbn.
  destruct HP as [p u HI|_|_]; cbn; auto. right. right. exists p. apply bm_get_In. now apply HG.
Qed.

Lemma fields_declared decls nss fs efs fields d : td_nss d = nss ->
  (forall p u, bm_get p nss = Some u <-> In (p, u) decls) ->
  Forall2 (field_means decls) fs efs -> all_somes (map field_of efs) = Some fields ->
  Forall (fun f => declared d (expanded (f_name f))) fields.
Proof.
  intros EN HG HF HA. apply all_somes_map in HA. revert fields HA.
  induction HF as [|f ef fs efs Hf _ IH]; intros [|x fields] HA; try discriminate; constructor.
  - cbn in HA. injection HA as HX HA. rewrite (field_of_name _ _ HX). destruct Hf as [mode nm _ _ _ HN]. cbn.
    unfold declared. rewrite EN. eapply names_are_declared; eauto.
  - apply IH. cbn in HA. now injection HA.
Qed.

Lemma somes_In {A} (l : list (option A)) x : In x (somes l) -> In (Some x) l.
Proof. induction l as [|[y|] l IH]; cbn; [tauto| |]; intros H; [destruct H as [->|H]; auto|auto]. Qed.

Lemma Forall2_in_r {A B} (P : A -> B -> Prop) l l' : Forall2 P l l' -> forall y, In y l' -> exists x, In x l /\ P x y.
Proof.
  induction 1 as [|a b l l' Hab _ IH]; intros y HI; [destruct HI|]. destruct HI as [->|HI]; [exists a; split; [now left|assumption]|].
  destruct (IH y HI) as (x & H1 & H2). exists x. split; [now right|assumption].
Qed.

Theorem accepted_declared i d : declaration i = Some d ->
  Forall (declared d) (expanded (td_root d) :: elem_names d ++ attr_names d).
Proof.
  intros H. apply declaration_means in H as (e & H & _ & HE).
  destruct H as [fs decls attr efs ED HT HF HL|vs decls attr evs ED HT HV]; cbn [tdesc_of] in HE;
    destruct HT as [ps nm nss _ _ _ _ _ HN _ HG]; cbn [ea_name ea_nss es_attr es_ident es_fields ee_attr ee_ident ee_variants ee_skipped] in HE.
  - destruct (all_somes (map field_of efs)) as [fields|] eqn:EA; [|discriminate]. injection HE as <-.
    constructor; [eapply names_are_declared; eauto|].
    pose proof (fields_declared decls nss fs efs fields (TDStruct (si_ident i) (dname_of nm) nss fields) eq_refl HG HF EA) as HA.
    rewrite Forall_forall in HA. apply Forall_forall. intros n Hn. apply in_app_or in Hn as [Hn|Hn]; cbn in Hn;
      apply in_map_iff in Hn as (f & <- & Hf); apply filter_In in Hf as [Hf _]; auto.
  - injection HE as <-. constructor; [eapply names_are_declared; eauto|]. cbn. rewrite app_nil_r.
    apply Forall_forall. intros n Hn. apply in_map_iff in Hn as (w & <- & Hw). apply in_map_iff in Hw as (x & <- & Hx).
    apply somes_In in Hx. destruct (Forall2_in_r _ _ _ HV _ Hx) as (v & _ & Hv).
    inversion Hv as [|nm' ty _ _ HN' _ EX]; subst. cbn. unfold declared. cbn. eapply names_are_declared; eauto.
Qed.

Theorem program_declared prog : names_declared (env_of prog).
Proof.
  intros id d H. unfold env_of in H. destruct (prog id) as [i|]; [|discriminate]. now apply accepted_declared in H.
Qed.

(** The mappings a program declares. *)
Definition maps (prog : program) (p u : string) : Prop :=
  exists id i decls, prog id = Some i /\ declares i decls /\ In (p, u) decls.

Lemma env_maps prog id d p u : env_of prog id = Some d -> In (p, u) (td_nss d) -> maps prog p u.
Proof.
  unfold env_of. destruct (prog id) as [i|] eqn:E; [|discriminate]. intros H HI.
  apply declaration_means in H as (e & H & _ & HE). exists id, i.
  assert (exists decls attr, type_attrs (si_ident i) (si_attrs i) decls attr /\ td_nss d = ea_nss attr) as (decls & attr & HT & EN).
  { destruct H as [fs decls attr efs ED HT HF HL|vs decls attr evs ED HT HV]; exists decls, attr; (split; [assumption|]); cbn in HE.
    - destruct (all_somes (map field_of efs)); [|discriminate]. now injection HE as <-.
    - now injection HE as <-. }
  exists decls. split; [assumption|]. destruct HT as [ps nm nss _ _ HD _ _ _ HS HG]. split; [exact HD|]. cbn in EN. rewrite EN in HI.
  apply HG. apply In_bm_get; [now apply sorted_NoDup|assumption].
Qed.

(** Sources without special prefixes, and either without default namespaces or with all element names
    in some namespace. *)
Definition conventional (prog : program) : Prop :=
  (forall p u, maps prog p u -> starts_with "xml" p = false /\ ~ (p = ""%string /\ u = XML_NS)) /\
  ((forall u, ~ maps prog "" u) \/
   (forall id d n, env_of prog id = Some d -> In n (expanded (td_root d) :: elem_names d) -> xn_ns n <> ""%string)).

Lemma conventional_no_default prog : conventional prog -> no_default (env_of prog).
Proof.
  intros [_ [HC|HC]]; [left|right; exact HC]. intros id' d u HE HI. exact (HC _ (env_maps _ _ _ _ _ HE HI)).
Qed.

Theorem program_no_panic prog o dbg w id v : conventional prog -> typed o (env_of prog) (ERef id) v ->
  exists r k, serialize_root o (env_of prog) dbg w id v = inl (r, k).
Proof.
  intros HC HT. apply root_no_panic; auto using program_declared, conventional_no_default.
  intros id' d p u HE HI. exact (proj1 HC p u (env_maps _ _ _ _ _ HE HI)).
Qed.

(** Sources that moreover declare legal URLs, the same for the same prefix. *)
Definition consistent (prog : program) : Prop :=
  (forall p u, maps prog p u -> u <> ""%string /\ u <> XML_NS /\ u <> "http://www.w3.org/2000/xmlns/"%string) /\
  (exists f : string -> string, (forall p u, maps prog p u -> f p = u) /\
     (forall u id d n, maps prog "" u -> env_of prog id = Some d -> In n (attr_names d) -> xn_ns n = u ->
        f "ns1"%string = u)).

Lemma program_legal prog : conventional prog -> consistent prog -> legal_env (env_of prog).
Proof.
  intros HC [HL _] id d p u HE HI. pose proof (env_maps _ _ _ _ _ HE HI) as HM. destruct (proj1 HC p u HM) as [HX _].
  destruct (HL p u HM) as (H1 & H2 & H3). split; [assumption|]. split; [assumption|]. split; assumption.
Qed.
Lemma program_coherent prog : consistent prog -> coherent_env (env_of prog).
Proof.
  intros [_ (f & Hf & Hg)]. exists f. split.
  - intros id d p u HE HI. apply Hf. eapply env_maps; eauto.
  - intros id d u id' d' n HE HI HE' HI' HN. eapply Hg; eauto using env_maps.
Qed.

(** A program whose types refer to types of the program, flattened ones being enums, and whose names
    do not clash: values of lossless types come back. *)
Theorem program_round_trip prog o alg dbg id v pol :
  conventional prog -> consistent prog ->
  compiles (env_of prog) -> names_ok (env_of prog) -> lossless_env o (env_of prog) -> typed o (env_of prog) (ERef id) v ->
  exists k t, serialize_root o (env_of prog) dbg (fun _ => None) id v = inl (None, k) /\
    meaning [] (emit pol [] (k_out k)) = Some (tree_events t) /\
    shows t (render t) /\
    forall d, shows t (d_root d) -> forall dbg' pe,
      read_as o alg (env_of prog) dbg' (ERef id) (doc_events d) (FEndDocument pe) = Ok v.
Proof.
  intros HC HS HP HN HL HT. eapply write_then_read; eauto using program_declared, program_legal, conventional_no_default, program_coherent.
Qed.

(** ** Descriptions *)

Lemma all_somes_Some {A} (r : list A) : all_somes (map Some r) = Some r.
Proof. induction r as [|x r IH]; cbn; [reflexivity|]. now rewrite IH. Qed.

Lemma has_flag_In k l : has_flag k l = true <-> In (flag k) l.
Proof.
  unfold has_flag. rewrite existsb_exists. split.
  - intros (x & HI & E). destruct x as [[k'|]| |]; try discriminate. apply String.eqb_eq in E as ->. exact HI.
  - intros HI. exists (flag k). split; [assumption|]. cbn. apply String.eqb_refl.
Qed.

Lemma field_of_fits ef f : ef_mode ef <> EText_ ->
  field_of ef = Some f <-> exists m d, f = Field (dname_of (ef_name ef)) m d /\ fits (ef_mode ef) (sf_ty (ef_field ef)) m /\
    if ef_default ef then exists v, sf_dflt (ef_field ef) = Some v /\ d = Some v else d = None.
Proof.
  intros NT. unfold field_of. split.
  - intros H. destruct (match ef_mode ef with EElement => _ | _ => _ end) as [m|] eqn:EM; [|discriminate].
    destruct (if ef_default ef then _ else _) as [d|] eqn:ED; [|discriminate]. injection H as <-.
    exists m, d. split; [reflexivity|]. split.
    + destruct (ef_mode ef), (sf_ty (ef_field ef)) as [[| |] [t|id]]; try discriminate; try injection EM as <-; try constructor;
        congruence.
    + destruct (ef_default ef); [|now injection ED].
      destruct (sf_dflt (ef_field ef)) as [v|]; [|discriminate]. injection ED as <-. eauto.
  - intros (m & d & -> & HF & HD).
    destruct HF; cbn; (destruct (ef_default ef); [destruct HD as (v & -> & ->)|subst d]; reflexivity).
Qed.

Lemma fields_described decls fs fields :
  (exists efs, Forall2 (field_means decls) fs efs /\ Forall (fun f => ef_mode f <> EText_) efs /\
     all_somes (map field_of efs) = Some fields) <-> Forall2 (field_described decls) fs fields.
Proof.
  split.
  - intros (efs & HF & HT & HA). apply all_somes_map in HA. revert fields HA.
    induction HF as [|sf ef fs efs Hf _ IH]; intros [|x fields] HA; try discriminate; constructor; inversion HT; subst.
    + cbn in HA. injection HA as HX _. apply field_of_fits in HX as (m & d & -> & HFit & HD); [|assumption].
      destruct Hf as [mode nm W1 W2 W3 W4]. cbn in *. econstructor; eauto.
      destruct (has_flag _ _) eqn:E.
      * destruct HD as (v & Hv & ->). constructor; [now apply has_flag_In|assumption].
      * subst d. constructor. intros X. apply has_flag_In in X. congruence.
    + apply IH; [assumption|]. cbn in HA. now injection HA.
  - induction 1 as [|sf f fs fields Hf _ (efs & H1 & H2 & H3)]; [exists []; repeat constructor|].
    destruct Hf as [mode nm m d W1 W2 W3 W4 W5 W6].
    exists (EField sf mode (has_flag "default" (items_in (sf_attrs sf))) nm :: efs).
    assert (NT : mode <> EText_) by (destruct W4; discriminate).
    split; [constructor; [now constructor|assumption]|]. split; [constructor; assumption|].
    cbn [map]. assert (X : field_of (EField sf mode (has_flag "default" (items_in (sf_attrs sf))) nm) = Some (Field (qualified nm) m d)).
    { apply field_of_fits; [assumption|]. exists m, d. split; [reflexivity|]. split; [assumption|]. cbn.
      destruct W5 as [W5|v W5 W7].
      - destruct (has_flag _ _) eqn:E; [|reflexivity]. apply has_flag_In in E. contradiction.
      - apply has_flag_In in W5. rewrite W5. eauto. }
    rewrite X. cbn. now rewrite H3.
Qed.

Lemma variants_are_described decls vs ws s :
  (exists evs, Forall2 (variant_means decls) vs evs /\ ws = map variant_of (somes evs) /\ s = existsb is_none evs) <->
  variants_described decls vs ws s.
Proof.
  split.
  - intros (evs & HF & -> & ->). induction HF as [|v [x|] vs evs Hv _ IH]; [constructor| |]; cbn.
    + now constructor.
    + now econstructor; eauto.
  - induction 1 as [|v vs ws s Hv _ (evs & H1 & -> & ->)|v vs ws s x Hv _ (evs & H1 & -> & ->)].
    + exists []. repeat constructor.
    + exists (None :: evs). split; [constructor; assumption|]. now split.
    + exists (Some x :: evs). split; [constructor; assumption|]. now split.
Qed.

Theorem declaration_described i td : declaration i = Some td <-> described i td.
Proof.
  unfold declaration, accepted. split.
  - destruct (derive_deserialize i) as [[[|] [e|]]|] eqn:E; try discriminate.
    apply derive_deserialize_ok in E as (d' & [= <-] & H1 & H2). intros HE.
    destruct H1 as [fs decls [nm nss] efs ED HT HF HL|vs decls [nm nss] evs ED HT HV];
      cbn [tdesc_of es_ident es_attr es_fields ea_name ea_nss ee_ident ee_attr ee_variants ee_skipped] in HE.
    + destruct (all_somes (map field_of efs)) as [fields|] eqn:EA; [|discriminate]. injection HE as <-.
      econstructor; eauto. apply fields_described. eauto.
    + injection HE as <-. econstructor; eauto. apply variants_are_described. eauto.
  - intros H. destruct H as [fs decls nm nss fields ED HT HF|vs decls nm nss ws s ED HT HV].
    + apply fields_described in HF as (efs & HF & HL & HA).
      assert (X : derive_deserialize i = inl ([], Some (EDStruct (EStruct (si_ident i) (EAttr nm nss) efs)))).
      { apply derive_deserialize_ok. eexists. split; [reflexivity|]. split; [|exact HL]. econstructor; eauto.
        clear - HL. enough (filter is_etext efs = []) as -> by (cbn; auto).
        induction HL as [|f efs Hf _ IH]; [reflexivity|]. cbn. unfold is_etext at 1. destruct (ef_mode f); congruence. }
      rewrite X. cbn. now rewrite HA.
    + apply variants_are_described in HV as (evs & HV & -> & ->).
      assert (X : derive_deserialize i = inl ([], Some (EDEnum (EEnum (si_ident i) (EAttr nm nss) (somes evs) (existsb is_none evs))))).
      { apply derive_deserialize_ok. eexists. split; [reflexivity|]. split; [|exact I]. econstructor; eauto. }
      rewrite X. reflexivity.
Qed.

(** A declaration has one description. *)
Lemma described_functional i d d' : described i d -> described i d' -> d = d'.
Proof. rewrite <- !declaration_described. congruence. Qed.
