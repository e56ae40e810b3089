(** Programs given by their source: the names written are those in the source. *)
From Verif Require Import Base Normalize NormalizeSpec NormalizeProofs Text Find BMap Types Ser DeriveSer DSerSpec DeriveAttr DASpec DAProofs DAType DATrim
  DAProps DALink DisplaySpec DisplayProofs NamesSpec Names NamesDerived.
From Coq Require Import Lia.

(** The local name that a type, field or variant gets: the last [rename], or else the identifier. *)
Definition local_name (ident : string) (attrs : list attribute) : string := last (values "rename" (items_in attrs)) ident.

Definition source_names_wf (prog : program) : Prop :=
  (forall id i, prog id = Some i -> ncname (local_name (si_ident i) (si_attrs i)) /\
     (forall f, has_field i f -> ncname (local_name (sf_ident f) (sf_attrs f))) /\
     (forall v, has_variant i v -> unskipped (items_in (sv_attrs v)) -> ncname (local_name (sv_ident v) (sv_attrs v)))) /\
  (forall p u, maps prog p u -> prefix_wf p /\ xml_text u).

Lemma names_local decls local ps nm : names decls local ps nm -> n_local (qualified nm) = local.
Proof. now intros []. Qed.

Lemma type_local ident attrs decls nm nss : type_attrs ident attrs decls (EAttr nm nss) ->
  n_local (qualified nm) = local_name ident attrs.
Proof. intros H. inversion H as [ps nm' nss' _ _ _ _ _ HN]; subst. apply names_local in HN. exact HN. Qed.

Theorem source_wf prog : source_names_wf prog -> names_wf (env_of prog).
Proof.
  intros [HP HM] id d H. pose proof (fun p u HI => HM p u (env_maps prog id d p u H HI)) as HN.
  unfold env_of in H. destruct (prog id) as [i|] eqn:E; [|discriminate]. apply declaration_described in H.
  destruct (HP id i E) as (H1 & H2 & H3). destruct H as [fs decls nm nss fields ED HT HF|vs decls nm nss ws s ED HT HV]; cbn in *.
  - split; [change (ncname (n_local (qualified nm))); rewrite (type_local _ _ _ _ _ HT); exact H1|]. split; [exact HN|]. intros f Hf.
    destruct (Forall2_in_r _ _ _ HF f Hf) as (sf & Hsf & D). destruct D as [mode nm' m dv _ _ _ _ _ HL].
    cbn [f_name]. rewrite (names_local _ _ _ _ HL). apply H2. now exists fs.
  - split; [change (ncname (n_local (qualified nm))); rewrite (type_local _ _ _ _ _ HT); exact H1|]. split; [exact HN|].
    assert (HI : forall v, In v vs -> has_variant i v) by (intros v Hv; now exists vs).
    clear - HV HI H3. induction HV as [|v vs ws s Hv HV IH|v vs ws s x Hv HV IH]; intros w Hw; [destruct Hw| |].
    + apply IH; [|assumption]. intros v' Hv'. apply HI. now right.
    + destruct Hw as [<-|Hw]; [|apply IH; [|assumption]; intros v' Hv'; apply HI; now right].
      inversion Hv as [|nm ty _ HA HL _ EX]; subst. change (ncname (n_local (qualified nm))). rewrite (names_local _ _ _ _ HL). apply (H3 v (HI v (or_introl eq_refl))).
      intros HS. rewrite Forall_forall in HA. destruct (HA _ HS) as [[t [=]]|[t [=]]].
Qed.

(** ** Texts *)

Lemma ascii_text l : Forall (fun c => (32 <= N_of_ascii c < 127)%N) l -> xml_text (str_of l).
Proof.
  intros H. exists (map N_of_ascii l). split.
  - f_equal. induction H as [|c l Hc _ IH]; [reflexivity|]. cbn [map]. unfold utf8. cbn [flat_map]. fold (utf8 (map N_of_ascii l)).
    rewrite <- IH. unfold utf8_char. destruct (N.ltb_spec (N_of_ascii c) 128); [|lia]. unfold byte. now rewrite ascii_N_embedding.
  - apply Forall_map. eapply Forall_impl; [|exact H]. cbn. intros a Ha. unfold xml_char. lia.
Qed.

Lemma numeral_ascii base l n : numeral_of base l n -> (base <= 10)%N -> Forall (fun c => (32 <= N_of_ascii c < 127)%N) l.
Proof.
  intros H B. assert (D : forall b d, dvalue b = Some d -> (32 <= N_of_ascii b < 127)%N).
  { intros b d Hd. unfold dvalue in Hd.
    destruct (N.leb_spec 48 (N_of_ascii b)) as [L|L], (N.leb_spec (N_of_ascii b) 57) as [G|G]; cbn [andb] in Hd; try lia.
    all: destruct (N.leb 97 (N_of_ascii b) && N.leb (N_of_ascii b) 102)%bool eqn:E; [|discriminate];
      apply andb_prop in E as [E1 E2]; apply N.leb_le in E1; apply N.leb_le in E2; lia. }
  induction H as [b d Hd Hb|l n b d H IH Hn Hd Hb]; [eauto|]. apply Forall_app. eauto.
Qed.

Lemma int_prints o k : prints_xml o (TInt k).
Proof.
  intros x s. destruct x as [| |z| | | | | |]; try discriminate. cbn. destruct (in_range k z); [|discriminate]. intros [= <-].
  assert (D : forall n, Forall (fun c => (32 <= N_of_ascii c < 127)%N) (show_N n))
    by (intros n; eapply numeral_ascii; [apply show_N_numeral|lia]).
  destruct z; apply ascii_text; try apply D. constructor; [cbn; lia|apply D].
Qed.

Lemma bool_prints o : prints_xml o TBool.
Proof.
  intros x s. destruct x as [|[]| | | | | | |]; try discriminate; intros [= <-].
  - apply (ascii_text (bytes_of "true")). repeat (constructor; [cbn; lia|]). constructor.
  - apply (ascii_text (bytes_of "false")). repeat (constructor; [cbn; lia|]). constructor.
Qed.

Lemma restr_prints o name ws vs : (forall t, In (RKnown t) vs -> xml_text t) -> ~ In RUnknown vs -> prints_xml o (TRestr name ws vs).
Proof.
  intros H HU x s. destruct x as [| | | |i|u| | |]; try discriminate; cbn.
  - destruct (nth_error vs i) as [[t|]|] eqn:E; try discriminate. intros [= <-]. apply H. eapply nth_error_In; eauto.
  - destruct (existsb is_unknown vs) eqn:E; [|discriminate]. apply existsb_exists in E as ([|] & HI & [=]). contradiction.
Qed.

Lemma union_prints o name ws vs : Forall (prints_xml o) vs -> prints_xml o (TUnion name ws vs).
Proof.
  intros H x s. destruct x as [| | | | | |i v| |]; try discriminate. cbn. revert i.
  induction H as [|t vs Ht _ IH]; intros [|i]; try discriminate; [apply Ht|apply IH].
Qed.

Theorem safe_root o env dbg w id v r k : names_wf env ->
  (forall t x, holds env (ERef id) v t x -> prints_xml o t) ->
  serialize_root o env dbg w id v = inl (r, k) -> Forall event_wf (k_out k).
Proof. intros NW H. apply root_wf; [assumption|]. intros t x s Hx. now apply (H t x). Qed.

(** ** Strings that are not *)

Lemma xml_scalar c : xml_char c -> is_scalar c = true.
Proof. unfold xml_char, is_scalar. rewrite orb_true_iff, andb_true_iff, N.ltb_lt, !N.leb_le. lia. Qed.

Lemma name_xml c : name_char c -> xml_char c.
Proof. unfold name_char, name_start_char, xml_char. lia. Qed.

Lemma low_byte c b : is_scalar c = true -> In b (utf8_char c) -> (N_of_ascii b < 128)%N -> c = N_of_ascii b.
Proof.
  intros H HI HB. pose proof (utf8_encoded c H) as E.
  assert (BY : forall a, (a < 256)%N -> N_of_ascii (byte a) = a) by (intros; unfold byte; now rewrite ascii_N).
  destruct E; cbn [In] in HI; repeat (destruct HI as [HI|HI]; [subst b; rewrite BY in HB |- * by lia; lia|]); destruct HI.
Qed.

Lemma text_bytes s b : xml_text s -> In b (bytes_of s) -> (N_of_ascii b < 128)%N -> xml_char (N_of_ascii b).
Proof.
  intros (cs & -> & H) HI HB. rewrite bytes_str in HI. unfold utf8 in HI. apply in_flat_map in HI as (c & Hc & HI).
  rewrite Forall_forall in H. rewrite <- (low_byte c b); auto using xml_scalar.
Qed.

Lemma ncname_bytes s b : ncname s -> In b (bytes_of s) -> (N_of_ascii b < 128)%N -> name_char (N_of_ascii b).
Proof.
  intros (c & cs & -> & Hc & H) HI HB. rewrite bytes_str in HI. unfold utf8 in HI. apply in_flat_map in HI as (c' & Hc' & HI).
  assert (name_char c') as HN. { destruct Hc' as [<-|Hc']; [now left|]. rewrite Forall_forall in H. auto. }
  rewrite <- (low_byte c' b); auto using xml_scalar, name_xml.
Qed.

(** ** Deciding it for ASCII literals *)

Definition letter (c : N) : bool := ((0x41 <=? c) && (c <=? 0x5A) || (c =? 0x5F) || (0x61 <=? c) && (c <=? 0x7A))%N.
Definition letter_or_digit (c : N) : bool := (letter c || (0x30 <=? c) && (c <=? 0x39))%N.
Definition ident_lit (s : string) : bool :=
  match map N_of_ascii (bytes_of s) with c :: cs => letter c && forallb letter_or_digit cs | [] => false end.
Definition text_lit (s : string) : bool := forallb (fun c => (32 <=? N_of_ascii c) && (N_of_ascii c <? 127))%N (bytes_of s).

Lemma ascii_utf8 l : Forall (fun c => (c < 128)%N) (map N_of_ascii l) -> utf8 (map N_of_ascii l) = l.
Proof.
  induction l as [|c l IH]; cbn [map]; intros H; [reflexivity|]. inversion H; subst. unfold utf8. cbn [flat_map].
  fold (utf8 (map N_of_ascii l)). rewrite IH by assumption. unfold utf8_char. destruct (N.ltb_spec (N_of_ascii c) 128); [|lia].
  unfold byte. now rewrite ascii_N_embedding.
Qed.

Lemma str_bytes s : str_of (bytes_of s) = s.
Proof. apply string_of_list_ascii_of_string. Qed.

Lemma letter_spec c : letter c = true -> (0x41 <= c <= 0x5A \/ c = 0x5F \/ 0x61 <= c <= 0x7A)%N.
Proof. unfold letter. rewrite !orb_true_iff, !andb_true_iff, !N.leb_le, N.eqb_eq. lia. Qed.
Lemma letter_or_digit_spec c : letter_or_digit c = true ->
  (0x41 <= c <= 0x5A \/ c = 0x5F \/ 0x61 <= c <= 0x7A \/ 0x30 <= c <= 0x39)%N.
Proof. unfold letter_or_digit. rewrite orb_true_iff, andb_true_iff, !N.leb_le. intros [H|H]; [apply letter_spec in H|]; lia. Qed.

Lemma ident_lit_spec s : ident_lit s = true -> ascii_ident s.
Proof.
  unfold ident_lit. rewrite <- (str_bytes s) at 2. destruct (bytes_of s) as [|c l]; cbn [map]; [discriminate|].
  rewrite andb_true_iff. intros [Hc Hl]. apply letter_spec in Hc.
  assert (Forall (fun c => 0x41 <= c <= 0x5A \/ c = 0x5F \/ 0x61 <= c <= 0x7A \/ 0x30 <= c <= 0x39)%N (map N_of_ascii l)) as HL.
  { apply Forall_forall. intros x Hx. rewrite forallb_forall in Hl. apply letter_or_digit_spec. auto. }
  exists (N_of_ascii c), (map N_of_ascii l). split; [|split; assumption].
  f_equal. symmetry. apply (ascii_utf8 (c :: l)). constructor; [lia|]. eapply Forall_impl; [|exact HL]. cbn. lia.
Qed.

Lemma text_lit_spec s : text_lit s = true -> xml_text s.
Proof.
  intros H. rewrite <- (str_bytes s). apply ascii_text. apply Forall_forall. intros c Hc. unfold text_lit in H.
  rewrite forallb_forall in H. specialize (H c Hc). rewrite andb_true_iff, N.leb_le, N.ltb_lt in H. assumption.
Qed.
