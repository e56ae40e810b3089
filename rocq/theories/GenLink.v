(** Programs given by their source: what is expanded does what the declarations mean. *)
From Verif Require Import Base Normalize Text Find FindProofs Types Reader Ser DeriveDe DeriveSer DSerProofs
  DeriveAttr DASpec DAType DAProps DALink GenCode GenRun GenSer GenNames GenProofs GenSerProofs.
From Coq Require Import Lia Permutation.

(** What rustc checks about a declaration, whatever the macros do: fields and variants have different names
    ([r#a] is [a]), these are identifiers, and [Default::default()] of a type is the same everywhere. *)
Definition field_idents (i : sinput) : list string :=
  match si_data i with SStruct (FNamed fs) => map sf_ident fs | _ => [] end.
Definition enum_idents (i : sinput) : list string :=
  match si_data i with SEnum vs => map sv_ident vs | _ => [] end.
Definition declared_fields (i : sinput) : list sfield :=
  match si_data i with SStruct (FNamed fs) => fs | _ => [] end.

Record rust_decl (dflt : rty -> option value) (i : sinput) : Prop := {
  rd_fields : NoDup (map unraw (field_idents i));
  rd_variants : NoDup (map unraw (enum_idents i));
  rd_idents : Forall rust_ident (field_idents i);
  rd_default : Forall (fun f => In (flag "default") (items_in (sf_attrs f)) -> sf_dflt f = dflt (sf_ty f)) (declared_fields i) }.

(** What [#[derive(Deserialize)]] and [#[derive(Serialize)]] go on with. *)
Definition de_decls (prog : program) (id : nat) : option edesc :=
  match prog id with Some i => accepted (derive_deserialize i) | None => None end.
Definition ser_decls (prog : program) (id : nat) : option edesc :=
  match prog id with Some i => accepted (derive_serialize i) | None => None end.

(** Every type that derives is accepted by the macros and by rustc. *)
Definition compiles (dflt : rty -> option value) (prog : program) : Prop :=
  forall id i, prog id = Some i -> rust_decl dflt i /\ declaration i <> None.

Lemma fields_same decls fs efs : Forall2 (field_means decls) fs efs -> map ef_field efs = fs.
Proof. induction 1 as [|f e fs efs H _ IH]; cbn; [reflexivity|]. destruct H. cbn. now rewrite IH. Qed.

Lemma variants_same decls vs evs : Forall2 (variant_means decls) vs evs -> NoDup (map unraw (map sv_ident vs)) ->
  NoDup (map unraw (map ev_ident (somes evs))) /\
  (forall x, In x (map unraw (map ev_ident (somes evs))) -> In x (map unraw (map sv_ident vs))).
Proof.
  induction 1 as [|v e vs evs H _ IH]; cbn; intro N; [now split|]. inversion N as [|? ? N1 N2]; subst.
  destruct (IH N2) as [I1 I2]. destruct H as [l1 l2 nm H1 H2 H3 H4|nm ty H1 H2 H3 H4]; cbn.
  - split; auto.
  - split; [constructor; auto|]. intros x [|]; auto.
Qed.

Lemma field_idents_ef efs : map fident efs = map sf_ident (map ef_field efs).
Proof. rewrite map_map. reflexivity. Qed.

Lemma has_flag_in k l : has_flag k l = true -> In (flag k) l.
Proof.
  unfold has_flag. intro E. apply existsb_exists in E as (x & Hx & Ex).
  destruct x as [[k'|]| |]; try discriminate. apply String.eqb_eq in Ex as ->. exact Hx.
Qed.

Lemma means_ok dflt i d : rust_decl dflt i -> input_means i d -> textless d -> tdesc_of d <> None -> desc_ok dflt d.
Proof.
  intros [R1 R2 R3 R4] M T D. destruct M as [fs decls attr efs ED _ F _|vs decls attr evs ED _ F].
  - unfold field_idents, declared_fields in *. rewrite ED in *. assert (E := fields_same _ _ _ F). constructor; cbn.
    + now rewrite field_idents_ef, E.
    + now rewrite field_idents_ef, E.
    + clear -F R4. induction F as [|f e fs efs H _ IH]; inversion R4; subst; constructor; auto. destruct H. cbn.
      intro D. now apply H2, has_flag_in.
    + exact T.
    + clear -F. induction F as [|f e fs efs H _ IH]; constructor; auto. destruct H as [mode nm _ _ H _]. cbn.
      intros ->. inversion H. destruct (has_flag "default" (items_in (sf_attrs f))) eqn:E; auto.
      exfalso. now apply H3, has_flag_in.
    + cbn in D. intro E'. apply D. now rewrite E'.
  - unfold enum_idents in *. rewrite ED in *. cbn. now apply (variants_same _ _ _ F).
Qed.

Lemma de_decls_ok dflt prog : compiles dflt prog -> forall id d, de_decls prog id = Some d -> desc_ok dflt d.
Proof.
  intros C id d H. unfold de_decls in H. destruct (prog id) as [i|] eqn:E; [|discriminate]. destruct (C id i E) as [R D].
  unfold declaration in D. rewrite H in D. unfold accepted in H.
  destruct (derive_deserialize i) as [[[|] [e|]]|] eqn:EE; try discriminate. injection H as ->.
  apply derive_deserialize_ok in EE as (d' & [= <-] & M & T). now apply (means_ok dflt i).
Qed.

Lemma de_decls_meant prog id : env_of prog id = meant (de_decls prog) id.
Proof. unfold env_of, meant, de_decls. destruct (prog id); reflexivity. Qed.

(** What is accepted for reading is accepted for writing, with the same meaning. *)
Lemma de_ser_decls dflt prog : compiles dflt prog -> forall id, ser_decls prog id = de_decls prog id.
Proof.
  intros C id. unfold ser_decls, de_decls. destruct (prog id) as [i|] eqn:E; auto. destruct (C id i E) as [_ D].
  unfold declaration in D. unfold accepted in *.
  destruct (derive_deserialize i) as [[[|] [e|]]|] eqn:EE; try (now destruct D).
  apply derive_deserialize_ok in EE as (d' & [= <-] & M & T).
  assert (derive_serialize i = inl ([], Some e)) as ->; auto. apply derive_serialize_ok. eauto.
Qed.

Theorem read_expanded o alg dflt prog dbg t src fin : compiles dflt prog ->
  read_generated o alg (de_decls prog) dflt dbg t src fin = read_as o alg (env_of prog) dbg t src fin.
Proof. intro C. apply read_generated_same; [now apply de_decls_ok|apply de_decls_meant]. Qed.

Theorem write_expanded o dflt prog dbg w id v : compiles dflt prog -> shaped (ser_decls prog) (ERef id) v ->
  g_serialize o (ser_decls prog) dbg w id v = serialize_root o (env_of prog) dbg w id v.
Proof.
  intros C. apply g_serialize_same.
  - intros id' d H. rewrite (de_ser_decls _ _ C) in H. eapply desc_ser_ok, de_decls_ok; eauto.
  - intro id'. rewrite de_decls_meant. unfold meant. now rewrite (de_ser_decls _ _ C).
Qed.

(** The fields of a generated visitor: no two have the same name, and what is defined is what is initialized. *)
Theorem visitor_fields dflt prog id s : compiles dflt prog -> de_decls prog id = Some (EDStruct s) ->
  exists g, de_struct s = Some g /\ NoDup (map unraw (map fst (gs_defs g))) /\ map fst (gs_inits g) = map fst (gs_defs g).
Proof.
  intros C H. assert (S := de_decls_ok _ _ C id _ H). cbn in S.
  assert (SC : struct_code (de_decls prog) id = option_map (fun g => (s, g)) (de_struct s)) by (unfold struct_code; now rewrite H).
  destruct (struct_code_some (de_decls prog) dflt (de_decls_ok _ _ C) id s H) as (fin & _ & E). rewrite SC in E.
  destruct (de_struct s) as [g|]; [|discriminate]. injection E as ->. exists (code_of s fin). split; [reflexivity|].
  cbn [gs_defs gs_inits code_of]. rewrite !map_app, inits_keys, defs_keys; [|apply S]. split; [|reflexivity].
  cbn [map app]. rewrite own_keys_fixed; [apply own_head_nodup, S|apply S].
Qed.

(** ** Programs that only derive [Serialize] *)

Definition ser_declaration (i : sinput) : option tdesc :=
  match accepted (derive_serialize i) with Some d => tdesc_of d | None => None end.
Definition ser_env (prog : program) : tenv := fun id => match prog id with Some i => ser_declaration i | None => None end.
Definition ser_compiles (prog : program) : Prop :=
  forall id i, prog id = Some i ->
    NoDup (map unraw (field_idents i)) /\ NoDup (map unraw (enum_idents i)) /\ ser_declaration i <> None.

Theorem write_only o prog dbg w id v : ser_compiles prog -> shaped (ser_decls prog) (ERef id) v ->
  g_serialize o (ser_decls prog) dbg w id v = serialize_root o (ser_env prog) dbg w id v.
Proof.
  intros C. apply g_serialize_same.
  - intros id' d H. unfold ser_decls in H. destruct (prog id') as [i|] eqn:E; [|discriminate].
    destruct (C id' i E) as (R1 & R2 & D). unfold ser_declaration in D. rewrite H in D. unfold accepted in H.
    destruct (derive_serialize i) as [[[|] [e|]]|] eqn:EE; try discriminate. injection H as ->.
    apply derive_serialize_ok in EE as (d' & [= <-] & M).
    destruct M as [fs decls attr efs ED _ F _|vs decls attr evs ED _ F].
    + unfold field_idents in R1. rewrite ED in R1. cbn. rewrite field_idents_ef, (fields_same _ _ _ F). split; auto.
      cbn in D. intro E'. apply D. now rewrite E'.
    + unfold enum_idents in R2. rewrite ED in R2. cbn. now apply (variants_same _ _ _ F).
  - intro id'. unfold ser_env, meant, ser_decls. destruct (prog id'); reflexivity.
Qed.
