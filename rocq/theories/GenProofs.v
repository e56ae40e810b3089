(** The generated code does what DeriveDe.v says. *)
From Verif Require Import Base Normalize Text Find FindProofs Types Reader ReaderRel DeriveDe MixedProofs
  DeriveAttr GenCode GenRun GenNames.
From Coq Require Import Lia Permutation.

(** ** Arms *)

Lemma find_arm_spec (arm : nat -> nat -> list garm) self sorted : forall k j p a,
  (forall i q b, In b (arm i q) -> ga_index b = i) ->
  nth_error sorted j = Some p ->
  (forall rest, find_arm self (Some (k + j)) (arm (k + j) p ++ rest) = Ok (Some a)) ->
  find_arm self (Some (k + j)) (flat_map (fun '(i, p) => arm i p) (indexed_from k sorted)) = Ok (Some a).
Proof.
  intros k j p a HI. revert k j. induction sorted as [|q sorted IH]; intros k [|j] H HA; cbn in *; try discriminate.
  - injection H as ->. rewrite Nat.add_0_r in *. apply HA.
  - assert (E : forall l, Forall (fun b => ga_index b = k) l -> forall rest,
      find_arm self (Some (k + S j)) (l ++ rest) = find_arm self (Some (k + S j)) rest).
    { intros l HL rest. induction HL as [|b l Hb _ IHl]; cbn; auto. rewrite Hb.
      destruct (Nat.eqb_spec (k + S j) k); [lia|]. auto. }
    rewrite E. 2: { apply Forall_forall. intros b Hb. eauto. }
    rewrite Nat.add_succ_r. change (S (k + j)) with (S k + j). apply IH; auto.
    intro rest. rewrite Nat.add_succ_r in HA. apply HA.
Qed.

Lemma find_arm_none self arms : find_arm self None arms = Ok None.
Proof. now destruct arms. Qed.

Lemma run_same_spec (vs : list evariant) : forall k j v element_i,
  NoDup (map (fun v => unraw (ev_ident v)) vs) -> nth_error vs j = Some v ->
  run_same (ev_ident v) (has_payload v) element_i
    (flat_map (fun '(i, v) => [GIfSame (ev_ident v) (has_payload v) i; GExpected (ev_ident v) (has_payload v) i])
       (indexed_from k vs)) =
  Some (if match element_i with Some j' => Nat.eqb j' (k + j) | None => false end then inl tt else inr (k + j)).
Proof.
  induction vs as [|w vs IH]; intros k [|j] v ei N H; cbn in *; try discriminate; inversion N; subst.
  - injection H as ->. rewrite same_refl, eqb_reflx, Nat.add_0_r. cbn.
    destruct ei as [j'|]; auto. now destruct (Nat.eqb j' k).
  - assert (same_ident (ev_ident w) (ev_ident v) = false) as ->.
    { destruct (same_ident (ev_ident w) (ev_ident v)) eqn:E; auto. apply same_iff in E. exfalso. apply H2.
      rewrite E. apply (in_map (fun v => unraw (ev_ident v))). eapply nth_error_In; eauto. }
    cbn. rewrite (IH (S k) j v ei); auto. now rewrite Nat.add_succ_r.
Qed.

Lemma run_new_arm_spec (vs : list evariant) : forall k j v, nth_error vs j = Some v ->
  run_new_arm (k + j) (map (fun '(i, v) => GNew i (ev_ident v) (has_payload v)) (indexed_from k vs)) =
  Some (ev_ident v, has_payload v).
Proof.
  induction vs as [|w vs IH]; intros k [|j] v H; cbn in *; try discriminate.
  - injection H as ->. now rewrite Nat.add_0_r, Nat.eqb_refl.
  - destruct (Nat.eqb_spec k (k + S j)); [lia|]. rewrite Nat.add_succ_r. now apply (IH (S k)).
Qed.

Lemma variant_index_spec (vs : list evariant) : forall j v,
  NoDup (map (fun v => unraw (ev_ident v)) vs) -> nth_error vs j = Some v ->
  variant_index (ev_ident v) (map (fun v => (ev_ident v, ev_ty v)) vs) = Some (j, ev_ty v).
Proof.
  induction vs as [|w vs IH]; intros [|j] v N H; cbn in *; try discriminate; inversion N; subst.
  - injection H as ->. now rewrite same_refl.
  - assert (same_ident (ev_ident w) (ev_ident v) = false) as ->.
    { destruct (same_ident (ev_ident w) (ev_ident v)) eqn:E; auto. apply same_iff in E. exfalso. apply H2.
      rewrite E. apply (in_map (fun v => unraw (ev_ident v))). eapply nth_error_In; eauto. }
    now rewrite (IH j v).
Qed.

Lemma sorted_variants_of vs : sorted_variants (map variant_of vs) = map variant_of (sorted_evariants vs).
Proof. apply sort_map. reflexivity. Qed.

Lemma sorted_evariants_nodup vs : NoDup (map unraw (map ev_ident vs)) ->
  NoDup (map (fun v => unraw (ev_ident v)) (sorted_evariants vs)).
Proof.
  rewrite map_map. intro H. eapply Permutation_NoDup; [|exact H]. apply Permutation_map, Permutation_sym, sort_perm.
Qed.

(** ** Programs *)

Definition is_flat (f : efield) : bool := match ef_mode f with EFlatten => true | _ => false end.

(** What rustc and the macros guarantee. *)
Record struct_ok (dflt : rty -> option value) (s : estruct) : Prop := {
  so_distinct : NoDup (map unraw (map fident (es_fields s)));
  so_idents : Forall rust_ident (map fident (es_fields s));
  so_default : Forall (fun f => ef_default f = true -> sf_dflt (ef_field f) = dflt (fty f)) (es_fields s);
  so_textless : Forall (fun f => ef_mode f <> EText_) (es_fields s);
  so_flat : Forall (fun f => ef_mode f = EFlatten -> ef_default f = false) (es_fields s);
  so_types : all_somes (map field_of (es_fields s)) <> None }.

Definition desc_ok (dflt : rty -> option value) (d : edesc) : Prop :=
  match d with
  | EDStruct s => struct_ok dflt s
  | EDEnum e => NoDup (map unraw (map ev_ident (ee_variants e)))
  end.

Definition meant (decls : nat -> option edesc) : tenv :=
  fun id => match decls id with Some d => tdesc_of d | None => None end.

Section Refine.
  Context (o : oracles) (alg : bs_alg) (decls : nat -> option edesc) (dflt : rty -> option value).
  Hypothesis OK : forall id d, decls id = Some d -> desc_ok dflt d.
  Context (env : tenv).
  Hypothesis ENV : forall id, env id = meant decls id.

  Lemma env_struct id s fs : decls id = Some (EDStruct s) -> fields_of (es_fields s) fs ->
    exists root nss, env id = Some (TDStruct (es_ident s) root nss fs).
  Proof. intros H F. rewrite ENV. unfold meant. rewrite H. cbn. apply fields_of_iff in F. rewrite F. cbn. eauto. Qed.

  Lemma env_enum id e : decls id = Some (EDEnum e) ->
    exists root nss sk, env id = Some (TDEnum (ee_ident e) root nss (map variant_of (ee_variants e)) sk).
  Proof. intros H. rewrite ENV. unfold meant. rewrite H. cbn. eauto. Qed.

  (** *** States *)

  Definition enum_state (e : eenum) (init : bool) (m : option value) : estate :=
    EState (ee_ident e) (map variant_of (ee_variants e)) init m.

  Inductive slot_rel (f : efield) : slot -> string * option value -> string * gfield -> Prop :=
  | sr_field : forall b m, is_flat f = false ->
      slot_rel f (DeriveDe.SField b m) (fident f, m) (present_of (fident f), GFFlag b)
  | sr_flat : forall id e b m, ef_mode f = EFlatten -> fty f = (KOne, ERef id) -> decls id = Some (EDEnum e) ->
      slot_rel f (SFlat (enum_state e b m)) (fident f, m) (visitor_of (fident f), GFVisitor (GFlat id (fident f) b)).

  Inductive slots_rel : list efield -> list slot -> gmem -> gself -> Prop :=
  | ssr_nil : slots_rel [] [] [] []
  | ssr_cons : forall f fs s ss m mem g self, slot_rel f s m g -> slots_rel fs ss mem self ->
      slots_rel (f :: fs) (s :: ss) (m :: mem) (g :: self).

  Definition head : gself := [("out", GFOut); ("_phantom", GFPhantom)]%string.

  Inductive rel : nat -> gstate -> vstate -> Prop :=
  | rel_struct : forall id s fs ss mem self l, decls id = Some (EDStruct s) -> fields_of (es_fields s) fs ->
      slots_rel (es_fields s) ss mem self ->
      rel id (GState (GKStruct id mem (head ++ self)) l) (VState (VkStruct fs ss) l)
  | rel_enum : forall id e b m l, decls id = Some (EDEnum e) ->
      rel id (GState (GKEnum id b m) l) (VState (VkEnum (enum_state e b m)) l).

  Lemma slots_nth fs ss mem self p f : slots_rel fs ss mem self -> nth_error fs p = Some f ->
    exists s m g, nth_error ss p = Some s /\ nth_error mem p = Some m /\ nth_error self p = Some g /\ slot_rel f s m g.
  Proof.
    intro H. revert p. induction H; intros [|p] E; cbn in *; try discriminate; eauto.
    injection E as ->. eauto 10.
  Qed.

  Lemma slots_set fs ss mem self p f s m g : slots_rel fs ss mem self -> nth_error fs p = Some f -> slot_rel f s m g ->
    slots_rel fs (set_nth p s ss) (set_nth p m mem) (set_nth p g self).
  Proof.
    intro H. revert p. induction H as [|f0 fs s0 ss m0 mem g0 self H0 H IH]; intros [|p] E HS; cbn in *; try discriminate.
    - injection E as ->. constructor; auto.
    - constructor; auto.
  Qed.

  Lemma slots_keys fs ss mem self : slots_rel fs ss mem self -> keys mem = map unraw (map fident fs).
  Proof. unfold keys. induction 1 as [|f fs s ss m mem g self H _ IH]; cbn; auto. rewrite IH. now destruct H. Qed.

  Lemma slots_live fs ss mem self : slots_rel fs ss mem self -> mem_live mem = live_slots ss.
  Proof.
    unfold mem_live, live_slots. induction 1 as [|f fs s ss m mem g self H _ IH]; cbn; auto. rewrite IH. now destruct H.
  Qed.

  Lemma slots_assume fs ss mem self : slots_rel fs ss mem self -> g_assume_init mem = assume_init ss.
  Proof.
    induction 1 as [|f fs s ss m mem g self H _ IH]; cbn; auto. rewrite IH. destruct H; cbn; now destruct m.
  Qed.

  (** *** The visitor's own fields are distinct. *)

  Definition own_key (f : efield) : string := if is_flat f then visitor_of (fident f) else present_of (fident f).

  Lemma slots_own fs ss mem self : slots_rel fs ss mem self -> Forall rust_ident (map fident fs) ->
    keys self = map own_key fs.
  Proof.
    unfold keys. induction 1 as [|f fs s ss m mem g self H _ IH]; cbn; auto. intro HI. inversion HI; subst.
    rewrite IH; auto. f_equal. unfold own_key. destruct H as [b m E|id e b m E _ _]; cbn.
    - rewrite E. now apply unraw_present.
    - unfold is_flat. rewrite E. now apply unraw_visitor.
  Qed.

  Lemma own_nodup fs : NoDup (map unraw (map fident fs)) -> NoDup (map own_key fs).
  Proof.
    induction fs as [|f fs IH]; cbn; intro N; [constructor|]. inversion N as [|? ? N1 N2]; subst. constructor; auto.
    rewrite in_map_iff. intros (f' & E & H). apply N1. apply in_map_iff. exists (fident f'). split; [|now apply in_map].
    unfold own_key in E. destruct (is_flat f), (is_flat f').
    - now apply visitor_inj.
    - now apply present_visitor in E.
    - symmetry in E. now apply present_visitor in E.
    - now apply present_inj.
  Qed.

  Lemma own_head_nodup fs : NoDup (map unraw (map fident fs)) ->
    NoDup ("out" :: "_phantom" :: map own_key fs)%string.
  Proof.
    intro N. assert (A : forall x, In x (map own_key fs) -> x <> "out"%string /\ x <> "_phantom"%string).
    { intros x H. apply in_map_iff in H as (f & <- & _). unfold own_key. destruct (is_flat f).
      - split; [apply visitor_out|apply visitor_phantom].
      - split; [apply present_out|apply present_phantom]. }
    constructor; [|constructor; [|now apply own_nodup]].
    - intros [E|H]; [discriminate|]. now apply A in H.
    - intro H. now apply A in H.
  Qed.

  Lemma self_nodup s ss mem self : struct_ok dflt s -> slots_rel (es_fields s) ss mem self -> NoDup (keys (head ++ self)).
  Proof.
    intros S H. change (keys (head ++ self)) with ("out" :: "_phantom" :: keys self)%string.
    rewrite (slots_own _ _ _ _ H); [|apply S]. apply own_head_nodup, S.
  Qed.

  Lemma mem_nodup s ss mem self : struct_ok dflt s -> slots_rel (es_fields s) ss mem self -> NoDup (keys mem).
  Proof. intros S H. rewrite (slots_keys _ _ _ _ H). apply S. Qed.

  Lemma get_self s ss mem self p x g : struct_ok dflt s -> slots_rel (es_fields s) ss mem self ->
    nth_error self p = Some (x, g) -> get x (head ++ self) = Some g.
  Proof. intros S H E. apply (get_nth (head ++ self) (Datatypes.S (Datatypes.S p)) x); auto. eapply self_nodup; eauto. Qed.

  Lemma set_self s ss mem self p x g g' : struct_ok dflt s -> slots_rel (es_fields s) ss mem self ->
    nth_error self p = Some (x, g) -> set x g' (head ++ self) = head ++ set_nth p (x, g') self.
  Proof. intros S H E. apply (set_nth_name (head ++ self) (Datatypes.S (Datatypes.S p)) x g); auto. eapply self_nodup; eauto. Qed.

  Lemma get_mem s ss mem self p x m : struct_ok dflt s -> slots_rel (es_fields s) ss mem self ->
    nth_error mem p = Some (x, m) -> get x mem = Some m.
  Proof. intros S H E. apply (get_nth mem p x); auto. eapply mem_nodup; eauto. Qed.

  Lemma set_mem s ss mem self p x m m' : struct_ok dflt s -> slots_rel (es_fields s) ss mem self ->
    nth_error mem p = Some (x, m) -> set x m' mem = set_nth p (x, m') mem.
  Proof. intros S H E. apply (set_nth_name mem p x m); auto. eapply mem_nodup; eauto. Qed.

  Lemma get_user s p f : struct_ok dflt s -> nth_error (es_fields s) p = Some f ->
    get (fident f) (user_fields s) = Some (fty f).
  Proof.
    intros S E. apply (get_nth (user_fields s) p (fident f)); auto.
    - unfold keys, user_fields. rewrite map_map. cbn. rewrite <- map_map. apply S.
    - unfold user_fields. now rewrite nth_error_map, E.
  Qed.

  (** *** [new] *)

  Lemma all_somes_app {A} (l l' : list (option A)) :
    all_somes (l ++ l') = match all_somes l, all_somes l' with Some a, Some b => Some (a ++ b) | _, _ => None end.
  Proof.
    induction l as [|[x|] l IH]; cbn; auto; [now destruct (all_somes l')|]. rewrite IH.
    destruct (all_somes l), (all_somes l'); auto.
  Qed.

  Lemma defs_keys fs : Forall (fun f => ef_mode f <> EText_) fs -> map fst (visitor_field_definitions fs) = map own_key fs.
  Proof.
    unfold visitor_field_definitions. induction 1 as [|f fs H _ IH]; cbn; auto. rewrite map_app, IH.
    unfold own_key, is_flat. destruct (ef_mode f); auto. now destruct H.
  Qed.

  Lemma inits_keys fs : map fst (visitor_initializers fs) = map own_key fs.
  Proof.
    unfold visitor_initializers. rewrite map_map. apply map_ext. intro f. unfold own_key, is_flat. now destruct (ef_mode f).
  Qed.

  Lemma own_keys_fixed fs : Forall rust_ident (map fident fs) -> map unraw (map own_key fs) = map own_key fs.
  Proof.
    induction fs as [|f fs IH]; cbn; auto. intro H. inversion H; subst. rewrite IH; auto. f_equal.
    unfold own_key. destruct (is_flat f); [now apply unraw_visitor|now apply unraw_present].
  Qed.

  Lemma finalize_fields_some s : struct_ok dflt s -> exists l, finalize_visitor_fields (es_fields s) = Some l.
  Proof.
    intro S. unfold finalize_visitor_fields.
    assert (A : forall l, Forall (fun f => ef_mode f <> EText_) l -> forall k,
      exists r, all_somes (map (fun '(p, f) => finalize_field (es_fields s) p f) (indexed_from k l)) = Some r).
    { induction 1 as [|f l H _ IH]; intro k; cbn; eauto. destruct (IH (Datatypes.S k)) as [r ->].
      unfold finalize_field at 1. destruct (ef_mode f); cbn; eauto. now destruct H. }
    apply A, S.
  Qed.

  Definition code_of (s : estruct) (fin : list gfin) : gstruct := {|
    gs_ident := es_ident s;
    gs_attributes := names_of (es_fields s) (sorted_of EAttribute (es_fields s));
    gs_elements := names_of (es_fields s) (sorted_of EElement (es_fields s));
    gs_visitor := visitor_type (es_ident s);
    gs_defs := [("out"%string, GOutPtr (es_ident s)); ("_phantom"%string, GPhantom (es_ident s))]
                 ++ visitor_field_definitions (es_fields s);
    gs_element := GMatch (arms_of (element_arms (es_fields s)) (sorted_of EElement (es_fields s)))
      (match flatten_visitors (es_fields s) with [] => GOkSome | _ => GDelegate (flatten_visitors (es_fields s)) end);
    gs_attribute := GMatch (arms_of (attribute_arms (es_fields s)) (sorted_of EAttribute (es_fields s)))
      (match flatten_visitors (es_fields s) with [] => GOkSome | _ => GDelegate (flatten_visitors (es_fields s)) end);
    gs_characters := match flatten_visitors (es_fields s) with [] => None | _ => Some (flatten_visitors (es_fields s)) end;
    gs_inits := [("out"%string, GInitOut); ("_phantom"%string, GInitPhantom)] ++ visitor_initializers (es_fields s);
    gs_finalize := fin |}.

  Lemma de_struct_some s : struct_ok dflt s -> exists fin,
    finalize_visitor_fields (es_fields s) = Some fin /\ de_struct s = Some (code_of s fin).
  Proof. intro S. destruct (finalize_fields_some s S) as [l E]. exists l. split; auto. unfold de_struct. now rewrite E. Qed.

  Lemma struct_code_some id s : decls id = Some (EDStruct s) -> exists fin,
    finalize_visitor_fields (es_fields s) = Some fin /\ struct_code decls id = Some (s, code_of s fin).
  Proof.
    intro H. destruct (de_struct_some s (OK id _ H)) as (fin & E1 & E2). exists fin. split; auto.
    unfold struct_code. now rewrite H, E2.
  Qed.

  Lemma get_def s p f : struct_ok dflt s -> nth_error (es_fields s) p = Some f ->
    get (own_key f) ([("out"%string, GOutPtr (es_ident s)); ("_phantom"%string, GPhantom (es_ident s))]
                 ++ visitor_field_definitions (es_fields s))
      = Some (if is_flat f then GVisitor (fty f) else GBool).
  Proof.
    intros S E. eapply (get_nth _ (Datatypes.S (Datatypes.S p)) (own_key f)); auto.
    - unfold keys. rewrite <- map_map, map_app. cbn. rewrite defs_keys, own_keys_fixed; [apply own_head_nodup, S|apply S|apply S].
    - cbn. assert (T := so_textless _ _ S). revert p E. unfold visitor_field_definitions.
      induction T as [|g l H T IH]; intros [|p] E; cbn in *; try discriminate.
      + injection E as ->. unfold own_key, is_flat. destruct (ef_mode f); auto. now destruct H.
      + destruct (ef_mode g); cbn; auto. now destruct H.
  Qed.

  Definition init_field (f : efield) : option (string * gfield) :=
    if is_flat f then
      match visitor_enum decls (fty f) with
      | Some id => Some (own_key f, GFVisitor (GFlat id (fident f) false))
      | None => None
      end
    else Some (own_key f, GFFlag false).

  Lemma run_new_spec s fin : struct_ok dflt s ->
    run_new decls s (code_of s fin) = option_map (app head) (all_somes (map init_field (es_fields s))).
  Proof.
    intro S. unfold run_new.
    assert (D1 : distinct (map fst (gs_defs (code_of s fin))) = true).
    { apply distinct_iff. cbn [gs_defs code_of]. rewrite map_app, defs_keys; [|apply S]. cbn.
      rewrite own_keys_fixed; [apply own_head_nodup, S|apply S]. }
    assert (D2 : distinct (map fst (gs_inits (code_of s fin))) = true).
    { apply distinct_iff. cbn [gs_inits code_of]. rewrite map_app, inits_keys. cbn.
      rewrite own_keys_fixed; [apply own_head_nodup, S|apply S]. }
    assert (L : Nat.eqb (List.length (gs_defs (code_of s fin))) (List.length (gs_inits (code_of s fin))) = true).
    { apply Nat.eqb_eq. rewrite <- (map_length fst (gs_defs _)), <- (map_length fst (gs_inits _)).
      cbn [gs_inits gs_defs code_of]. rewrite !map_app, inits_keys, defs_keys; [reflexivity|apply S]. }
    rewrite D1, D2, L. cbn [andb]. cbn [gs_inits code_of]. rewrite map_app, all_somes_app.
    assert (H : all_somes (map (fun '(x, i) =>
           match get x (gs_defs (code_of s fin)) with
           | Some t => option_map (pair x) (run_init decls s t i)
           | None => None
           end) [("out"%string, GInitOut); ("_phantom"%string, GInitPhantom)]) = Some head) by reflexivity.
    rewrite H. clear H.
    match goal with |- match ?x with _ => _ end = option_map _ ?y => assert (x = y) as -> end.
    2: { destruct (all_somes _); reflexivity. }
    f_equal. unfold visitor_initializers. rewrite map_map. apply map_ext_in. intros f Hf.
    apply In_nth_error in Hf as [p Hp]. assert (G := get_def s p f S Hp). assert (U := get_user s p f S Hp).
    assert (ef_mode f <> EText_). { eapply (proj1 (Forall_forall _ _) (so_textless _ _ S)), nth_error_In; eauto. }
    unfold init_field. unfold own_key, is_flat in *. cbn [gs_defs code_of] in *.
    destruct (ef_mode f); try (now rewrite G); try contradiction.
    rewrite G. cbn. rewrite U. unfold visitor_enum. destruct (fty f) as [[] []]; try reflexivity.
    destruct (decls id) as [[]|]; try reflexivity. cbn. now rewrite Nat.eqb_refl.
  Qed.

  Lemma field_flat f f' : field_of f = Some f' -> is_flat f = true -> exists id, fty f = (KOne, ERef id) /\ f_mode f' = MFlatten id.
  Proof.
    unfold field_of, is_flat, fty. destruct (ef_mode f); try discriminate. destruct (sf_ty (ef_field f)) as [[] []]; try discriminate.
    destruct (if ef_default f then _ else _); try discriminate. intros [= <-]. cbn. eauto.
  Qed.

  Lemma field_unflat f f' : field_of f = Some f' -> is_flat f = false -> ef_mode f <> EText_ ->
    match f_mode f' with
    | MElement k t => ef_mode f = EElement /\ fty f = (k, t)
    | MAttribute opt t => ef_mode f = EAttribute /\ fty f = (if opt then KOpt else KOne, EText t)
    | _ => False
    end.
  Proof.
    unfold field_of, is_flat, fty. destruct (ef_mode f); try discriminate; try contradiction;
      destruct (sf_ty (ef_field f)) as [[] []]; try discriminate;
      destruct (if ef_default f then _ else _); try discriminate; intros [= <-]; cbn; auto.
  Qed.

  Lemma new_slots_spec fs fs' : fields_of fs fs' -> Forall (fun f => ef_mode f <> EText_) fs ->
    match all_somes (map init_field fs), new_slots env fs' with
    | Some self, Some ss => slots_rel fs ss (map (fun f => (fident f, None)) fs) self
    | None, None => True
    | _, _ => False
    end.
  Proof.
    induction 1 as [|f f' fs fs' H HF IH]; intro T; cbn [map all_somes new_slots]; [constructor|].
    inversion T as [|? ? T1 T2]; subst. specialize (IH T2).
    unfold init_field at 1. destruct (is_flat f) eqn:EF.
    - destruct (field_flat _ _ H EF) as (id & E1 & E2). rewrite E1, E2. cbn [visitor_enum].
      assert (EF' : ef_mode f = EFlatten). { unfold is_flat in EF. now destruct (ef_mode f). }
      destruct (decls id) as [[s|e]|] eqn:ED.
      + rewrite ENV. unfold meant. rewrite ED. cbn. destruct (all_somes (map field_of (es_fields s))); cbn; now destruct (new_slots _ fs').
      + destruct (env_enum id e ED) as (? & ? & ? & EE). rewrite EE.
        destruct (all_somes (map init_field fs)), (new_slots env fs'); cbn; auto.
        constructor; auto. unfold own_key. rewrite EF.
        apply (sr_flat f id e false None); auto.
      + rewrite ENV. unfold meant. rewrite ED. now destruct (new_slots _ fs').
    - assert (U := field_unflat _ _ H EF T1).
      destruct (f_mode f'); try contradiction.
      + destruct (all_somes (map init_field fs)), (new_slots env fs'); cbn; auto.
        constructor; auto. unfold own_key. rewrite EF. now constructor.
      + destruct (all_somes (map init_field fs)), (new_slots env fs'); cbn; auto.
        constructor; auto. unfold own_key. rewrite EF. now constructor.
  Qed.

  Lemma g_new_rel id :
    match g_new decls id, new_visitor env id with
    | Some s1, Some s2 => rel id s1 s2
    | None, None => True
    | _, _ => False
    end.
  Proof.
    unfold g_new, new_visitor. destruct (decls id) as [[s|e]|] eqn:ED.
    - assert (S := OK id _ ED). cbn in S. destruct (de_struct_some s S) as (fin & _ & ->).
      rewrite run_new_spec; auto.
      destruct (all_somes (map field_of (es_fields s))) as [fs'|] eqn:EF. 2: { now destruct (so_types _ _ S). }
      apply fields_of_iff in EF. destruct (env_struct id s fs' ED EF) as (root & nss & ->).
      assert (N := new_slots_spec _ _ EF (so_textless _ _ S)).
      destruct (all_somes (map init_field (es_fields s))), (new_slots env fs'); cbn; try contradiction; auto.
      econstructor; eauto.
    - destruct (env_enum id e ED) as (? & ? & ? & ->). now constructor.
    - rewrite ENV. unfold meant. now rewrite ED.
  Qed.

  (** *** [finalize] *)

  Lemma table_at_known m fs p f : nth_error fs p = Some f -> same_mode (ef_mode f) m = true ->
    table_at (names_of fs (sorted_of m fs)) (position_of m fs p) = Ok (expanded (dname_of (ef_name f))).
  Proof.
    intros H1 H2. destruct (position_known m fs p f H1 H2) as (i & -> & Hi). cbn. unfold names_of.
    rewrite nth_error_map, Hi. cbn. unfold name_at, ename. now rewrite H1.
  Qed.

  Lemma field_dflt s p f f' : struct_ok dflt s -> nth_error (es_fields s) p = Some f -> field_of f = Some f' ->
    f_default f' = (if ef_default f then dflt (fty f) else None) /\ (ef_default f = true -> dflt (fty f) <> None).
  Proof.
    intros S Hp H. assert (D := proj1 (Forall_forall _ _) (so_default _ _ S) f (nth_error_In _ _ Hp)).
    cbn beta in D. unfold field_of in H. destruct (match ef_mode f with EElement => _ | _ => _ end); [|discriminate].
    destruct (ef_default f).
    - specialize (D eq_refl). rewrite D in H. destruct (dflt (fty f)); [|discriminate]. injection H as <-. split; [reflexivity|]. discriminate.
    - injection H as <-. split; [reflexivity|discriminate].
  Qed.

  Lemma run_fin_spec s fin p f f' sl mem self ss fst_ : struct_ok dflt s -> slots_rel (es_fields s) ss mem self ->
    nth_error (es_fields s) p = Some f -> field_of f = Some f' -> nth_error ss p = Some sl ->
    finalize_field (es_fields s) p f = Some fst_ ->
    match finalize_slot f' sl with
    | Ok sl' => exists mem', run_fin decls dflt (code_of s fin) (head ++ self) mem fst_ = Ok mem' /\
        slots_rel (es_fields s) (set_nth p sl' ss) mem' self
    | Err e => run_fin decls dflt (code_of s fin) (head ++ self) mem fst_ = Err e
    | Abort x => run_fin decls dflt (code_of s fin) (head ++ self) mem fst_ = Abort x
    end.
  Proof.
    intros S R Hf Hf' Hs HF. destruct (slots_nth _ _ _ _ p f R Hf) as (sl0 & m & g & E1 & E2 & E3 & SR).
    rewrite Hs in E1. injection E1 as <-.
    assert (T : ef_mode f <> EText_). { eapply (proj1 (Forall_forall _ _) (so_textless _ _ S)), nth_error_In; eauto. }
    assert (SELF : forall sl' m', slot_rel f sl' m' g -> slots_rel (es_fields s) (set_nth p sl' ss) (set_nth p m' mem) self).
    { intros sl' m' H. rewrite <- (set_nth_id self p g E3) at 1. eapply slots_set; eauto. }
    destruct SR as [b m EF|id e b m EM ET ED].
    - assert (GS := get_self s ss mem self p _ _ S R E3). assert (GM := get_mem s ss mem self p _ _ S R E2).
      assert (SM := fun m' => set_mem s ss mem self p _ m m' S R E2).
      destruct (field_dflt s p f f' S Hf Hf') as [DD DN].
      assert (U := field_unflat _ _ Hf' EF T).
      assert (V : exists v, fst_ = GWriteMissing (present_of (fident f)) (fident f) v /\
                 run_value dflt (code_of s fin) v = match f_default f' with Some v => Ok v | None => missing f' end).
      { unfold finalize_field in HF. unfold missing. rewrite DD, (field_of_fname _ _ Hf').
        destruct (f_mode f') as [k t|opt t| |]; try contradiction.
        - destruct U as [U1 U2]. rewrite U1 in HF. injection HF as <-. eexists. split; [reflexivity|].
          destruct (ef_default f); cbn [run_value].
          + destruct (dflt (fty f)); auto. now destruct (DN eq_refl).
          + rewrite U2. cbn [run_value gs_elements code_of]. rewrite (table_at_known EElement _ p f Hf); [|now rewrite U1].
            cbn. now destruct k.
        - destruct U as [U1 U2]. rewrite U1 in HF. injection HF as <-. eexists. split; [reflexivity|].
          destruct (ef_default f); cbn [run_value].
          + destruct (dflt (fty f)); auto. now destruct (DN eq_refl).
          + rewrite U2. cbn [run_value gs_attributes code_of]. destruct opt; rewrite (table_at_known EAttribute _ p f Hf); try (now rewrite U1); reflexivity. }
      destruct V as (v & -> & V). cbn [run_fin finalize_slot]. rewrite GS, GM. destruct b.
      + exists mem. split; auto. now rewrite (set_nth_id ss p _ Hs).
      + rewrite V. destruct (match f_default f' with Some v => Ok v | None => missing f' end) as [x| |]; cbn; auto.
        destruct m as [m|]; cbn; auto. eexists. split; [reflexivity|]. rewrite SM. apply SELF. now constructor.
    - assert (GS := get_self s ss mem self p _ _ S R E3). assert (GM := get_mem s ss mem self p _ _ S R E2).
      assert (SM := fun m' => set_mem s ss mem self p _ m m' S R E2).
      assert (DF : ef_default f = false). { eapply (proj1 (Forall_forall _ _) (so_flat _ _ S)); eauto using nth_error_In. }
      unfold finalize_field in HF. rewrite EM, DF in HF. injection HF as <-. cbn [run_fin]. rewrite GS. cbn [gf_enum gf_field gf_init].
      unfold enum_code. rewrite ED, GM. cbn [finalize_slot]. unfold enum_finalize, g_enum_finalize. cbn.
      destruct b; cbn; auto. eexists. split; [reflexivity|]. rewrite SM. apply SELF. econstructor; eauto.
  Qed.

  Lemma set_nth_app {A} (a : list A) x b y : set_nth (List.length a) y (a ++ x :: b) = a ++ y :: b.
  Proof. induction a as [|z a IH]; cbn; auto. now rewrite IH. Qed.

  Lemma nth_app_len {A} (a : list A) x b : nth_error (a ++ x :: b) (List.length a) = Some x.
  Proof. induction a; cbn; auto. Qed.

  Lemma slots_len fs ss mem self : slots_rel fs ss mem self -> List.length fs = List.length ss.
  Proof. induction 1; cbn; auto. Qed.

  Lemma run_finalize_spec s fin self : struct_ok dflt s -> forall fs2 fs2', fields_of fs2 fs2' ->
    forall fs1 ss1 ss2 mem l, es_fields s = fs1 ++ fs2 -> List.length fs1 = List.length ss1 -> List.length fs2 = List.length ss2 ->
    slots_rel (es_fields s) (ss1 ++ ss2) mem self ->
    all_somes (map (fun '(p, f) => finalize_field (es_fields s) p f) (indexed_from (List.length fs1) fs2)) = Some l ->
    exists mem', run_finalize decls dflt (code_of s fin) (head ++ self) mem l = (fst (finalize_slots fs2' ss2), mem') /\
      slots_rel (es_fields s) (ss1 ++ snd (finalize_slots fs2' ss2)) mem' self.
  Proof.
    intros S fs2 fs2' F. induction F as [|f f' fs2 fs2' Hf F IH]; intros fs1 ss1 [|sl ss2] mem l E L1 L2 R HL; cbn in L2; try discriminate.
    - cbn in HL. injection HL as <-. cbn. eauto.
    - cbn [indexed_from map all_somes] in HL. destruct (finalize_field _ _ f) as [g|] eqn:EF; [|discriminate].
      destruct (all_somes _) as [l'|] eqn:EL; [|discriminate]. injection HL as <-.
      assert (Hp : nth_error (es_fields s) (List.length fs1) = Some f) by (rewrite E; apply nth_app_len).
      assert (Hs : nth_error (ss1 ++ sl :: ss2) (List.length fs1) = Some sl) by (rewrite L1; apply nth_app_len).
      assert (RF := run_fin_spec s fin _ f f' sl mem self _ g S R Hp Hf Hs EF). cbn [run_finalize finalize_slots].
      destruct (finalize_slot f' sl) as [sl'|e|x].
      + destruct RF as (mem' & -> & R'). rewrite L1, set_nth_app in R'.
        destruct (IH (fs1 ++ [f]) (ss1 ++ [sl']) ss2 mem' l') as (mem'' & EQ & R'').
        * rewrite E, <- app_assoc. reflexivity.
        * rewrite !app_length. cbn. lia.
        * lia.
        * now rewrite <- app_assoc.
        * rewrite app_length. cbn. rewrite Nat.add_1_r. exact EL.
        * exists mem''. rewrite EQ. destruct (finalize_slots fs2' ss2) as [r ss']. cbn in *. split; auto. now rewrite <- app_assoc in R''.
      + rewrite RF. cbn. eauto.
      + rewrite RF. cbn. eauto.
  Qed.

  Lemma live_rel id s1 s2 : rel id s1 s2 -> g_live s1 = live s2.
  Proof.
    destruct 1 as [id s fs ss mem self l H F R|id e b m l H]; unfold g_live, live; cbn; auto.
    f_equal. eapply slots_live; eauto.
  Qed.

  Lemma finalize_rel id s1 s2 : rel id s1 s2 -> g_finalize decls dflt s1 = finalize s2.
  Proof.
    intro RR. assert (LL := live_rel _ _ _ RR). destruct RR as [id s fs ss mem self l H F R|id e b m l H]; unfold g_finalize, finalize; cbn [gs_kind vs_kind gs_leaked vs_leaked].
    - assert (S := OK id _ H). cbn in S. destruct (struct_code_some id s H) as (fin & EF & ->).
      assert (LE := slots_len _ _ _ _ R).
      destruct (run_finalize_spec s fin self S (es_fields s) fs F [] [] ss mem fin eq_refl eq_refl LE R EF) as (mem' & EQ & R').
      cbn [gs_finalize code_of]. rewrite EQ. destruct (finalize_slots fs ss) as [r ss']. cbn in R'. cbn [fst].
      rewrite (slots_live _ _ _ _ R'), (slots_assume _ _ _ _ R'). reflexivity.
    - unfold enum_code. rewrite H. unfold g_enum_finalize, enum_finalize. cbn. destruct b; auto.
  Qed.

  (** *** Library functions *)

  Definition same {A} (x y : A) : Prop := x = y.

  Lemma deserialize_rel t i : act_rel rel same (g_deserialize o decls dflt t i) (deserialize o env t i).
  Proof.
    destruct t as [t|id]; cbn.
    - unfold deserialize_text. cbn. reflexivity || (intros; reflexivity).
    - assert (N := g_new_rel id). destruct (g_new decls id), (new_visitor env id); try contradiction; cbn; [|reflexivity].
      exists id. split; auto. intros [[]|e] s1 s2 H; unfold same; [now apply (finalize_rel id)|]. now rewrite (live_rel _ _ _ H).
  Qed.

  Lemma init_rel t i : act_rel rel same (g_init o decls dflt t i) (field_init o env (fst t) (snd t) i).
  Proof. eapply act_rel_amap; [apply deserialize_rel|]. now intros x y ->. Qed.

  Lemma update_rel t old i : act_rel rel same (g_update o decls dflt t old i) (field_update o env (fst t) (snd t) old i).
  Proof.
    unfold g_update, field_update. destruct (fst t); try reflexivity.
    eapply act_rel_amap; [apply deserialize_rel|]. now intros x y ->.
  Qed.

  (** *** Enums *)

  Definition enum_out (e : eenum) (x : res verr unit * (bool * option value) * list value) (y : res verr unit * estate * list value) : Prop :=
    fst (fst x) = fst (fst y) /\ snd x = snd y /\ snd (fst y) = enum_state e (fst (snd (fst x))) (snd (snd (fst x))).

  Lemma enum_element_rel e b m i : NoDup (map unraw (map ev_ident (ee_variants e))) ->
    match g_enum_element o alg decls dflt e (de_enum e) b m i, enum_element o alg env (enum_state e b m) i with
    | Some a1, Some a2 => act_rel rel (enum_out e) a1 a2
    | None, None => True
    | _, _ => False
    end.
  Proof.
    intro N. unfold g_enum_element, enum_element. cbn [e_init e_mem e_variants enum_state].
    unfold variant_table. rewrite sorted_variants_of, map_map. cbn [ge_elements de_enum ge_same ge_new].
    set (vs := sorted_evariants (ee_variants e)). assert (NV := sorted_evariants_nodup _ N). fold vs in NV.
    change (map (fun x => expanded (v_name (variant_of x))) vs) with (map (fun v => expanded (dname_of (ev_name v))) vs).
    set (tb := map (fun v => expanded (dname_of (ev_name v))) vs).
    set (fd := find alg (from_xml_name (ei_name i)) tb).
    assert (FD : forall j, fd = Some j -> exists v, nth_error vs j = Some v).
    { intros j H. apply find_sound in H. unfold tb in H. rewrite nth_error_map in H. destruct (nth_error vs j); [eauto|discriminate]. }
    destruct b.
    - destruct m as [[? | ? | j p | | | ? | ?]|]; try (repeat split; fail).
      unfold user_variants. fold vs. rewrite !nth_error_map. destruct (nth_error vs j) as [v|] eqn:EV; cbn [option_map]; [|repeat split].
      change (match ev_ty v with Some _ => true | None => false end) with (has_payload v).
      rewrite (run_same_spec vs 0 j v fd NV EV). cbn [Nat.add v_ty variant_of v_name].
      destruct fd as [j'|] eqn:Efd.
      + destruct (Nat.eqb_spec j' j) as [->|NE].
        * destruct (ev_ty v) as [[k t]|] eqn:ET; [|repeat split]. destruct p as [f|]; [|repeat split].
          eapply act_rel_amap; [apply (update_rel (k, t))|]. intros [r l] y <-. destruct r; repeat split.
        * unfold tb. rewrite nth_error_map, EV. repeat split.
      + repeat split.
    - destruct fd as [j|] eqn:Efd; [|exact I]. destruct (FD j eq_refl) as [v EV].
      assert (RN := run_new_arm_spec vs 0 j v EV). cbn [Nat.add] in RN. rewrite RN. unfold user_variants. fold vs.
      rewrite (variant_index_spec vs j v NV EV), nth_error_map, EV. cbn [option_map v_ty variant_of].
      unfold has_payload. destruct (ev_ty v) as [[k t]|].
      + eapply act_rel_amap; [apply (init_rel (k, t))|]. intros [r l] y <-. destruct r, m; repeat split.
      + destruct m; repeat split.
  Qed.

  (** *** Delegation *)

  Definition slots_out (s : estruct) (pre : list slot) (x : res verr unit * (gmem * gself) * list value)
    (y : res verr unit * list slot * list value) : Prop :=
    fst (fst x) = fst (fst y) /\ snd x = snd y /\
    exists self, snd (snd (fst x)) = head ++ self /\
      slots_rel (es_fields s) (pre ++ snd (fst y)) (fst (snd (fst x))) self.

  Lemma delegate_element_rel s self i : struct_ok dflt s -> forall fs2 fs1 ss1 ss2 mem, es_fields s = fs1 ++ fs2 ->
    List.length fs1 = List.length ss1 -> List.length fs2 = List.length ss2 ->
    slots_rel (es_fields s) (ss1 ++ ss2) mem self ->
    match g_delegate_element o alg decls dflt mem (head ++ self) (flatten_visitors fs2) i, delegate_element o alg env ss2 i with
    | Some a1, Some a2 => act_rel rel (slots_out s ss1) a1 a2
    | None, None => True
    | _, _ => False
    end.
  Proof.
    intro S. induction fs2 as [|f fs2 IH]; intros fs1 ss1 [|sl ss2] mem E L1 L2 R; cbn in L2; try discriminate; [exact I|].
    assert (Hp : nth_error (es_fields s) (List.length fs1) = Some f) by (rewrite E; apply nth_app_len).
    assert (Hs : nth_error (ss1 ++ sl :: ss2) (List.length fs1) = Some sl) by (rewrite L1; apply nth_app_len).
    destruct (slots_nth _ _ _ _ _ f R Hp) as (sl0 & m & g & E1 & E2 & E3 & SR). rewrite Hs in E1. injection E1 as <-.
    assert (IH' := IH (fs1 ++ [f]) (ss1 ++ [sl]) ss2 mem).
    assert (G1 : es_fields s = (fs1 ++ [f]) ++ fs2) by (rewrite E, <- app_assoc; reflexivity).
    assert (G2 : List.length (fs1 ++ [f]) = List.length (ss1 ++ [sl])) by (rewrite !app_length; cbn; lia).
    assert (G4 : slots_rel (es_fields s) ((ss1 ++ [sl]) ++ ss2) mem self) by (now rewrite <- app_assoc).
    specialize (IH' G1 G2 ltac:(lia) G4).
    assert (REST : match g_delegate_element o alg decls dflt mem (head ++ self) (flatten_visitors fs2) i,
                    option_map (amap (fun '(r, ss'', l) => (r, sl :: ss'', l))) (delegate_element o alg env ss2 i) with
      | Some a1, Some a2 => act_rel rel (slots_out s ss1) a1 a2 | None, None => True | _, _ => False end).
    { destruct (g_delegate_element _ _ _ _ _ _ _ _) as [a1|], (delegate_element _ _ _ ss2 i) as [a2|]; try contradiction; auto. cbn.
      assert (ID : forall S' A (a : action S' A), amap (fun x => x) a = a) by (intros S' A []; reflexivity).
      rewrite <- (ID _ _ a1). eapply act_rel_amap; [exact IH'|]. intros [[r [m1 g1]] l1] [[r2 ss'] l2] (H1 & H2 & self' & H3 & H4). cbn in *.
      subst. repeat split. exists self'. split; auto. cbn. now rewrite <- app_assoc in H4. }
    cbn [delegate_element flatten_visitors flat_map].
    destruct SR as [b m EF|id e b m EM ET ED].
    - assert (flatten_visitors (f :: fs2) = flatten_visitors fs2) as EQ.
      { unfold is_flat in EF. unfold flatten_visitors. cbn. now destruct (ef_mode f). }
      unfold flatten_visitors in EQ. cbn in EQ. rewrite EQ. exact REST.
    - rewrite EM. cbn [app g_delegate_element].
      assert (GS := get_self s _ mem self _ _ _ S R E3). assert (GM := get_mem s _ mem self _ _ _ S R E2).
      assert (SM := fun m' => set_mem s _ mem self _ _ m m' S R E2).
      assert (SS := fun g' => set_self s _ mem self _ _ _ g' S R E3).
      rewrite GS. cbn [gf_enum gf_field gf_init]. unfold enum_code. rewrite ED, GM.
      assert (EE := enum_element_rel e b m i (OK id _ ED)).
      destruct (g_enum_element _ _ _ _ e _ b m i) as [a1|], (enum_element _ _ _ _ i) as [a2|]; try contradiction; [|exact REST].
      eapply act_rel_amap; [exact EE|]. intros [[r [b' m']] l] [[r2 e'] l2] (H1 & H2 & H3). cbn in *. subst.
      repeat split. eexists. cbn [fst snd]. split; [apply SS|]. rewrite SM.
      replace (ss1 ++ SFlat (enum_state e b' m') :: ss2) with (set_nth (List.length fs1) (SFlat (enum_state e b' m')) (ss1 ++ SFlat (enum_state e b m) :: ss2)).
      2: { rewrite L1. apply set_nth_app. }
      eapply slots_set; eauto. econstructor; eauto.
  Qed.

  Lemma g_delegate_same {E A} s self ss mem (a : A) : struct_ok dflt s -> slots_rel (es_fields s) ss mem self ->
    forall fs2 fs1, es_fields s = fs1 ++ fs2 -> g_delegate (E := E) (head ++ self) (flatten_visitors fs2) a = Ok (Some a).
  Proof.
    intros S R. induction fs2 as [|f fs2 IH]; intros fs1 E'; [reflexivity|].
    assert (Hp : nth_error (es_fields s) (List.length fs1) = Some f) by (rewrite E'; apply nth_app_len).
    assert (REST : g_delegate (E := E) (head ++ self) (flatten_visitors fs2) a = Ok (Some a)).
    { apply (IH (fs1 ++ [f])). rewrite E', <- app_assoc. reflexivity. }
    destruct (slots_nth _ _ _ _ _ f R Hp) as (sl & m & g & E1 & E2 & E3 & SR).
    unfold flatten_visitors. cbn [flat_map]. destruct (ef_mode f) eqn:EM; auto. cbn [app g_delegate].
    destruct SR as [b m EF|id e b m _ ET ED]; [unfold is_flat in EF; rewrite EM in EF; discriminate|].
    rewrite (get_self s _ mem self _ _ _ S R E3). exact REST.
  Qed.

  Lemma delegate_same {E A} (f : estate -> A -> res E (option A) * estate) ss a :
    (forall e a, f e a = (Ok (Some a), e)) -> delegate f ss a = (Ok (Some a), ss).
  Proof. intro H. induction ss as [|[b m|e] ss IH]; cbn; rewrite ?H, ?IH; auto. Qed.

  (** *** Structs *)

  Lemma find_field_of m (Hm : m = EElement \/ m = EAttribute) fs fs' n : fields_of fs fs' ->
    match find alg n (names_of fs (sorted_of m fs)) with
    | Some i => exists p f f', nth_error (sorted_of m fs) i = Some p /\ nth_error fs p = Some f /\ nth_error fs' p = Some f' /\
                  field_of f = Some f' /\ ef_mode f = m /\ find_field alg (sel_of m) fs' n = Some p
    | None => find_field alg (sel_of m) fs' n = None
    end.
  Proof.
    intro F. assert (Ht : m <> EText_) by (destruct Hm; subst; discriminate).
    unfold find_field. rewrite (table_of m Ht fs fs' F), (sorted_fields_of m Ht fs fs' F).
    destruct (find alg n (names_of fs (sorted_of m fs))) as [i|] eqn:EFD; auto.
    apply find_sound in EFD. unfold names_of in EFD. rewrite nth_error_map in EFD. destruct (nth_error (sorted_of m fs) i) as [p|] eqn:EP; [|discriminate].
    assert (In p (sorted_of m fs)) as HI by (eapply nth_error_In; eauto).
    apply sorted_iff in HI as (f & HF & HM).
    assert (exists f', nth_error fs' p = Some f' /\ field_of f = Some f') as (f' & HF' & HFF).
    { clear -F HF. revert p HF. induction F; intros [|p] HF; cbn in *; try discriminate; eauto. injection HF as <-. eauto. }
    exists p, f, f'. rewrite nth_error_map, EP. cbn. repeat split; auto. destruct (ef_mode f), m; auto; discriminate.
  Qed.

  Lemma selected_none self mt : selected self mt None = Ok ([], gm_else mt).
  Proof. unfold selected. now rewrite find_arm_none. Qed.

  Lemma attribute_arm_index fs i q b : In b (attribute_arms fs i q) -> ga_index b = i.
  Proof. unfold attribute_arms. destruct (nth_error fs q); cbn; intuition (subst; auto). Qed.
  Lemma element_arm_index fs i q b : In b (element_arms fs i q) -> ga_index b = i.
  Proof. unfold element_arms. destruct (nth_error fs q); cbn; intuition (subst; auto). Qed.

  Lemma put_struct fs ss l ss' l' : put (VState (VkStruct fs ss) l) ss' l' = VState (VkStruct fs ss') (l' ++ l).
  Proof. reflexivity. Qed.

  Lemma attribute_rel s fs ss mem self n v : struct_ok dflt s -> fields_of (es_fields s) fs ->
    slots_rel (es_fields s) ss mem self -> forall fin l,
    let x := g_struct_attribute o alg s (code_of s fin) mem (head ++ self) n v in
    let y := struct_attribute o alg (VState (VkStruct fs ss) l) fs ss n v in
    fst x = fst y /\ exists ss' self', snd y = VState (VkStruct fs ss') l /\ snd (snd x) = head ++ self' /\
      slots_rel (es_fields s) ss' (fst (snd x)) self'.
  Proof.
    intros S F R fin l. cbv zeta. unfold g_struct_attribute, struct_attribute. cbn [gs_attribute gs_attributes code_of].
    assert (FF := find_field_of EAttribute (or_intror eq_refl) (es_fields s) fs n F). change (sel_of EAttribute) with is_attribute in FF.
    destruct (find alg n (names_of _ _)) as [i|].
    - destruct FF as (p & f & f' & EP & Hf & Hf' & Hff & HM & EQ). rewrite EQ, Hf'.
      destruct (slots_nth _ _ _ _ _ f R Hf) as (sl & m & g & E1 & E2 & E3 & SR). rewrite E1.
      destruct SR as [b m EF|id e b m EM ET ED]; [|congruence].
      assert (GS := get_self s _ mem self _ _ _ S R E3). assert (GM := get_mem s _ mem self _ _ _ S R E2).
      assert (SM := fun m' => set_mem s _ mem self _ _ m m' S R E2).
      assert (SS := fun g' => set_self s _ mem self _ _ _ g' S R E3).
      assert (U := field_unflat _ _ Hff EF ltac:(congruence)).
      assert (SEL : selected (head ++ self) (GMatch (arms_of (attribute_arms (es_fields s)) (sorted_of EAttribute (es_fields s)))
        (match flatten_visitors (es_fields s) with [] => GOkSome | _ => GDelegate (flatten_visitors (es_fields s)) end)) (Some i) =
        Ok (if b then ([], GDuplicate) else ([GWriteAttribute (fident f); GSetTrue (present_of (fident f))], GOkNone))).
      { unfold selected. cbn [gm_arms]. unfold arms_of.
        rewrite (find_arm_spec (attribute_arms (es_fields s)) (head ++ self) _ 0 i p
          (if b then GArm i (Some (present_of (fident f))) [] GDuplicate
           else GArm i None [GWriteAttribute (fident f); GSetTrue (present_of (fident f))] GOkNone)); auto.
        - now destruct b.
        - apply attribute_arm_index.
        - intro rest. unfold attribute_arms. rewrite Hf. cbn [app find_arm ga_index ga_guard Nat.add]. rewrite Nat.eqb_refl, GS. now destruct b. }
      rewrite SEL. destruct f' as [nm md df]. cbn [f_mode] in U. destruct md as [k t|opt t| |]; try contradiction; destruct U as [U1 U2]; [congruence|].
      unfold attribute_field. destruct b.
      + cbn. split; auto. exists ss, self. rewrite (set_nth_id ss p _ E1). auto.
      + cbn [run_attr]. rewrite GM, (get_user s p f S Hf), U2.
        assert (W : forall r : res verr value, r = map_ok (fun x => if opt then VSome (VText x) else VText x) (attr_init (parse_text o t) v) ->
          exists w, match (if opt then KOpt else KOne) with KOne => Some (fun x => VText x) | KOpt => Some (fun x => VSome (VText x)) | KVec => None end = Some w /\
                    map_ok w (attr_init (parse_text o t) v) = r).
        { intros r ->. destruct opt; eexists; (split; [reflexivity|reflexivity]). }
        destruct (W _ eq_refl) as (w & -> & ->). clear W.
        destruct (bind _ (write_mem m)) as [m'|e|x]; cbn [run_attr fst snd].
        * unfold set_flag. rewrite GS. cbn [map_ok]. split; [reflexivity|]. exists (set_nth p (DeriveDe.SField true m') ss), (set_nth p (present_of (fident f), GFFlag true) self).
          split; [reflexivity|]. rewrite SS. split; auto. rewrite SM. eapply slots_set; eauto. now constructor.
        * split; auto. exists ss, self. rewrite (set_nth_id ss p _ E1). auto.
        * split; auto. exists ss, self. rewrite (set_nth_id ss p _ E1). auto.
    - rewrite FF, selected_none. cbn [gm_else].
      rewrite delegate_same; [|reflexivity].
      assert (D : run_attr o s n [] (match flatten_visitors (es_fields s) with [] => GOkSome | _ => GDelegate (flatten_visitors (es_fields s)) end)
        mem (head ++ self) (Some v) = (Ok (Some v), (mem, head ++ self))).
      { destruct (flatten_visitors (es_fields s)) as [|x xs] eqn:EFV; auto. cbn [run_attr]. rewrite <- EFV.
        now rewrite (g_delegate_same s self ss mem v S R (es_fields s) []). }
      rewrite D. cbn. split; auto. exists ss, self. auto.
  Qed.

  Definition elem_out (s : estruct) (fs : list field) (l : list value) (x : res verr bool * (gmem * gself) * list value)
    (y : res verr bool * vstate) : Prop :=
    fst (fst x) = fst y /\
    exists ss self, snd y = VState (VkStruct fs ss) (snd x ++ l) /\ snd (snd (fst x)) = head ++ self /\
      slots_rel (es_fields s) ss (fst (snd (fst x))) self.

  Lemma element_rel s fs ss mem self i : struct_ok dflt s -> fields_of (es_fields s) fs ->
    slots_rel (es_fields s) ss mem self -> forall fin l,
    act_rel rel (elem_out s fs l) (g_struct_element o alg decls dflt s (code_of s fin) mem (head ++ self) i)
      (struct_element o alg env (VState (VkStruct fs ss) l) fs ss i).
  Proof.
    intros S F R fin l. unfold g_struct_element, struct_element. cbn [gs_element gs_elements code_of].
    assert (FF := find_field_of EElement (or_introl eq_refl) (es_fields s) fs (from_xml_name (ei_name i)) F). change (sel_of EElement) with is_element in FF.
    destruct (find alg _ (names_of _ _)) as [j|].
    - destruct FF as (p & f & f' & EP & Hf & Hf' & Hff & HM & EQ). rewrite EQ, Hf'.
      destruct (slots_nth _ _ _ _ _ f R Hf) as (sl & m & g & E1 & E2 & E3 & SR). rewrite E1.
      destruct SR as [b m EF|id e b m EM ET ED]; [|congruence].
      assert (GS := get_self s _ mem self _ _ _ S R E3). assert (GM := get_mem s _ mem self _ _ _ S R E2).
      assert (SM := fun m' => set_mem s _ mem self _ _ m m' S R E2).
      assert (SS := fun g' => set_self s _ mem self _ _ _ g' S R E3).
      assert (U := field_unflat _ _ Hff EF ltac:(congruence)).
      match goal with |- context [selected ?u ?w ?z] => assert (SEL : selected u w z =
        Ok (if b then ([GUpdate (fident f)], GOkNone) else ([GWriteElement (fident f); GSetTrue (present_of (fident f))], GOkNone))) end.
      { unfold selected. cbn [gm_arms]. unfold arms_of.
        rewrite (find_arm_spec (element_arms (es_fields s)) (head ++ self) _ 0 j p
          (if b then GArm j (Some (present_of (fident f))) [GUpdate (fident f)] GOkNone
           else GArm j None [GWriteElement (fident f); GSetTrue (present_of (fident f))] GOkNone)); auto.
        - now destruct b.
        - apply element_arm_index.
        - intro rest. unfold element_arms. rewrite Hf. cbn [app find_arm ga_index ga_guard Nat.add]. rewrite Nat.eqb_refl, GS. now destruct b. }
      rewrite SEL. clear SEL. destruct f' as [nm md df]. cbn [f_mode] in U. destruct md as [k t|opt t| |]; try contradiction; destruct U as [U1 U2]; [|congruence].
      assert (KEEP : forall (r : res verr unit) (r' : res verr bool) l', map_ok (fun _ => false) r = r' ->
        elem_out s fs l (r', (mem, head ++ self), l') (map_ok (fun _ => false) r, put (VState (VkStruct fs ss) l) (set_nth p (DeriveDe.SField b m) ss) l')).
      { intros r r' l' <-. split; auto. exists ss, self. rewrite (set_nth_id ss p _ E1), put_struct. auto. }
      assert (STORE : forall m' l', elem_out s fs l
        (run_moved [GSetTrue (present_of (fident f))] GOkNone (set (fident f) m' mem) (head ++ self), l')
        (Ok false, put (VState (VkStruct fs ss) l) (set_nth p (DeriveDe.SField true m') ss) l')).
      { intros m' l'. cbn [run_moved]. unfold set_flag. rewrite GS. cbn [run_moved]. rewrite put_struct. split; auto.
        exists (set_nth p (DeriveDe.SField true m') ss), (set_nth p (present_of (fident f), GFFlag true) self). cbn [fst snd].
        split; auto. rewrite SS. split; auto. rewrite SM. eapply slots_set; eauto. now constructor. }
      unfold DeriveDe.element_field. destruct b.
      + cbn [run_body]. rewrite GM, (get_user s p f S Hf), U2. destruct m as [old|]; [|apply (KEEP (Abort UB)); reflexivity].
        assert (ID : forall S' A B C (h : A -> B) (g' : B -> C) (a : action S' A), amap g' (amap h a) = amap (fun x => g' (h x)) a) by (intros ? ? ? ? ? ? []; reflexivity).
        rewrite ID. clear ID.
        eapply act_rel_amap; [apply (update_rel (k, t))|]. intros [r l'] y <-. destruct r as [v|e|x]; cbn [after].
        * cbn [run_moved]. split; auto. exists (set_nth p (DeriveDe.SField true (Some v)) ss), self. cbn [fst snd]. split; auto. split; auto.
          rewrite SM. rewrite <- (set_nth_id self p _ E3) at 1. eapply slots_set; eauto. now constructor.
        * apply (KEEP (Err e)). reflexivity.
        * apply (KEEP (Abort x)). reflexivity.
      + cbn [run_body]. rewrite GM, (get_user s p f S Hf), U2.
        assert (ID : forall S' A B C (h : A -> B) (g' : B -> C) (a : action S' A), amap g' (amap h a) = amap (fun x => g' (h x)) a) by (intros ? ? ? ? ? ? []; reflexivity).
        rewrite ID. clear ID.
        eapply act_rel_amap; [apply (init_rel (k, t))|]. intros [r l'] y <-. cbv beta iota.
        destruct (bind r (write_mem m)) as [m'|e|x]; cbn [after].
        * apply STORE.
        * apply (KEEP (Err e)). reflexivity.
        * apply (KEEP (Abort x)). reflexivity.
    - rewrite FF, selected_none. cbn [gm_else].
      assert (DR := delegate_element_rel s self i S (es_fields s) [] [] ss mem eq_refl eq_refl (slots_len _ _ _ _ R) R).
      destruct (flatten_visitors (es_fields s)) as [|x xs] eqn:EFV.
      + cbn [g_delegate_element] in DR. cbn [run_body]. destruct (delegate_element _ _ _ ss i); [contradiction|].
        split; auto. exists ss, self. auto.
      + cbn [run_body]. destruct (g_delegate_element _ _ _ _ _ _ _ _), (delegate_element _ _ _ ss i); try contradiction.
        * eapply act_rel_amap; [exact DR|]. intros [[r [m1 g1]] l1] [[r2 ss'] l2] (H1 & H2 & self' & H3 & H4). cbn in *. subst.
          split; auto. exists ss', self'. auto.
        * split; auto. exists ss, self. auto.
  Qed.

  (** ** All visitors *)

  Theorem generated_rel : vis_rel rel (fun _ => True) (generated o alg decls dflt) (derived o alg env).
  Proof.
    split.
    - intros id s1 s2 n v H. destruct H as [id s fs ss mem self l H F R|id e b m l H]; cbn.
      + destruct (struct_code_some id s H) as (fin & _ & ->). assert (S := OK id _ H). cbn in S.
        assert (A := attribute_rel s fs ss mem self n v S F R fin l). cbv zeta in A.
        destruct (g_struct_attribute _ _ _ _ _ _ _ _) as [r [m1 g1]]. destruct (struct_attribute _ _ _ _ _ _ _) as [r2 s2].
        cbn in *. destruct A as (-> & ss' & self' & -> & -> & R'). split; [now split|]. econstructor; eauto.
      + split; [now split|]. now constructor.
    - intros id s1 s2 str p H. destruct H as [id s fs ss mem self l H F R|id e b m l H]; cbn.
      + destruct (struct_code_some id s H) as (fin & _ & ->). assert (S := OK id _ H). cbn in S.
        unfold struct_characters. rewrite delegate_same; [|reflexivity]. cbn.
        assert (A : match match flatten_visitors (es_fields s) with [] => None | _ => Some (flatten_visitors (es_fields s)) end with
          | Some vs => g_delegate (E := string) (head ++ self) vs str | None => Ok (Some str) end = Ok (Some str)).
        { destruct (flatten_visitors (es_fields s)) as [|x xs] eqn:EFV; auto. rewrite <- EFV.
          now rewrite (g_delegate_same s self ss mem str S R (es_fields s) []). }
        cbn in A. rewrite A. split; [now split|]. econstructor; eauto.
      + split; [now split|]. now constructor.
    - intros id s1 s2 i H. destruct H as [id s fs ss mem self l H F R|id e b m l H]; cbn.
      + destruct (struct_code_some id s H) as (fin & _ & ->). assert (S := OK id _ H). cbn in S.
        assert (ID : forall S' A (a : action S' A), amap (fun x => x) a = a) by (intros S' A []; reflexivity).
        rewrite <- (ID _ _ (struct_element _ _ _ _ _ _ _)). clear ID.
        eapply act_rel_amap; [apply (element_rel s fs ss mem self i S F R fin l)|].
        intros [[r [m1 g1]] l1] [r2 s2] (H1 & ss' & self' & H2 & H3 & H4). cbn in *. subst. split; [now split|]. econstructor; eauto.
      + unfold enum_code. rewrite H. assert (EE := enum_element_rel e b m i (OK id _ H)).
        destruct (g_enum_element _ _ _ _ e _ b m i) as [a1|], (enum_element _ _ _ _ i) as [a2|]; try contradiction.
        * eapply act_rel_amap; [exact EE|]. intros [[r [b' m']] l1] [[r2 e'] l2] (H1 & H2 & H3). cbn in *. subst.
          split; [now split|]. now constructor.
        * cbn. split; [now split|]. now constructor.
  Qed.

  Theorem read_generated_same dbg t src fin :
    read_generated o alg decls dflt dbg t src fin = read_as o alg env dbg t src fin.
  Proof.
    unfold read_generated, read_as. apply (read_rel rel (fun _ => True)); auto.
    - apply generated_rel.
    - intro i. unfold de_root. eapply act_rel_amap; [apply deserialize_rel|]. intros x y ->. now split.
  Qed.
End Refine.
