(** What the names in the generated code refer to: proofs. *)
From Verif Require Import Base Resolve ResolveSpec.
From Coq Require Import Lia.

Lemma fits_seqs b m vars l : fits b m vars (seqs l) = forallb (fits b m vars) l.
Proof. induction l as [|a l IH]; [reflexivity|]. cbn. now rewrite IH. Qed.

Lemma refers_outside m s x : refers [] m s x <> FBlock.
Proof.
  unfold refers. cbn [in_block existsb].
  destruct (m s x), (match s with STy => mem x crates | _ => false end), (mem x (prelude s)); intros H; inversion H.
Qed.

Lemma fits_name b m vars s x : fits b m vars (Given s x) = negb (in_block b s x).
Proof.
  cbn [fits]. unfold refers at 1. destruct (in_block b s x) eqn:E.
  - pose proof (refers_outside m s x). now destruct (refers [] m s x).
  - cbn [negb]. change (match m s x with
       | Some _ => FModule
       | None =>
           if (match s with STy => mem x crates | _ => false end) then FCrate
           else if mem x (prelude s) then FStd else FNothing
       end) with (refers [] m s x). now destruct (refers [] m s x).
Qed.

Lemma given_same b m s x : found_eqb (refers b m s x) (refers [] m s x) = negb (in_block b s x).
Proof. exact (fits_name b m [] s x). Qed.

Definition clean (b : block) (l : list string) : bool := forallb (fun x => negb (in_block b STy x)) l.
Lemma fits_given b m vars l : fits b m vars (given l) = clean b l.
Proof.
  unfold given, clean. rewrite fits_seqs. induction l as [|x l IH]; [reflexivity|]. cbn [map forallb]. now rewrite fits_name, IH.
Qed.

Lemma suffix u t : substring (String.length u) (String.length t) (u ++ t) = t.
Proof.
  induction u as [|a u IH]; cbn; [|exact IH]. induction t as [|a t IH]; cbn; [reflexivity|now rewrite IH].
Qed.
Lemma length_app u t : String.length (u ++ t) = String.length u + String.length t.
Proof. induction u as [|a u IH]; cbn; [reflexivity|now rewrite IH]. Qed.

Lemma not_visitor x ident : substring (String.length x - 7) 7 x <> "Visitor"%string -> String.eqb x (visitor_name ident) = false.
Proof.
  intros H. apply String.eqb_neq. intros ->. apply H. unfold visitor_name. rewrite length_app.
  replace (String.length (u_name ident) + String.length "Visitor" - 7) with (String.length (u_name ident)) by (cbn; lia).
  apply (suffix (u_name ident) "Visitor").
Qed.

Lemma ident_not_visitor ident : String.eqb (u_name ident) (visitor_name ident) = false.
Proof.
  apply String.eqb_neq. intros H. apply (f_equal String.length) in H. unfold visitor_name in H. rewrite length_app in H. cbn in H. lia.
Qed.

Section Fit.
  Context (b : block) (m : module).
  (** The names the code uses are found, and its variables are variables. *)
  Hypothesis Hty : forall x, In x ["Result"; "Option"; "String"; "bool"; "Vec"; "Box"; "str"]%string -> refers b m STy x = FStd.
  Hypothesis Hcrate : refers b m STy "static_xml" = FCrate.
  Hypothesis Hval : forall x, In x (reserved SVal) -> refers b m SVal x = FStd.
  Hypothesis Hmac : refers b m SMac "stringify" = FStd.
  Hypothesis Hvar : forall x, In x variables -> constant b m x = false.
  Hypothesis Hself : constant b m "self" = false.

  Ltac names := rewrite ?fits_seqs; cbn [fits map forallb seqs params std_ty std_val here own field_mut space_eqb andb];
    rewrite ?Hty, ?Hval, ?Hmac, ?Hcrate, ?Hvar, ?Hself by (cbn; tauto).

  Lemma branch_fits f : fits b m [("child", 0); ("self", 0)]%string (element_branch f) = Nat.eqb (rf_first f) 0.
  Proof. unfold element_branch. names. cbn. rewrite !orb_false_r, ?andb_true_r. destruct (Nat.eqb (rf_first f) 0); reflexivity. Qed.

  Lemma attribute_fits : fits b m [("value", 0); ("name", 0); ("self", 0)]%string attribute_branch = true.
  Proof. unfold attribute_branch. names. reflexivity. Qed.

  Lemma definition_fits f : clean b (rf_type f) = true -> fits b m [] (field_definition f) = true.
  Proof. intros H. unfold field_definition. destruct (rf_mode f); [names; reflexivity..|]. now rewrite fits_given. Qed.

  Lemma initializer_fits f : clean b (rf_type f) = true -> rf_first f = 0 -> fits b m [("out", 0)]%string (field_initializer f) = true.
  Proof.
    intros H1 H2. unfold field_initializer. destruct (rf_mode f); [reflexivity..|]. rewrite fits_seqs. cbn [forallb].
    rewrite !fits_given, H1, H2. reflexivity.
  Qed.

  Lemma flatten_fits vars fs : existsb (fun '(y, d) => String.eqb "self" y && Nat.eqb 0 d) vars = true ->
    (forall d, In ("self"%string, d) vars -> d = 0) ->
    (fits b m vars (flatten_visitors fs) = true <-> forall f, In f fs -> rf_mode f = RFlatten -> u_place (rf_ident f) = 0).
  Proof.
    intros V1 V2. unfold flatten_visitors. rewrite fits_seqs, forallb_forall. split.
    - intros H f Hf Hm. assert (Hi : In f (filter (is_mode RFlatten) fs)).
      { apply filter_In. split; [exact Hf|]. unfold is_mode. now rewrite Hm. }
      specialize (H _ (in_map (fun f => Var "self" (u_place (rf_ident f))) _ _ Hi)). cbn [fits] in H.
      apply existsb_exists in H as ((y & d) & Hin & E). apply andb_true_iff in E as [E1 E2].
      apply String.eqb_eq in E1. subst. apply PeanoNat.Nat.eqb_eq in E2. rewrite E2. now apply V2.
    - intros H k Hk. apply in_map_iff in Hk as (f & <- & Hf). apply filter_In in Hf as [Hf Hm]. cbn [fits].
      rewrite H; [exact V1|exact Hf|]. unfold is_mode in Hm. now destruct (rf_mode f).
  Qed.

  Hypothesis Helements : refers b m SVal "ELEMENTS" = FBlock.
  Hypothesis Hattributes : refers b m SVal "ATTRIBUTES" = FBlock.

  Lemma finalize_fits f :
    fits b m [("_default", 0); ("self", 0)]%string (finalize_field f) = clean b (rf_type f) && Nat.eqb (rf_first f) 0.
  Proof.
    unfold finalize_field. destruct (rf_mode f), (rf_default f); names; rewrite ?fits_given, ?Helements, ?Hattributes; cbn;
      destruct (clean b (rf_type f)), (Nat.eqb (rf_first f) 0); reflexivity.
  Qed.
End Fit.

Section Facts.
  Context (m : module) (d : derivation).
  Hypothesis Hm : leaves_alone m.
  Notation b := (items_of d).

  Lemma not_item s x : (s = STy -> substring (String.length x - 7) 7 x <> "Visitor"%string) ->
    (s = SVal -> x <> "ATTRIBUTES"%string /\ x <> "ELEMENTS"%string) -> in_block b s x = false.
  Proof.
    intros H1 H2. destruct d; try reflexivity; unfold in_block, items_of, existsb; destruct s; cbn [space_eqb andb];
      rewrite ?not_visitor by (now apply H1); try reflexivity; destruct (H2 eq_refl) as [A B];
      apply String.eqb_neq in A; apply String.eqb_neq in B; rewrite ?A, ?B; reflexivity.
  Qed.

  Lemma item_is s x : in_block b s x = false -> m s x = None ->
    refers b m s x = if (match s with STy => mem x crates | _ => false end) then FCrate
                     else if mem x (prelude s) then FStd else FNothing.
  Proof. intros H1 H2. unfold refers. now rewrite H1, H2. Qed.

  Lemma types_found x : In x ["Result"; "Option"; "String"; "bool"; "Vec"; "Box"; "str"]%string -> refers b m STy x = FStd.
  Proof.
    intros H. assert (R : In x (reserved STy)) by (cbn in *; tauto). rewrite item_is; [| |now apply Hm].
    - cbn in H. intuition subst; reflexivity.
    - apply not_item; [|discriminate]. intros _. cbn in H. intuition subst; discriminate.
  Qed.
  Lemma crate_found : refers b m STy "static_xml" = FCrate.
  Proof.
    rewrite item_is; [reflexivity| |apply Hm; cbn; tauto]. apply not_item; [|discriminate]. intros _. discriminate.
  Qed.
  Lemma values_found x : In x (reserved SVal) -> refers b m SVal x = FStd.
  Proof.
    intros H. rewrite item_is; [| |now apply Hm].
    - cbn in H. intuition subst; reflexivity.
    - apply not_item; [discriminate|]. intros _. cbn in H. intuition subst; discriminate.
  Qed.
  Lemma macro_found : refers b m SMac "stringify" = FStd.
  Proof. rewrite item_is; [reflexivity| |apply Hm; cbn; tauto]. apply not_item; discriminate. Qed.
  Lemma variable_found x : In x variables -> constant b m x = false.
  Proof.
    intros H. unfold constant. rewrite not_item; [|discriminate|].
    - pose proof (proj2 Hm x H) as N. destruct (m SVal x) as [[]|]; [now destruct N|now rewrite andb_false_r|].
      cbn in H. intuition subst; reflexivity.
    - intros _. cbn in H. intuition subst; discriminate.
  Qed.
  Lemma self_found : constant b m "self" = false.
  Proof. reflexivity. Qed.
End Facts.

Ltac facts m d Hm :=
  let H1 := fresh "Hty" in pose proof (types_found m d Hm) as H1;
  let H2 := fresh "Hcrate" in pose proof (crate_found m d Hm) as H2;
  let H3 := fresh "Hval" in pose proof (values_found m d Hm) as H3;
  let H4 := fresh "Hmac" in pose proof (macro_found m d Hm) as H4;
  let H5 := fresh "Hvar" in pose proof (variable_found m d Hm) as H5;
  let H6 := fresh "Hself" in pose proof (self_found m d) as H6.

Ltac names Hty Hcrate Hval Hmac Hvar Hself :=
  rewrite ?fits_seqs, ?fits_given, ?fits_name;
  cbn [fits map forallb seqs params std_ty std_val here own field_mut space_eqb andb fst];
  rewrite ?fits_seqs, ?fits_given, ?given_same, ?Hmac, ?Hcrate, ?Hself,
    ?(Hty "Result"), ?(Hty "Option"), ?(Hty "String"), ?(Hty "bool"), ?(Hty "Vec"), ?(Hty "Box"), ?(Hty "str"),
    ?(Hval "Ok"), ?(Hval "Err"), ?(Hval "Some"), ?(Hval "None"),
    ?(Hvar "child"), ?(Hvar "name"), ?(Hvar "value"), ?(Hvar "s"), ?(Hvar "p"), ?(Hvar "out"), ?(Hvar "default"), ?(Hvar "_default"),
    ?(Hvar "element"), ?(Hvar "visitor"), ?(Hvar "element_i"), ?(Hvar "expected_i"), ?(Hvar "f"), ?(Hvar "d"), ?(Hvar "builder"),
    ?(Hvar "writer"), ?(Hvar "text"), ?(Hvar "errors"), ?(Hvar "r"), ?(Hvar "e"), ?(Hvar "t") by (cbn; tauto).

Lemma in_all {A} (g : A -> code) b m vars l : forallb (fits b m vars) (map g l) = true <-> forall a, In a l -> fits b m vars (g a) = true.
Proof.
  rewrite forallb_forall. split.
  - intros H a Ha. now apply H, in_map.
  - intros H k Hk. apply in_map_iff in Hk as (a & <- & Ha). auto.
Qed.

Lemma repeats b m vars k n : fits b m vars k = true -> forallb (fits b m vars) (repeat k n) = true.
Proof. intros H. induction n as [|n IH]; [reflexivity|]. cbn. now rewrite H. Qed.

Lemma ser_struct_fits m ident n fs : leaves_alone m -> names_fit m (SerStruct ident n fs) = true <-> from_here (SerStruct ident n fs).
Proof.
  intros Hm. unfold names_fit. facts m (SerStruct ident n fs) Hm. cbn [code_of]. unfold ser_struct.
  set (b := items_of (SerStruct ident n fs)) in *. names Hty Hcrate Hval Hmac Hvar Hself.
  rewrite repeats by reflexivity.
  change (in_block b STy (u_name ident)) with false.
  change (mem "Ok" ["builder"; "self"]%string) with false. change (mem "Ok" ["writer"; "self"]%string) with false.
  cbn [found_eqb negb andb]. rewrite !andb_true_r, andb_true_iff, !in_all. unfold from_here. rewrite Forall_forall. split.
  - intros [H1 H2] f Hf. destruct (rf_mode f) eqn:M.
    + assert (G : In f (filter (is_mode RElement) fs ++ filter (is_mode RFlatten) fs)).
      { apply in_or_app. left. apply filter_In. split; [exact Hf|]. unfold is_mode. now rewrite M. }
      apply H2 in G. cbn in G. now destruct (u_place (rf_ident f)).
    + assert (G : In f (filter (is_mode RAttribute) fs ++ filter (is_mode RFlatten) fs)).
      { apply in_or_app. left. apply filter_In. split; [exact Hf|]. unfold is_mode. now rewrite M. }
      apply H1 in G. cbn in G. now destruct (u_place (rf_ident f)).
    + assert (G : In f (filter (is_mode RElement) fs ++ filter (is_mode RFlatten) fs)).
      { apply in_or_app. right. apply filter_In. split; [exact Hf|]. unfold is_mode. now rewrite M. }
      apply H2 in G. cbn in G. now destruct (u_place (rf_ident f)).
  - intros H. split; intros f Hf; cbn; rewrite H; try reflexivity; apply in_app_or in Hf as [Hf|Hf]; now apply filter_In in Hf.
Qed.

Lemma ser_enum_fits m ident n vs : leaves_alone m -> names_fit m (SerEnum ident n vs) = true <-> from_here (SerEnum ident n vs).
Proof.
  intros Hm. unfold names_fit. facts m (SerEnum ident n vs) Hm. cbn [code_of]. unfold ser_enum.
  set (b := items_of (SerEnum ident n vs)) in *. names Hty Hcrate Hval Hmac Hvar Hself.
  rewrite repeats by reflexivity. change (in_block b STy (u_name ident)) with false.
  change (mem "Ok" ["builder"; "self"]%string) with false. change (mem "Ok" ["writer"; "self"]%string) with false.
  cbn [found_eqb negb andb existsb String.eqb Ascii.eqb Bool.eqb Nat.eqb orb]. rewrite !andb_true_r, !in_all. unfold from_here. rewrite Forall_forall. split.
  - intros H v Hv. apply H in Hv. destruct (snd v); cbn [fits] in Hv.
    + rewrite (Hvar "f"%string) in Hv by (cbn; tauto). cbn in Hv. rewrite PeanoNat.Nat.eqb_refl in Hv. now destruct (u_place (fst v)).
    + cbn in Hv. now destruct (u_place (fst v)).
  - intros H v Hv. apply H in Hv. rewrite Hv. destruct (snd v); [|reflexivity]. cbn [fits].
    rewrite (Hvar "f"%string) by (cbn; tauto). reflexivity.
Qed.

Ltac vars := cbn [existsb String.eqb Ascii.eqb Bool.eqb Nat.eqb orb andb negb found_eqb mem fst].

Lemma via_raw_fits m d ident : leaves_alone m -> in_block (items_of d) STy (u_name ident) = false ->
  refers (items_of d) m STy (visitor_name ident) = FBlock -> fits (items_of d) m [] (via_raw (u_name ident) (visitor_name ident)) = true.
Proof.
  intros Hm Hi Hv. facts m d Hm. set (b := items_of d) in *. unfold via_raw. names Hty Hcrate Hval Hmac Hvar Hself.
  rewrite Hi, Hv. reflexivity.
Qed.

Lemma de_enum_fits m ident vs : leaves_alone m -> names_fit m (DeEnum ident vs) = true <-> from_here (DeEnum ident vs).
Proof.
  intros Hm. unfold names_fit.
  assert (Hi : in_block (items_of (DeEnum ident vs)) STy (u_name ident) = false).
  { cbn. now rewrite ident_not_visitor. }
  assert (Hv : refers (items_of (DeEnum ident vs)) m STy (visitor_name ident) = FBlock).
  { unfold refers. cbn [items_of in_block existsb space_eqb andb orb]. now rewrite String.eqb_refl. }
  assert (He : refers (items_of (DeEnum ident vs)) m SVal "ELEMENTS" = FBlock) by reflexivity.
  pose proof (via_raw_fits m (DeEnum ident vs) ident Hm Hi Hv) as Hr.
  facts m (DeEnum ident vs) Hm. cbn [code_of]. unfold de_enum.
  set (b := items_of (DeEnum ident vs)) in *. 
  set (V := [("element_i", 0); ("name", 0); ("child", 0); ("self", 0)]%string).
  assert (A : forall v, fits b m V (initialized_arm ident v) = Nat.eqb (u_place (fst v)) 0).
  { intros [[x c] []]; unfold initialized_arm; cbn [fst snd u_place]; names Hty Hcrate Hval Hmac Hvar Hself; rewrite ?Hi; cbn;
      rewrite ?PeanoNat.Nat.eqb_refl, ?orb_false_r; now destruct c. }
  assert (B : forall v, u_place (fst v) = 0 -> fits b m V (uninitialized_arm ident v) = true).
  { intros [[x c] []] E; cbn in E; subst; unfold uninitialized_arm; cbn [fst snd u_place]; names Hty Hcrate Hval Hmac Hvar Hself; rewrite ?Hi; reflexivity. }
  names Hty Hcrate Hval Hmac Hvar Hself. rewrite ?Hi, ?Hv, ?He, ?Hr. vars. rewrite !andb_true_r.
  rewrite andb_true_iff, !in_all. unfold from_here. rewrite Forall_forall. split.
  - intros [H _] v Hin. specialize (H v Hin). fold V in H. rewrite A in H. now apply PeanoNat.Nat.eqb_eq.
  - intros H. split; intros v Hin; fold V; [rewrite A; now apply PeanoNat.Nat.eqb_eq, H|apply B, H, Hin].
Qed.

Lemma print_fits m ident t : leaves_alone m -> names_fit m (Print ident t) = true.
Proof.
  intros Hm. unfold names_fit. facts m (Print ident t) Hm. cbn [code_of]. unfold print_text.
  set (b := items_of (Print ident t)) in *.
  destruct t as [|l|l]; names Hty Hcrate Hval Hmac Hvar Hself; change (in_block b STy (u_name ident)) with false; vars;
    rewrite ?PeanoNat.Nat.eqb_refl; cbn [orb andb]; rewrite ?andb_true_r; try reflexivity; apply in_all; intros v Hv.
  - names Hty Hcrate Hval Hmac Hvar Hself. vars. now rewrite PeanoNat.Nat.eqb_refl.
  - destruct (snd v); [|reflexivity]. names Hty Hcrate Hval Hmac Hvar Hself. vars. now rewrite PeanoNat.Nat.eqb_refl.
Qed.

Lemma parse_fits m ident n t : leaves_alone m -> names_fit m (Parse ident n t) = true <-> from_here (Parse ident n t).
Proof.
  intros Hm. unfold names_fit. facts m (Parse ident n t) Hm. cbn [code_of]. unfold parse_text.
  set (b := items_of (Parse ident n t)) in *.
  destruct t as [|l|l]; (destruct n; names Hty Hcrate Hval Hmac Hvar Hself; change (in_block b STy (u_name ident)) with false; vars;
    rewrite ?andb_true_r).
  - now split.
  - now split.
  - rewrite in_all. unfold from_here. rewrite Forall_forall.
    assert (A : forall v : uid * list string, fits b m [("errors", 0); ("text", 0); ("text", 0)]%string
      (seqs [given (snd v); Var "text" (u_place (fst v)); std_val "Ok"; Let "r" (u_place (fst v)) (seqs [std_val "Ok"; Var "r" (u_place (fst v))]);
          std_val "Err"; Let "e" (u_place (fst v)) (Seq (Var "errors" (u_place (fst v))) (Var "e" (u_place (fst v))))]) = Nat.eqb (u_place (fst v)) 0).
    { intros [[x c] ts]; cbn [fst snd u_place]; names Hty Hcrate Hval Hmac Hvar Hself. replace (clean b ts) with true.
      - cbn. rewrite ?PeanoNat.Nat.eqb_refl, ?orb_false_r. now destruct c.
      - clear. symmetry. apply forallb_forall. reflexivity. }
    split; intros H v Hv; [apply PeanoNat.Nat.eqb_eq; rewrite <- A; exact (H v Hv)|].
    exact (eq_trans (A v) (proj2 (PeanoNat.Nat.eqb_eq _ _) (H v Hv))).
  - rewrite in_all. unfold from_here. rewrite Forall_forall.
    assert (A : forall v : uid * list string, fits b m [("errors", 0); ("text", 0)]%string
      (seqs [given (snd v); Var "text" (u_place (fst v)); std_val "Ok"; Let "r" (u_place (fst v)) (seqs [std_val "Ok"; Var "r" (u_place (fst v))]);
          std_val "Err"; Let "e" (u_place (fst v)) (Seq (Var "errors" (u_place (fst v))) (Var "e" (u_place (fst v))))]) = Nat.eqb (u_place (fst v)) 0).
    { intros [[x c] ts]; cbn [fst snd u_place]; names Hty Hcrate Hval Hmac Hvar Hself. replace (clean b ts) with true.
      - cbn. rewrite ?PeanoNat.Nat.eqb_refl, ?orb_false_r. now destruct c.
      - clear. symmetry. apply forallb_forall. reflexivity. }
    split; intros H v Hv; [apply PeanoNat.Nat.eqb_eq; rewrite <- A; exact (H v Hv)|].
    exact (eq_trans (A v) (proj2 (PeanoNat.Nat.eqb_eq _ _) (H v Hv))).
  - replace (forallb _ (map _ l)) with true.
    2: { symmetry. apply in_all. intros v _. destruct (snd v); [reflexivity|]. names Hty Hcrate Hval Hmac Hvar Hself. reflexivity. }
    cbn [andb]. unfold from_here. destruct (find snd l) as [v|].
    + names Hty Hcrate Hval Hmac Hvar Hself. vars. rewrite ?orb_false_r, ?andb_true_r, ?orb_diag. rewrite PeanoNat.Nat.eqb_eq. split; [intros H w [= <-]; exact H|auto].
    + names Hty Hcrate Hval Hmac Hvar Hself. now split.
  - replace (forallb _ (map _ l)) with true.
    2: { symmetry. apply in_all. intros v _. destruct (snd v); [reflexivity|]. names Hty Hcrate Hval Hmac Hvar Hself. reflexivity. }
    cbn [andb]. unfold from_here. destruct (find snd l) as [v|].
    + names Hty Hcrate Hval Hmac Hvar Hself. vars. rewrite ?orb_false_r, ?andb_true_r, ?orb_diag. rewrite PeanoNat.Nat.eqb_eq. split; [intros H w [= <-]; exact H|auto].
    + names Hty Hcrate Hval Hmac Hvar Hself. now split.
Qed.

Lemma clean_iff ident fs l : clean (items_of (DeStruct ident fs)) l = true <-> ~ In (u_name ident ++ "Visitor")%string l.
Proof.
  unfold clean. rewrite forallb_forall. cbn [items_of in_block existsb space_eqb andb orb]. split.
  - intros H Hin. specialize (H _ Hin). fold (visitor_name ident) in H. now rewrite String.eqb_refl in H.
  - intros H x Hx. destruct (String.eqb x (visitor_name ident)) eqn:E; [|reflexivity]. apply String.eqb_eq in E. subst. contradiction.
Qed.

Lemma de_struct_fits m ident fs : leaves_alone m ->
  names_fit m (DeStruct ident fs) = true <-> no_visitor_types (DeStruct ident fs) /\ from_here (DeStruct ident fs).
Proof.
  intros Hm. unfold names_fit.
  assert (Hi : in_block (items_of (DeStruct ident fs)) STy (u_name ident) = false).
  { cbn. now rewrite ident_not_visitor. }
  assert (Hv : refers (items_of (DeStruct ident fs)) m STy (visitor_name ident) = FBlock).
  { unfold refers. cbn [items_of in_block existsb space_eqb andb orb]. now rewrite String.eqb_refl. }
  assert (He : refers (items_of (DeStruct ident fs)) m SVal "ELEMENTS" = FBlock) by reflexivity.
  assert (Ha : refers (items_of (DeStruct ident fs)) m SVal "ATTRIBUTES" = FBlock) by reflexivity.
  pose proof (via_raw_fits m (DeStruct ident fs) ident Hm Hi Hv) as Hr.
  pose proof (clean_iff ident fs) as Hc.
  facts m (DeStruct ident fs) Hm. cbn [code_of]. unfold de_struct.
  set (b := items_of (DeStruct ident fs)) in *.
  assert (F : forallb (fits b m [("_default", 0); ("self", 0)]%string) (map finalize_field fs) = true <->
              forall f, In f fs -> ~ In (u_name ident ++ "Visitor")%string (rf_type f) /\ rf_first f = 0).
  { rewrite in_all. split; intros H f Hf; specialize (H f Hf).
    - rewrite finalize_fits in H by auto. apply andb_true_iff in H as [H1 H2]. split; [now apply Hc|now apply PeanoNat.Nat.eqb_eq].
    - rewrite finalize_fits by auto. apply andb_true_iff. split; [now apply Hc|now apply PeanoNat.Nat.eqb_eq]. }
  assert (G : forall vars, vars = [("child", 0); ("self", 0)]%string \/ vars = [("value", 0); ("name", 0); ("self", 0)]%string \/
                vars = [("p", 0); ("s", 0); ("self", 0)]%string ->
    (fits b m vars (flatten_visitors fs) = true <-> forall f, In f fs -> rf_mode f = RFlatten -> u_place (rf_ident f) = 0)).
  { intros vars H. apply flatten_fits.
    - destruct H as [->|[->| ->]]; reflexivity.
    - intros d Hin. destruct H as [->|[->| ->]]; cbn in Hin; repeat destruct Hin as [Hin|Hin]; first [contradiction|congruence]. }
  assert (Fl : existsb (is_mode RFlatten) fs = false -> forall f, In f fs -> rf_mode f = RFlatten -> u_place (rf_ident f) = 0).
  { intros E f Hf M. assert (X : existsb (is_mode RFlatten) fs = true).
    { apply existsb_exists. exists f. split; [exact Hf|]. unfold is_mode. now rewrite M. }
    congruence. }
  unfold no_visitor_types, from_here. rewrite !Forall_forall. split.
  - intros H. rewrite fits_seqs in H. cbn [forallb] in H. rewrite !andb_true_iff in H.
    destruct H as (_ & _ & _ & _ & H5 & _ & _ & _ & _ & _ & H11 & _).
    assert (H11' : forallb (fits b m [("_default", 0); ("self", 0)]%string) (map finalize_field fs) = true).
    { cbn [fits params] in H11. rewrite !andb_true_iff, !fits_seqs in H11. tauto. }
    rewrite F in H11'. split; intros f Hf; [now apply H11'|]. split; [now apply H11'|].
    destruct (existsb (is_mode RFlatten) fs) eqn:E; [|now apply Fl].
    assert (X : fits b m [("child", 0); ("self", 0)]%string (flatten_visitors fs) = true).
    { cbn [fits params seqs] in H5. rewrite !andb_true_iff in H5. tauto. }
    rewrite G in X by auto. now apply X.
  - intros [H1 H2].
    assert (C : forall f, In f fs -> clean b (rf_type f) = true) by (intros f Hf; now apply Hc, H1).
    assert (P1 : forall f, In f fs -> rf_first f = 0) by (intros f Hf; now apply H2).
    assert (P2 : forall f, In f fs -> rf_mode f = RFlatten -> u_place (rf_ident f) = 0) by (intros f Hf; now apply H2).
    assert (Q1 : forallb (fits b m []) (map field_definition fs) = true).
    { apply in_all. intros f Hf. apply definition_fits; auto. }
    assert (Q2 : forallb (fits b m [("out", 0)]%string) (map field_initializer fs) = true).
    { apply in_all. intros f Hf. apply initializer_fits; auto. }
    assert (Q3 : forallb (fits b m [("_default", 0); ("self", 0)]%string) (map finalize_field fs) = true).
    { apply F. split; auto. }
    assert (Q4 : forallb (fits b m [("child", 0); ("self", 0)]%string) (map element_branch (filter (is_mode RElement) fs)) = true).
    { apply in_all. intros f Hf. apply filter_In in Hf as [Hf _]. rewrite branch_fits by auto. now apply PeanoNat.Nat.eqb_eq, P1. }
    assert (Q5 : forallb (fits b m [("value", 0); ("name", 0); ("self", 0)]%string)
                   (map (fun _ => attribute_branch) (filter (is_mode RAttribute) fs)) = true).
    { apply in_all. intros f Hf. now apply attribute_fits. }
    pose proof (proj2 (G _ (or_introl eq_refl)) P2) as Q6.
    pose proof (proj2 (G _ (or_intror (or_introl eq_refl))) P2) as Q7.
    pose proof (proj2 (G _ (or_intror (or_intror eq_refl))) P2) as Q8.
    destruct (existsb (is_mode RFlatten) fs); names Hty Hcrate Hval Hmac Hvar Hself;
      rewrite ?Hi, ?Hv, ?He, ?Ha, ?Hr, ?Q1, ?Q2, ?Q3, ?Q4, ?Q5, ?Q6, ?Q7, ?Q8; reflexivity.
Qed.

Theorem names_fit_iff m d : leaves_alone m -> names_fit m d = true <-> no_visitor_types d /\ from_here d.
Proof.
  intros Hm. destruct d.
  - now apply de_struct_fits.
  - rewrite de_enum_fits by exact Hm. cbn. tauto.
  - rewrite ser_struct_fits by exact Hm. cbn. tauto.
  - rewrite ser_enum_fits by exact Hm. cbn. tauto.
  - rewrite parse_fits by exact Hm. cbn. tauto.
  - split; [now split|intros _; now apply print_fits].
Qed.
