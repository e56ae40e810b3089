(** Derived types on streams that are cut off. *)
From Verif Require Import Base Normalize Text TextProofs Find Types Reader ReaderSpec ReaderProofs ReaderTotal ReaderOk
  ReaderMore ReaderXml ReaderProps ReaderCut ReaderStop DeTotal DeriveDe DeSpec DeProps ErrSpec ErrProofs.

Lemma read_decided {St T} dbg (V : visitors St) (D : einfo -> action St (res verr T)) pre x e :
  transparent V -> transparent_root D ->
  read dbg V D (reader_new pre (FError x)) = Err e -> ~ is_xml e ->
  forall post fin, read dbg V D (reader_new (pre ++ post) fin) = Err e.
Proof.
  intros HT HD E N post fin. destruct (read_sim dbg V x post fin HT D pre HD) as [U|S].
  - rewrite E in U. contradiction.
  - now rewrite S.
Qed.

Lemma read_undecided {St T} dbg (V : visitors St) (D : einfo -> action St (res verr T)) pre x e :
  transparent V -> transparent_root D ->
  read dbg V D (reader_new pre (FError x)) = Err e -> is_xml e ->
  e = Error (EXml x) (opened [] pre) (xe_pos x).
Proof.
  intros HT HD E (y & K). destruct e as [k st p]. cbn in K. subst k.
  destruct (read_xml_error _ _ dbg V D pre (FError x) y st p HT HD E) as (F & -> & ->). now injection F as <-.
Qed.

Lemma well_nested_cut src : forall open n fin x, well_nested open src fin -> well_nested open (firstn n src) (FError x).
Proof.
  induction src as [|[e p] src IH]; intros open n fin x H; destruct n as [|n]; cbn [firstn]; try exact I.
  destruct e; cbn [well_nested] in *; eauto.
  - destruct open as [|n' open]; [contradiction|]. destruct H as [H1 H2]. split; eauto.
  - destruct H as [H1 H2]. split; eauto.
Qed.

Lemma cut_deliverable src fin n x : deliverable src fin -> deliverable (firstn n src) (FError x).
Proof.
  destruct src as [|[e p] src]; destruct n as [|n]; cbn [firstn deliverable]; eauto.
  intros (-> & W & _). split; [reflexivity|]. split; [eapply well_nested_cut; eauto|exact I].
Qed.

Lemma xml_or_not e : is_xml e \/ ~ is_xml e.
Proof. unfold is_xml. destruct (er_kind e); [left; eauto|right; intros (y & E); discriminate..]. Qed.

Lemma on_path_nonempty parents n path t : on_path parents n path t -> path <> [].
Proof. induction 1; [now destruct parents|assumption]. Qed.

(** Every error about a document is decided before anything after the element it is about. *)
Theorem doc_stops {St T} dbg (V : visitors St) (D : einfo -> action St (res verr T)) d pe e :
  transparent V -> transparent_root D ->
  read dbg V D (reader_new (doc_events d) (FEndDocument pe)) = Err e ->
  exists pre post, doc_events d = pre ++ post /\
    (er_stack e = opened [] pre \/ exists el, er_stack e = opened [] pre ++ [el]) /\
    forall post' fin', read dbg V D (reader_new (pre ++ post') fin') = Err e.
Proof.
  intros HV HD H. apply read_stops with (fin := FEndDocument pe); auto.
  - intros (y & K). destruct e as [k st p]. cbn in K. subst k.
    destruct (read_xml_error _ _ dbg V D _ _ y st p HV HD H) as (F & _). discriminate.
  - apply deserializer_error_path in H; auto.
    + destruct H as [(path & n & P & B)|(m & p & -> & _)]; [|discriminate].
      apply on_path_nonempty in P. destruct B; exact P.
    + intros _. split; intros i; [intros j; apply transparent_propagating_act, HV|].
      apply (transparent_propagating_act (fun x => x)), HD.
Qed.

Section Derived.
  Context (o : oracles) (alg : bs_alg) (env : tenv).
  Hypothesis (Hok : names_ok env) (Hc : compiles env) (Ho : oracles_total o).

  Lemma cut_err dbg t src fin n x : known_ty env t -> deliverable src fin ->
    exists e, read_as o alg env dbg t (firstn n src) (FError x) = Err e.
  Proof.
    intros Hk Hd. pose proof (read_as_total o alg env Hc Ho dbg t (firstn n src) (FError x) Hk (cut_deliverable _ _ n x Hd)) as Ht.
    destruct (read_as o alg env dbg t (firstn n src) (FError x)) as [v|e|y] eqn:E; eauto.
    - exfalso. eapply cut_off_never_ok; exact E.
    - exfalso. now apply (Ht y).
  Qed.

  (** A cut document: the first fault of the document, or the error of the parser. *)
  Theorem cut_document dbg t d n x : known_ty env t ->
    let pre := firstn n (doc_events d) in
    read_as o alg env dbg t pre (FError x) = Err (Error (EXml x) (opened [] pre) (xe_pos x)) \/
    exists e, doc_error o env t d e /\ ~ is_xml e /\ read_as o alg env dbg t pre (FError x) = Err e /\
      forall post fin, read_as o alg env dbg t (pre ++ post) fin = Err e.
  Proof.
    intros Hk pre. destruct (cut_err dbg t (doc_events d) (FEndDocument (0, 0)%N) n x Hk (doc_deliverable d _)) as (e & E).
    fold pre in E. destruct (xml_or_not e) as [X|N].
    - left. rewrite E. f_equal. eapply read_undecided; eauto; [apply derived_transparent|apply de_root_transparent].
    - right. exists e.
      assert (A : forall post fin, read_as o alg env dbg t (pre ++ post) fin = Err e).
      { intros post fin. eapply read_decided; eauto; [apply derived_transparent|apply de_root_transparent]. }
      split; [|now repeat split].
      apply (first_fault o alg env dbg t d (0, 0)%N e Hok Hc).
      specialize (A (skipn n (doc_events d)) (FEndDocument (0, 0)%N)). subst pre. now rewrite firstn_skipn in A.
  Qed.

  (** If the whole document can be read, every cut is reported as such. *)
  Theorem cut_valid dbg t d n x pe v : known_ty env t ->
    read_as o alg env dbg t (doc_events d) (FEndDocument pe) = Ok v ->
    let pre := firstn n (doc_events d) in
    read_as o alg env dbg t pre (FError x) = Err (Error (EXml x) (opened [] pre) (xe_pos x)).
  Proof.
    intros Hk R pre. destruct (cut_document dbg t d n x Hk) as [E|(e & _ & _ & _ & A)]; [exact E|].
    specialize (A (skipn n (doc_events d)) (FEndDocument pe)). rewrite firstn_skipn in A. congruence.
  Qed.

  (** The first fault of a document is decided before anything after the element it is about. *)
  Theorem fault_stops dbg t d e : doc_error o env t d e ->
    exists pre post, doc_events d = pre ++ post /\
      (er_stack e = opened [] pre \/ exists el, er_stack e = opened [] pre ++ [el]) /\
      forall post' fin', read_as o alg env dbg t (pre ++ post') fin' = Err e.
  Proof.
    intros H. apply (first_fault o alg env dbg t d (0, 0)%N e Hok Hc) in H.
    unfold read_as in *. eapply doc_stops; eauto; [apply derived_transparent|apply de_root_transparent].
  Qed.
End Derived.
