(** Proofs about Catch.v: a panic that may be caught is an error with a note in the visitor's state. *)
From Coq Require Import Lia.
From Verif Require Import Base Reader ReaderSpec ReaderProofs ReaderTotal ReaderOk ReaderProps Catch CatchSpec.

Section Encode.
  Context {St : Type}.

  (** The state of a visitor, and the panic that ended its last callback. *)
  Definition noted := (St * option string)%type.

  Definition note {E A} (e0 : E) (x : res E A * St) : res E A * noted :=
    match x with
    | (Abort (Panic m), s) => (Err e0, (s, Some m))
    | (r, s) => (r, (s, None))
    end.

  Definition came (e : verr) (n : option string) : failure :=
    match n with Some m => Panicked m | None => Failed e end.

  Definition enc_act {A B} (f : A -> B) (act : caction St A) : action noted B :=
    match act with
    | CNoRead a => ANoRead (f a)
    | CReadString k => AReadString (fun x => f (k (match x with inl s => inl s | inr e => inr (Failed e) end)))
    | CReadTo s0 k => AReadTo (s0, None) (fun x s => f (match x with
                                                        | inl i => k (inl i) (fst s)
                                                        | inr e => k (inr (came e (snd s))) (fst s)
                                                        end))
    end.

  Definition enc (V : cvisitors St) : visitors noted := {|
    v_attribute := fun s n v => note (Wrap "") (c_attribute V (fst s) n v);
    v_characters := fun s t p => note ""%string (c_characters V (fst s) t p);
    v_element := fun s i => enc_act (note (Wrap "")) (c_element V (fst s) i);
  |}.

  Definition panics {E A} (r : res E A) : Prop := exists m, r = Abort (Panic m).

  (** What a run of the encoding stands for. *)
  Definition decode {A} (x : res error A * noted) : res error A * St :=
    match x with
    | (Err e, (s, Some m)) => (Abort (Panic m), s)
    | (r, (s, _)) => (r, s)
    end.

  Definition quiet {A} (x : res error A * noted) : Prop :=
    match x with (Err _, _) => True | (_, (_, n)) => n = None end.

  Context (V : cvisitors St).

  Lemma enc_attrs : forall attrs stack p s,
    cattrs_loop V stack p attrs s = decode (attrs_loop (enc V) stack p attrs (s, None)).
  Proof.
    induction attrs as [|a attrs IH]; intros stack p s; [reflexivity|]. cbn [cattrs_loop attrs_loop enc v_attribute].
    cbn [fst]. destruct (c_attribute V s _ _) as [[o|e|[m| |]] s']; cbn [note]; try reflexivity.
    apply IH.
  Qed.

  Lemma enc_attrs_quiet : forall attrs stack p s r n, attrs_loop (enc V) stack p attrs (s, None) = (Ok r, n) -> snd n = None.
  Proof.
    induction attrs as [|a attrs IH]; intros stack p s r n; cbn [attrs_loop enc v_attribute fst].
    - injection 1 as <- <-. reflexivity.
    - destruct (c_attribute V s _ _) as [[o|e|[m| |]] s']; cbn [note]; try discriminate. apply IH.
  Qed.

  Lemma enc_attrs_no_panic : forall attrs stack p s, ~ panics (fst (attrs_loop (enc V) stack p attrs s)).
  Proof.
    induction attrs as [|a attrs IH]; intros stack p s; cbn [attrs_loop enc v_attribute].
    - intros (m & E); discriminate E.
    - destruct (c_attribute V (fst s) _ _) as [[o|e|[m| |]] s']; cbn [note]; try (intros (m' & E); discriminate E). apply IH.
  Qed.

  Definition body (dbg : bool) (fuel : nat) := fun sp ns s r => cread_loop dbg V fuel sp ns s r.

  (** The run of the encoding panics (by itself), or stands for the run. *)
  Definition stands (fuel : nat) : Prop := forall sp ns s r,
    let '(x, n, r') := read_loop false (enc V) fuel sp ns (s, None) r in
    panics x \/ ((forall i, x = Ok i -> snd n = None) /\
                 let '(y, s') := decode (x, n) in cread_loop false V fuel sp ns s r = (y, s', r')).

  Definition okay {A B} (f : A -> B) (x : (B + abort) * rstate) (y : (A + abort) * rstate) : Prop :=
    match x with
    | (inr (Panic _), _) => True
    | (inr a, r) => y = (inr a, r)
    | (inl b, r) => exists a, y = (inl a, r) /\ b = f a
    end.

  Lemma enc_run : forall fuel, stands fuel -> forall A B (f : A -> B) sp attrs ns act r,
    okay f (run_action false (enc V) (read_loop false (enc V) fuel) sp attrs ns (enc_act f act) r)
           (run_caction false V (cread_loop false V fuel) sp attrs ns act r).
  Proof.
    intros fuel ST A B f sp attrs ns act r. destruct act as [a|k|s0 k]; cbn [enc_act run_action run_caction].
    - exists a. split; reflexivity.
    - destruct (read_string false sp r) as [[s|e|[m| |]] r']; cbn [okay]; try eexists; try (split; reflexivity); auto.
    - destruct (nth_error (r_stack r) sp) as [el|] eqn:E; [|exact I].
      rewrite enc_attrs. destruct (attrs_loop (enc V) (r_stack r) (se_pos el) attrs (s0, None)) as [[u|e|x] [s1 n1]] eqn:EA.
      + assert (N : n1 = None) by exact (enc_attrs_quiet _ _ _ _ _ _ EA). subst n1. cbn [decode].
        specialize (ST sp ns s1 r). destruct (read_loop false (enc V) fuel sp ns (s1, None) r) as [[x [s2 n2]] r'].
        destruct ST as [(m & ->)|(Q & ST)]; [exact I|]. destruct x as [i|e|x].
        * assert (n2 = None) by exact (Q i eq_refl). subst n2. cbn [decode] in ST. rewrite ST. eexists. split; reflexivity.
        * destruct n2 as [m|]; cbn [decode] in ST; rewrite ST; eexists; split; reflexivity.
        * cbn [decode] in ST. rewrite ST. destruct x as [m| |]; cbn [okay]; auto; reflexivity.
      + cbn [decode]. destruct n1 as [m|]; cbn [okay]; eexists; split; reflexivity.
      + cbn [decode]. pose proof (enc_attrs_no_panic attrs (r_stack r) (se_pos el) (s0, None)) as NP. rewrite EA in NP.
        destruct x as [m| |]; [destruct NP; exists m; reflexivity| |]; reflexivity.
  Qed.

  Lemma enc_loop : forall fuel, stands fuel.
  Proof.
    induction fuel as [|fuel IH]; intros sp ns s r; cbn [read_loop cread_loop].
    - right. split; [discriminate|reflexivity].
    - unfold stack_check. cbn [negb orb]. destruct (next false r) as [[[[attrs ns'|name|str] p]|e|x] r1].
      + destruct (nth_error (r_stack r1) (Datatypes.S sp)) as [el|]; [|left; eexists; reflexivity].
        cbn [enc v_element fst].
        pose proof (enc_run fuel IH _ _ (note (Wrap "")) (Datatypes.S sp) attrs ns' (c_element V s (EInfo (se_name el) ns' (Datatypes.S (Datatypes.S sp)))) r1) as R.
        fold (enc V).
        destruct (run_action false (enc V) _ _ _ _ _ _) as [[b|x] r2]; cbn [okay] in R.
        * destruct R as ([x s'] & -> & ->). destruct x as [b|e|[m| |]]; cbn [note].
          -- destruct (return_to_depth false (Datatypes.S sp) r2) as [[u|e|x] r3].
             ++ exact (IH sp ns s' r3).
             ++ right. split; [discriminate|reflexivity].
             ++ right. split; [discriminate|]. reflexivity.
          -- right. split; [discriminate|reflexivity].
          -- right. split; [discriminate|reflexivity].
          -- right. split; [discriminate|reflexivity].
          -- right. split; [discriminate|reflexivity].
        * destruct x as [m| |]; [left; eexists; reflexivity| |]; rewrite R; right; (split; [discriminate|reflexivity]).
      + right. split; [reflexivity|reflexivity].
      + cbn [enc v_characters fst]. destruct (c_characters V s str p) as [[o|m|[m| |]] s']; cbn [note];
          try (right; split; [discriminate|reflexivity]). exact (IH sp ns s' r1).
      + right. split; [discriminate|reflexivity].
      + right. split; [discriminate|reflexivity].
  Qed.
End Encode.

Arguments noted St : clear implicits.

(** ** The same over trees *)

Section Tree.
  Context {St : Type} (V : cvisitors St).

  Lemma enc_sem_attrs : forall attrs path p s,
    csem_attrs V path p attrs s = decode (sem_attrs (enc V) path p attrs (s, None)) /\
    (forall u n, sem_attrs (enc V) path p attrs (s, None) = (Ok u, n) -> snd n = None) /\
    ~ panics (fst (sem_attrs (enc V) path p attrs (s, None))).
  Proof.
    induction attrs as [|a attrs IH]; intros path p s; cbn [csem_attrs sem_attrs enc v_attribute fst].
    - split; [reflexivity|]. split; [intros u n E; injection E as <- <-; reflexivity|]. intros (m & E); discriminate E.
    - destruct (c_attribute V s _ _) as [[o|e|[m| |]] s']; cbn [note];
        try (split; [reflexivity|split; [discriminate|intros (m' & E); discriminate E]]). apply IH.
  Qed.

  (** [rd'] reads with the encoding what [rd] reads. *)
  Definition like (rd' : noted St -> (res error endinfo * noted St) * place) (rd : St -> (res error endinfo * St) * place) : Prop :=
    forall s, let '(x, n, pl) := rd' (s, None) in
      ~ panics x /\ (forall i, x = Ok i -> snd n = None) /\ rd s = (decode (x, n), pl).

  Lemma enc_sem_act : forall A B (f : A -> B) rd' rd path p kids pe act, like rd' rd ->
    match sem_act rd' path p kids pe (enc_act f act) with
    | (inl b, pl) => exists a, csem_act rd path p kids pe act = (inl a, pl) /\ b = f a
    | (inr x, pl) => csem_act rd path p kids pe act = (inr x, pl) /\ forall m, x <> Panic m
    end.
  Proof.
    intros A B f rd' rd path p kids pe act L. destruct act as [a|k|s0 k]; cbn [enc_act sem_act csem_act].
    - eauto.
    - destruct (sem_string path "" kids pe) as [[s|e|x] pl] eqn:E; eauto.
      destruct (sem_string_total _ _ _ _ _ _ E).
    - specialize (L s0). destruct (rd' (s0, None)) as [[x [s1 n1]] pl]. destruct L as (NP & Q & ->).
      destruct x as [i|e|x].
      + assert (n1 = None) by exact (Q i eq_refl). subst n1. cbn [decode]. eauto.
      + destruct n1 as [m|]; cbn [decode]; eauto.
      + cbn [decode]. destruct x as [m| |]; [destruct NP; exists m; reflexivity| |]; split; auto; discriminate.
  Qed.

  Lemma enc_sem_kids : forall rd' rd kids, (forall n, In n kids -> forall path, is_elem n = true -> like (rd' n path) (rd n path)) ->
    forall path fin, like (sem_kids (enc V) rd' path fin kids) (csem_kids V rd path fin kids).
  Proof.
    intros rd' rd. induction kids as [|c kids IH]; intros L path fin s.
    - cbn. split; [intros (m & E); discriminate E|]. split; auto.
    - assert (L' : forall n, In n kids -> forall path, is_elem n = true -> like (rd' n path) (rd n path))
        by (intros; apply L; [right|]; assumption).
      specialize (IH L'). destruct c as [name attrs ns p kids1 pe|cd str p|m p|str p].
      + cbn [sem_kids csem_kids enc v_element fst]. fold (enc V).
        assert (LC := L _ (or_introl eq_refl) path eq_refl).
        pose proof (enc_sem_act _ _ (note (Wrap "")) _ _ (path ++ [SElem name p]) p kids1 pe
                      (c_element V s (EInfo name ns (List.length (path ++ [SElem name p])))) LC) as R.
        destruct (sem_act _ _ _ _ _ _) as [[b|x] pl].
        * destruct R as ([x s'] & -> & ->). destruct x as [b|e|[m| |]]; cbn [note];
            try (split; [intros (m' & E); discriminate E|split; [discriminate|reflexivity]]).
          exact (IH path fin s').
        * destruct R as (-> & N). split; [intros (m & E); injection E as ->; exact (N m eq_refl)|].
          split; [discriminate|reflexivity].
      + cbn [sem_kids csem_kids enc v_characters fst]. destruct (c_characters V s str p) as [[o|m|[m| |]] s']; cbn [note];
          try (split; [intros (m' & E); discriminate E|split; [discriminate|reflexivity]]).
        exact (IH path fin s').
      + exact (IH path fin s).
      + exact (IH path fin s).
  Qed.

  Lemma enc_sem_read : forall n, is_elem n = true -> forall path, like (sem_read (enc V) n path) (csem_read V n path).
  Proof.
    induction n as [name attrs ns p kids pe IH| | |] using node_ind'; intros E path; try discriminate E.
    intro s. cbn [sem_read csem_read].
    destruct (enc_sem_attrs attrs (path ++ [SElem name p]) p s) as (EQ & Q & NP). rewrite EQ.
    destruct (sem_attrs (enc V) (path ++ [SElem name p]) p attrs (s, None)) as [[u|e|x] [s1 n1]].
    - assert (n1 = None) by exact (Q u _ eq_refl). subst n1. cbn [decode].
      apply (enc_sem_kids (sem_read (enc V)) (csem_read V) kids). intros n IN path' E'.
      rewrite Forall_forall in IH. apply (IH n IN E').
    - destruct n1 as [m|]; cbn [decode]; (split; [intros (m' & E'); discriminate E'|split; [discriminate|reflexivity]]).
    - cbn [decode]. split; [intros (m & E'); injection E' as ->; apply NP; exists m; reflexivity|]. split; [discriminate|reflexivity].
  Qed.

End Tree.

Section Main.
  Context {St : Type} (V : cvisitors St) {T : Type} (D : einfo -> caction St (res verr T)).

  Theorem caught_release : forall d pe,
    cread false V D (reader_new (doc_events d) (FEndDocument pe)) = csem_doc V D d.
  Proof.
    intros d pe. unfold cread, csem_doc. destruct (root_doc false d pe) as (rest & Hrest & ->).
    unfold at_elem at 1. cbn [r_stack app nth_error se_name].
    set (i := EInfo (d_name d) (d_ns d) 1).
    set (r1 := at_elem (FEndDocument pe) [] (SElem (d_name d) (d_pos d)) (d_kids d) (d_pe d) rest (d_pos d)).
    pose proof (run_action_sem false (enc V) _ (fun _ : res verr T => true) (enc_act (fun x => x) (D i)) (Datatypes.S (List.length (r_src r1)))
      (d_name d) (d_attrs d) (d_ns d) (d_pos d) (d_kids d) (d_pe d) (FEndDocument pe) [] rest) as HA.
    cbn [List.length app] in HA. fold (d_root d) in HA. fold r1 in HA.
    specialize (HA (read_loop_sem false (enc V) (fun H => ltac:(discriminate H)) _)).
    assert (Hl : List.length (flat_map events (d_kids d)) < Datatypes.S (List.length (r_src r1))).
    { subst r1. cbn [at_elem r_src]. rewrite app_length. lia. }
    specialize (HA Hl (fun H => ltac:(discriminate H))). unfold agrees_act in HA.
    pose proof (enc_run V _ (enc_loop V (Datatypes.S (List.length (r_src r1)))) _ _ (fun x => x) 0 (d_attrs d) (d_ns d) (D i) r1) as R.
    pose proof (enc_sem_act _ _ (fun x => x) _ _ [SElem (d_name d) (d_pos d)] (d_pos d) (d_kids d) (d_pe d)
                  (D i) (enc_sem_read V (d_root d) eq_refl [])) as S.
    destruct (sem_act _ _ _ _ _ _) as [[a|x] pl]; cbn [fst snd] in HA.
    - destruct S as (a' & -> & ->). destruct HA as (r' & E & H2 & H3). rewrite E in R. cbn [okay] in R.
      destruct R as (a'' & -> & ->). destruct a'' as [v|e|x]; [| |reflexivity].
      + destruct (return_to_depth_pending _ _ _ _ _ _ H3) as (pos' & E'); [auto|].
        cbn [List.length] in E'. unfold end_. rewrite E'. cbn [r_fin r_src]. subst rest. now rewrite end_loop_misc.
      + destruct pl; cbn [fst snd] in *. now injection H2 as <- <-.
    - destruct S as (-> & N). destruct (run_action _ _ _ _ _ _ _ _) as [y r']. cbn [fst] in HA. subst y.
      cbn [okay] in R. destruct x as [m| |]; [destruct (N m eq_refl)| |]; rewrite R; reflexivity.
  Qed.

End Main.
