(** Property theorem C74: what structs whose flattened fields have hand-written visitors leak.

    [leaked_flat o alg P L dbg fs]: the values leaked while reading a document as a derived struct with the fields [fs] in
    a program with the hand-written code [P] (DeriveFlat.v, FlatLeak.v); [L]: what its visitors hold.  [flat_leaks]: what is
    lost, from the document (FlatLeakSpec.v); [reach]: what the visitors of the flattened fields come to. *)
From Verif Require Import Base Normalize Text TextProofs Find FindProofs Types Reader ReaderSpec ReaderProofs ReaderRel DeriveDe DeSpec
  DeriveMixed MixedSpec MixedProofs DeriveFlat FlatSpec FlatProofs MixedLeak FlatLeak FlatLeakSpec FlatLeakProofs FlatLeakDet PropDe PropFlat.

(** ** C74: leaks next to flattened fields *)

(** To record what is leaked changes nothing of what is read. *)
Theorem C74_recording : forall St o alg (P : fuser St) L dbg fs src fin,
  read dbg (flat_visitors o alg P) (fun i => amap fst (lflat_deserialize P L fs i)) (reader_new src fin) =
  read_flat o alg P dbg fs src fin.
Proof. intros St. exact flat_recorded. Qed.
Print Assumptions C74_recording.

(** A document that cannot be read as the struct makes it leak what [flat_leaks] says, and nothing else.  [tidy]: what
    [T::deserialize] of the fields' types leaks, it leaks when it fails (C74_tidy). *)
Theorem C74_exact : forall St o alg (P : fuser St) L dbg fs fl d pe e vs,
  fine_names fs -> no_text fs -> new_flats P fs = Some fl -> tidy (flat_visitors o alg P) P -> (dbg = true -> flat_strict P) ->
  read_flat o alg P dbg fs (doc_events d) (FEndDocument pe) = Err e ->
  leaked_flat o alg P L dbg fs (doc_events d) (FEndDocument pe) = vs <->
  flat_leaks o (flat_visitors o alg P) P L [SElem (d_name d) (d_pos d)] fs fl (d_attrs d) (d_kids d) vs.
Proof.
  intros St o alg P L dbg fs fl d pe e vs N Ht Hn Hy Hp H. pose proof (leak_when_not o alg P L fs fl N Hn Ht dbg d pe e Hy Hp H) as G.
  split; [intros <-; exact G|]. intros G'. exact (flat_leaks_det o alg P L fs fl _ N _ _ _ _ G G').
Qed.
Print Assumptions C74_exact.

(** One that can makes it leak only what the visitors of the flattened fields let leak themselves. *)
Theorem C74_success : forall St o alg (P : fuser St) L dbg fs fl d pe v,
  fine_names fs -> no_text fs -> new_flats P fs = Some fl -> tidy (flat_visitors o alg P) P -> (dbg = true -> flat_strict P) ->
  read_flat o alg P dbg fs (doc_events d) (FEndDocument pe) = Ok v ->
  exists fl', reach (flat_visitors o alg P) P [SElem (d_name d) (d_pos d)] fs fl (d_attrs d) (d_kids d) fl' /\
    leaked_flat o alg P L dbg fs (doc_events d) (FEndDocument pe) = gone L fl'.
Proof.
  intros St o alg P L dbg fs fl d pe v N Ht Hn. exact (leak_when_read o alg P L fs fl N Hn Ht dbg d pe v).
Qed.
Print Assumptions C74_success.

(** Structs in structs, to any depth, are [tidy]. *)
Theorem C74_tidy : forall St o alg (P : fuser St) L, nested_structs P L -> tidy (flat_visitors o alg P) P.
Proof. intros St. exact nested_tidy. Qed.
Print Assumptions C74_tidy.

(** ** Examples *)

(** [struct Foo { #[static_xml(flatten)] rest: Rest, known: String, sub: Sub }] and [struct Sub { a: String, b: String }].
    [Rest] (PropFlat.v) keeps everything. *)
Definition sub_fields : list field :=
  [ Field (DName None "a") (MElement KOne (EText TString)) None; Field (DName None "b") (MElement KOne (EText TString)) None ].
Definition rest_field : field := Field (DName None "rest") (MFlatten 2) None.
Definition kept_fields : list field :=
  [ Field (DName None "known") (MElement KOne (EText TString)) None; Field (DName None "sub") (MElement KOne (ERef 1)) None ].

(** It writes to its [out] at the end, or it has the attributes there from the beginning. *)
Definition at_end : losses unknown := Losses (fun _ => []) (fun _ => []) (fun _ => []).
Definition at_once : losses unknown :=
  let out s := match s with UAttrs l | URest l => [VVec l] end in Losses out out (fun _ => []).

Definition nested (L : losses unknown) : fuser unknown := {|
  fu_new := fu_new unknowns;
  fu_attribute := fu_attribute unknowns;
  fu_characters := fu_characters unknowns;
  fu_element := fu_element unknowns;
  fu_finalize := fu_finalize unknowns;
  fu_deserialize := fun t i => match t with ERef 1 => lflat_deserialize unknowns L sub_fields i | _ => fu_deserialize unknowns t i end;
|}.

(** [<foo x="1"> … </foo>] *)
Definition leak_doc (kids : list node) : doc :=
  let at0 := (0, 0)%N in Doc at0 [] (OName None None "foo") [Attr (OName None None "x") "1"] [] at0 kids at0 [].
Definition leak_el (n s : string) : node :=
  let at0 := (0, 0)%N in NElem (OName None None n) [] [] at0 [NText false s at0] at0.
Definition leak_sub (kids : list node) : node :=
  let at0 := (0, 0)%N in NElem (OName None None "sub") [] [] at0 kids at0.
Definition leak_run (L : losses unknown) (fs : list field) (kids : list node) : list value :=
  leaked_flat oracles0 Bisect (nested L) L true fs (doc_events (leak_doc kids)) (FEndDocument (0, 0)%N).

Example C74_example :
  Forall (fun L => nested_structs (nested L) L /\ flat_strict (nested L)) [at_end; at_once] /\
  Forall (fun fs => fine_names fs /\ no_text fs /\ new_flats (nested at_end) fs = Some [URest []])
    [rest_field :: kept_fields; kept_fields ++ [rest_field]] /\
  let txt s := VText (TVStr s) in
  let sub := VStruct [txt "A"; txt "B"] in
  (** [<known>K</known><sub><a>A</a></sub>]: [b] is missing *)
  let no_b := [leak_el "known" "K"; leak_sub [leak_el "a" "A"]] in
  (** [<sub><a>A</a><b>B</b></sub>]: [known] is missing *)
  let no_known := [leak_sub [leak_el "a" "A"; leak_el "b" "B"]] in
  let good := leak_el "known" "K" :: no_known in
  leak_run at_end (rest_field :: kept_fields) no_b = [txt "K"; txt "A"] /\
  leak_run at_once (rest_field :: kept_fields) no_b = [VVec [kv "x" "1"]; txt "K"; txt "A"] /\
  leak_run at_end (rest_field :: kept_fields) no_known = [VVec [kv "x" "1"]; sub] /\
  leak_run at_end (rest_field :: kept_fields) good = [] /\
  (exists e, read_flat oracles0 Bisect (nested at_end) true (rest_field :: kept_fields) (doc_events (leak_doc no_b)) (FEndDocument (0, 0)%N) = Err e) /\
  (exists e, read_flat oracles0 Bisect (nested at_end) true (rest_field :: kept_fields) (doc_events (leak_doc no_known)) (FEndDocument (0, 0)%N) = Err e) /\
  read_flat oracles0 Bisect (nested at_end) true (rest_field :: kept_fields) (doc_events (leak_doc good)) (FEndDocument (0, 0)%N) =
    Ok (VStruct [VVec [kv "x" "1"]; txt "K"; sub]).
Proof.
  assert (G : forall L, (forall s, lo_gone L s = []) -> nested_structs (nested L) L /\ flat_strict (nested L)).
  { intros L HL. split; [split; [exact HL|]|split].
    - intros [t|[|[|id]]]; [right|right|left|right]; try (intros i x v; destruct x; cbn; [reflexivity|discriminate]).
      exists sub_fields, []. split; [constructor|]. split; [repeat constructor; cbn; intuition discriminate|]. split; [reflexivity|].
      split; [repeat constructor|reflexivity].
    - intros [l|l] i act; [discriminate|]. intros [= <-] e b. discriminate.
    - intros [t|[|[|id]]] i; cbn; try (intros e v; discriminate). intros e s v. destruct s; discriminate. }
  split; [constructor; [apply G; reflexivity|constructor; [apply G; reflexivity|constructor]]|].
  split; [repeat constructor; cbn; intuition discriminate|]. cbv zeta.
  repeat match goal with |- _ /\ _ => split end; try (vm_compute; reflexivity); eexists; vm_compute; reflexivity.
Qed.

(** Whether a value that a flattened field could have been given is leaked depends on where it is declared: before the
    field that is missing, it is; after it, it is dropped. *)
Theorem C74_order_refuted : ~ (forall St o alg (P : fuser St) L dbg fs d pe v,
  (forall s, lo_held L s = [] /\ lo_failed L s = [] /\ lo_gone L s = []) -> In v (leaked_flat o alg P L dbg fs (doc_events d) (FEndDocument pe)) ->
  In v (leaked_flat o alg P L dbg (rev fs) (doc_events d) (FEndDocument pe))).
Proof.
  intros H.
  specialize (H unknown oracles0 Bisect (nested at_end) at_end true (rest_field :: kept_fields) (leak_doc []) (0, 0)%N (VVec [kv "x" "1"])).
  vm_compute in H. apply H; [auto|now left].
Qed.
Print Assumptions C74_order_refuted.
