(** Property theorem C68: where errors come from. *)
From Verif Require Import Base Normalize Text TextProofs Find FindProofs Types Reader ReaderSpec DeriveDe DeSpec DeriveMixed
  Source SourceSpec SourceProofs PropReader PropDe PropMixed.

(** ** C68: the source of an error *)

(** [only_code M fin I P]: hand-written code makes only errors in [M], and otherwise returns errors that it got, when the
    events end with [fin] ([I] is an invariant of its states, which says that the errors it keeps are such errors too).
    Whatever it does with the errors it gets (swallow them, keep them and return them later, return others instead): an
    error that reading comes to has as its source the error with which the events end (or the I/O or UTF-8 error below
    it), or an error in [M]; or it has none and is one of the reader's own. *)
Theorem C68_source : forall U kind (M : string -> Prop) fin o alg env (P : user U) I, only_code M fin I P ->
  (forall m, derived_message m -> M m) -> (forall t s m, parse_text o t s = Err m -> M m) ->
  forall dbg t src e, read_mixed o alg env P dbg t src fin = Err e ->
  match error_source kind e with
  | None => exists m, er_kind e = EMsg m
  | Some (CUser m) => M m
  | Some (CXml x) => fin = FError x /\ (kind x = KSyntax \/ kind x = KUnexpectedEof)
  | Some (CIo io) => exists x, fin = FError x /\ kind x = KIo io
  | Some (CUtf8 utf) => exists x, fin = FError x /\ kind x = KUtf8 utf
  end.
Proof. intros U kind M fin o alg env P I. exact (sources kind M fin o alg env P I). Qed.
Print Assumptions C68_source.

(** Neither the reader nor derived code looks at errors of user code.  [same_code W fin R P1 P2]: two programs whose
    hand-written code differs in the errors it makes only ([W] says which correspond).  They come to the same value, or to
    errors with corresponding sources, the same stack and the same position. *)
Theorem C68_opaque : forall (W : string -> string -> Prop) fin, (forall m, derived_message m -> W m m) ->
  forall U1 U2 (R : U1 -> U2 -> Prop) o1 o2 alg env P1 P2,
  (forall t s, res_sim W (parse_text o1 t s) (parse_text o2 t s)) -> same_code W fin R P1 P2 ->
  forall dbg t src,
  res_sim (error_rel W fin) (read_mixed o1 alg env P1 dbg t src fin) (read_mixed o2 alg env P2 dbg t src fin).
Proof. intros W fin HW U1 U2 R o1 o2 alg env P1 P2. exact (read_mixed_rel W fin HW R o1 o2 alg env P1 P2). Qed.
Print Assumptions C68_opaque.

(** ** Examples *)

(** [struct Team { name: Word, friend: Vec<Late> }] (6), where [Word] (8) refuses the text "x" with the error [no], and
    [Late] (5) expects texts in its children, keeps an error that it gets or makes and returns it at the end. *)
Definition env3 : tenv := fun id =>
  if Nat.eqb id 6 then Some (TDStruct "Team" (ln "team") []
    [Field (un "name") (MElement KOne (ERef 8)) None; Field (un "friend") (MElement KVec (ERef 5)) None]) else env0 id.

Definition words (no : string) : user (option verr) := {|
  u_type := fun id =>
    match id with
    | 5 => Some (fun _ => UReadTo None (fun x u =>
             match u, x with Some e, _ => Err e | None, inl _ => Ok VNone | None, inr e => Err e end))
    | 8 => Some (fun _ => UReadString (fun x =>
             match x with inl s => if String.eqb s "x" then Err (Wrap no) else Ok (s_ s) | inr e => Err e end))
    | _ => None
    end;
  u_attribute := fun u _ v => (Ok (Some v), u);
  u_characters := fun u s _ => (Ok (Some s), u);
  u_element := fun u _ => UReadString (fun x =>
    match x with
    | inl s => if String.eqb s "x" then (Ok false, Some (Wrap no)) else (Ok false, u)
    | inr e => (Ok false, Some e)
    end);
|}.

Definition either (no m : string) : Prop := m = no \/ derived_message m \/ exists t s, parse_text oracles0 t s = Err m.

Definition kept (Q : verr -> Prop) (u : option verr) : Prop := match u with Some e => Q e | None => True end.

Lemma words_only no fin : only_code (either no) fin (kept (vfrom (either no) fin)) (words no).
Proof.
  split.
  - intros id D i. destruct id as [|[|[|[|[|[|[|[|[|id]]]]]]]]]; try discriminate; intros [= <-].
    + split; [exact I|]. intros [v|x] [e|] Hx Hu y; cbn in *; intros [= <-]; auto.
    + intros [s|e] Hx y; cbn.
      * destruct (String.eqb s "x"); [intros [= <-]; now left|discriminate].
      * intros [= <-]. now apply Hx.
  - intros u n v Hu. split; [intros e; discriminate|exact Hu].
  - intros u s p Hu. split; [intros e; discriminate|exact Hu].
  - intros u i Hu [s|e] Hx; [destruct (String.eqb s "x")|]; (split; [intros y; discriminate|]); cbn; auto. now left.
Qed.

Definition words_rel (a b : string) : Prop := a = b \/ a = "bad"%string /\ b = "schlecht"%string.

Definition both_kept (u1 u2 : option verr) : Prop :=
  match u1, u2 with
  | Some e1, Some e2 => verr_rel words_rel end0 e1 e2
  | None, None => True
  | _, _ => False
  end.

Lemma words_same : same_code words_rel end0 both_kept (words "bad") (words "schlecht").
Proof.
  split.
  - intros id. destruct id as [|[|[|[|[|[|[|[|[|id]]]]]]]]]; try exact I.
    + intros i. split; [exact I|].
      intros [v1|e1] [v2|e2] [x1|] [x2|] H Hu; cbn in *; try contradiction; auto.
    + intros i [s1|e1] [s2|e2] H; cbn in *; try contradiction; auto. subst.
      destruct (String.eqb s2 "x"); [now right|reflexivity].
  - intros u1 u2 n v Hu. now split.
  - intros u1 u2 s p Hu. now split.
  - intros u1 u2 i Hu [s1|e1] [s2|e2] H; cbn in *; try contradiction; [subst; destruct (String.eqb s2 "x")|]; split;
      cbn; auto. now right.
Qed.

Definition word_team (name friend : list node) : doc :=
  doc_of [] [uel "p" "name" [] name; uel "p" "friend" [] [uel "p" "a" [] friend; uel "p" "a" [] []]].
Definition read3 (no : string) (name friend : list node) (fin : final) : res error value :=
  read_mixed oracles0 Bisect env3 (words no) false (ERef 6) (doc_events (word_team name friend)) fin.

Definition kind3 (e : xerr) : xml_kind := if String.eqb (xe_msg e) "io" then KIo "broken pipe" else KSyntax.
Definition broken (m : string) : final := FError (XErr (at_ 200) m).

Definition source3 (r : res error value) : option (option cause) :=
  match r with Err e => Some (error_source kind3 e) | _ => None end.

(** The text "x" in a name, and inside a friend, where the error is kept until the friend ends; an element where a text
    should be (the reader's own error); a document that breaks off. *)
Example C68_example :
  only_code (either "bad") end0 (kept (vfrom (either "bad") end0)) (words "bad") /\
  same_code words_rel end0 both_kept (words "bad") (words "schlecht") /\
  source3 (read3 "bad" [tx "x"] [] end0) = Some (Some (CUser "bad")) /\
  source3 (read3 "schlecht" [tx "x"] [] end0) = Some (Some (CUser "schlecht")) /\
  source3 (read3 "bad" [tx "y"] [tx "x"] end0) = Some (Some (CUser "bad")) /\
  source3 (read3 "schlecht" [tx "y"] [tx "x"] end0) = Some (Some (CUser "schlecht")) /\
  read3 "bad" [tx "y"] [] end0 = Ok (VStruct [s_ "y"; VVec [VNone]]) /\
  source3 (read3 "bad" [uel "p" "a" [] []] [] end0) = Some None /\
  source3 (read3 "bad" [tx "y"] [] (broken "io")) = Some (Some (CIo "broken pipe")) /\
  source3 (read3 "bad" [tx "y"] [] (broken "?")) = Some (Some (CXml (XErr (at_ 200) "?"))).
Proof.
  split; [apply words_only|]. split; [apply words_same|]. repeat split; vm_compute; reflexivity.
Qed.
