(** Property theorem C67: derived visitors keep the promise of [RawDeserializeVisitor] in the hands of any safe code.

    [reply_attribute], [reply_characters], [reply_element], [reply_finalize]: what the methods of the visitor [w] return
    that was made by [new] for the derived type [dv_type w] and got the calls [dv_calls w] (Visitor.v).  [finalize] is
    followed by [assume_init].  [accepted env]: rustc accepts the derived types. *)
From Verif Require Import Base Normalize Text TextProofs Find FindProofs Types Reader ReaderSpec ReaderRel DeriveDe DeSpec
  DeriveMixed MixedSpec MixedProofs Catch CatchSpec Visitor VisitorSpec VisitorSafe VisitorHolds VisitorSame PropReader PropDe PropMixed.

(** ** C67: derived visitors in the hands of other code *)

(** Whatever was called before, in whatever order, with whatever results: no undefined behaviour, no live value is
    overwritten, and nothing panics but hand-written code that is called ([ParseText] for attributes, [T::deserialize]
    for children, the function given as the default). *)
Theorem C67_safe : forall o alg env, accepted env -> forall w, env (dv_type w) <> None ->
  (forall n v x, reply_attribute o alg env w n v = Abort x -> exists t, parse_text o t v = Abort x) /\
  (forall s p, reply_characters o alg env w s p = Ok (Some s)) /\
  (forall i r x, reply_element o alg env w i r = Abort x -> r = Abort x) /\
  (forall d x, reply_finalize o alg env w d = Abort x -> exists m, d = Some (inr m) /\ x = Panic m).
Proof.
  intros o alg env Ha w Hw.
  exact (conj (fun n v x => reply_attribute_safe o alg env Ha w n v x Hw)
    (conj (fun s p => reply_characters_safe o alg env Ha w s p Hw)
    (conj (fun i r x => reply_element_safe o alg env Ha w i r x Hw)
    (fun d x => reply_finalize_safe o alg env Ha w d x Hw)))).
Qed.
Print Assumptions C67_safe.

(** [finalize] succeeds exactly if the calls have given every field a value, and with exactly these values. *)
Theorem C67_finalize : forall o alg env, names_ok env -> accepted env -> forall w d v, env (dv_type w) <> None ->
  reply_finalize o alg env w d = Ok v <-> finalizes o env w d v.
Proof. exact value_finalize. Qed.
Print Assumptions C67_finalize.

(** A call that fails (or panics) leaves no trace: all later calls return what they would without it. *)
Theorem C67_no_trace : forall o alg env id l1 c l2, fails_call o alg env (DVisitor id l1) c ->
  (forall n v, reply_attribute o alg env (DVisitor id (l1 ++ c :: l2)) n v = reply_attribute o alg env (DVisitor id (l1 ++ l2)) n v) /\
  (forall s p, reply_characters o alg env (DVisitor id (l1 ++ c :: l2)) s p = reply_characters o alg env (DVisitor id (l1 ++ l2)) s p) /\
  (forall i r, reply_element o alg env (DVisitor id (l1 ++ c :: l2)) i r = reply_element o alg env (DVisitor id (l1 ++ l2)) i r) /\
  (forall d, reply_finalize o alg env (DVisitor id (l1 ++ c :: l2)) d = reply_finalize o alg env (DVisitor id (l1 ++ l2)) d).
Proof. exact no_trace. Qed.
Print Assumptions C67_no_trace.

(** Whole programs: hand-written code that reads into derived visitors, calls their methods, ignores their errors and
    catches panics.  Reading aborts only with panics of hand-written code ([Q]) and of the reader. *)
Theorem C67_programs : forall U o alg env (P : huser U) Q, h_program env P Q ->
  (forall x, reader_abort x -> Q x) -> (forall t s x, parse_text o t s = Abort x -> Q x) ->
  forall fuel dbg t src fin x, h_has env P t ->
  hread o alg env P fuel dbg t src fin = Abort x -> Q x.
Proof.
  intros U o alg env P Q HP HQ Ho fuel dbg t src fin x Ht. exact (hread_safe o alg env P Q HP HQ Ho fuel dbg t src fin Ht x).
Qed.
Print Assumptions C67_programs.

(** So there is no undefined behaviour, and no live value is overwritten. *)
Theorem C67_memory_safe : forall U o alg env (P : huser U), h_program env P harmless ->
  (forall t s x, parse_text o t s = Abort x -> harmless x) ->
  forall fuel dbg t src fin x, h_has env P t ->
  hread o alg env P fuel dbg t src fin = Abort x -> harmless x.
Proof.
  intros U o alg env P HP Ho fuel dbg t src fin x Ht.
  exact (hread_safe o alg env P harmless HP reader_harmless Ho fuel dbg t src fin Ht x).
Qed.
Print Assumptions C67_memory_safe.

(** Programs that neither call derived visitors nor catch panics are read as in C50. *)
Theorem C67_conservative : forall U o alg env (P : user U) Q, program env P Q ->
  forall fuel dbg t src fin, has_deserialize env P t ->
  hread o alg env (rethrowing P) (S (S fuel)) dbg t src fin = read_mixed o alg env P dbg t src fin.
Proof. intros U o alg env P Q HP. exact (hread_same o alg env P Q HP). Qed.
Print Assumptions C67_conservative.

(** ** Examples *)

(** [Person] (0) of C23, and [Pair { x: Bomb, y: String }] (5), where [Bomb] (9) is hand-written and panics if told
    so. *)
Definition pair_fields : list field :=
  [Field (ln "x") (MElement KOpt (ERef 9)) None; Field (ln "y") (MElement KOne (str_ty)) None].
Definition env2 : tenv := fun id => if Nat.eqb id 5 then Some (TDStruct "Pair" (ln "pair") [] pair_fields) else env0 id.

Lemma env2_ok : names_ok env2.
Proof.
  intros id d. unfold env2. destruct (Nat.eqb id 5); [intros [= <-]; vm_compute; split; nodup|apply env0_ok].
Qed.

Lemma env2_accepted : accepted env2.
Proof.
  intros id ident root nss fs f. unfold env2.
  destruct id as [|[|[|[|[|[|id]]]]]]; cbn; intros [= <- <- <- <-]; cbn; intros H;
    repeat destruct H as [<-|H]; try contradiction; cbn; try exact I; do 5 eexists; reflexivity.
Qed.

Definition named (s : string) : einfo := EInfo (OName None None s) [] 2.
Definition of_u (s : string) : einfo := EInfo (uq "p" s) [] 2.

(** A person's name, the same attribute twice (the first time unreadable, so it fails), a friend that cannot be read, a
    contact that panics, a second name (an error), contacts of two kinds (the second is an error), and an unknown
    element: everything that failed has left no trace. *)
Definition clumsy : list vcall :=
  [ CallElement (of_u "name") (Ok (s_ "Al"));
    CallAttribute (XName "" "id") "maybe";
    CallElement (of_u "friend") (Err (Wrap "no friend"));
    CallElement (of_u "phone") (Abort (Panic "boom"));
    CallCharacters "text" (at_ 3);
    CallElement (of_u "tag") (Ok (s_ "x"));
    CallElement (of_u "name") (Ok (s_ "Bo"));
    CallAttribute (XName "" "id") "true";
    CallElement (of_u "phone") (Ok (s_ "1"));
    CallElement (of_u "nothing") (Ok (s_ "never read"));
    CallElement (of_u "tag") (Ok (s_ "y"));
    CallElement (of_u "unknown") (Abort UB);
    CallElement (of_u "phone") (Ok (s_ "2"));
    CallAttribute (XName "" "id") "false" ].

Definition clumsy_value : value :=
  VStruct [VText (TVBool true); s_ "Al"; VNone; VVec [s_ "x"; s_ "y"]; VVec []; VEnum 2 (Some (VVec [s_ "1"; s_ "2"]))].

Example C67_finalize_example :
  reply_finalize oracles0 Bisect env2 (DVisitor 0 clumsy) None = Ok clumsy_value /\
  value_kept oracles0 env2 0 clumsy clumsy_value /\
  (exists e, reply_element oracles0 Bisect env2 (DVisitor 0 clumsy) (of_u "name") (Ok (s_ "Cy")) = Err e) /\
  reply_element oracles0 Bisect env2 (DVisitor 0 clumsy) (of_u "tag") (Abort (Panic "boom")) = Abort (Panic "boom") /\
  (exists e, reply_finalize oracles0 Bisect env2 (DVisitor 0 (firstn 6 clumsy)) None = Err e).
Proof.
  assert (H : reply_finalize oracles0 Bisect env2 (DVisitor 0 clumsy) None = Ok clumsy_value) by (vm_compute; reflexivity).
  split; [exact H|]. split; [|split; [|split]].
  - apply value_finalize in H; [|exact env2_ok|exact env2_accepted|discriminate]. destruct H as [H|(? & ? & ? & ? & ? & ? & _)]; [exact H|discriminate].
  - eexists. vm_compute. reflexivity.
  - vm_compute. reflexivity.
  - eexists. vm_compute. reflexivity.
Qed.

Example C67_no_trace_example : fails_call oracles0 Bisect env2 (DVisitor 0 (firstn 3 clumsy)) (CallElement (of_u "phone") (Abort (Panic "boom"))) /\
  fails_call oracles0 Bisect env2 (DVisitor 0 (firstn 1 clumsy)) (CallAttribute (XName "" "id") "maybe").
Proof. split; intros a H; vm_compute in H; discriminate. Qed.

(** The default is for enums that have no value yet. *)
Example C67_default_example : let d := Some (inl (VEnum 0 None)) in
  reply_finalize oracles0 Bisect env2 (DVisitor 1 []) d = Ok (VEnum 0 None) /\
  reply_finalize oracles0 Bisect env2 (DVisitor 1 [CallElement (of_u "phone") (Err (Wrap ""))]) d = Ok (VEnum 0 None) /\
  reply_finalize oracles0 Bisect env2 (DVisitor 1 [CallElement (of_u "phone") (Ok (s_ "1"))]) d = Ok (VEnum 2 (Some (VVec [s_ "1"]))) /\
  reply_finalize oracles0 Bisect env2 (DVisitor 1 []) (Some (inr "no default")) = Abort (Panic "no default") /\
  exists e, reply_finalize oracles0 Bisect env2 (DVisitor 1 []) None = Err e.
Proof. do 4 (split; [vm_compute; reflexivity|]). eexists. vm_compute. reflexivity. Qed.

(** Structs do not use the default (a comment in the generated code says so). *)
Theorem C67_default_refuted : exists o alg env w d, names_ok env /\ accepted env /\ env (dv_type w) <> None /\
  (exists e, reply_finalize o alg env w None = Err e) /\
  ~ (exists v, reply_finalize o alg env w (Some (inl d)) = Ok v).
Proof.
  exists oracles0, Bisect, env2, (DVisitor 5 []), VNone. split; [exact env2_ok|]. split; [exact env2_accepted|].
  split; [discriminate|]. split; [eexists; vm_compute; reflexivity|]. intros [v H]. vm_compute in H. discriminate.
Qed.
Print Assumptions C67_default_refuted.

(** A visitor that gives every child to the visitor of a [Pair] and goes on whatever happens; what that hands back is
    read as text and lost.  In the end it makes up for a missing [y]. *)
Definition stubborn : huser (list vcall) := {|
  h_type := fun id =>
    if Nat.eqb id 9 then Some (fun _ => HReadString (fun x => match x with
        | inl s => if String.eqb s "boom" then Abort (Panic "boom") else Ok (s_ s)
        | inr (Failed e) => Err e
        | inr (Panicked m) => Abort (Panic m)
        end))
    else if Nat.eqb id 8 then Some (fun _ => HReadTo [] (fun _ l =>
        match reply_finalize oracles0 Bisect env2 (DVisitor 5 l) None with
        | Err _ => reply_finalize oracles0 Bisect env2 (called (DVisitor 5 l) (CallElement (named "y") (Ok (s_ "late")))) None
        | r => r
        end))
    else None;
  h_attribute := fun l _ v => (Ok (Some v), l);
  h_characters := fun l s _ => (Ok (Some s), l);
  h_element := fun l _ => HElement (DVisitor 5 l) (fun w => HReadString (fun _ => (Ok false, dv_calls w)))
                                   (fun _ w => (Ok false, dv_calls w));
|}.

Lemma stubborn_program : h_program env2 stubborn harmless.
Proof.
  assert (Hf : forall l x, reply_finalize oracles0 Bisect env2 (DVisitor 5 l) None = Abort x -> False).
  { intros l x H. apply reply_finalize_safe in H as (m & [=] & _); [exact env2_accepted|discriminate]. }
  split.
  - exact env2_accepted.
  - split.
    + intros id ident root nss fs f k t. unfold env2.
      destruct id as [|[|[|[|[|[|id]]]]]]; cbn; intros [= <- <- <- <-]; cbn; intros H;
        repeat destruct H as [<-|H]; try contradiction; cbn; try discriminate; intros [= <- <-]; cbn; auto;
        try (right; discriminate); left; discriminate.
    + intros id ident root nss vs sk v k t. unfold env2.
      destruct id as [|[|[|[|[|[|id]]]]]]; cbn; intros [= <- <- <- <- <-]; cbn; intros H;
        repeat destruct H as [<-|H]; try contradiction; cbn; try discriminate; intros [= <- <-]; cbn; auto;
        try (right; discriminate); left; discriminate.
  - intros id D i. cbn [h_type stubborn]. destruct (Nat.eqb id 9).
    + intros [= <-]. constructor. intros x Hx y. destruct x as [s|[e|m]].
      * destruct (String.eqb s "boom"); [|discriminate]. intros [= <-]. repeat split; discriminate.
      * discriminate.
      * intros [= <-]. now apply Hx.
    + destruct (Nat.eqb id 8); [|discriminate]. intros [= <-]. constructor. intros x l Hx y Hy.
      destruct (reply_finalize oracles0 Bisect env2 (DVisitor 5 l) None) eqn:E; [discriminate Hy| |].
      * exfalso. exact (Hf _ _ Hy).
      * exfalso. exact (Hf _ _ E).
  - intros u n v x. discriminate.
  - intros u s p x. discriminate.
  - intros u i. constructor; [discriminate| |].
    + intros w _. constructor. intros x Hx y. discriminate.
    + intros x w _ Hx y. discriminate.
Qed.

(** A bomb goes off inside the visitor of a [Pair]; the panic is caught, and the next bomb is kept.  With a second [y]
    (an error, ignored) the first one stays; without any, the visitor gets one in the end. *)
Definition plain (s : string) (kids : list node) : node := NElem (nm s) [] [] (at_ 1) kids (at_ 2).
Definition bombs (more : list node) : doc :=
  doc_of [Attr (nm "id") "true"] ([plain "x" [tx "boom"]; plain "z" [tx "lost"]; plain "x" [tx "fine"]; plain "x" [tx "boom"]] ++ more).

Example C67_programs_example : h_program env2 stubborn harmless /\ h_has env2 stubborn (ERef 8) /\
  hread oracles0 Bisect env2 stubborn 3 true (ERef 8) (doc_events (bombs [plain "y" [tx "a"]; plain "y" [tx "b"]])) end0
    = Ok (VStruct [VSome (s_ "fine"); s_ "a"]) /\
  hread oracles0 Bisect env2 stubborn 3 true (ERef 8) (doc_events (bombs [])) end0 = Ok (VStruct [VSome (s_ "fine"); s_ "late"]) /\
  hread oracles0 Bisect env2 stubborn 3 true (ERef 5) (doc_events (bombs [plain "y" [tx "a"]])) end0 = Abort (Panic "boom").
Proof.
  split; [exact stubborn_program|]. split; [right; discriminate|]. repeat split; vm_compute; reflexivity.
Qed.

Example C67_conservative_example : program env1 bag (fun _ => False) /\ has_deserialize env1 bag (ERef 6) /\
  hread oracles0 Bisect env1 (rethrowing bag) 2 true (ERef 6) (doc_events (team_doc "x" [])) end0
    = Ok (VStruct [VNone; s_ "A"; VVec [VVec [bo; bo]]]).
Proof. split; [exact bag_program|]. split; [left; discriminate|]. vm_compute. reflexivity. Qed.

(** A visitor that reads all children into one visitor of a [Pair]; a part that cannot be read is forgotten. *)
Definition merging : huser (list vcall) := {|
  h_type := fun id =>
    if Nat.eqb id 8 then Some (fun _ => HReadTo [] (fun x l =>
        match x with
        | inl _ => reply_finalize oracles0 Bisect env2 (DVisitor 5 l) None
        | inr (Failed e) => Err e
        | inr (Panicked m) => Abort (Panic m)
        end))
    else None;
  h_attribute := fun l _ v => (Ok (Some v), l);
  h_characters := fun l s _ => (Ok (Some s), l);
  h_element := fun l _ => HReadDerived (DVisitor 5 l) (fun x w => (Ok false, match x with inl _ => dv_calls w | inr _ => l end));
|}.

(** The third part has a second [y], an error that only release builds survive (C14). *)
Example C67_merging_example : forall dbg,
  let parts := [plain "part" [plain "y" [tx "a"]]; plain "part" [plain "z" []]; plain "part" [plain "y" [tx "b"]]] in
  hread oracles0 Bisect env2 merging 3 dbg (ERef 8) (doc_events (doc_of [] (firstn 2 parts))) end0 = Ok (VStruct [VNone; s_ "a"]) /\
  (exists e, hread oracles0 Bisect env2 merging 3 dbg (ERef 8) (doc_events (doc_of [] (firstn 1 (tl parts)))) end0 = Err e) /\
  hread oracles0 Bisect env2 merging 3 false (ERef 8) (doc_events (doc_of [] parts)) end0 = Ok (VStruct [VNone; s_ "a"]).
Proof.
  intros [|]; (split; [vm_compute; reflexivity|]; split; [eexists; vm_compute; reflexivity|vm_compute; reflexivity]).
Qed.
