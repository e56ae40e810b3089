(** Recovering while reading: caught panics, and what recovery costs (C65). *)
From Verif Require Import Base Reader ReaderSpec ReaderTotal ReaderOk Catch CatchSpec CatchProofs CatchOk PropReader.

(** Release builds, every document, every user code, whatever it catches: callbacks are called according to the
    tree.  After the callback for a child returned [Ok], the next sibling follows. *)
Theorem C65_release : forall St T (V : cvisitors St) (D : einfo -> caction St (res verr T)) d pe,
  cread false V D (reader_new (doc_events d) (FEndDocument pe)) = csem_doc V D d.
Proof. intros St T V D. exact (caught_release V D). Qed.

(** Any build, any stream: [Ok] still means that the whole document was read. *)
Theorem C65_ok_means_complete : forall St T dbg (V : cvisitors St) (D : einfo -> caction St (res verr T)) src fin v,
  cread dbg V D (reader_new src fin) = Ok v -> complete_stream src fin.
Proof. exact caught_ok_complete. Qed.

Theorem C65_cut_off_never_ok : forall St T dbg (V : cvisitors St) (D : einfo -> caction St (res verr T)) src e v,
  cread dbg V D (reader_new src (FError e)) <> Ok v.
Proof. exact caught_cut_off. Qed.

(** Catching panics cannot make the reader loop: it returns, or panics. *)
Theorem C65_terminates : forall St T dbg (V : cvisitors St) (D : einfo -> caction St (res verr T)) src fin,
  all_return V -> (forall i, returns_act returns (D i)) -> deliverable src fin ->
  returns (cread dbg V D (reader_new src fin)).
Proof. intros St T dbg V D src fin RV RD DL. exact (caught_halts dbg V RV T D src fin DL RD). Qed.

(** In a release build, if the implementation at the root catches all panics, [read] returns. *)
Theorem C65_release_returns : forall St T (V : cvisitors St) (D : einfo -> caction St (res verr T)) src fin,
  all_return V -> root_catches D -> deliverable src fin -> no_abort (cread false V D (reader_new src fin)).
Proof. exact caught_release_total. Qed.

(** Programs that catch nothing behave as in Reader.v. *)
Theorem C65_nothing_caught : forall St dbg (V : visitors St) T (D : einfo -> action St (res verr T)) r,
  cread dbg (unwinding V) (unwinding_root D) r = read dbg V D r.
Proof. intros St dbg V. exact (unwinding_read dbg V). Qed.

(** ** Examples *)

(** A visitor that logs what it sees, and panics in text that says "boom".  What panics in an element "try" is
    logged there with what had been seen; "die" is read and then panics. *)
Definition catcher : cvisitors (list string) := {|
  c_attribute := fun s n v => (Ok None, s ++ [("@" ++ xn_local n ++ "=" ++ v)%string]);
  c_characters := fun s str _ => if String.eqb str "boom" then (Abort (Panic "boom"), s) else (Ok None, s ++ [str]);
  c_element := fun s i =>
    let n := on_local (ei_name i) in
    CReadTo [] (fun x s' =>
      match x with
      | inl _ => if String.eqb n "die" then (Abort (Panic "died"), s) else (Ok false, s ++ [n] ++ s' ++ [("/" ++ n)%string])
      | inr (Failed e) => (Err e, s)
      | inr (Panicked m) => if String.eqb n "try" then (Ok false, s ++ ["try"] ++ s' ++ [("caught " ++ m)%string])
                            else (Abort (Panic m), s)
      end);
|}.

(** The root catches everything that is left. *)
Definition catch_root (_ : einfo) : caction (list string) (res verr (list string)) :=
  CReadTo [] (fun x s => match x with
                         | inl _ => Ok s
                         | inr (Failed e) => Err e
                         | inr (Panicked m) => Ok (s ++ [("lost to " ++ m)%string])
                         end).

Lemma catcher_returns : all_return catcher.
Proof.
  constructor.
  - intros s n v x E. discriminate E.
  - intros s str p x. cbn. destruct (String.eqb str "boom"); [|discriminate]. injection 1 as <-. eauto.
  - intros s i x s' y. unfold catcher. cbn [c_element]. destruct x as [e|[e|m]]; cbn.
    + destruct (String.eqb _ "die"); [|discriminate]. injection 1 as <-. eauto.
    + discriminate.
    + destruct (String.eqb _ "try"); [discriminate|]. injection 1 as <-. eauto.
Qed.

Lemma catch_root_catches : root_catches catch_root.
Proof. intros i x s y. destruct x as [e|[e|m]]; discriminate. Qed.

Definition doc_boom : doc := doc_of [Attr (nm "id") "7"]
  [ elem "try" 2 [] [NText false "a" (at_ 3); elem "el" 4 [] [NText false "boom" (at_ 5)]; elem "el" 6 [] [NText false "boom" (at_ 7)]];
    elem "el" 8 [] [NText false "b" (at_ 9)] ].

(** In a debug build this works, too: the panic comes in the middle of an element. *)
Example C65_example : all_return catcher /\ root_catches catch_root /\
  deliverable (doc_events doc_boom) (FEndDocument (at_ 103)) /\
  forall dbg, cread dbg catcher catch_root (reader_new (doc_events doc_boom) (FEndDocument (at_ 103))) =
  Ok ["@id=7"; "try"; "a"; "caught boom"; "el"; "b"; "/el"]%string.
Proof.
  split; [exact catcher_returns|]. split; [exact catch_root_catches|]. split; [apply C13_documents_deliverable|].
  intros [|]; vm_compute; reflexivity.
Qed.

(** "die" panics after its end tag. *)
Definition doc_die : doc := doc_of []
  [ elem "try" 2 [] [elem "die" 3 [] []; NText false "c" (at_ 4)]; elem "el" 8 [] [NText false "b" (at_ 9)] ].

(** Debug builds: catching a panic may hit the reader's own assertions, when going on and, if that is caught, too,
    when [read] looks for the end of the document. *)
Theorem C65_debug_refuted : exists (V : cvisitors (list string)) (D : einfo -> caction (list string) (res verr (list string))) d pe v m,
  all_return V /\ root_catches D /\
  cread false V D (reader_new (doc_events d) (FEndDocument pe)) = Ok v /\
  cread true V D (reader_new (doc_events d) (FEndDocument pe)) = Abort (Panic m).
Proof.
  exists catcher, catch_root, doc_die, (at_ 103). do 2 eexists. split; [exact catcher_returns|]. split; [exact catch_root_catches|].
  split; vm_compute; reflexivity.
Qed.

(** Release builds: after a recovery the stack of an XML error can be wrong.  Here the element "bad" is closed and
    "other" is open when the input breaks off (compare [C16_xml_error_path]). *)
Definition src_stale : list (xevent * position) :=
  [ (XStartDocument, at_ 0); (XStartElement (nm "root") [] [], at_ 1); (XStartElement (nm "item") [] [], at_ 2);
    (XStartElement (nm "bad") [] [], at_ 3); (XEndElement (nm "bad"), at_ 4); (XStartElement (nm "other") [] [], at_ 5) ].

Theorem C65_stack_refuted : exists (V : visitors nat) (D : einfo -> action nat (res verr nat)) src x st,
  deliverable src (FError x) /\ total (fun _ => True) V /\
  read false V D (reader_new src (FError x)) = Err (Error (EXml x) st (xe_pos x)) /\
  st = [SElem (nm "root") (at_ 1); SElem (nm "item") (at_ 2); SElem (nm "bad") (at_ 3)] /\
  opened [] src = [SElem (nm "root") (at_ 1); SElem (nm "item") (at_ 2); SElem (nm "other") (at_ 5)].
Proof.
  exists lenient, count_root, src_stale, (XErr (at_ 6) "Unexpected end of stream"). eexists. split; [vm_compute; tauto|]. split.
  - constructor.
    + intros. split; [intros x; discriminate|exact I].
    + intros. split; [intros x; discriminate|exact I].
    + intros s i _. unfold lenient; cbn [v_element].
      destruct (String.eqb _ "bad"); (split; [exact I|]; intros [|] s' _; (split; [intros x; discriminate|exact I])).
  - split; [|split]; vm_compute; reflexivity.
Qed.

Print Assumptions C65_release.
Print Assumptions C65_ok_means_complete.
Print Assumptions C65_cut_off_never_ok.
Print Assumptions C65_terminates.
Print Assumptions C65_release_returns.
Print Assumptions C65_nothing_caught.
Print Assumptions C65_debug_refuted.
Print Assumptions C65_stack_refuted.
