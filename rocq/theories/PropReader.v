(** Property theorems C08 and C11-C18: the streaming reader. *)
From Verif Require Import Base Normalize Text Reader ReaderSpec ReaderProofs ReaderTotal ReaderOk ReaderMore ReaderXml ReaderProps.

(** ** Programs and documents for the examples *)

Definition nm (s : string) : oname := OName None None s.
Definition at_ (k : nat) : position := (N.of_nat k, 0%N).

(** A visitor that logs what it sees. "skip" is dropped, "text" is read as text, "fail" is read and
    then rejected, anything else is read with a nested logger. *)
Definition logger : visitors (list string) := {|
  v_attribute := fun s n v => (Ok None, s ++ [("@" ++ xn_local n ++ "=" ++ v)%string]);
  v_characters := fun s str _ =>
    if String.eqb str "boom" then (Err "bad text", s) else (Ok None, s ++ [str]);
  v_element := fun s i =>
    let n := on_local (ei_name i) in
    if String.eqb n "skip" then ANoRead (Ok false, s ++ ["skipped"])
    else if String.eqb n "text" then
      AReadString (fun x => match x with
                            | inl t => (Ok false, s ++ [("text " ++ t)%string])
                            | inr e => (Err e, s)
                            end)
    else if String.eqb n "fail" then
      AReadTo [] (fun x _ => match x with
                             | inl _ => (Err (Wrap "rejected"), s)
                             | inr e => (Err e, s)
                             end)
    else
      AReadTo [] (fun x s' => match x with
                              | inl _ => (Ok false, s ++ [n] ++ s' ++ [("/" ++ n)%string])
                              | inr e => (Err e, s)
                              end);
|}.

Definition log_root (_ : einfo) : action (list string) (res verr (list string)) :=
  AReadTo [] (fun x s => match x with inl _ => Ok s | inr e => Err e end).

Definition elem (n : string) (k : nat) (attrs : list attr) (kids : list node) : node :=
  NElem (nm n) attrs [] (at_ k) kids (at_ (100 + k)).

Definition doc_of (attrs : list attr) (kids : list node) : doc :=
  Doc (at_ 0) [(Comment "prolog", at_ 0)] (nm "root") attrs [] (at_ 1) kids (at_ 101)
    [(PI "target" None, at_ 102)].

Definition doc1 : doc := doc_of [Attr (nm "id") "7"]
  [ NText false "a" (at_ 2);
    elem "skip" 3 [] [elem "fail" 4 [] [NText false "boom" (at_ 5)]];
    NMisc (Comment "c") (at_ 6);
    elem "sub" 7 [Attr (nm "x") "y"] [NBlank " " (at_ 8); elem "text" 9 [] [NText false "t" (at_ 10); NText true "u" (at_ 11)]];
    NText true "z" (at_ 12) ].

Lemma logger_propagating : propagating logger.
Proof.
  intros s i. unfold logger. cbn [v_element].
  destruct (String.eqb _ "skip"); [exact I|].
  destruct (String.eqb _ "text"); [intros e b; cbn; discriminate|].
  destruct (String.eqb _ "fail"); intros e s' b; cbn; discriminate.
Qed.

Lemma log_root_propagating : propagating_root log_root.
Proof. intros i e s v. cbn. discriminate. Qed.

Lemma logger_total : total (fun _ => True) logger.
Proof.
  constructor.
  - intros. cbn. split; [intros x; discriminate|exact I].
  - intros. cbn. destruct (String.eqb str "boom"); (split; [intros x; discriminate|exact I]).
  - intros s i _. unfold logger; cbn [v_element].
    destruct (String.eqb _ "skip"); [split; [intros x; discriminate|exact I]|].
    destruct (String.eqb _ "text"); [intros [|]; (split; [intros x; discriminate|exact I])|].
    destruct (String.eqb _ "fail");
      (split; [exact I|]; intros [|] s' _; (split; [intros x; discriminate|exact I])).
Qed.

Lemma logger_transparent : transparent logger.
Proof.
  split.
  - intros s n v e. cbn. discriminate.
  - intros s i. unfold logger; cbn [v_element].
    destruct (String.eqb _ "skip"); [intros e; cbn; discriminate|].
    destruct (String.eqb _ "text"); [split; [intros t e; cbn; discriminate|reflexivity]|].
    destruct (String.eqb _ "fail").
    + split; [|reflexivity]. intros j s' e. cbn. intros [= <-]. eauto.
    + split; [|reflexivity]. intros j s' e. cbn. discriminate.
Qed.

Lemma log_root_transparent : transparent_root log_root.
Proof. intros i. split; [intros j s e; cbn; discriminate|reflexivity]. Qed.

Lemma logger_blind : blind logger.
Proof.
  split.
  - reflexivity.
  - intros s i. unfold logger; cbn [v_element].
    destruct (String.eqb _ "skip"); [exact I|].
    destruct (String.eqb _ "text"); [intros e1 e2 H; split; [exact H|reflexivity]|].
    destruct (String.eqb _ "fail").
    + split; [intros e1 e2 s' H; split; [exact H|reflexivity]|]. intros. split; reflexivity.
    + split; [intros e1 e2 s' H; split; [exact H|reflexivity]|]. intros. split; reflexivity.
Qed.

Lemma log_root_blind : blind_root log_root.
Proof. intros i. split; [intros e1 e2 s H; exact H|]. intros. reflexivity. Qed.

(** ** C11: the event reader implements the document tree *)

(** Every visitor and every document.  In debug builds user code must not swallow errors of reads
    (see C14). *)
Theorem C11_reader_is_tree : forall St T dbg (V : visitors St) (D : einfo -> action St (res verr T)) d pe,
  (dbg = true -> propagating V /\ propagating_root D) ->
  read dbg V D (reader_new (doc_events d) (FEndDocument pe)) = sem_doc V D d.
Proof. exact read_sem. Qed.
Print Assumptions C11_reader_is_tree.

Example C11_example :
  propagating logger /\ propagating_root log_root /\
  read true logger log_root (reader_new (doc_events doc1) (FEndDocument (at_ 103))) =
  Ok ["@id=7"; "a"; "skipped"; "sub"; "@x=y"; "text tu"; "/sub"; "z"]%string.
Proof. repeat split; auto using logger_propagating, log_root_propagating. Qed.

(** ** C12: dropped and abandoned children are skipped *)

(** Reading the children of an element: once the visitor's callback for a child has returned [Ok]
    (whether it read the child, part of it, or nothing), the reader goes on exactly at the child's
    next sibling, with the element stack of the parent. *)
Theorem C12_resume_at_sibling : forall St dbg (V : visitors St), (dbg = true -> propagating V) ->
  forall fuel name attrs cns p ck cpe kids fin base el ns pe rest pos s s' b,
  List.length (flat_map events (NElem name attrs cns p ck cpe :: kids)) < S fuel ->
  fst (sem_act (sem_read V (NElem name attrs cns p ck cpe) (base ++ [el]))
         ((base ++ [el]) ++ [SElem name p]) p ck cpe
         (v_element V s (EInfo name cns (S (S (List.length base)))))) = inl (Ok b, s') ->
  exists pos',
    read_loop dbg V (S fuel) (List.length base) ns s
      (at_elem fin base el (NElem name attrs cns p ck cpe :: kids) pe rest pos) =
    read_loop dbg V fuel (List.length base) ns s' (at_elem fin base el kids pe rest pos').
Proof. exact read_loop_resume. Qed.
Print Assumptions C12_resume_at_sibling.

(** Documents that differ only inside (or in the attributes of) children their visitor drops read
    the same. *)
Theorem C12_ignored_content : forall St T dbg (V : visitors St) (D : einfo -> action St (res verr T)) d k2 pe1 pe2,
  (dbg = true -> propagating V /\ propagating_root D) ->
  same_seen V 1 (d_kids d) k2 ->
  read dbg V D (reader_new (doc_events d) (FEndDocument pe1)) =
  read dbg V D (reader_new (doc_events
    (Doc (d_start d) (d_prolog d) (d_name d) (d_attrs d) (d_ns d) (d_pos d) k2 (d_pe d) (d_epilogue d)))
    (FEndDocument pe2)).
Proof. exact ignored_content. Qed.
Print Assumptions C12_ignored_content.

Example C12_example : same_seen logger 1 (d_kids doc1)
  [ NText false "a" (at_ 2);
    elem "skip" 3 [Attr (nm "k") "v"] [NText true "boom" (at_ 5)];
    NMisc (Comment "c") (at_ 6);
    elem "sub" 7 [Attr (nm "x") "y"] [NBlank " " (at_ 8); elem "text" 9 [] [NText false "t" (at_ 10); NText true "u" (at_ 11)]];
    NText true "z" (at_ 12) ].
Proof.
  unfold doc1, doc_of, d_kids, elem.
  apply ss_same; [reflexivity|]. apply ss_ignored. { intros s. eexists. reflexivity. }
  apply ss_same; [reflexivity|]. apply ss_elem.
  - apply ss_same; [reflexivity|]. apply ss_elem; [|apply ss_nil].
    repeat (apply ss_same; [reflexivity|]). apply ss_nil.
  - apply ss_same; [reflexivity|]. apply ss_nil.
Qed.

(** ** C13: reading always terminates with [Ok] or [Err] *)

(** On every stream xml-rs can deliver, complete or cut off by an error: no divergence, no panic, no
    failed debug assertion (provided user code does not panic itself). *)
Theorem C13_read_total : forall St T dbg (V : visitors St) (D : einfo -> action St (res verr T)) Inv src fin,
  (dbg = true -> propagating V /\ propagating_root D) ->
  total Inv V -> total_root Inv D ->
  deliverable src fin ->
  no_abort (read dbg V D (reader_new src fin)).
Proof. exact read_total. Qed.
Print Assumptions C13_read_total.

(** The events of every document are deliverable. *)
Theorem C13_documents_deliverable : forall d pe, deliverable (doc_events d) (FEndDocument pe).
Proof. exact doc_deliverable. Qed.
Print Assumptions C13_documents_deliverable.

(** A release build computes what a debug build computes, unless the latter panics. *)
Theorem C13_release_agrees : forall St T (V : visitors St) (D : einfo -> action St (res verr T)) r,
  no_abort (read true V D r) -> read false V D r = read true V D r.
Proof. exact read_release. Qed.
Print Assumptions C13_release_agrees.

Definition cut1 : list (xevent * position) := firstn 6 (doc_events doc1).
Definition cut_err : xerr := XErr (at_ 6) "Unexpected end of stream".

Example C13_example :
  deliverable cut1 (FError cut_err) /\ total (fun _ => True) logger /\ total_root (fun _ => True) log_root /\
  read true logger log_root (reader_new cut1 (FError cut_err)) =
  Err (Error (EXml cut_err)
         [SElem (nm "root") (at_ 1); SElem (nm "skip") (at_ 3); SElem (nm "fail") (at_ 4)] (at_ 6)).
Proof.
  split; [vm_compute; auto|]. split; [exact logger_total|]. split; [|reflexivity].
  intros i. split; [exact I|]. intros [|] s _ x; discriminate.
Qed.

(** ** C14: a visitor may recover from an error in a child *)

(** Release builds: every visitor, also one that swallows errors, is driven according to the tree:
    after the callback for a child returned [Ok], the next sibling follows. *)
Theorem C14_recover_release : forall St T (V : visitors St) (D : einfo -> action St (res verr T)) d pe,
  read false V D (reader_new (doc_events d) (FEndDocument pe)) = sem_doc V D d.
Proof. exact recover_release. Qed.
Print Assumptions C14_recover_release.

(** A visitor that counts the children it could read and skips broken ones. *)
Definition lenient : visitors nat := {|
  v_attribute := fun s _ _ => (Ok None, s);
  v_characters := fun s _ _ => (Ok None, s);
  v_element := fun s i =>
    if String.eqb (on_local (ei_name i)) "bad" then
      AReadTo 0 (fun x _ => match x with
                            | inl _ => (Err (Wrap "rejected"), s)
                            | inr e => (Err e, s)
                            end)
    else
      AReadTo 0 (fun x _ => match x with
                            | inl _ => (Ok false, S s)
                            | inr _ => (Ok false, s)     (* skip broken items *)
                            end);
|}.

Definition count_root (_ : einfo) : action nat (res verr nat) :=
  AReadTo 0 (fun x s => match x with inl _ => Ok s | inr e => Err e end).

Definition doc_bad : doc := doc_of [] [elem "item" 2 [] [elem "bad" 3 [] []]; elem "item" 4 [] []].

(** Debug builds: it fails.  The same program and document that give [Ok 1] in a release build hit
    the reader's own debug assertion. *)
Theorem C14_recover_debug_refuted : exists (V : visitors nat) (D : einfo -> action nat (res verr nat)) d pe m,
  total (fun _ => True) V /\ total_root (fun _ => True) D /\
  read false V D (reader_new (doc_events d) (FEndDocument pe)) = Ok 1 /\
  read true V D (reader_new (doc_events d) (FEndDocument pe)) = Abort (Panic m).
Proof.
  exists lenient, count_root, doc_bad, (at_ 200). eexists. repeat split.
  - intros x; discriminate.
  - intros x; discriminate.
  - intros s i _. unfold lenient; cbn [v_element].
    destruct (String.eqb _ "bad"); (split; [exact I|]; intros [|] s' _; (split; [intros x; discriminate|exact I])).
  - intros [|] s _ x; discriminate.
Qed.
Print Assumptions C14_recover_debug_refuted.

(** ** C15: [Ok] means the whole document was read *)

(** Any stream, any user code. *)
Theorem C15_ok_means_complete : forall St T dbg (V : visitors St) (D : einfo -> action St (res verr T)) src fin v,
  read dbg V D (reader_new src fin) = Ok v -> complete_stream src fin.
Proof. exact read_ok_complete. Qed.
Print Assumptions C15_ok_means_complete.

(** For streams xml-rs delivers, this means: the events are those of one document. *)
Theorem C15_ok_means_document : forall src fin, deliverable src fin -> complete_stream src fin ->
  exists d pe, src = doc_events d /\ fin = FEndDocument pe.
Proof. exact complete_stream_doc. Qed.
Print Assumptions C15_ok_means_document.

(** In particular a stream that ends with an error never gives [Ok], whatever user code does. *)
Theorem C15_cut_off_never_ok : forall St T dbg (V : visitors St) (D : einfo -> action St (res verr T)) src e v,
  read dbg V D (reader_new src (FError e)) <> Ok v.
Proof. exact cut_off_never_ok. Qed.
Print Assumptions C15_cut_off_never_ok.

(** A deserializer that reads nothing at all and always succeeds. *)
Definition lazy_root (_ : einfo) : action (list string) (res verr (list string)) := ANoRead (Ok []).

Example C15_example :
  read true logger lazy_root (reader_new (doc_events doc1) (FEndDocument (at_ 103))) = Ok [] /\
  (* a second root element, and text after the root, are errors *)
  read true logger lazy_root (reader_new (doc_events doc1 ++ events (elem "x" 200 [] [])) (FEndDocument (at_ 210))) =
    Err (Error (EMsg (MExpectedEndDocument (XStartElement (nm "x") [] []))) [] (at_ 200)) /\
  read true logger lazy_root (reader_new (doc_events doc1 ++ [(XCharacters "x", at_ 200)]) (FEndDocument (at_ 210))) =
    Err (Error (EMsg (MExpectedEndDocument (XCharacters "x"))) [] (at_ 200)).
Proof. repeat split; reflexivity. Qed.

(** ** C16: errors carry the element path *)

(** On a complete document, for user code that hands on errors of nested reads: the error is about
    some element of the document and its stack is the path from the root to that element (names and
    start positions), with the start position of the element (or the position of the text) that
    failed; errors about the root itself are reported at its start tag, or at its end tag if it
    was read to the end. *)
Theorem C16_deserializer_error_path :
  forall St T dbg (V : visitors St) (D : einfo -> action St (res verr T)) d pe e,
  transparent V -> transparent_root D ->
  (dbg = true -> propagating V /\ propagating_root D) ->
  read dbg V D (reader_new (doc_events d) (FEndDocument pe)) = Err e ->
  (exists path n, on_path [] (d_root d) path n /\ blames V path n e) \/
  (exists m p, e = Error (EDeserializer m) [SElem (d_name d) (d_pos d)] p /\
     (p = d_pos d \/ p = d_pe d) /\
     outcome (D (EInfo (d_name d) (d_ns d) 1)) (Err (Wrap m))).
Proof. exact deserializer_error_path. Qed.
Print Assumptions C16_deserializer_error_path.

(** On any stream: an error of the XML parser carries its own position and the elements open at that
    point. *)
Theorem C16_xml_error_path : forall St T dbg (V : visitors St) (D : einfo -> action St (res verr T)) src fin x st p,
  transparent V -> transparent_root D ->
  read dbg V D (reader_new src fin) = Err (Error (EXml x) st p) ->
  fin = FError x /\ p = xe_pos x /\ st = opened [] src.
Proof. exact read_xml_error. Qed.
Print Assumptions C16_xml_error_path.

Example C16_example :
  transparent logger /\ transparent_root log_root /\
  read true logger log_root (reader_new (doc_events
    (doc_of [] [elem "sub" 2 [] [elem "skip" 3 [] []; elem "fail" 5 [] []]])) (FEndDocument (at_ 200))) =
  Err (Error (EDeserializer "rejected")
         [SElem (nm "root") (at_ 1); SElem (nm "sub") (at_ 2); SElem (nm "fail") (at_ 5)] (at_ 5)) /\
  read true logger log_root (reader_new (doc_events
    (doc_of [] [elem "sub" 2 [] [NText false "boom" (at_ 3)]])) (FEndDocument (at_ 200))) =
  Err (Error (EDeserializer "bad text") [SElem (nm "root") (at_ 1); SElem (nm "sub") (at_ 2)] (at_ 3)).
Proof.
  split; [exact logger_transparent|]. split; [exact log_root_transparent|]. split; reflexivity.
Qed.

(** ** C17: invisible content *)

(** Any user code that does not look at positions. *)
Theorem C17_invisible_content :
  forall St T dbg (V : visitors St) (D : einfo -> action St (res verr T)) d1 d2 pe1 pe2,
  blind V -> blind_root D ->
  (dbg = true -> propagating V /\ propagating_root D) ->
  d_name d1 = d_name d2 -> d_attrs d1 = d_attrs d2 -> d_ns d1 = d_ns d2 ->
  same_content (d_kids d1) (d_kids d2) ->
  res_sim error_sim (read dbg V D (reader_new (doc_events d1) (FEndDocument pe1)))
                    (read dbg V D (reader_new (doc_events d2) (FEndDocument pe2))).
Proof. exact invisible_content. Qed.
Print Assumptions C17_invisible_content.

Example C17_example : blind logger /\ blind_root log_root /\
  same_content (d_kids doc1)
  [ NMisc (PI "pi" (Some "data"%string)) (at_ 1); NText true "a" (at_ 20);
    elem "skip" 30 [] [NBlank "  " (at_ 1); elem "fail" 4 [] [NText false "boom" (at_ 5)]];
    elem "sub" 70 [Attr (nm "x") "y"] [elem "text" 9 [] [NText true "t" (at_ 10); NMisc (Comment "-") (at_ 3); NText false "u" (at_ 11)]];
    NText false "z" (at_ 12); NBlank " " (at_ 13) ].
Proof.
  split; [exact logger_blind|]. split; [exact log_root_blind|].
  unfold doc1, doc_of, d_kids, elem. repeat constructor.
Qed.

(** ** C18: text elements *)

(** Reading a [String]: all text and CDATA in order, whatever the attributes. *)
Theorem C18_text_concatenated : forall St dbg (V : visitors St) d pe,
  (dbg = true -> propagating V) ->
  existsb is_elem (d_kids d) = false ->
  read dbg V (deserialize_text (fun s => Ok s)) (reader_new (doc_events d) (FEndDocument pe)) =
  Ok (text_of (d_kids d)).
Proof. exact text_concatenated. Qed.
Print Assumptions C18_text_concatenated.

(** The first child element is an error, for every text type. *)
Theorem C18_child_element_rejected : forall St T dbg (V : visitors St) (parse : string -> res string T) d pe,
  (dbg = true -> propagating V) ->
  existsb is_elem (d_kids d) = true ->
  exists k1 name attrs ns p kk pk k2, d_kids d = k1 ++ NElem name attrs ns p kk pk :: k2 /\
    existsb is_elem k1 = false /\
    read dbg V (deserialize_text parse) (reader_new (doc_events d) (FEndDocument pe)) =
    Err (Error (EMsg (MUnexpectedElement name)) [SElem (d_name d) (d_pos d); SElem name p] p).
Proof. exact text_child_rejected. Qed.
Print Assumptions C18_child_element_rejected.

(** The crate's documentation (lib.rs 24-26) says that child elements of text types are ignored. They are not. *)
Theorem C18_children_ignored_refuted : exists d pe e, forall dbg,
  existsb is_elem (d_kids d) = true /\
  read dbg logger (deserialize_text (fun s => Ok s)) (reader_new (doc_events d) (FEndDocument pe)) = Err e.
Proof. exists doc1, (at_ 200). eexists. intros []; (split; [reflexivity|vm_compute; reflexivity]). Qed.
Print Assumptions C18_children_ignored_refuted.

Definition doc_text : doc := doc_of [Attr (nm "ignored") "yes"]
  [NText false "1" (at_ 2); NMisc (Comment "c") (at_ 3); NText true "2" (at_ 4); NBlank " " (at_ 5)].

Example C18_example :
  existsb is_elem (d_kids doc_text) = false /\ text_of (d_kids doc_text) = "12"%string /\
  existsb is_elem (d_kids doc1) = true.
Proof. repeat split; reflexivity. Qed.

(** ** C08: a text type read through an element and through an attribute *)

(** Every text type (any [parse]), every way the content is split: same value, or an error with the
    same message. *)
Theorem C08_element_like_attribute : forall St T dbg (V : visitors St) (parse : string -> res string T) d pe,
  (dbg = true -> propagating V) ->
  existsb is_elem (d_kids d) = false ->
  read dbg V (deserialize_text parse) (reader_new (doc_events d) (FEndDocument pe)) =
  map_err (fun e => wrap e [SElem (d_name d) (d_pos d)] (d_pe d)) (attr_init parse (text_of (d_kids d))).
Proof. exact text_from_element. Qed.
Print Assumptions C08_element_like_attribute.

Definition parse_even (s : string) : res string Z :=
  bind (parse_int U8 s) (fun z => if Z.even z then Ok z else Err ("odd: " ++ s)%string).

Example C08_example : propagating logger /\ existsb is_elem (d_kids doc_text) = false /\
  (forall dbg, read dbg logger (deserialize_text parse_even) (reader_new (doc_events doc_text) (FEndDocument (at_ 200))) = Ok 12%Z) /\
  let doc := doc_of [] (d_kids doc_text ++ [NText false "1" (at_ 6)]) in existsb is_elem (d_kids doc) = false /\
  (forall dbg, read dbg logger (deserialize_text parse_even) (reader_new (doc_events doc) (FEndDocument (at_ 200))) =
     Err (Error (EDeserializer "odd: 121") [SElem (d_name doc) (d_pos doc)] (d_pe doc))) /\
  attr_init parse_even "121" = Err (Wrap "odd: 121").
Proof.
  split; [exact logger_propagating|]. split; [reflexivity|]. split; [intros []; vm_compute; reflexivity|].
  split; [reflexivity|]. split; [intros []; vm_compute; reflexivity|vm_compute; reflexivity].
Qed.
