(** Property theorems C71: the API suffices for whole documents.

    README.md 96-98 plans [Serialize] and [Deserialize] for a type that holds any element
    ([xmltree::Element]).  Dom.v is such a type, written against the public traits: [dom_deserialize] with
    [dom_visitor], and [dom_serialize px] where [px] chooses prefixes.  Specifications: DomSpec.v. *)
From Verif Require Import Base NsSpec Ser SerSpec Reader ReaderSpec RTSpec RTProps Dom DomSpec DomProofs.

(** Reading: the visitor is told all there is to know, whatever the document. *)
Theorem C71_reads_everything : forall dbg d pe,
  read dbg dom_visitor dom_deserialize (reader_new (doc_events d) (FEndDocument pe)) = Ok (dom_of (d_root d)).
Proof. exact dom_document. Qed.
Print Assumptions C71_reads_everything.

(** Writing and reading back: every tree that XML can express is written, the document has that tree,
    and reading it gives the tree again but for blank text and the merging of adjacent text, however
    the document is laid out. *)
Theorem C71_round_trip : forall px dbg n attrs kids, good_prefixes px -> expressible (TElem n attrs kids) ->
  exists k, to dbg (fun _ => None) n (dom_serialize px n attrs kids) = inl (None, k) /\
    (forall pol, meaning [] (emit pol [] (k_out k)) = Some (tree_events (TElem n attrs kids))) /\
    forall t' d, indented (TElem n attrs kids) t' -> shows t' (d_root d) -> forall dbg' pe,
      read dbg' dom_visitor dom_deserialize (reader_new (doc_events d) (FEndDocument pe)) =
      Ok (clean (TElem n attrs kids)).
Proof. exact dom_round_trip. Qed.
Print Assumptions C71_round_trip.

(** Exactly the trees without blank or adjacent text come back as they were. *)
Theorem C71_unchanged_iff : forall t, is_telem t = true -> (clean t = t <-> tidy t).
Proof. exact clean_tidy. Qed.
Print Assumptions C71_unchanged_iff.

(** There are such prefixes. *)
Theorem C71_prefixes : good_prefixes px_letters.
Proof. exact px_letters_good. Qed.
Print Assumptions C71_prefixes.

Definition sample : wtree :=
  TElem (XName "urn:1" "a") [(XName "" "id", "7"); (XName "urn:2" "id", "8")]%string
    [TText "x "; TElem (XName "urn:2" "b") [] [TElem (XName "" "c") [(XName XML_NS "lang", "en")]%string []];
     TText "y"; TElem (XName "urn:1" "a") [] [TText "z"]].

Lemma sample_expressible : expressible sample.
Proof.
  repeat first
    [ constructor
    | progress intros
    | discriminate
    | match goal with H : In _ _ |- _ => cbn in H end
    | match goal with H : _ \/ _ |- _ => destruct H as [H|H]; subst end
    | match goal with H : False |- _ => destruct H end ].
  all: cbn; try (intros H; decompose [or] H; try discriminate; easy).
Qed.

Lemma sample_tidy : tidy sample.
Proof.
  apply clean_tidy; reflexivity.
Qed.

(** A document with comments, text in several pieces and blank text. *)
Definition at0 : position := (0, 0)%N.
Definition el (n : string) (kids : list node) : node := NElem (OName None None n) [] [] at0 kids at0.
Definition doc2 : doc :=
  Doc at0 [(Comment "c", at0)] (OName (Some "p") (Some "urn:1") "r")%string
    [Attr (OName None None "id") "7"; Attr (OName (Some "p") (Some "urn:1") "id") "8"]%string [] at0
    [ NBlank " " at0; NText false "a" at0; NMisc (Comment "no") at0; NText true " " at0; el "x" [];
      el "y" [el "z" [NText false "" at0]]; NMisc (PI "pi" None) at0; NText false "end" at0 ] at0 [].

Example C71_example_read :
  read true dom_visitor dom_deserialize (reader_new (doc_events doc2) (FEndDocument at0)) =
  Ok (TElem (XName "urn:1" "r") [(XName "" "id", "7"); (XName "urn:1" "id", "8")]%string
        [ TText "a "; TElem (XName "" "x") [] [];
          TElem (XName "" "y") [] [TElem (XName "" "z") [] []]; TText "end" ]).
Proof. reflexivity. Qed.

(** The sample meets the conditions and comes back as it was. *)
Example C71_example :
  good_prefixes px_letters /\ expressible sample /\ tidy sample /\ shows sample (render sample) /\
  exists k, to true (fun _ => None) (XName "urn:1" "a")
    (match sample with TElem n attrs kids => dom_serialize px_letters n attrs kids | TText _ => Ser (ARet None) (WRet None) end)
    = inl (None, k) /\
  forall d, d_root d = render sample -> forall pe,
    read true dom_visitor dom_deserialize (reader_new (doc_events d) (FEndDocument pe)) = Ok sample.
Proof.
  split; [exact px_letters_good|]. split; [exact sample_expressible|]. split; [exact sample_tidy|].
  split; [now apply render_shows|].
  destruct (C71_round_trip px_letters true _ _ _ px_letters_good sample_expressible) as (k & E & _ & R).
  exists k. split; [exact E|]. intros d Ed pe. rewrite (R sample d).
  - reflexivity.
  - apply indented_refl.
  - rewrite Ed. now apply render_shows.
Qed.

(** Blank text is lost, so a tree with it does not come back. *)
Definition blanks : wtree := TElem (XName "" "a") [] [TText " "; TElem (XName "" "b") [] []; TText "x"; TText "y"].
Example C71_example_blank :
  ~ tidy blanks /\ clean blanks = TElem (XName "" "a") [] [TElem (XName "" "b") [] []; TText "xy"].
Proof. split; [|reflexivity]. intros H. apply clean_tidy in H; [|reflexivity]. discriminate H. Qed.
