(** The property statements about [read], derived from the lemmas about the machine and the tree
    semantics. *)
From Verif Require Import Base Reader ReaderSpec ReaderProofs ReaderTotal ReaderOk ReaderMore ReaderXml.

Lemma ignored_content : forall St T dbg (V : visitors St) (D : einfo -> action St (res verr T)) d k2 pe1 pe2,
  (dbg = true -> propagating V /\ propagating_root D) ->
  same_seen V 1 (d_kids d) k2 ->
  read dbg V D (reader_new (doc_events d) (FEndDocument pe1)) =
  read dbg V D (reader_new (doc_events
    (Doc (d_start d) (d_prolog d) (d_name d) (d_attrs d) (d_ns d) (d_pos d) k2 (d_pe d) (d_epilogue d)))
    (FEndDocument pe2)).
Proof. intros. rewrite !read_sem by assumption. now apply same_seen_doc. Qed.

Lemma recover_release : forall St T (V : visitors St) (D : einfo -> action St (res verr T)) d pe,
  read false V D (reader_new (doc_events d) (FEndDocument pe)) = sem_doc V D d.
Proof. intros. apply read_sem. discriminate. Qed.

Lemma cut_off_never_ok : forall St T dbg (V : visitors St) (D : einfo -> action St (res verr T)) src e v,
  read dbg V D (reader_new src (FError e)) <> Ok v.
Proof.
  intros St T dbg V D src e v H. apply read_ok_complete in H.
  destruct H as (? & ? & ? & ? & ? & ? & ? & ? & ? & ? & ? & ? & ? & ?). discriminate.
Qed.

Lemma deserializer_error_path :
  forall St T dbg (V : visitors St) (D : einfo -> action St (res verr T)) d pe e,
  transparent V -> transparent_root D ->
  (dbg = true -> propagating V /\ propagating_root D) ->
  read dbg V D (reader_new (doc_events d) (FEndDocument pe)) = Err e ->
  (exists path n, on_path [] (d_root d) path n /\ blames V path n e) \/
  (exists m p, e = Error (EDeserializer m) [SElem (d_name d) (d_pos d)] p /\
     (p = d_pos d \/ p = d_pe d) /\
     outcome (D (EInfo (d_name d) (d_ns d) 1)) (Err (Wrap m))).
Proof. intros * HV HD HP H. rewrite read_sem in H by assumption. now apply sem_doc_blame. Qed.

Lemma invisible_content :
  forall St T dbg (V : visitors St) (D : einfo -> action St (res verr T)) d1 d2 pe1 pe2,
  blind V -> blind_root D ->
  (dbg = true -> propagating V /\ propagating_root D) ->
  d_name d1 = d_name d2 -> d_attrs d1 = d_attrs d2 -> d_ns d1 = d_ns d2 ->
  same_content (d_kids d1) (d_kids d2) ->
  res_sim error_sim (read dbg V D (reader_new (doc_events d1) (FEndDocument pe1)))
                    (read dbg V D (reader_new (doc_events d2) (FEndDocument pe2))).
Proof. intros. rewrite !read_sem by assumption. now apply sem_doc_sim. Qed.

(** Reading a text type from an element without child elements. *)
Lemma text_from_element : forall St T dbg (V : visitors St) (parse : string -> res string T) d pe,
  (dbg = true -> propagating V) ->
  existsb is_elem (d_kids d) = false ->
  read dbg V (deserialize_text parse) (reader_new (doc_events d) (FEndDocument pe)) =
  map_err (fun e => wrap e [SElem (d_name d) (d_pos d)] (d_pe d)) (attr_init parse (text_of (d_kids d))).
Proof.
  intros St T dbg V parse d pe HP He.
  rewrite read_sem by (split; [auto|apply deserialize_text_propagating]).
  unfold sem_doc, deserialize_text, attr_init. cbn [sem_act].
  rewrite sem_string_text by assumption. cbn [append fst snd].
  now destruct (parse (text_of (d_kids d))).
Qed.

Lemma text_concatenated : forall St dbg (V : visitors St) d pe,
  (dbg = true -> propagating V) ->
  existsb is_elem (d_kids d) = false ->
  read dbg V (deserialize_text (fun s => Ok s)) (reader_new (doc_events d) (FEndDocument pe)) =
  Ok (text_of (d_kids d)).
Proof. intros. now rewrite text_from_element. Qed.

Lemma text_child_rejected : forall St T dbg (V : visitors St) (parse : string -> res string T) d pe,
  (dbg = true -> propagating V) ->
  existsb is_elem (d_kids d) = true ->
  exists k1 name attrs ns p kk pk k2, d_kids d = k1 ++ NElem name attrs ns p kk pk :: k2 /\
    existsb is_elem k1 = false /\
    read dbg V (deserialize_text parse) (reader_new (doc_events d) (FEndDocument pe)) =
    Err (Error (EMsg (MUnexpectedElement name)) [SElem (d_name d) (d_pos d); SElem name p] p).
Proof.
  intros St T dbg V parse d pe HP He.
  rewrite read_sem by (split; [auto|apply deserialize_text_propagating]).
  unfold sem_doc, deserialize_text. cbn [sem_act].
  destruct (sem_string_elem (d_kids d) [SElem (d_name d) (d_pos d)] "" (d_pe d) He)
    as (k1 & n & a & ns & p & kk & pk & k2 & H1 & H2 & H3).
  exists k1, n, a, ns, p, kk, pk, k2. rewrite H3. auto.
Qed.
