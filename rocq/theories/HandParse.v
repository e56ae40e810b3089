(** Hand-written [ParseText] and [ToText] get and decide the text as it is. *)
From Verif Require Import Base Normalize Text Find Types Reader ReaderSpec ReaderProofs ReaderXml ReaderMore ReaderProps DeriveDe DeSpec
  DeTotal DeProps.

Theorem hand_parsed o alg env dbg i d pe : existsb is_elem (d_kids d) = false ->
  read_as o alg env dbg (EText (THand i)) (doc_events d) (FEndDocument pe) =
  match o_hand_parse o i (text_of (d_kids d)) with
  | Ok n => Ok (VText (TVHand n))
  | Err m => Err (Error (EDeserializer m) [SElem (d_name d) (d_pos d)] (d_pe d))
  | Abort x => Abort x
  end.
Proof.
  intros H. rewrite read_as_sem. unfold sem_doc, de_root, deserialize, deserialize_text. cbn [amap sem_act parse_text].
  rewrite sem_string_text by assumption. cbn [append fst snd].
  now destruct (o_hand_parse o i (text_of (d_kids d))).
Qed.
