(** Property theorem C70: what is read is no larger than the document and the types allow.

    [value_size v]: one for everything in the value, and the lengths of its strings.  [tags src], [bytes src]: the
    elements of the input, and the lengths of its texts and attribute values.  [type_cost d]: the fields of a type, with
    their defaults.  [marks out]: the elements, attributes and texts that were written (SizeSpec.v). *)
From Verif Require Import Base Normalize Text TextProofs Find Types Reader ReaderSpec DeriveDe DeSpec DeTotal DeProps
  Ser DeriveSer SizeSpec SizeProofs SizeLeak SizeSer PropReader PropDe PropErr PropCut PropLeak.
From Verif Require PropDeriveSer.

(** ** C70: reading does not multiply *)

Theorem C70_value_size : forall o env K, (forall id d, env id = Some d -> type_cost d <= K) ->
  forall alg dbg t src fin v, names_ok env -> ety_cost t <= K -> deliverable src fin ->
  read_as o alg env dbg t src fin = Ok v -> value_size v <= K * tags src + bytes src.
Proof. exact read_size. Qed.
Print Assumptions C70_value_size.

(** What is leaked on an error: in a document that cannot be read, ... *)
Theorem C70_leak_size : forall o alg env dbg t d K pe e,
  (forall id d, env id = Some d -> type_cost d <= K) -> names_ok env -> compiles env ->
  read_as o alg env dbg t (doc_events d) (FEndDocument pe) = Err e ->
  list_sum (map value_size (leaked_by o alg env dbg t (doc_events d) (FEndDocument pe))) <=
  K * tags (doc_events d) + bytes (doc_events d).
Proof. exact leak_size_whole. Qed.
Print Assumptions C70_leak_size.

(** ... and in one that is cut off anywhere. *)
Theorem C70_cut_leak_size : forall o alg env dbg t d K n x,
  (forall id d, env id = Some d -> type_cost d <= K) ->
  names_ok env -> compiles env -> oracles_total o -> known_ty env t ->
  list_sum (map value_size (leaked_by o alg env dbg t (firstn n (doc_events d)) (FError x))) <=
  K * tags (doc_events d) + bytes (doc_events d).
Proof. exact leak_size. Qed.
Print Assumptions C70_cut_leak_size.

(** What is written has at most two elements, attributes and texts for everything in the value. *)
Theorem C70_write_size : forall o env dbg w t v n k, serialize_with_name o env dbg w t v n = inl (None, k) ->
  marks (k_out k) <= 2 * value_size v.
Proof. exact write_size. Qed.
Print Assumptions C70_write_size.

(** ** Examples *)

Lemma env0_cost : forall id d, env0 id = Some d -> type_cost d <= 9.
Proof. intros [|[|[|[|[|id]]]]] d [= <-]; vm_compute; repeat constructor. Qed.

Example C70_example : (forall id d, env0 id = Some d -> type_cost d <= 9) /\ names_ok env0 /\
  deliverable (doc_events (person_doc "p")) end0 /\
  read_as oracles0 Bisect env0 true (ERef 0) (doc_events (person_doc "p")) end0 = Ok person_value /\
  value_size person_value = 29 /\ tags (doc_events (person_doc "p")) = 9 /\ bytes (doc_events (person_doc "p")) = 19.
Proof.
  split; [exact env0_cost|]. split; [exact env0_ok|]. split; [apply C13_documents_deliverable|]. vm_compute. repeat split.
Qed.

Example C70_example_leak : names_ok env0 /\ compiles env0 /\ oracles_total oracles0 /\ known_ty env0 (ERef 0) /\
  (exists e, read_as oracles0 Bisect env0 true (ERef 0) (doc_events leak_nested_doc) end0 = Err e) /\
  leaked_by oracles0 Bisect env0 true (ERef 0) (doc_events leak_nested_doc) end0 = leak_nested /\
  list_sum (map value_size leak_nested) = 16.
Proof.
  split; [exact env0_ok|]. split; [exact env0_compiles|]. split; [exact oracles0_total|]. split; [discriminate|].
  split; [eexists; vm_compute; reflexivity|]. split; vm_compute; reflexivity.
Qed.

Example C70_example_write : exists k,
  serialize_with_name PropDeriveSer.oracles1 PropDeriveSer.env1 true PropDeriveSer.steady (ERef 0) PropDeriveSer.al
    (XName "urn:u" "person") = inl (None, k) /\ marks (k_out k) = 20 /\ value_size PropDeriveSer.al = 34.
Proof. eexists. split; [vm_compute; reflexivity|]. split; vm_compute; reflexivity. Qed.
