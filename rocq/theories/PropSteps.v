(** Property theorems for C82: how much work is done.

    [find_c], [normalize_n], [finalize_n] and [read_c] (Steps.v) do the same as [find], [normalize_bytes], [finalize] and
    [read] and say which positions of the table were compared, how many bytes were looked at or moved, how many prefixes were
    tried, and which calls of visitors were made.  That nothing is left out is part of the theorems: whatever agrees with the
    table, the visitors or the tables of a derived type in what is said to have been used gives the same.
    [lookups n] is 0 for no names and 1 + log2 n (rounded up) otherwise; [element_work], [attribute_work] add it up for the names
    of a type (StepsSpec.v). *)
From Coq Require Import Lia.
From Verif Require Import Base Text Find Types Reader ReaderSpec DeriveDe Steps StepsSpec StepsProofs NormSteps PropReader PropDe.
From Verif Require Normalize Ser.

(** ** C82: steps *)

Theorem C82_lookup : forall alg n t, fst (find_c alg n t) = find alg n t /\
  List.length (snd (find_c alg n t)) <= lookups (List.length t) /\
  (alg = Branchless -> List.length (snd (find_c alg n t)) = lookups (List.length t)).
Proof. exact (fun alg n t => conj (find_same alg n t) (find_steps alg n t)). Qed.
Print Assumptions C82_lookup.

(** No other names of the table are looked at. *)
Theorem C82_lookup_only : forall alg n t t', List.length t' = List.length t ->
  (forall p, In p (snd (find_c alg n t)) -> nth_error t' p = nth_error t p) ->
  find_c alg n t' = find_c alg n t.
Proof. exact find_only. Qed.
Print Assumptions C82_lookup_only.

(** Linear, whatever the order of white space and other bytes; and no byte is left out. *)
Theorem C82_normalize : forall v w, fst (normalize_n v w) = Normalize.normalize_bytes v w /\
  snd (normalize_n v w) <= 4 * List.length v + 2 /\
  (w <> Normalize.Preserve -> List.length v <= snd (normalize_n v w)).
Proof. exact (fun v w => conj (normalize_same v w) (conj (normalize_steps v w) (normalize_least v w))). Qed.
Print Assumptions C82_normalize.

(** Exactly so much. *)
Theorem C82_normalize_exact : forall v w, exists out, Normalize.normalize_bytes v w = Ok out /\
  snd (normalize_n v w) = normalize_work v w out.
Proof. exact normalize_counted. Qed.
Print Assumptions C82_normalize_exact.

(** Prefixes tried for [n] URLs: at most n (n + 1) / 2, and at least one for each. *)
Theorem C82_prefixes : forall b, fst (finalize_n b) = Ser.finalize b /\
  2 * snd (finalize_n b) <= List.length b * (List.length b + 1) /\
  (Ser.finalize b <> None -> List.length b <= snd (finalize_n b)).
Proof. exact (fun b => conj (finalize_same b) (conj (finalize_steps b) (finalize_least b))). Qed.
Print Assumptions C82_prefixes.

(** So many whenever all want the same prefix: it is not linear. *)
Theorem C82_prefixes_reached : forall p urls, p <> ""%string -> NoDup urls ->
  2 * snd (finalize_n (requests p urls)) = List.length urls * (List.length urls + 1).
Proof. exact requests_exact. Qed.
Print Assumptions C82_prefixes_reached.

(** Any visitors, any stream: no more calls than elements below the root, attributes and pieces of text. *)
Theorem C82_calls : forall St T dbg (V : visitors St) (D : einfo -> action St (res verr T)) src fin,
  fst (read_c dbg V D (reader_new src fin)) = read dbg V D (reader_new src fin) /\
  count is_element_call (snd (read_c dbg V D (reader_new src fin))) <= start_tags src - 1 /\
  count is_attribute_call (snd (read_c dbg V D (reader_new src fin))) <= attributes src /\
  count is_text_call (snd (read_c dbg V D (reader_new src fin))) <= texts src.
Proof. exact (fun St T dbg V D src fin => conj (read_same dbg V D _) (read_calls dbg V D src fin)). Qed.
Print Assumptions C82_calls.

(** Visitors that do the same in these calls give the same result: no other calls are made. *)
Theorem C82_calls_only : forall St T dbg (V V' : visitors St) (D : einfo -> action St (res verr T)) r,
  (forall c, In c (snd (read_c dbg V D r)) -> agree V V' c) ->
  read_c dbg V' D r = read_c dbg V D r.
Proof. exact (fun St T dbg V V' D r => read_only dbg V V' D r). Qed.
Print Assumptions C82_calls_only.

(** Derived types: comparisons of names, all visitors together. *)
Theorem C82_reading : forall o alg env W A,
  (forall id d, env id = Some d -> element_work env d <= W /\ attribute_work d <= A) ->
  forall dbg t src fin,
  fst (read_c dbg (derived o alg env) (de_root o env t) (reader_new src fin)) = read_as o alg env dbg t src fin /\
  list_sum (map (comparisons alg) (snd (read_c dbg (derived o alg env) (de_root o env t) (reader_new src fin)))) <=
    W * (start_tags src - 1) + A * attributes src.
Proof.
  exact (fun o alg env W A H dbg t src fin =>
    conj (read_same dbg (derived o alg env) (de_root o env t) (reader_new src fin)) (read_work o alg env W A H dbg t src fin)).
Qed.
Print Assumptions C82_reading.

(** What a derived visitor does in a call depends on no other lookups than these. *)
Theorem C82_reading_only : forall o alg alg' env c,
  (forall n t, In (n, t) (looked_up alg c) -> find alg' n t = find alg n t) ->
  agree (derived o alg env) (derived o alg' env) c.
Proof. exact derived_only. Qed.
Print Assumptions C82_reading_only.

(** When a flattened field is not asked any more. *)
Theorem C82_flattened : forall o alg env e i,
  takes alg e (from_xml_name (ei_name i)) = true <-> enum_element o alg env e i <> None.
Proof. exact takes_spec. Qed.
Print Assumptions C82_flattened.

(** ** Examples *)

(** Eight elements below the root.  Those found among the person's own fields take three comparisons, the others three more. *)
Example C82_example_reading :
  (forall id d, env0 id = Some d -> element_work env0 d <= 6 /\ attribute_work d <= 1) /\
  start_tags (doc_events (person_doc "p")) = 9 /\ attributes (doc_events (person_doc "p")) = 2 /\
  list_sum (map (comparisons Branchless) (snd (read_c true (derived oracles0 Branchless env0) (de_root oracles0 env0 (ERef 0))
    (reader_new (doc_events (person_doc "p")) end0)))) = 35.
Proof.
  split; [|vm_compute; auto].
  intros [|[|[|[|[|id]]]]] d [= <-]; vm_compute; lia.
Qed.

(** A thousand names need eleven comparisons; a wrong one is not found earlier. *)
Example C82_example_lookup : lookups 1000 = 11 /\ lookups 1024 = 11 /\ lookups 1025 = 12 /\ lookups 1 = 1.
Proof. vm_compute. auto. Qed.

Example C82_example_normalize :
  normalize_n (bytes_of "  a   b c ") Normalize.Collapse = (Ok (bytes_of "a b c"), 21) /\
  normalize_n (bytes_of "          ") Normalize.Collapse = (Ok [], 10).
Proof. vm_compute. auto. Qed.

Example C82_example_prefixes : snd (finalize_n (requests "p" ["a"; "b"; "c"; "d"]%string)) = 10.
Proof. vm_compute. reflexivity. Qed.

(** Three of the five names are compared.  Changing another changes nothing; changing one of the three does. *)
Example C82_example_lookup_only :
  let t x y := [XName "" "a"; XName "" x; XName "" "e"; XName "" y; XName "" "i"] in
  find_c Branchless (XName "" "g") (t "c" "g") = (Some 3, [2; 3; 4; 3]) /\
  find_c Branchless (XName "" "g") (t "b" "g") = find_c Branchless (XName "" "g") (t "c" "g") /\
  find_c Branchless (XName "" "g") (t "c" "h") <> find_c Branchless (XName "" "g") (t "c" "g").
Proof. vm_compute. repeat split; auto. discriminate. Qed.

Example C82_example_finalized : Ser.finalize (requests "p" ["a"; "b"; "c"; "d"]%string) <> None.
Proof. vm_compute. discriminate. Qed.

(** An attribute and four elements of the person, with the sizes of the tables: one of the elements belongs to a flattened field. *)
Example C82_example_looked_up :
  map (fun c => map (fun '(n, t) => (n, List.length t)) (looked_up Branchless c))
    (firstn 5 (snd (read_c true (derived oracles0 Branchless env0) (de_root oracles0 env0 (ERef 0))
      (reader_new (doc_events (person_doc "p")) end0)))) =
  [[(XName "" "id", 1)]; [(XName "urn:u" "tag", 4)]; [(XName "urn:u" "phone", 4); (XName "urn:u" "phone", 3)];
   [(XName "urn:u" "name", 4)]; [(XName "urn:u" "friend", 4)]].
Proof. vm_compute. reflexivity. Qed.
