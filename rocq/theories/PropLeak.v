(** Property theorem C55: what a failed deserialization leaks.

    [leaks o env t n l]: the element [n] does not read as [t], and in trying so the values [l] are lost: those
    already read for the fields of the elements open at the first fault, outer elements first, fields in declaration
    order (LeakSpec.v).  [cut_leaks o env t c l]: the same when the XML parser fails within the root element, of which
    [c] was delivered (LeakCutSpec.v). *)
From Verif Require Import Base Normalize Text TextProofs Find Types Reader ReaderSpec DeriveDe DeSpec DeTotal DeProps
  ErrSpec LeakSpec ErrProofs LeakProofs LeakCutSpec LeakCut PropReader PropDe PropErr PropCut.

(** ** C55: what is leaked on an error *)

Theorem C55_what_leaks : forall o alg env dbg t d pe e l, names_ok env -> compiles env ->
  read_as o alg env dbg t (doc_events d) (FEndDocument pe) = Err e ->
  leaked_by o alg env dbg t (doc_events d) (FEndDocument pe) = l <-> leaks o env t (d_root d) l.
Proof. exact what_leaks. Qed.
Print Assumptions C55_what_leaks.

(** The specification is about failures only, and says what is leaked in all of them. *)
Theorem C55_leak_or_value : forall o env t d, names_ok env -> compiles env -> oracles_total o -> known_ty env t ->
  (exists l, leaks o env t (d_root d) l) <-> ~ exists v, reads o env t (d_root d) v.
Proof. exact leak_or_value. Qed.
Print Assumptions C55_leak_or_value.

(** The parser fails within the root element: lost is what the open elements had stored. *)
Theorem C55_cut : forall o alg env, names_ok env -> compiles env -> forall dbg t start prolog c x e l,
  read_as o alg env dbg t (cut_events start prolog c) (FError x) = Err e -> (exists y, er_kind e = EXml y) ->
  leaked_by o alg env dbg t (cut_events start prolog c) (FError x) = l <-> cut_leaks o env t c l.
Proof. exact cut_what_leaks. Qed.
Print Assumptions C55_cut.

(** Any other error: what is lost does not depend on how the input goes on. *)
Theorem C55_decided : forall o alg env dbg t pre x e,
  read_as o alg env dbg t pre (FError x) = Err e -> ~ (exists y, er_kind e = EXml y) ->
  forall post fin, leaked_by o alg env dbg t (pre ++ post) fin = leaked_by o alg env dbg t pre (FError x).
Proof. exact decided_leak. Qed.
Print Assumptions C55_decided.

(** A document cut off anywhere: lost is what its first fault costs, if that came before; what the open elements had
    stored, if it is cut within the root element; nothing otherwise. *)
Theorem C55_cut_anywhere : forall o alg env dbg t d n x,
  names_ok env -> compiles env -> oracles_total o -> known_ty env t ->
  let pre := firstn n (doc_events d) in
  let l := leaked_by o alg env dbg t pre (FError x) in
  leaks o env t (d_root d) l \/
  (exists c, pre = cut_events (d_start d) (d_prolog d) c /\ cut_leaks o env t c l) \/
  l = [] /\ (n <= S (List.length (d_prolog d)) \/ exists v, reads o env t (d_root d) v).
Proof. exact cut_anywhere. Qed.
Print Assumptions C55_cut_anywhere.

(** ** Examples *)

(** The fault is in a friend's contact; lost are the attributes, names and tags of both. *)
Definition leak_nested_doc : doc := doc_of [id_true]
  [ pel 10 "tag" [] [tx "x"]; pel 12 "name" [] [tx "Al"]; pel 14 "tag" [] [tx "y"];
    pel 20 "friend" [id_true]
      [ pel 22 "name" [] [tx "Bo"]; pel 24 "email" [] [tx "a"]; pel 26 "phone" [] [tx "1"]; pel 28 "tag" [] [tx "z"] ];
    pel 30 "tag" [] [tx "w"] ].

Definition leak_nested : list value :=
  [ VText (TVBool true); s_ "Al"; VVec [s_ "x"; s_ "y"]; VText (TVBool true); s_ "Bo"; VEnum 0 (Some (s_ "a")) ].

(** A friend that ends without a contact: of it, what was stored and what the fields declared before hold without
    having been there (no nickname, no tags, no friends). *)
Definition leak_missing_doc : doc := doc_of [id_true]
  [pel 10 "tag" [] [tx "x"]; pel 20 "friend" [id_true] [pel 22 "name" [] [tx "Bo"]]].

Definition leak_missing : list value :=
  [ VText (TVBool true); VVec [s_ "x"]; VText (TVBool true); s_ "Bo"; VNone; VVec []; VVec [] ].

Example C55_example : names_ok env0 /\ compiles env0 /\ oracles_total oracles0 /\ known_ty env0 (ERef 0) /\
  (exists e, read_as oracles0 Bisect env0 true (ERef 0) (doc_events leak_nested_doc) end0 = Err e) /\
  leaks oracles0 env0 (ERef 0) (d_root leak_nested_doc) leak_nested /\
  leaks oracles0 env0 (ERef 0) (d_root leak_missing_doc) leak_missing.
Proof.
  split; [exact env0_ok|]. split; [exact env0_compiles|]. split; [exact oracles0_total|]. split; [discriminate|].
  assert (H1 : exists e, read_as oracles0 Bisect env0 true (ERef 0) (doc_events leak_nested_doc) end0 = Err e)
    by (eexists; vm_compute; reflexivity).
  assert (H2 : exists e, read_as oracles0 Bisect env0 true (ERef 0) (doc_events leak_missing_doc) end0 = Err e)
    by (eexists; vm_compute; reflexivity).
  split; [exact H1|]. destruct H1 as (e1 & H1). destruct H2 as (e2 & H2). split.
  - eapply C55_what_leaks; [exact env0_ok|exact env0_compiles|exact H1|]. vm_compute. reflexivity.
  - eapply C55_what_leaks; [exact env0_ok|exact env0_compiles|exact H2|]. vm_compute. reflexivity.
Qed.

(** The same friend, but the input ends after its email address. *)
Definition leak_cut : partial := OpenIn (nm "root") [id_true] [] (at_ 1)
  [ pel 10 "tag" [] [tx "x"]; pel 12 "name" [] [tx "Al"]; pel 14 "tag" [] [tx "y"] ]
  (OpenIn (uq "p" "friend") [id_true] [] (at_ 20) [pel 22 "name" [] [tx "Bo"]; pel 24 "email" [] [tx "a"]]
     (Open (uq "p" "tag") [] [] (at_ 30) [])).

Example C55_example_cut :
  (exists e y, read_as oracles0 Bisect env0 true (ERef 0) (cut_events (at_ 0) [] leak_cut) (FError eof) = Err e /\ er_kind e = EXml y) /\
  cut_leaks oracles0 env0 (ERef 0) leak_cut leak_nested.
Proof.
  assert (H : exists e y, read_as oracles0 Bisect env0 true (ERef 0) (cut_events (at_ 0) [] leak_cut) (FError eof) = Err e /\ er_kind e = EXml y)
    by (do 2 eexists; split; vm_compute; reflexivity).
  split; [exact H|]. destruct H as (e & y & H & K).
  eapply (C55_cut oracles0 Bisect env0 env0_ok env0_compiles true); [exact H|now exists y|]. vm_compute. reflexivity.
Qed.
