(** Property theorem C56: the events written, exactly.

    [written_as dbg parent t evs]: the events for a tree of calls [t] inside an element whose start tag has the
    mappings [parent] (NsExactSpec.v). *)
From Verif Require Import Base Text Types Ser SerSpec NsSpec NsExactSpec DeriveSer DSerSpec NsWrites.
From Verif Require PropNs PropScope PropDeriveSer.

(** ** C56: the events written, exactly *)

Theorem C56_events : forall dbg o n v t evs, asked n v = Some t -> (forall i, o i = None) ->
  (exists k, to dbg o n v = inl (None, k) /\ k_out k = evs) <-> written_as dbg [] t evs.
Proof. exact to_written. Qed.
Print Assumptions C56_events.

(** It panics if there are none. *)
Theorem C56_panics : forall dbg o n v t, asked n v = Some t -> (forall i, o i = None) ->
  (exists msg, to dbg o n v = inr (Panic msg)) <-> ~ exists evs, written_as dbg [] t evs.
Proof. exact to_panics_iff. Qed.
Print Assumptions C56_panics.

Theorem C56_determined : forall dbg t evs evs', written_as dbg [] t evs -> written_as dbg [] t evs' -> evs = evs'.
Proof. exact (fun dbg t e e' => written_determined dbg t [] e e' (NoDup_nil _) (NoDup_nil _)). Qed.
Print Assumptions C56_determined.

(** Whenever serialization succeeds, also if the writer might have failed. *)
Theorem C56_success : forall dbg o n v k t, to dbg o n v = inl (None, k) -> asked n v = Some t ->
  written_as dbg [] t (k_out k).
Proof. exact to_written_any. Qed.
Print Assumptions C56_success.

(** Derived types: [content] is the tree of the value. *)
Theorem C56_derived : forall o env dbg w t v n rs ks evs, (forall i, w i = None) -> content o env t v rs ks ->
  (exists k, serialize_with_name o env dbg w t v n = inl (None, k) /\ k_out k = evs) <->
  distinct_attrs (RElem n rs ks) /\ written_as dbg [] (RElem n rs ks) evs.
Proof. exact derived_written. Qed.
Print Assumptions C56_derived.

(** Clashing prefixes; and a namespace of the grandparent that is lost (C52), so that there are no events. *)
Example C56_example : exists t,
  asked (XName "urn:d" "root") PropNs.y_four = Some t /\
  let root := [("p", "urn:b"); ("p2", "urn:a"); ("p3", "urn:c"); ("p4", "urn:d")]%string in
  written_as true [] t
    [ WStart (PName (Some "p4"%string) "root") [] root;
      WStart (PName None "kid") [] [("p", "urn:e"); ("p2", "urn:a"); ("p3", "urn:c"); ("p4", "urn:d")]%string;
      WEnd; WEnd ].
Proof.
  eexists. split; [vm_compute; reflexivity|].
  apply (C56_events true (fun _ => None) (XName "urn:d" "root") PropNs.y_four); [vm_compute; reflexivity|reflexivity|].
  eexists. split; vm_compute; reflexivity.
Qed.

Example C56_panics_example : exists n v t, asked n v = Some t /\
  (~ exists evs, written_as true [] t evs) /\ ~ ScopeSpec.undeclared_name ScopeSpec.nothing_declared t.
Proof.
  destruct PropScope.C52_grandparent_refuted as (n & v & t & A & U & P). exists n, v, t. split; [exact A|]. split; [|exact U].
  apply (C56_panics true (fun _ => None) n v t A (fun _ => eq_refl)). eexists. apply P.
Qed.
