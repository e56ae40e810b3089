(** Forgotten builders and writers, and caught panics (C64). *)
From Verif Require Import Base Text Ser SerSpec Forget ForgetSpec ForgetProofs.

(** If [to] succeeds there are as many elements left open as writers have been forgotten. *)
Theorem C64_open_at_end : forall dbg o n v k f, to_u dbg o n v = inl (None, k, f) ->
  count_starts (k_out k) = count_ends (k_out k) + f.
Proof. exact open_at_end. Qed.

(** So a document with a forgotten writer is never well-formed. *)
Theorem C64_forgotten_not_well_formed : forall dbg o n v k f t, to_u dbg o n v = inl (None, k, S f) ->
  map ev_sev (k_out k) <> tree_sevs t.
Proof. exact forgotten_not_a_tree. Qed.

(** Without forgotten writers: what happens is what happens without the forgotten builders, the elements
    whose [start] panics, and the calls of [namespace] that panic. *)
Theorem C64_without : forall dbg o n v, keeps_writers (u_kids v) ->
  to_u dbg o n v = with_count 0 (to dbg o n (plain_ser dbg n v)).
Proof. exact to_plain. Qed.

(** In particular success means a well-formed document, that of the remaining program. *)
Theorem C64_success : forall dbg o n v k f, keeps_writers (u_kids v) -> to_u dbg o n v = inl (None, k, f) ->
  f = 0 /\ exists t, asked n (plain_ser dbg n v) = Some t /\ map ev_sev (k_out k) = tree_sevs (tree_of t).
Proof. exact kept_writes. Qed.

(** ** Examples *)

Definition u_name (ns l : string) : xname := XName ns l.

(** A child whose writer is forgotten. *)
Definition u_open : userialize := USer (UARet None)
  (UElem (u_name "" "kid") (UBStart (UText "x" (fun _ => UForget (URet None))) (fun _ => URet None) (UPanic "")))%string.

Example C64_open_example : exists k, to_u true (fun _ => None) (u_name "" "root") u_open = inl (None, k, 1) /\
  k_out k = [WStart (PName None "root") [] []; WStart (PName None "kid") [] []; WChars "x"; WEnd].
Proof. vm_compute. eauto. Qed.

(** Success would mean a well-formed document. *)
Theorem C64_well_formed_refuted : exists dbg o n v k f, to_u dbg o n v = inl (None, k, f) /\
  forall t, map ev_sev (k_out k) <> tree_sevs t.
Proof.
  destruct C64_open_example as (k & H & _). exists true, (fun _ => None), (u_name "" "root"), u_open, k, 1. split; [exact H|].
  intro t. exact (C64_forgotten_not_well_formed _ _ _ _ _ _ t H).
Qed.

(** A forgotten builder, a [start] that panics because its namespace is not declared, a prefix that may not
    be declared, and an element that is written. *)
Definition u_caught : userialize := USer (UANs "xmlx" "u" (UARet None) (UAAttr (u_name "" "a") "1" (fun _ => UARet None)))
  (UElem (u_name "" "gone") (UBAttr (u_name "" "b") "2" (fun _ => UBForget
    (UElem (u_name "http://example.com/" "lost") (UBStart (UPanic "") (fun _ => URet None)
      (UElem (u_name "" "kid") (UBStart (UFinish (fun _ => URet None)) (fun _ => URet None) (UPanic ""))))))))%string.

Example C64_caught_example : keeps_writers (u_kids u_caught) /\
  exists k, to_u true (fun _ => None) (u_name "" "root") u_caught = inl (None, k, 0) /\
  k_out k = [WStart (PName None "root") [(PName None "a", "1"%string)] []; WStart (PName None "kid") [] []; WEnd; WEnd].
Proof. split; [cbn; intuition|vm_compute; eauto]. Qed.

(** A builder that is not started would poison the output. *)
Theorem C64_unstarted_refuted : exists dbg o n v k f, to_u dbg o n v = inl (None, k, f) /\
  forall e, ~ In (NDropped e) (k_log k) /\ k_poison k = None /\
  ~ exists p attrs ns, In (WStart p attrs ns) (k_out k) /\ pn_local p = "lost"%string.
Proof.
  exists true, (fun _ => None), (u_name "" "root"), u_caught. vm_compute. do 2 eexists. split; [reflexivity|].
  intro e. split; [intuition discriminate|]. split; [reflexivity|]. intros (p & attrs & ns & H & E).
  repeat destruct H as [H|H]; try discriminate H; try (injection H as <- _ _; discriminate E); contradiction.
Qed.

Print Assumptions C64_open_at_end.
Print Assumptions C64_forgotten_not_well_formed.
Print Assumptions C64_without.
Print Assumptions C64_success.
Print Assumptions C64_well_formed_refuted.
Print Assumptions C64_unstarted_refuted.
