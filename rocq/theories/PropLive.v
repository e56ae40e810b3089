(** Property theorems for C84: what has been written when.

    [to_l] (Live.v) is [to] (Ser.v), but also gives the calls of the API that have returned, with their results, and what is in the
    output when the program panics. *)
From Verif Require Import Base Types Ser SerSpec Live LiveSpec LiveProofs.

(** ** C84: what is asked for is written at once *)

(** Results are those of [to]. *)
Theorem C84_same : forall dbg o n v,
  (forall r k, to dbg o n v = inl (r, k) <-> exists l, to_l dbg o n v = (inl r, k, l)) /\
  (forall x, to dbg o n v = inr x <-> exists k l, to_l dbg o n v = (inr x, k, l)).
Proof. exact to_same_iff. Qed.
Print Assumptions C84_same.

(** Any implementation, any failures of the output, also after a panic: what is in the output is what calls that returned [Ok] asked for. *)
Theorem C84_returned : forall dbg o n v,
  map ev_sev (k_out (snd (fst (to_l dbg o n v)))) = effects n [] (snd (to_l dbg o n v)).
Proof. exact to_shown. Qed.
Print Assumptions C84_returned.

(** If write_children panics after [i] calls, then these calls have been made and no others, and their events, down to prefixes, are
    those the undisturbed run begins with.  ([S]: the start tag of the root.) *)
Theorem C84_stopped : forall dbg o n v i,
  snd (to_l dbg o n (cut_kids v i)) = firstn (List.length (builder_calls dbg n v) + S i) (snd (to_l dbg o n v)) /\
  begins (k_out (snd (fst (to_l dbg o n (cut_kids v i))))) (k_out (snd (fst (to_l dbg o n v)))).
Proof. exact to_kids_stopped. Qed.
Print Assumptions C84_stopped.

(** The same for write_attributes: nothing has been written. *)
Theorem C84_stopped_attributes : forall dbg o n v i,
  (i <= List.length (builder_calls dbg n v) ->
     snd (to_l dbg o n (cut_attrs v i)) = firstn i (snd (to_l dbg o n v)) /\ k_out (snd (fst (to_l dbg o n (cut_attrs v i)))) = []) /\
  (List.length (builder_calls dbg n v) < i -> to_l dbg o n (cut_attrs v i) = to_l dbg o n v).
Proof. exact to_attrs_stopped. Qed.
Print Assumptions C84_stopped_attributes.

(** An implementation that asks for a tree: what is in the output is the beginning of the tree, whatever happens; and if the API panics
    although the output works, it is all of the tree up to some start tag. *)
Theorem C84_beginning : forall dbg o n v t, asked n v = Some t ->
  exists rest, tree_sevs (tree_of t) = map ev_sev (k_out (snd (fst (to_l dbg o n v)))) ++ rest /\
    ((forall i, o i = None) -> forall x, fst (fst (to_l dbg o n v)) = inr x -> exists m attrs rest', rest = SStart m attrs :: rest').
Proof. exact to_written. Qed.
Print Assumptions C84_beginning.

(** ** Examples *)

Definition lx (ns l : string) : xname := XName ns l.

(** An element with text, then one whose namespace is not declared. *)
Definition undeclared_kid : serialize := Ser (AAttr (lx "" "a") "1" (fun _ => ARet None))
  (WElem (lx "" "kid") (BNs "p" "urn:u" (BStart
    (WText "x" (fun _ => WFinish (fun _ =>
      WElem (lx "urn:u" "lost") (BAttr (lx "" "b") "2" (fun _ => BStart (WFinish (fun _ => WRet None)) (fun _ => WRet None))))))
    (fun _ => WRet None))))%string.

Definition works : io := fun _ => None.

Example C84_example_panic : exists k l,
  to_l true works (lx "" "root") undeclared_kid = (inr undeclared, k, l) /\
  k_out k = [WStart (PName None "root") [(PName None "a", "1")] []; WStart (PName None "kid") [] [("p", "urn:u")]; WChars "x"; WEnd]%string /\
  l = [LAttr (lx "" "a") "1" None; LStart None; LElement (lx "" "kid"); LNs "p" "urn:u"; LStart None; LText "x" None; LFinish None;
       LElement (lx "urn:u" "lost"); LAttr (lx "" "b") "2" None]%string.
Proof. vm_compute. do 2 eexists. repeat split. Qed.

Example C84_example_asked : exists t, asked (lx "" "root") undeclared_kid = Some t /\
  tree_sevs (tree_of t) = [SStart "root" [("a", "1")]; SStart "kid" []; SChars "x"; SEnd; SStart "lost" [("b", "2")]; SEnd; SEnd]%string.
Proof. vm_compute. eexists. repeat split. Qed.

(** One call after the other; output that fails at the third write. *)
Example C84_example_stopped :
  map (fun i => List.length (k_out (snd (fst (to_l true works (lx "" "root") (cut_kids undeclared_kid i)))))) (seq 0 9) = [1; 1; 1; 2; 3; 4; 4; 4; 4] /\
  map (fun i => List.length (k_out (snd (fst (to_l true (fun i => if Nat.eqb i 2 then Some "full"%string else None) (lx "" "root")
    (cut_kids undeclared_kid i)))))) (seq 0 9) = [1; 1; 1; 2; 2; 2; 2; 2; 2].
Proof. vm_compute. auto. Qed.
