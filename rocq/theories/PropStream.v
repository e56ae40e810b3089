(** Property theorems for C83: visitors are called as the document comes in.

    [read_c] (Steps.v) reads and gives the list of calls of visitors, with all arguments.  [FError x] is where input stops coming
    for now (or for ever): the calls made by then are those made for what there is. *)
From Verif Require Import Base Text Find Types Reader ReaderSpec DeriveDe Steps StepsSpec StreamSpec StreamProofs PropReader PropDe.

(** ** C83: nothing is put off, nothing depends on what comes later *)

(** Any visitors, also such that recover from errors; any build; however the input goes on. *)
Theorem C83_calls : forall St T dbg (V : visitors St) (D : einfo -> action St (res verr T)) pre x post fin,
  starts (snd (read_c dbg V D (reader_new pre (FError x)))) (snd (read_c dbg V D (reader_new (pre ++ post) fin))).
Proof. exact (fun St T dbg V D pre x post fin => read_sim dbg V x post fin D pre). Qed.
Print Assumptions C83_calls.

(** Of the part of a document that has come, visitors have been told everything, in order and at which depth, if they read all they are
    given.  (The
    first element is the root, which no visitor is asked about.) *)
Theorem C83_at_once : forall St T dbg (V : visitors St) (D : einfo -> action St (res verr T)) d n x,
  eager V -> (forall i, eager_act (fun _ => True) (D i)) ->
  map what (snd (read_c dbg V D (reader_new (firstn n (doc_events d)) (FError x)))) = tl (items (firstn n (doc_events d))).
Proof. exact @at_once. Qed.
Print Assumptions C83_at_once.

(** ** Examples *)

(** Visitors that count what they are called with. *)
Definition counting : visitors nat := Visitors nat
  (fun s _ _ => (Ok None, S s)) (fun s _ _ => (Ok None, S s))
  (fun s _ => AReadTo (S s) (fun r s' => (match r with inl _ => Ok false | inr e => Err e end, s'))).

Definition counted (_ : einfo) : action nat (res verr nat) :=
  AReadTo 0 (fun r s => match r with inl _ => Ok s | inr e => Err e end).

Example C83_example_eager : eager counting /\ (forall i, eager_act (fun _ => True) (counted i)).
Proof.
  split; [split; [|split]|].
  - intros s n v. now exists None, (S s).
  - intros s str p. now exists None, (S s).
  - intros s i. eexists _, _. split; [reflexivity|]. intros i' s'. now exists false.
  - intro i. eexists _, _. split; [reflexivity|]. easy.
Qed.

Definition calls_after (n : nat) : list (call nat) :=
  snd (read_c true counting counted (reader_new (firstn n (doc_events (person_doc "p"))) (FError cut_err))).

(** One event after the other. *)
Example C83_example_counting :
  map (fun n => List.length (calls_after n)) (seq 0 16) = [0; 0; 0; 1; 2; 3; 3; 4; 5; 5; 6; 7; 8; 8; 10; 11] /\
  map what (calls_after 5) =
    [IAttribute (XName "" "id") "true"; IElement (OName (Some "p") (Some "urn:u") "tag") [] 2; IText "x" (1%N, 0%N)]%string.
Proof. vm_compute. auto. Qed.

(** A visitor that skips broken children, when input stops inside such a child: not called again, although it recovers. *)
Example C83_example_lenient :
  let cut n := read_c false lenient count_root (reader_new (firstn n (doc_events doc_bad)) (FError cut_err)) in
  map (fun n => List.length (snd (cut n))) (seq 0 10) = [0; 0; 0; 0; 1; 2; 2; 2; 3; 3] /\
  List.length (snd (read_c false lenient count_root (reader_new (doc_events doc_bad) end0))) = 3.
Proof. vm_compute. auto. Qed.
