(** What a [Serialize] implementation may do when a write fails, and what is then left of the
    document. *)
From Verif Require Import Base Normalize Text Find Types Ser.

(** The code returns [x] without calling the writer again; the writers it owns are dropped. *)
Fixpoint gives_up {d} (x : serr) (p : wprog d) : Prop :=
  match p with
  | WRet r => r = Some x
  | WDrop p' => gives_up x p'
  | _ => False
  end.

(** Every call that writes is followed by [?]: the error of a failed write is returned at once.
    Nothing is asked of what the code does with a duplicate attribute, or once it has dropped a
    builder or writer. *)
Fixpoint prompt_w {d} (p : wprog d) : Prop :=
  match p with
  | WRet _ => True
  | WText _ f => prompt_w (f None) /\ forall x, gives_up x (f (Some x))
  | WElem _ b => prompt_b b
  | WFinish f => prompt_w (f None) /\ forall x, gives_up x (f (Some x))
  | WDrop _ => True
  | WPanic _ => True
  end
with prompt_b {d} (q : bprog d) : Prop :=
  match q with
  | BNs _ _ q' => prompt_b q'
  | BAttr _ _ f => forall r, prompt_b (f r)
  | BDrop _ => True
  | BStart p pe => prompt_w p /\ forall x, gives_up x (pe x)
  | BPanic _ => True
  end.

Definition prompt (v : serialize) : Prop := prompt_w (s_kids v).

(** The number of elements open after [es], if [h] were open before. *)
Fixpoint open_after (h : nat) (es : list wevent) : nat :=
  match es with
  | [] => h
  | WStart _ _ _ :: es' => open_after (S h) es'
  | WChars _ :: es' => open_after h es'
  | WEnd :: es' => open_after (pred h) es'
  end.

(** The number of writers dropped because the [n]th write of [es] failed: those of the open elements,
    but for the one whose end could not be written, which is used up. *)
Definition writers_left (es : list wevent) (n : nat) : nat :=
  let h := open_after 0 (firstn n es) in
  match nth_error es n with Some WEnd => pred h | _ => h end.

(** The output of a program that would have written [es], had the [n]th write not failed with [m]: the
    first [n] events, one failed attempt, and no attempt after it, not even one that is refused. *)
Definition failed_at (n : nat) (m : string) (es : list wevent) : sink :=
  Sink (firstn n es) (S n) (Some (SMsg m))
    (map NWrote (firstn n es) ++ NFailed (SMsg m) :: repeat (NDropped writer_dropped) (writers_left es n)).

(** An output that fails for the first time at the [n]th write, with message [m]. *)
Definition fails_first (w : io) (n : nat) (m : string) : Prop :=
  (forall i, i < n -> w i = None) /\ w n = Some m.

Definition never : io := fun _ => None.
