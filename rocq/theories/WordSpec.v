(** What bounds the counters: how deeply elements are nested. *)
From Verif Require Import Base Reader.

(** The greatest number of elements open at once, when [d] are open already. *)
Fixpoint nesting (d : nat) (src : list (xevent * position)) : nat :=
  match src with
  | [] => d
  | (XStartElement _ _ _, _) :: src' => nesting (S d) src'
  | (XEndElement _, _) :: src' => Nat.max d (nesting (pred d) src')
  | _ :: src' => nesting d src'
  end.

(** The deserializer that looks at nothing: all that is done is the reader's own counting. *)
Definition skipper {St} (_ : einfo) : action St (res verr unit) := ANoRead (Ok tt).
