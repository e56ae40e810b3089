(** Specification for C80: the fields of a type, and which of them are flattened. *)
From Verif Require Import Base Alias.

(** The fields that are memory locations: those that are not flattened structs. *)
Fixpoint is_leaf (f : shape) (l : place) : Prop :=
  match l with
  | [] => match f with Struct _ => False | _ => True end
  | p :: l' => match f with
               | Struct fs => match nth_error fs p with Some g => is_leaf g l' | None => False end
               | _ => False
               end
  end.

Definition flattened (fs : list shape) (p : nat) : Prop := exists f, nth_error fs p = Some f /\ f <> Own.
(** The flattened field declared last. *)
Definition last_flattened (fs : list shape) (p : nat) : Prop := flattened fs p /\ forall q, flattened fs q -> q <= p.

(** A field of a struct without flattened fields, or the flattened field declared last, all the way down. *)
Fixpoint reachable (f : shape) (l : place) : Prop :=
  match l with
  | [] => True
  | p :: l' => match f with
               | Struct fs => (forall q, ~ flattened fs q) \/
                              last_flattened fs p /\ (forall g, nth_error fs p = Some g -> reachable g l')
               | _ => True
               end
  end.

(** Events that do something with a field. *)
Definition event_of (f : shape) (e : event) : Prop := let (l, u) := e in is_leaf f l /\ u <> UDone.

(** The references in a visitor: those for its flattened fields that are not derived structs. *)
Fixpoint is_ref (f : shape) (l : place) : Prop :=
  match l with
  | [] => match f with Leaf _ _ => True | _ => False end
  | p :: l' => match f with
               | Struct fs => match nth_error fs p with Some g => is_ref g l' | None => False end
               | _ => False
               end
  end.
(** Something is done with every reference, as it is when the visitor is moved and references inside it are reborrowed. *)
Definition all_used (f : shape) (evs : list event) : Prop := forall l, is_ref f l -> exists u, In (Event l u) evs.

(** Nothing is written. *)
Fixpoint read_only (u : usage) : Prop :=
  match u with
  | UDone => True
  | UAccess w k => w = false /\ read_only k
  | UReborrow _ _ body k => read_only body /\ read_only k
  end.
(** No [new] of a visitor writes. *)
Inductive quiet : shape -> Prop :=
| quiet_own : quiet Own
| quiet_leaf u m : read_only u -> quiet (Leaf u m)
| quiet_struct fs : Forall quiet fs -> quiet (Struct fs).

(** No undefined behaviour, at none of the fields. *)
Definition sb_fine (f : shape) (ops : list mop) : Prop := forall l, is_leaf f l -> run_ops (sb_step l) ops sb_start <> None.
Definition tb_fine (f : shape) (ops : list mop) : Prop := forall l, is_leaf f l -> run_ops (tb_step l) ops tb_start <> None.
