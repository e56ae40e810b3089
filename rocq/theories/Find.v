(** [find]: static-xml/src/de/mod.rs 948-956, i.e. [sorted_slice.binary_search(name).ok()].

    The result of std's [binary_search] on an unsorted slice or one with repeated elements is
    unspecified, so both algorithms std has used are modelled.  [cmp] compares an element of the
    slice with the target. *)
From Verif Require Import Base.

Inductive bs_alg := Bisect | Branchless.

(** Rust 1.52 - 1.81:
<<
while left < right {
    let mid = left + size / 2;
    match cmp(self[mid]) { Less => left = mid + 1, Greater => right = mid, Equal => return Ok(mid) }
    size = right - left;
}
>> *)
Fixpoint bisect {A} (cmp : A -> comparison) (l : list A) (fuel left right : nat) : option nat :=
  match fuel with
  | O => None
  | S fuel' =>
      if Nat.ltb left right then
        let mid := left + Nat.div2 (right - left) in
        match nth_error l mid with
        | None => None
        | Some x =>
            match cmp x with
            | Lt => bisect cmp l fuel' (S mid) right
            | Gt => bisect cmp l fuel' left mid
            | Eq => Some mid
            end
        end
      else None
  end.

(** Rust up to 1.51 and from 1.82:
<<
if size == 0 { return Err(0) }
while size > 1 {
    let half = size / 2; let mid = base + half;
    base = if cmp(self[mid]) == Greater { base } else { mid };
    size -= half;
}
if cmp(self[base]) == Equal { Ok(base) } else { Err(_) }
>> *)
Fixpoint branchless {A} (cmp : A -> comparison) (l : list A) (fuel base size : nat) : option nat :=
  match fuel with
  | O => None
  | S fuel' =>
      if Nat.ltb 1 size then
        let half := Nat.div2 size in
        let mid := base + half in
        match nth_error l mid with
        | None => None
        | Some x =>
            branchless cmp l fuel' (match cmp x with Gt => base | _ => mid end) (size - half)
        end
      else
        match nth_error l base with
        | Some x => match cmp x with Eq => Some base | _ => None end
        | None => None
        end
  end.

Definition binary_search {A} (alg : bs_alg) (cmp : A -> comparison) (l : list A) : option nat :=
  let n := List.length l in
  match alg with
  | Bisect => bisect cmp l (S n) 0 n
  | Branchless => if Nat.eqb n 0 then None else branchless cmp l (S n) 0 n
  end.

(** [pub fn find(name, sorted_slice) -> Option<usize>] *)
Definition find (alg : bs_alg) (name : xname) (table : list xname) : option nat :=
  binary_search alg (fun x => xn_compare x name) table.

(** [slice::sort_by], a stable sort. *)
Fixpoint insert_sorted {A} (le : A -> A -> bool) (x : A) (l : list A) : list A :=
  match l with
  | [] => [x]
  | y :: l' => if le x y then x :: l else y :: insert_sorted le x l'
  end.

Definition sort_by {A} (le : A -> A -> bool) (l : list A) : list A :=
  fold_right (insert_sorted le) [] l.
