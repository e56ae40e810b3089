(** Basic vocabulary of the model: results, byte strings, expanded names, ordered maps.

    A Rust [String]/[&str] is modelled by Coq's [string], i.e. a sequence of bytes (its UTF-8
    encoding).  Rust compares strings bytewise, which is [String.compare]. *)
From Coq Require Export String Ascii NArith ZArith Bool List.
Export ListNotations.
Open Scope string_scope.
Open Scope list_scope.
Open Scope nat_scope.

(** Outcomes the Rust program does not represent as a value.  A panic, undefined behaviour (here:
    using uninitialized memory) and an infinite loop are kept apart from [Ok] and [Err]. *)
Inductive abort :=
| Panic (msg : string)
| UB
| Diverge.

(** Rust's [Result<A, E>], plus the outcomes above. *)
Inductive res (E A : Type) :=
| Ok (a : A)
| Err (e : E)
| Abort (x : abort).
Arguments Ok {E A} a.
Arguments Err {E A} e.
Arguments Abort {E A} x.

(** Rust's [?] operator, for equal error types. *)
Definition bind {E A B} (r : res E A) (f : A -> res E B) : res E B :=
  match r with Ok a => f a | Err e => Err e | Abort x => Abort x end.

(** [Result::map_err]. *)
Definition map_err {E F A} (f : E -> F) (r : res E A) : res F A :=
  match r with Ok a => Ok a | Err e => Err (f e) | Abort x => Abort x end.

(** [Result::map]. *)
Definition map_ok {E A B} (f : A -> B) (r : res E A) : res E B :=
  match r with Ok a => Ok (f a) | Err e => Err e | Abort x => Abort x end.

(** [ExpandedNameRef] / [ExpandedName]: static-xml/src/lib.rs 466-476 and 503-513. *)
Record xname := XName { xn_ns : string; xn_local : string }.

(** The derived [Ord] of [ExpandedNameRef] (lib.rs 472): field by field, [namespace] first. *)
Definition xn_compare (a b : xname) : comparison :=
  match String.compare (xn_ns a) (xn_ns b) with
  | Eq => String.compare (xn_local a) (xn_local b)
  | c => c
  end.

(** The derived [PartialEq] of [ExpandedNameRef] (lib.rs 472). *)
Definition xn_eqb (a b : xname) : bool :=
  String.eqb (xn_ns a) (xn_ns b) && String.eqb (xn_local a) (xn_local b).

(** lib.rs 462. *)
Definition XML_NS : string := "http://www.w3.org/XML/1998/namespace".

(** lib.rs 493-501: [impl Display for ExpandedNameRef]. *)
Definition xn_display (n : xname) : string :=
  if String.eqb (xn_ns n) "" then xn_local n
  else ("{" ++ xn_ns n ++ "}" ++ xn_local n)%string.

(** [std::collections::BTreeMap<String, V>]: a list of bindings kept in increasing key order. *)
Definition bmap (V : Type) := list (string * V).

Fixpoint bm_get {V} (k : string) (m : bmap V) : option V :=
  match m with
  | [] => None
  | (k', v) :: m' => if String.eqb k k' then Some v else bm_get k m'
  end.

Fixpoint bm_insert {V} (k : string) (v : V) (m : bmap V) : bmap V :=
  match m with
  | [] => [(k, v)]
  | (k', v') :: m' =>
      match String.compare k k' with
      | Lt => (k, v) :: m
      | Eq => (k, v) :: m'
      | Gt => (k', v') :: bm_insert k v m'
      end
  end.

Definition bm_mem {V} (k : string) (m : bmap V) : bool :=
  match bm_get k m with Some _ => true | None => false end.

(** [str::starts_with]. *)
Fixpoint starts_with (p s : string) : bool :=
  match p, s with
  | EmptyString, _ => true
  | String a p', String b s' => Ascii.eqb a b && starts_with p' s'
  | String _ _, EmptyString => false
  end.

(** Bytes of a string. *)
Notation bytes_of := list_ascii_of_string.
Notation str_of := string_of_list_ascii.

(** Replace the element at position [i]. *)
Fixpoint set_nth {A} (i : nat) (x : A) (l : list A) : list A :=
  match i, l with
  | _, [] => []
  | O, _ :: l' => x :: l'
  | S i', y :: l' => y :: set_nth i' x l'
  end.

(** Positions of the elements satisfying [f], in order. *)
Fixpoint find_index {A} (f : A -> bool) (l : list A) : option nat :=
  match l with
  | [] => None
  | x :: l' => if f x then Some 0 else option_map S (find_index f l')
  end.

Definition opt_str_eqb (a b : option string) : bool :=
  match a, b with
  | Some x, Some y => String.eqb x y
  | None, None => true
  | _, _ => false
  end.
