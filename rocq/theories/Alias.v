(** The pointers of generated visitors, under the two aliasing models of Rust.

    A derived [Deserialize] makes a local variable [out] and hands out pointers into it: a raw pointer to all of it for
    the struct's visitor, and references to the flattened fields for theirs (deserialize.rs 56-88, 264-318; de/mod.rs
    743-755).  Which uses of such pointers are undefined behaviour is said by an aliasing model: Stacked Borrows (Jung
    et al., POPL 2020; what Miri checks by default) or Tree Borrows (Villani et al., PLDI 2025).

    Simplified: every field other than a flattened derived struct is one memory location (no padding, no empty fields, so
    that undefined behaviour at a field is undefined behaviour).  A reference inside a visitor is reborrowed when the visitor
    is moved (or not: -Zmiri-retag-fields=none); but those inside the visitor of a flattened derived struct not yet when
    that visitor is returned to the [new] of the outer one.  Shared references do not occur. *)
From Verif Require Import Base.

(** ** Operations on pointers *)

(** A pointer is named by the reborrows it comes from, the last one first: the number of the reborrow among those of the
    same pointer, and whether it made a raw pointer.  [[]]: the variable itself. *)
Definition ptag := list (nat * bool).

Definition step_eqb (x y : nat * bool) : bool := Nat.eqb (fst x) (fst y) && Bool.eqb (snd x) (snd y).
Fixpoint ptag_eqb (s t : ptag) : bool :=
  match s, t with
  | [], [] => true
  | x :: s', y :: t' => step_eqb x y && ptag_eqb s' t'
  | _, _ => false
  end.

(** A part of the variable: the positions of the fields that lead to it.  [[]]: all of it. *)
Definition place := list nat.
Fixpoint touches (a l : place) : bool :=
  match a, l with
  | [], _ => true
  | p :: a', q :: l' => Nat.eqb p q && touches a' l'
  | _ :: _, [] => false
  end.

Inductive mop :=
| Retag (t : ptag) (n : nat) (raw : bool) (a : place)   (* [&mut *t], or [t as *mut _]: makes [(n, raw) :: t] *)
| Access (t : ptag) (w : bool) (a : place)               (* a write or a read through [t] *)
| Enter (t : ptag) (a : place)                           (* a call gets [t] as an argument *)
| Exit (t : ptag) (a : place).                           (* and returns *)

(** Undefined behaviour is [None]. *)
Fixpoint run_ops {S} (step : mop -> S -> option S) (ops : list mop) (s : S) : option S :=
  match ops with
  | [] => Some s
  | op :: ops' => match step op s with Some s' => run_ops step ops' s' | None => None end
  end.

Definition among (ts : list ptag) (t : ptag) : bool := existsb (ptag_eqb t) ts.

(** ** Stacked Borrows, at one location *)

Inductive sperm := Unique | SharedRW | SDisabled.
Definition sitem := (ptag * sperm)%type.
Definition is_shared (i : sitem) : bool := match snd i with SharedRW => true | _ => false end.
Definition is_disabled (i : sitem) : bool := match snd i with SDisabled => true | _ => false end.
Definition is_unique (i : sitem) : bool := match snd i with Unique => true | _ => false end.

(** The stack (the top first) and the protected tags. *)
Definition sstate := (list sitem * list ptag)%type.

(** The topmost item that grants access to [t], with what is above and below it. *)
Fixpoint granting (t : ptag) (st : list sitem) : option (list sitem * sitem * list sitem) :=
  match st with
  | [] => None
  | i :: st' =>
      if ptag_eqb t (fst i) && negb (is_disabled i) then Some ([], i, st')
      else option_map (fun '(a, j, b) => (i :: a, j, b)) (granting t st')
  end.

(** The shared items next to the granting one. *)
Fixpoint shared_end (l : list sitem) : list sitem :=
  match l with
  | [] => []
  | i :: l' => if forallb is_shared l then l else shared_end l'
  end.

(** A raw pointer is added above the granting item, and the shared items next to it if it is shared; nothing is removed. *)
Definition sb_raw (t c : ptag) (st : list sitem) : option (list sitem) :=
  match granting t st with
  | None => None
  | Some (above, i, below) =>
      let kept := if is_shared i then shared_end above else [] in
      Some (firstn (List.length above - List.length kept) above ++ (c, SharedRW) :: kept ++ i :: below)
  end.

(** A write removes what is above the granting item, except for shared items next to a shared one. *)
Definition sb_write (prot : list ptag) (t : ptag) (st : list sitem) : option (list sitem * sitem * list sitem) :=
  match granting t st with
  | None => None
  | Some (above, i, below) =>
      let kept := if is_shared i then shared_end above else [] in
      let gone := firstn (List.length above - List.length kept) above in
      if existsb (fun j => among prot (fst j)) gone then None else Some (kept, i, below)
  end.

(** A read disables the unique items above the granting one. *)
Definition sb_read (prot : list ptag) (t : ptag) (st : list sitem) : option (list sitem) :=
  match granting t st with
  | None => None
  | Some (above, i, below) =>
      if existsb (fun j => is_unique j && among prot (fst j)) above then None
      else Some (map (fun j => if is_unique j then (fst j, SDisabled) else j) above ++ i :: below)
  end.

Definition sb_step (l : place) (op : mop) (s : sstate) : option sstate :=
  let (st, prot) := s in
  match op with
  | Retag t n raw a =>
      if touches a l then
        if raw then option_map (fun st' => (st', prot)) (sb_raw t ((n, raw) :: t) st)
        else option_map (fun '(kept, i, below) => (((n, raw) :: t, Unique) :: kept ++ i :: below, prot)) (sb_write prot t st)
      else Some s
  | Access t w a =>
      if touches a l then
        if w then option_map (fun '(kept, i, below) => (kept ++ i :: below, prot)) (sb_write prot t st)
        else option_map (fun st' => (st', prot)) (sb_read prot t st)
      else Some s
  | Enter t a => Some (st, if touches a l then t :: prot else prot)
  | Exit t a => Some (st, if touches a l then filter (fun u => negb (ptag_eqb t u)) prot else prot)
  end.

Definition sb_start : sstate := ([([], Unique)], []).

(** ** Tree Borrows, at one location *)

(** [Reserved true]: a conflicting read has been seen while protected. *)
Inductive tperm := Reserved (conflicted : bool) | TActive | TFrozen | TDisabled.

(** Raw pointers have the tag of the reference they come from. *)
Definition tree_tag (t : ptag) : ptag := filter (fun x => negb (snd x)) t.

(** [t] and what it comes from. *)
Fixpoint up (t : ptag) : list ptag := match t with [] => [[]] | _ :: t' => t :: up t' end.
Definition from (t s : ptag) : bool := among (up t) s.

(** An access through the tag itself or one that comes from it. *)
Definition tb_local (w prot : bool) (p : tperm) : option tperm :=
  match p, w with
  | TDisabled, _ => None
  | _, false => Some p
  | TFrozen, true => None
  | TActive, true => Some TActive
  | Reserved c, true => if c && prot then None else Some TActive
  end.

(** Any other access. *)
Definition tb_foreign (w prot : bool) (p : tperm) : option tperm :=
  match p, w with
  | TDisabled, _ => Some TDisabled
  | _, true => if prot then None else Some TDisabled
  | Reserved c, false => Some (Reserved (c || prot))
  | TActive, false => if prot then None else Some TFrozen
  | TFrozen, false => Some TFrozen
  end.

(** The permissions and the protected tags. *)
Definition tstate := ((ptag -> tperm) * list ptag)%type.

(** [inside]: whether tags that come from [t] see the access. *)
Definition tb_effect (w inside : bool) (t : ptag) (s : tstate) (u : ptag) : option tperm :=
  let (pm, prot) := s in
  if from t u then tb_local w (among prot u) (pm u)
  else if negb inside && from u t then Some (pm u)
  else tb_foreign w (among prot u) (pm u).

Definition is_some {A} (x : option A) : bool := match x with Some _ => true | None => false end.

(** Only tags that [t] comes from and protected tags can object. *)
Definition tb_access (w inside : bool) (t : ptag) (s : tstate) : option tstate :=
  if forallb (fun u => is_some (tb_effect w inside t s u)) (up t ++ snd s)
  then Some (fun u => match tb_effect w inside t s u with Some p => p | None => fst s u end, snd s)
  else None.

Definition tb_step (l : place) (op : mop) (s : tstate) : option tstate :=
  let (pm, prot) := s in
  match op with
  | Retag t n raw a =>
      if touches a l && negb raw then
        let c := (n, false) :: tree_tag t in
        tb_access false true c (fun u => if ptag_eqb c u then Reserved false else pm u, prot)
      else Some s
  | Access t w a => if touches a l then tb_access w true (tree_tag t) s else Some s
  | Enter t a => Some (pm, if touches a l then tree_tag t :: prot else prot)
  | Exit t a =>
      (* returning is an access to what the argument was used for *)
      if touches a l then
        let c := tree_tag t in
        tb_access (match pm c with TActive => true | _ => false end) false c
          (pm, filter (fun u => negb (ptag_eqb c u)) prot)
      else Some s
  end.

Definition tb_start : tstate := (fun u => match u with [] => TActive | _ => TDisabled end, []).

(** ** What generated code does *)

(** What is done with a pointer: accesses, and reborrows of it, some of them as arguments of calls. *)
Inductive usage :=
| UDone
| UAccess (w : bool) (k : usage)
| UReborrow (raw arg : bool) (body k : usage).

Fixpoint usage_ops (a : place) (t : ptag) (n : nat) (u : usage) : list mop :=
  match u with
  | UDone => []
  | UAccess w k => Access t w a :: usage_ops a t n k
  | UReborrow raw arg body k =>
      let c := (n, raw) :: t in
      Retag t n raw a :: (if arg && negb raw then [Enter c a] else []) ++ usage_ops a c 0 body ++
      (if arg && negb raw then [Exit c a] else []) ++ usage_ops a t (S n) k
  end.

Fixpoint width (u : usage) : nat :=
  match u with UDone => 0 | UAccess _ k => width k | UReborrow _ _ _ k => S (width k) end.

(** What a type consists of, and the [new] of its visitor. *)
Inductive shape :=
| Own                        (* a field that is not flattened *)
| Leaf (u : usage) (m : list bool)
                             (* [new] does [u] with the reference; what the visitor keeps comes from it by [m].  Derived enums
                                do nothing with it (deserialize.rs 441-446); hand-written visitors can do anything *)
| Struct (fs : list shape).  (* a derived struct; its flattened fields are those that are not [Own] *)
Definition is_own (f : shape) : bool := match f with Own => true | _ => false end.

(** [out.as_mut_ptr()] for [out] of tag [t], the [i]th time: [&mut *out] is passed to [as_mut_ptr], which casts it. *)
Definition recv (t : ptag) (i : nat) : ptag := (0, false) :: (i, false) :: t.
Definition ptr (t : ptag) (i : nat) : ptag := (0, true) :: recv t i.
Definition as_mut_ptr (t : ptag) (i : nat) (a : place) : list mop :=
  [Retag t i false a; Retag ((i, false) :: t) 0 false a; Enter (recv t i) a; Retag (recv t i) 0 true a; Exit (recv t i) a].

(** deserialize.rs 68-75: [&mut *addr_of_mut!(( *t ).field)] is passed to the [new] of the flattened field's visitor. *)
Definition given (t : ptag) (n : nat) : ptag := (0, false) :: (n, false) :: t.
Definition flat_new (t : ptag) (n : nat) (a : place) (new : ptag -> list mop) : list mop :=
  [Retag t n false a; Retag ((n, false) :: t) 0 false a; Enter (given t n) a] ++ new (given t n) ++ [Exit (given t n) a].

(** A reference that is moved, alone or inside a visitor, is reborrowed (unless -Zmiri-retag-fields=none).  A visitor can also
    keep a raw pointer that it makes of the reference ([true]). *)
Fixpoint moved (t : ptag) (n : nat) (m : list bool) : ptag :=
  match m with [] => t | raw :: m' => moved ((n, raw) :: t) n m' end.
Fixpoint move_ops (a : place) (t : ptag) (n : nat) (m : list bool) : list mop :=
  match m with [] => [] | raw :: m' => Retag t n raw a :: move_ops a ((n, raw) :: t) n m' end.

(** deserialize.rs 312-318, 56-88, 441-446: the [new] of visitors.  That of a struct makes a pointer for [self.out], and
    then one for every flattened field, in declaration order. *)
Fixpoint visitor_new (f : shape) (a : place) (t : ptag) : list mop :=
  match f with
  | Own => []
  | Leaf u m => usage_ops a t 0 u ++ move_ops a t (width u) m
  | Struct fs =>
      as_mut_ptr t 0 a ++
      (fix flats (p : nat) (fs : list shape) : list mop :=
         match fs with
         | [] => []
         | g :: fs' =>
             (if is_own g then []
              else as_mut_ptr t (S p) a ++ flat_new (ptr t (S p)) 0 (a ++ [p]) (visitor_new g (a ++ [p]))) ++ flats (S p) fs'
         end) 0 fs
  end.

(** The pointer the visitor has for a field: [self.out], or that of the flattened field's visitor. *)
Fixpoint owner (f : shape) (t : ptag) (l : place) : ptag :=
  match l, f with
  | p :: l', Struct fs =>
      match nth p fs Own with
      | Own => ptr t 0
      | g => owner g (given (ptr t (S p)) 0) l'
      end
  | _, Leaf u m => moved t (width u) m
  | _, _ => t
  end.

(** A field and what is done with the pointer for it (deserialize.rs 27-30): [ptr::write] to a field (90-146, 164-224),
    [update(&mut *field)] (193-210), and everything the visitor of an enum does with its reference (344-435, 448-461),
    whichever order the reader calls them in.  Moving the visitor later on is a reborrow with which all the rest is done. *)
Inductive event := Event (l : place) (u : usage).

Fixpoint event_ops (own : place -> ptag) (n : nat) (evs : list event) : list mop :=
  match evs with
  | [] => []
  | Event l u :: evs' => usage_ops l (own l) n u ++ event_ops own (n + width u) evs'
  end.

(** Numbers for reborrows that have not been used. *)
Fixpoint unused (f : shape) : nat :=
  match f with
  | Own => 0
  | Leaf u _ => width u
  | Struct fs => List.length fs + list_sum (map unused fs)
  end.

(** de/mod.rs 747-753: [&mut out] is passed to [new]; [fin]: [out.assume_init()] is reached. *)
Definition out_ref : ptag := [(0, false)].
Definition out_arg : ptag := (0, false) :: out_ref.
Definition whole_ops (new : place -> ptag -> list mop) (own : ptag -> place -> ptag) (n : nat) (evs : list event) (fin : bool)
  : list mop :=
  [Retag [] 0 false []; Retag out_ref 0 false []; Enter out_arg []] ++ new [] out_arg ++ [Exit out_arg []] ++
  event_ops (own out_arg) n evs ++ (if fin then [Access [] false []] else []).
Definition visitor_ops (f : shape) : list event -> bool -> list mop := whole_ops (visitor_new f) (owner f) (unused f).

(** Not in the code: [let out = out.as_mut_ptr();] once, and that pointer for all fields. *)
Fixpoint once_new (f : shape) (a : place) (t : ptag) : list mop :=
  match f with
  | Own => []
  | Leaf u m => usage_ops a t 0 u ++ move_ops a t (width u) m
  | Struct fs =>
      as_mut_ptr t 0 a ++
      (fix flats (p : nat) (fs : list shape) : list mop :=
         match fs with
         | [] => []
         | g :: fs' => (if is_own g then [] else flat_new (ptr t 0) p (a ++ [p]) (once_new g (a ++ [p]))) ++ flats (S p) fs'
         end) 0 fs
  end.
Fixpoint once_owner (f : shape) (t : ptag) (l : place) : ptag :=
  match l, f with
  | p :: l', Struct fs =>
      match nth p fs Own with
      | Own => ptr t 0
      | g => once_owner g (given (ptr t 0) p) l'
      end
  | _, Leaf u m => moved t (width u) m
  | _, _ => t
  end.
Definition once_ops (f : shape) : list event -> bool -> list mop := whole_ops (once_new f) (once_owner f) (unused f).
