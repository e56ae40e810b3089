(** What calls of the serialization API ask for, one by one; and programs that stop early. *)
From Verif Require Import Base Types Ser SerSpec Live.

(** What is to be in the output after some calls: for every start, text and finish that returned [Ok] its event.  [n], [attrs]: the
    element being built, with the attributes accepted so far. *)
Fixpoint effects (n : xname) (attrs : list (xname * string)) (l : list lcall) : list sev :=
  match l with
  | [] => []
  | LElement n' :: l' => effects n' [] l'
  | LAttr a v None :: l' => effects n (attrs ++ [(a, v)]) l'
  | LStart None :: l' => SStart (xn_local n) (map (fun a => (xn_local (fst a), snd a)) attrs) :: effects n attrs l'
  | LText s None :: l' => SChars s :: effects n attrs l'
  | LFinish None :: l' => SEnd :: effects n attrs l'
  | _ :: l' => effects n attrs l'
  end.

(** A program that panics instead of making its [n]th call (or of returning, if it has made [n] calls). *)
Fixpoint stop_a (a : aprog) (n : nat) : aprog :=
  match n with
  | O => APanic ""
  | S n' =>
      match a with
      | ANs p u a' => ANs p u (stop_a a' n')
      | AAttr x v f => AAttr x v (fun r => stop_a (f r) n')
      | a => a
      end
  end.

Fixpoint stop_w {d} (p : wprog d) (n : nat) : wprog d :=
  match n with
  | O => WPanic ""
  | S n' =>
      match p in wprog d return wprog d with
      | WRet r => WRet r
      | WText s f => WText s (fun r => stop_w (f r) n')
      | WElem x b => WElem x (stop_b b n')
      | WFinish f => WFinish (fun r => stop_w (f r) n')
      | WDrop p' => WDrop (stop_w p' n')
      | WPanic m => WPanic m
      end
  end
with stop_b {d} (q : bprog d) (n : nat) : bprog d :=
  match n with
  | O => BPanic ""
  | S n' =>
      match q in bprog d return bprog d with
      | BNs p u q' => BNs p u (stop_b q' n')
      | BAttr x v f => BAttr x v (fun r => stop_b (f r) n')
      | BDrop p => BDrop (stop_w p n')
      | BStart p pe => BStart (stop_w p n') (fun e => stop_w (pe e) n')
      | BPanic m => BPanic m
      end
  end.

(** An implementation whose write_attributes or write_children stops so; the calls of its write_attributes. *)
Definition cut_attrs (v : serialize) (n : nat) : serialize := Ser (stop_a (s_attrs v) n) (s_kids v).
Definition cut_kids (v : serialize) (n : nat) : serialize := Ser (s_attrs v) (stop_w (s_kids v) n).
Definition builder_calls (dbg : bool) (name : xname) (v : serialize) : list lcall := snd (run_al dbg (s_attrs v) (BState name [] [] [])).

(** [i] is the beginning of [l]. *)
Definition begins {A} (i l : list A) : Prop := exists rest, l = i ++ rest.
