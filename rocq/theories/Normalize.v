(** Model of [normalize], static-xml/src/de/mod.rs 822-891, as the in-place buffer algorithm it is:
    a byte buffer, an output cursor [outp], a logical end [end] and a pending range [copy].
    Every index access is checked: an out-of-bounds access or an invalid [copy_within] is
    [Abort (Panic _)], and running out of fuel is [Abort Diverge].  Simplification: [usize]
    arithmetic is on [nat] (all indices are bounded by the length of the buffer, see the proofs). *)
From Verif Require Import Base.

(** de/mod.rs 822-828. *)
Inductive whitespace := Preserve | Replace | Collapse.

(** de/mod.rs 839: [is_whitespace]. *)
Definition is_ws (b : ascii) : bool :=
  match N_of_ascii b with
  | 9%N | 10%N | 13%N | 32%N => true
  | _ => false
  end.

Definition space : ascii := " "%char.

(** There are no [Err] results in this function. *)
Definition nres (A : Type) := res Empty_set A.

Definition oob {A} : nres A := Abort (Panic "index out of bounds").

(** [v[i]] *)
Definition get (v : list ascii) (i : nat) : nres ascii :=
  match nth_error v i with Some b => Ok b | None => oob end.

(** [v[i] = b] *)
Definition put (v : list ascii) (i : nat) (b : ascii) : nres (list ascii) :=
  if Nat.ltb i (List.length v) then Ok (set_nth i b v) else oob.

(** [slice::copy_within(s..e, dest)]: panics if the source range is invalid or the destination does
    not fit. *)
Definition copy_within (v : list ascii) (s e dest : nat) : nres (list ascii) :=
  if Nat.leb s e && Nat.leb e (List.length v) && Nat.leb (dest + (e - s)) (List.length v)
  then Ok (firstn dest v ++ firstn (e - s) (skipn s v) ++ skipn (dest + (e - s)) v)
  else oob.

(** de/mod.rs 849-851: [while end > 0 && is_whitespace(v[end - 1]) { end -= 1; }] *)
Fixpoint trim_end (v : list ascii) (e : nat) : nres nat :=
  match e with
  | O => Ok 0
  | S e' => bind (get v e') (fun b => if is_ws b then trim_end v e' else Ok e)
  end.

(** de/mod.rs 852-856: [v.iter().take(end).take_while(is_whitespace).count()] *)
Fixpoint count_ws (l : list ascii) : nat :=
  match l with
  | b :: l' => if is_ws b then S (count_ws l') else 0
  | [] => 0
  end.

(** de/mod.rs 868-870: [while next_start < end && is_whitespace(v[next_start]) { next_start += 1 }] *)
Fixpoint scan_ws (fuel : nat) (v : list ascii) (e next_start : nat) : nres nat :=
  match fuel with
  | O => Abort Diverge
  | S fuel' =>
      if Nat.ltb next_start e
      then bind (get v next_start) (fun b =>
             if is_ws b then scan_ws fuel' v e (S next_start) else Ok next_start)
      else Ok next_start
  end.

(** State of the main loop: the buffer, [outp], [copy.start], [copy.end]. *)
Definition nstate := (list ascii * nat * nat * nat)%type.

(** de/mod.rs 861-879: the main loop. *)
Fixpoint main_loop (fuel : nat) (collapse : bool) (e : nat) (st : nstate) : nres nstate :=
  match fuel with
  | O => Abort Diverge
  | S fuel' =>
      let '(v, outp, cs, ce) := st in
      if Nat.ltb ce e then
        let p := ce in
        let ce := S ce in
        bind (get v p) (fun b =>
          if is_ws b then
            bind (put v p space) (fun v =>
              if collapse then
                bind (scan_ws (S e) v e ce) (fun next_start =>
                  if Nat.ltb ce next_start then
                    bind (copy_within v cs ce outp) (fun v =>
                      main_loop fuel' collapse e (v, outp + (ce - cs), next_start, next_start))
                  else main_loop fuel' collapse e (v, outp, cs, ce))
              else main_loop fuel' collapse e (v, outp, cs, ce))
          else main_loop fuel' collapse e (v, outp, cs, ce))
      else Ok st
  end.

(** de/mod.rs 838-891 on bytes; the final [String::from_utf8_unchecked] is the identity on bytes
    (its safety condition is property C02). *)
Definition normalize_bytes (v : list ascii) (w : whitespace) : nres (list ascii) :=
  match w with
  | Preserve => Ok v
  | _ =>
      let collapse := match w with Collapse => true | _ => false end in
      let e0 := List.length v in
      bind (if collapse
            then bind (trim_end v e0) (fun e => Ok (e, count_ws (firstn e v)))
            else Ok (e0, 0))
        (fun '(e, start) =>
           bind (main_loop (S e) collapse e (v, 0, start, start))
             (fun '(v, outp, cs, ce) =>
                if Nat.ltb outp cs
                then bind (copy_within v cs ce outp) (fun v => Ok (firstn (outp + (ce - cs)) v))
                else Ok (firstn e v)))
  end.

(** [pub fn normalize(s: String, whitespace: WhiteSpace) -> String] *)
Definition normalize (s : string) (w : whitespace) : nres string :=
  map_ok str_of (normalize_bytes (bytes_of s) w).
