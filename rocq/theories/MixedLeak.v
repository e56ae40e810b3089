(** What programs with hand-written [Deserialize] implementations leak.

    DeriveMixed.v once more, where hand-written code passes on the record of what was leaked below it:
    by derived visitors that failed while hand-written code was reading with them.  Hand-written visitors
    are dropped like all values of safe Rust, so they add nothing themselves. *)
From Verif Require Import Base Normalize Text Find Types Reader DeriveDe DeriveMixed.

(** The values leaked while reading, for any root implementation that records them (see [leaked_by] in DeProps.v). *)
Definition leaked {St A} (dbg : bool) (V : visitors St) (D : einfo -> action St (A * list value))
  (src : list (xevent * position)) (fin : final) : list value :=
  match root dbg (reader_new src fin) with
  | (Ok (attrs, ns), r1) =>
      match nth_error (r_stack r1) 0 with
      | Some el =>
          match run_action dbg V (read_loop dbg V (S (List.length (r_src r1)))) 0 attrs ns (D (EInfo (se_name el) ns 1)) r1 with
          | (inl (_, l), _) => l
          | _ => []
          end
      | None => []
      end
  | _ => []
  end.

Section Leak.
  Context {U : Type} (o : oracles) (alg : bs_alg) (env : tenv) (P : user U).

  (** A hand-written visitor with the values leaked in reads nested in it. *)
  Definition lstate := mstate (U * list value).

  (** Cannot happen: see [Mixed] in DeriveMixed.v. *)
  Definition odd (A : Type) : res verr A := Abort ill_typed.

  (** [lower] in DeriveMixed.v (de/mod.rs 641-670, 743-755).  The error of a failed [T::deserialize] may be swallowed; what it leaked stays
      leaked. *)
  Definition llower {A} (ab : abort -> A) (oddA : A) (act : uaction U A) (i : einfo) : action lstate (A * list value) :=
    match act with
    | UNoRead a => ANoRead (a, [])
    | UReadString k => AReadString (fun x => (k x, []))
    | UReadTo u0 k => AReadTo (MUser (u0, []))
        (fun x s => match s with MUser (u, l) => (k x u, l) | MDerived _ => (oddA, []) end)
    | UDeserialize t k =>
        amap (fun '(r, l) => (match r with Ok v => k (inl v) | Err e => k (inr e) | Abort x => ab x end, l))
          (known_deserialize odd o env t i)
    end.

  (** [mdeserialize] in DeriveMixed.v: de/mod.rs 641-670, 743-755, 1067-1072. *)
  Definition ldeserialize (t : ety) (i : einfo) : action lstate (res verr value * list value) :=
    match t with
    | EText _ => known_deserialize odd o env t i
    | ERef id =>
        match env id, u_type P id with
        | None, Some D => llower Abort (odd value) (D i) i
        | _, _ => known_deserialize odd o env t i
        end
    end.

  (** [mixed] in DeriveMixed.v: de/mod.rs 777-820. *)
  Definition lmixed : visitors lstate := {|
    v_attribute := fun s n v =>
      match s with
      | MDerived s => let (r, s') := v_attribute (derived o alg env) s n v in (r, MDerived s')
      | MUser (u, l) => let (r, u') := u_attribute P u n v in (r, MUser (u', l))
      end;
    v_characters := fun s str p =>
      match s with
      | MDerived s => let (r, s') := v_characters (derived o alg env) s str p in (r, MDerived s')
      | MUser (u, l) => let (r, u') := u_characters P u str p in (r, MUser (u', l))
      end;
    v_element := fun s i =>
      match s with
      | MDerived s => amap (fun '(r, s') => (r, MDerived s')) (gelement alg ldeserialize s i)
      | MUser (u, l) =>
          amap (fun '(r, u', l') => (r, MUser (u', l ++ l')))
            (llower (fun x => (Abort x, u)) (odd bool, u) (u_element P u i) i)
      end;
  |}.

  (** de/mod.rs 260-269. *)
  Definition lroot (t : ety) (i : einfo) : action lstate (res verr value) := amap fst (ldeserialize t i).

  Definition lread (dbg : bool) (t : ety) (src : list (xevent * position)) (fin : final) : res error value :=
    read dbg lmixed (lroot t) (reader_new src fin).

  (** The values leaked while reading a [T] (derived or hand-written) from a stream. *)
  Definition leaked_mixed (dbg : bool) (t : ety) (src : list (xevent * position)) (fin : final) : list value :=
    leaked dbg lmixed (ldeserialize t) src fin.
End Leak.
