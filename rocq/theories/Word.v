(** The counters of the library as machine integers.

    Reader.v and Ser.v count in [nat].  Here the reader is written down again with counters that have a largest value
    [umax] ([usize::MAX]) and overflow as Rust's do: a panic with overflow checks (which come with debug assertions, [dbg]),
    wrapping around without them; and the search for a free prefix with an [i32].  WordProofs.v shows that nothing
    overflows, so that both models do the same. *)
From Verif Require Import Base Text Reader.
From Verif Require Ser.

Section Usize.
  Context (dbg : bool) (umax : nat).

  (** [n + 1] *)
  Definition incr (n : nat) : nat + abort :=
    if Nat.ltb n umax then inl (S n)
    else if dbg then inr (Panic "attempt to add with overflow") else inl 0.

  (** [n - 1] *)
  Definition decr (n : nat) : nat + abort :=
    match n with
    | S n => inl n
    | O => if dbg then inr (Panic "attempt to subtract with overflow") else inl umax
    end.

  (** de/mod.rs 428-465: the loop of [next], as in Reader.v. *)
  Fixpoint wnext_loop (fin : final) (depth : nat) (stack : list selem) (src : list (xevent * position))
    : rres (event * position) :=
    match src with
    | [] =>
        match fin with
        | FEndDocument p => (Abort Diverge, RState [] fin p depth stack)
        | FError e => (Err (Error (EXml e) stack (xe_pos e)), RState [] fin (xe_pos e) depth stack)
        end
    | (e, p) :: src' =>
        match e with
        | XStartElement name attrs ns =>
            match incr depth with
            | inl depth' => (Ok (EvStart attrs ns, p), RState src' fin p depth' (stack ++ [SElem name p]))
            | inr x => (Abort x, RState src' fin p depth (stack ++ [SElem name p]))
            end
        | XEndElement name =>
            match decr depth with
            | inr x => (Abort x, RState src' fin p depth stack)
            | inl depth' =>
                let r' := RState src' fin p depth' stack in
                if dbg then
                  match nth_error stack depth' with
                  | Some el =>
                      if oname_eqb (se_name el) name then (Ok (EvEnd name, p), r')
                      else (Abort (Panic "assertion failed: name"), r')
                  | None => (Abort (Panic "index out of bounds"), r')
                  end
                else (Ok (EvEnd name, p), r')
            end
        | XCharacters s | XCData s => (Ok (EvChars s, p), RState src' fin p depth stack)
        | XComment _ | XWhitespace _ | XPI _ _ | XStartDocument => wnext_loop fin depth stack src'
        end
    end.

  (** de/mod.rs 422-466: [next]. *)
  Definition wnext (r : rstate) : rres (event * position) :=
    if dbg && negb (Nat.eqb (List.length (r_stack r)) (r_depth r))
    then (Abort (Panic "assertion failed: stack.len() == depth"), r)
    else wnext_loop (r_fin r) (r_depth r) (r_stack r) (r_src r).

  (** de/mod.rs 475-478 *)
  Fixpoint wskip_loop (fuel : nat) (target : nat) (r : rstate) : rres unit :=
    match fuel with
    | O => (Abort Diverge, r)
    | S fuel' =>
        if Nat.ltb target (r_depth r) then
          match wnext r with
          | (Ok _, r') => wskip_loop fuel' target (truncate r')
          | (Err e, r') => (Err e, r')
          | (Abort x, r') => (Abort x, r')
          end
        else (Ok tt, truncate r)
    end.

  (** de/mod.rs 468-481: [return_to_depth]. *)
  Definition wreturn_to_depth (target : nat) (r : rstate) : rres unit :=
    if dbg && Nat.ltb (r_depth r) target
    then (Abort (Panic "assertion failed: depth >= target"), r)
    else wskip_loop (S (List.length (r_src r))) target r.

  (** de/mod.rs 567, 616: [debug_assert_eq!(self.stack_pos, self.reader.stack().len() - 1)]. *)
  Definition wstack_check (sp : nat) (r : rstate) : option abort :=
    if dbg then
      match decr (List.length (r_stack r)) with
      | inl n => if Nat.eqb sp n then None else Some stack_panic
      | inr x => Some x
      end
    else None.

  (** de/mod.rs 611-637: [read_string]. *)
  Fixpoint wread_string_loop (fuel : nat) (sp : nat) (out : string) (r : rstate) : rres string :=
    match fuel with
    | O => (Abort Diverge, r)
    | S fuel' =>
        match wstack_check sp r with
        | Some x => (Abort x, r)
        | None =>
            match wnext r with
            | (Ok (EvStart _ _, p), r') =>
                match nth_error (r_stack r') (List.length (r_stack r') - 1) with
                | Some child => (Err (Error (EMsg (MUnexpectedElement (se_name child))) (r_stack r') p), r')
                | None => (Abort (Panic "called `Option::unwrap()` on a `None` value"), r')
                end
            | (Ok (EvEnd _, _), r') => (Ok out, r')
            | (Ok (EvChars s, _), r') =>
                wread_string_loop fuel' sp (if String.eqb out "" then s else (out ++ s)%string) r'
            | (Err e, r') => (Err e, r')
            | (Abort x, r') => (Abort x, r')
            end
        end
    end.

  Definition wread_string (sp : nat) (r : rstate) : rres string :=
    wread_string_loop (S (List.length (r_src r))) sp "" r.

  Section ReadTo.
    Context {St : Type} (V : visitors St).

    (** Runs an action, as in Reader.v. *)
    Definition wrun_action {A} (body : nat -> nsmap -> St -> rstate -> res error endinfo * St * rstate)
      (sp : nat) (attrs : list attr) (ns : nsmap) (act : action St A) (r : rstate) : (A + abort) * rstate :=
      match act with
      | ANoRead a => (inl a, r)
      | AReadString k =>
          match wread_string sp r with
          | (Ok s, r') => (inl (k (inl s)), r')
          | (Err e, r') => (inl (k (inr (Propagate e))), r')
          | (Abort x, r') => (inr x, r')
          end
      | AReadTo s0 k =>
          match nth_error (r_stack r) sp with
          | None => (inr (Panic "index out of bounds"), r)
          | Some el =>
              match attrs_loop V (r_stack r) (se_pos el) attrs s0 with
              | (Ok _, s1) =>
                  match body sp ns s1 r with
                  | (Ok i, s2, r') => (inl (k (inl i) s2), r')
                  | (Err e, s2, r') => (inl (k (inr (Propagate e)) s2), r')
                  | (Abort x, _, r') => (inr x, r')
                  end
              | (Err e, s1) => (inl (k (inr (Propagate e)) s1), r)
              | (Abort x, _) => (inr x, r)
              end
          end
      end.

    (** de/mod.rs 566-602: the loop over child nodes. [ElementReader::depth] (537-539) is computed here for every child,
        whether or not the visitor asks for it. *)
    Fixpoint wread_loop (fuel : nat) (sp : nat) (ns : nsmap) (s : St) (r : rstate)
      : res error endinfo * St * rstate :=
      match fuel with
      | O => (Abort Diverge, s, r)
      | S fuel' =>
          match wstack_check sp r with
          | Some x => (Abort x, s, r)
          | None =>
              match wnext r with
              | (Ok (EvStart attrs ns', p), r1) =>
                  match incr sp with
                  | inr x => (Abort x, s, r1)
                  | inl csp =>
                      match nth_error (r_stack r1) csp, incr csp with
                      | None, _ => (Abort (Panic "index out of bounds"), s, r1)
                      | _, inr x => (Abort x, s, r1)
                      | Some el, inl depth =>
                          match wrun_action (wread_loop fuel') csp attrs ns'
                                  (v_element V s (EInfo (se_name el) ns' depth)) r1 with
                          | (inr x, r2) => (Abort x, s, r2)
                          | (inl (Abort x, s'), r2) => (Abort x, s', r2)
                          | (inl (Err e, s'), r2) => (Err (wrap e (r_stack r2) p), s', r2)
                          | (inl (Ok _, s'), r2) =>
                              match incr sp with
                              | inr x => (Abort x, s', r2)
                              | inl target =>
                                  match wreturn_to_depth target r2 with
                                  | (Ok _, r3) => wread_loop fuel' sp ns s' r3
                                  | (Err e, r3) => (Err e, s', r3)
                                  | (Abort x, r3) => (Abort x, s', r3)
                                  end
                              end
                          end
                      end
                  end
              | (Ok (EvEnd name, p), r1) => (Ok (name, ns, p), s, r1)
              | (Ok (EvChars str, p), r1) =>
                  match v_characters V s str p with
                  | (Ok _, s') => wread_loop fuel' sp ns s' r1
                  | (Err m, s') => (Err (Error (EDeserializer m) (r_stack r1) p), s', r1)
                  | (Abort x, s') => (Abort x, s', r1)
                  end
              | (Err e, r1) => (Err e, s, r1)
              | (Abort x, r1) => (Abort x, s, r1)
              end
          end
      end.

    (** de/mod.rs 304-340: [root]. *)
    Definition wroot (r : rstate) : rres (list attr * nsmap) :=
      match inner_next r with
      | (Err e, r1) => (Err (Error (EXml e) [] (xe_pos e)), r1)
      | (Abort x, r1) => (Abort x, r1)
      | (Ok (Some XStartDocument), r1) =>
          match wnext r1 with
          | (Ok (EvStart attrs ns, _), r2) => (Ok (attrs, ns), r2)
          | (Ok (EvEnd n, p), r2) => (Err (Error (EMsg (MExpectedStartElement (XEndElement n))) [] p), r2)
          | (Ok (EvChars s, p), r2) => (Err (Error (EMsg (MExpectedStartElement (XCharacters s))) [] p), r2)
          | (Err e, r2) => (Err e, r2)
          | (Abort x, r2) => (Abort x, r2)
          end
      | (Ok o, r1) => (Err (Error (EMsg (MExpectedStartDocument o)) [] (r_pos r1)), r1)
      end.

    (** de/mod.rs 342-362: [end]. *)
    Definition wend (r : rstate) : res error unit :=
      match wreturn_to_depth 0 r with
      | (Ok _, r') => end_loop (r_fin r') (r_src r')
      | (Err e, _) => Err e
      | (Abort x, _) => Abort x
      end.

    (** de/mod.rs 260-269: [read]. *)
    Definition wread {T} (D : einfo -> action St (res verr T)) (r : rstate) : res error T :=
      match wroot r with
      | (Err e, _) => Err e
      | (Abort x, _) => Abort x
      | (Ok (attrs, ns), r1) =>
          match nth_error (r_stack r1) 0, incr 0 with
          | None, _ => Abort (Panic "index out of bounds")
          | _, inr x => Abort x
          | Some el, inl depth =>
              match wrun_action (wread_loop (S (List.length (r_src r1)))) 0 attrs ns
                      (D (EInfo (se_name el) ns depth)) r1 with
              | (inr x, _) => Abort x
              | (inl (Abort x), _) => Abort x
              | (inl (Err e), r2) => Err (wrap e (r_stack r2) (r_pos r2))
              | (inl (Ok v), r2) =>
                  match wend r2 with
                  | Ok _ => Ok v
                  | Err e => Err e
                  | Abort x => Abort x
                  end
              end
          end
      end.
  End ReadTo.
End Usize.

(** ** The search for a free prefix *)

Section I32.
  Context (dbg : bool).

  Local Open Scope Z_scope.

  Definition i32_max : Z := 2 ^ 31 - 1.

  (** [i += 1] for an [i32]. *)
  Definition i32_incr (i : Z) : Z + abort :=
    if i <? i32_max then inl (i + 1)
    else if dbg then inr (Panic "attempt to add with overflow") else inl (- 2 ^ 31).

  (** [format!("{}{}", prefix, i)] *)
  Definition i32_numbered (p : string) (i : Z) : string := (p ++ show_int i)%string.

  (** ser/mod.rs 330-332 *)
  Fixpoint i32_pick (fuel : nat) (p : string) (i : Z) (u : string) (m : bmap string)
    : res unit (string * bmap string) :=
    match fuel with
    | O => Abort Diverge
    | S fuel' =>
        match Ser.ns_put (i32_numbered p i) u m with
        | (true, m') => Ok (i32_numbered p i, m')
        | (false, _) =>
            match i32_incr i with
            | inl i' => i32_pick fuel' p i' u m
            | inr x => Abort x
            end
        end
    end.

  (** ser/mod.rs 314-334 *)
  Fixpoint i32_assign_required (l : list (string * Ser.nsentry)) (m : bmap string)
    : res unit (list (string * Ser.nsentry) * bmap string) :=
    match l with
    | [] => Ok ([], m)
    | (u, e) :: l' =>
        let step (e' : Ser.nsentry) (m' : bmap string) :=
          bind (i32_assign_required l' m') (fun '(l'', m'') => Ok ((u, e') :: l'', m'')) in
        let given (p' : string) := Ser.NsEntry (Ser.q_prefix e) (Some p') (Ser.q_required e) (Ser.q_needs e) in
        if Ser.q_required e then
          let fallback (_ : unit) :=
            let '(p, i) := if String.eqb (Ser.q_prefix e) "" then ("ns"%string, 1) else (Ser.q_prefix e, 2) in
            bind (i32_pick (S (List.length m)) p i u m) (fun '(p', m') => step (given p') m') in
          if Ser.q_needs e && String.eqb (Ser.q_prefix e) "" then fallback tt
          else match Ser.ns_put (Ser.q_prefix e) u m with
               | (true, m') => step (given (Ser.q_prefix e)) m'
               | (false, _) => fallback tt
               end
        else step e m
    end.

  (** ser/mod.rs 307-351: [finalize]. *)
  Definition i32_finalize (b : Ser.nsbuilder) : res unit Ser.namespaces :=
    bind (i32_assign_required b []) (fun '(b1, m1) =>
      let '(b2, m2) := Ser.assign_optional b1 m1 in Ok (Ser.Namespaces b2 m2)).
End I32.
