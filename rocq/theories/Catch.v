(** User code that catches panics while reading: static-xml/src/de/mod.rs 260-269, 511-639 once more, with
    [catch_unwind] around the calls of [read_to] and [read_string].

    Reader.v lets a panic end the run.  Here it unwinds to the innermost call of [read_to] or [read_string] in
    user code, which gets it like a result and may go on, fail, or let it unwind further (by panicking
    itself).  [ElementReader] has no [Drop] implementation and nothing else is done while unwinding, so the
    reader stays as it was where the panic happened. *)
From Verif Require Import Base Reader.

(** What a call of [read_to] or [read_string] ends with if not successful. *)
Inductive failure :=
| Failed (e : verr)
| Panicked (m : string).

(** See [action]. *)
Inductive caction (St A : Type) :=
| CNoRead (a : A)
| CReadString (k : string + failure -> A)
| CReadTo (s0 : St) (k : endinfo + failure -> St -> A).
Arguments CNoRead {St A} a.
Arguments CReadString {St A} k.
Arguments CReadTo {St A} s0 k.

(** See [visitors]. *)
Record cvisitors (St : Type) := CVisitors {
  c_attribute : St -> xname -> string -> res verr (option string) * St;
  c_characters : St -> string -> position -> res string (option string) * St;
  c_element : St -> einfo -> caction St (res verr bool * St);
}.
Arguments c_attribute {St} c.
Arguments c_characters {St} c.
Arguments c_element {St} c.

Section Read.
  Context {St : Type} (dbg : bool) (V : cvisitors St).

  (** de/mod.rs 557-565, see [attrs_loop]. *)
  Fixpoint cattrs_loop (stack : list selem) (p : position) (attrs : list attr) (s : St)
    : res error unit * St :=
    match attrs with
    | [] => (Ok tt, s)
    | a :: attrs' =>
        match c_attribute V s (from_xml_name (a_name a)) (a_value a) with
        | (Ok _, s') => cattrs_loop stack p attrs' s'
        | (Err e, s') => (Err (wrap e stack p), s')
        | (Abort x, s') => (Abort x, s')
        end
    end.

  (** See [run_action].  Only panics can be caught. *)
  Definition run_caction {A} (body : nat -> nsmap -> St -> rstate -> res error endinfo * St * rstate)
    (sp : nat) (attrs : list attr) (ns : nsmap) (act : caction St A) (r : rstate)
    : (A + abort) * rstate :=
    match act with
    | CNoRead a => (inl a, r)
    | CReadString k =>
        match read_string dbg sp r with
        | (Ok s, r') => (inl (k (inl s)), r')
        | (Err e, r') => (inl (k (inr (Failed (Propagate e)))), r')
        | (Abort (Panic m), r') => (inl (k (inr (Panicked m))), r')
        | (Abort x, r') => (inr x, r')
        end
    | CReadTo s0 k =>
        match nth_error (r_stack r) sp with
        | None => (inl (k (inr (Panicked "index out of bounds")) s0), r)
        | Some el =>
            match cattrs_loop (r_stack r) (se_pos el) attrs s0 with
            | (Ok _, s1) =>
                match body sp ns s1 r with
                | (Ok i, s2, r') => (inl (k (inl i) s2), r')
                | (Err e, s2, r') => (inl (k (inr (Failed (Propagate e))) s2), r')
                | (Abort (Panic m), s2, r') => (inl (k (inr (Panicked m)) s2), r')
                | (Abort x, _, r') => (inr x, r')
                end
            | (Err e, s1) => (inl (k (inr (Failed (Propagate e))) s1), r)
            | (Abort (Panic m), s1) => (inl (k (inr (Panicked m)) s1), r)
            | (Abort x, _) => (inr x, r)
            end
        end
    end.

  (** de/mod.rs 566-602, see [read_loop]. *)
  Fixpoint cread_loop (fuel : nat) (sp : nat) (ns : nsmap) (s : St) (r : rstate)
    : res error endinfo * St * rstate :=
    match fuel with
    | O => (Abort Diverge, s, r)
    | S fuel' =>
        if stack_check dbg sp r then
          match next dbg r with
          | (Ok (EvStart attrs ns', p), r1) =>
              match nth_error (r_stack r1) (S sp) with
              | None => (Abort (Panic "index out of bounds"), s, r1)
              | Some el =>
                  let child := EInfo (se_name el) ns' (S (S sp)) in
                  match run_caction (cread_loop fuel') (S sp) attrs ns' (c_element V s child) r1 with
                  | (inr x, r2) => (Abort x, s, r2)
                  | (inl (Abort x, s'), r2) => (Abort x, s', r2)
                  | (inl (Err e, s'), r2) => (Err (wrap e (r_stack r2) p), s', r2)
                  | (inl (Ok _, s'), r2) =>
                      match return_to_depth dbg (S sp) r2 with
                      | (Ok _, r3) => cread_loop fuel' sp ns s' r3
                      | (Err e, r3) => (Err e, s', r3)
                      | (Abort x, r3) => (Abort x, s', r3)
                      end
                  end
              end
          | (Ok (EvEnd name, p), r1) => (Ok (name, ns, p), s, r1)
          | (Ok (EvChars str, p), r1) =>
              match c_characters V s str p with
              | (Ok _, s') => cread_loop fuel' sp ns s' r1
              | (Err m, s') => (Err (Error (EDeserializer m) (r_stack r1) p), s', r1)
              | (Abort x, s') => (Abort x, s', r1)
              end
          | (Err e, r1) => (Err e, s, r1)
          | (Abort x, r1) => (Abort x, s, r1)
          end
        else (Abort stack_panic, s, r)
    end.

  (** de/mod.rs 260-269, see [Reader.read]. *)
  Definition cread {T} (D : einfo -> caction St (res verr T)) (r : rstate) : res error T :=
    match root dbg r with
    | (Err e, _) => Err e
    | (Abort x, _) => Abort x
    | (Ok (attrs, ns), r1) =>
        match nth_error (r_stack r1) 0 with
        | None => Abort (Panic "index out of bounds")
        | Some el =>
            match run_caction (cread_loop (S (List.length (r_src r1)))) 0 attrs ns
                    (D (EInfo (se_name el) ns 1)) r1 with
            | (inr x, _) => Abort x
            | (inl (Abort x), _) => Abort x
            | (inl (Err e), r2) => Err (wrap e (r_stack r2) (r_pos r2))
            | (inl (Ok v), r2) =>
                match end_ dbg r2 with
                | Ok _ => Ok v
                | Err e => Err e
                | Abort x => Abort x
                end
            end
        end
    end.
End Read.
