(** Serializing, step by step.

    The functions of Ser.v that run programs are written down again with a list of the calls of the API that have returned, and with
    what is in the output also if the program panics.  LiveProofs.v shows that they are the same otherwise.

    Simplified: while a panic unwinds, builders and writers are dropped.  This poisons the writer (ser/mod.rs 191-199, 247-255), which is
    not modelled here: nothing is written by it and nobody can use the writer any more. *)
From Verif Require Import Base Types Ser.

(** The calls, with their results ([None]: [Ok]). *)
Inductive lcall :=
| LNs (p u : string)                                   (* ElementBuilder::namespace, ser/mod.rs 120-126 *)
| LAttr (n : xname) (v : string) (r : option serr)     (* ElementBuilder::attribute, 132-153 *)
| LStart (r : option serr)                             (* ElementBuilder::start, 161-188 *)
| LElement (n : xname)                                 (* ElementWriter::element, 215-227 *)
| LText (s : string) (r : option serr)                 (* ElementWriter::text, 229-235 *)
| LFinish (r : option serr)                            (* ElementWriter::finish, 237-244 *)
| LDropped.                                            (* a builder or writer is dropped, 191-199 and 247-255 *)

Section Run.
  Context (dbg : bool) (o : io).

  Definition later {A B C} (c : C) (x : A * B * list C) : A * B * list C := (fst x, c :: snd x).

  (** [run_a]: result, builder, calls. *)
  Fixpoint run_al (a : aprog) (b : bstate) : (option serr + abort) * bstate * list lcall :=
    match a with
    | ARet r => (inl r, b, [])
    | ANs p u a' =>
        match builder_namespace dbg p u b with
        | inl b' => later (LNs p u) (run_al a' b')
        | inr x => (inr x, b, [])
        end
    | AAttr n v f =>
        match builder_attribute n v b with
        | inl (r, b') => later (LAttr n v r) (run_al (f r) b')
        | inr x => (inr x, b, [])
        end
    | APanic m => (inr (Panic m), b, [])
    end.

  (** [run_w], [run_b]: result, output, calls. *)
  Fixpoint run_wl {d} (p : wprog d) (nss : list namespaces) (k : sink) : (option serr + abort) * sink * list lcall :=
    match p with
    | WRet r => (inl r, k, [])
    | WText s f => let '(r, k') := write o (WChars s) k in later (LText s r) (run_wl (f r) nss k')
    | WElem n b =>
        match nss with
        | m :: _ => later (LElement n) (run_bl b (writer_element m n) nss k)
        | [] => (inr (Panic "unreachable"), k, [])
        end
    | WFinish f => let '(r, k') := write o WEnd k in later (LFinish r) (run_wl (f r) (tl nss) k')
    | WDrop p' => later LDropped (run_wl p' (tl nss) (poison writer_dropped k))
    | WPanic m => (inr (Panic m), k, [])
    end
  with run_bl {d} (q : bprog d) (b : bstate) (nss : list namespaces) (k : sink) : (option serr + abort) * sink * list lcall :=
    match q with
    | BNs p u q' =>
        match builder_namespace dbg p u b with
        | inl b' => later (LNs p u) (run_bl q' b' nss k)
        | inr x => (inr x, k, [])
        end
    | BAttr n v f =>
        match builder_attribute n v b with
        | inl (r, b') => later (LAttr n v r) (run_bl (f r) b' nss k)
        | inr x => (inr x, k, [])
        end
    | BDrop p => later LDropped (run_wl p nss (poison builder_dropped k))
    | BStart p pe =>
        match builder_start o b k with
        | inr x => (inr x, k, [])
        | inl (inl m, k') => later (LStart None) (run_wl p (m :: nss) k')
        | inl (inr e, k') => later (LStart (Some e)) (run_wl (pe e) nss k')
        end
    | BPanic m => (inr (Panic m), k, [])
    end.

  (** ser/mod.rs 694-717: [to]. *)
  Definition to_l (name : xname) (v : serialize) : (option serr + abort) * sink * list lcall :=
    match run_al (s_attrs v) (BState name [] [] []) with
    | (inr x, _, l) => (inr x, sink0, l)
    | (inl (Some e), _, l) => (inl (Some e), poison builder_dropped sink0, l ++ [LDropped])
    | (inl None, b, l) =>
        match builder_start o b sink0 with
        | inr x => (inr x, sink0, l)
        | inl (inr e, k) => (inl (Some e), k, l ++ [LStart (Some e)])
        | inl (inl m, k) =>
            match run_wl (s_kids v) [m] k with
            | (inr x, k', l') => (inr x, k', l ++ LStart None :: l')
            | (inl (Some e), k', l') => (inl (Some e), poison writer_dropped k', l ++ LStart None :: l' ++ [LDropped])
            | (inl None, k', l') => let '(r, k'') := write o WEnd k' in (inl r, k'', l ++ LStart None :: l' ++ [LFinish r])
            end
        end
    end.
End Run.
