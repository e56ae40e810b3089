(** Programs that call [mem::forget] on builders and writers, or catch panics of the serialization API.

    Ser.v has programs that drop what they do not use.  Safe code can also leak it: a forgotten builder or
    writer does not poison the output.  And it can catch a panic: [start] takes the builder's contents
    before it resolves names (ser/mod.rs 162), so a builder whose [start] panics does not poison the output
    either; the debug assertion of [namespace] (ser/mod.rs 271) fails before anything is changed. *)
From Verif Require Import Base Text Ser.

(** [write_attributes]; the second program of [UANs] goes on where a panic was caught. *)
Inductive uaprog :=
| UARet (r : option serr)
| UANs (p u : string) (a caught : uaprog)
| UAAttr (n : xname) (v : string) (k : option serr -> uaprog)
| UAPanic (m : string).

(** [write_children], see [wprog] and [bprog]. [UForget], [UBForget]: [mem::forget] of the innermost writer or
    of the builder. The last program of [UBStart] goes on where a panic of [start] was caught. *)
Inductive uprog : nat -> Type :=
| URet (r : option serr) : uprog 0
| UText {d} (s : string) (k : option serr -> uprog d) : uprog d
| UElem {d} (n : xname) (b : ubprog d) : uprog d
| UFinish {d} (k : option serr -> uprog d) : uprog (S d)
| UDrop {d} (k : uprog d) : uprog (S d)
| UForget {d} (k : uprog d) : uprog (S d)
| UPanic {d} (m : string) : uprog d
with ubprog : nat -> Type :=
| UBNs {d} (p u : string) (b caught : ubprog d) : ubprog d
| UBAttr {d} (n : xname) (v : string) (k : option serr -> ubprog d) : ubprog d
| UBDrop {d} (k : uprog d) : ubprog d
| UBForget {d} (k : uprog d) : ubprog d
| UBStart {d} (k : uprog (S d)) (ke : serr -> uprog d) (caught : uprog d) : ubprog d
| UBPanic {d} (m : string) : ubprog d.

Section Run.
  Context (dbg : bool) (o : io).

  Fixpoint run_ua (a : uaprog) (b : bstate) : (option serr * bstate) + abort :=
    match a with
    | UARet r => inl (r, b)
    | UANs p u a' c =>
        match builder_namespace dbg p u b with
        | inl b' => run_ua a' b'
        | inr _ => run_ua c b
        end
    | UAAttr n v f =>
        match builder_attribute n v b with
        | inl (r, b') => run_ua (f r) b'
        | inr x => inr x
        end
    | UAPanic m => inr (Panic m)
    end.

  (** [f]: how many writers have been forgotten. *)
  Fixpoint run_u {d} (p : uprog d) (nss : list namespaces) (f : nat) (k : sink) : (option serr * sink * nat) + abort :=
    match p with
    | URet r => inl (r, k, f)
    | UText s g => let '(r, k') := write o (WChars s) k in run_u (g r) nss f k'
    | UElem n b =>
        match nss with
        | m :: _ => run_ub b (writer_element m n) nss f k
        | [] => inr (Panic "unreachable")
        end
    | UFinish g => let '(r, k') := write o WEnd k in run_u (g r) (tl nss) f k'
    | UDrop p' => run_u p' (tl nss) f (poison writer_dropped k)
    | UForget p' => run_u p' (tl nss) (S f) k
    | UPanic m => inr (Panic m)
    end
  with run_ub {d} (q : ubprog d) (b : bstate) (nss : list namespaces) (f : nat) (k : sink)
    : (option serr * sink * nat) + abort :=
    match q with
    | UBNs p u q' c =>
        match builder_namespace dbg p u b with
        | inl b' => run_ub q' b' nss f k
        | inr _ => run_ub c b nss f k
        end
    | UBAttr n v g =>
        match builder_attribute n v b with
        | inl (r, b') => run_ub (g r) b' nss f k
        | inr x => inr x
        end
    | UBDrop p => run_u p nss f (poison builder_dropped k)
    | UBForget p => run_u p nss f k
    | UBStart p pe c =>
        match builder_start o b k with
        | inr Diverge => inr Diverge
        | inr _ => run_u c nss f k
        | inl (inl m, k') => run_u p (m :: nss) f k'
        | inl (inr e, k') => run_u (pe e) nss f k'
        end
    | UBPanic m => inr (Panic m)
    end.

  Record userialize := USer { u_attrs : uaprog; u_kids : uprog 0 }.

  (** ser/mod.rs 694-717: [Serializer::to], see Ser.v. The builder and the writer of the root cannot be
      forgotten: the program has references to them. *)
  Definition to_u (name : xname) (v : userialize) : (option serr * sink * nat) + abort :=
    match run_ua (u_attrs v) (BState name [] [] []) with
    | inr x => inr x
    | inl (Some e, _) => inl (Some e, poison builder_dropped sink0, 0)
    | inl (None, b) =>
        match builder_start o b sink0 with
        | inr x => inr x
        | inl (inr e, k) => inl (Some e, k, 0)
        | inl (inl m, k) =>
            match run_u (u_kids v) [m] 0 k with
            | inr x => inr x
            | inl (Some e, k', f) => inl (Some e, poison writer_dropped k', f)
            | inl (None, k', f) => let '(r, k'') := write o WEnd k' in inl (r, k'', f)
            end
        end
    end.
End Run.
