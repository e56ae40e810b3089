(** Model of the serialization API: static-xml/src/ser/mod.rs 22-471 and 693-717.

    What calls the API is an arbitrary program (an interaction tree): it sees every result, may
    ignore errors, may drop builders and writers at any point.  The borrow rules make the use of
    builders and writers properly nested: while a child's builder or writer is alive its parent
    cannot be touched.  (For [mem::forget] and caught panics see Forget.v.) *)
From Verif Require Import Base Text.

(** ** Errors: ser/mod.rs 22-55.  [Error] is a string; the message of a duplicate attribute is kept
    as its arguments. *)
Inductive serr :=
| SMsg (m : string)
| SDuplicate (n : xname) (old new : string).

Definition builder_dropped : serr := SMsg "ElementBuilder dropped before start".
Definition writer_dropped : serr := SMsg "ElementWriter dropped before finish".

(** ** The event writer: xml-rs [EventWriter] behind [WrappedWriter] *)

(** [xml::name::Name] as passed to the writer: prefix and local name ([namespace] is always [None],
    ser/mod.rs 410, 437). *)
Record pname := PName { pn_prefix : option string; pn_local : string }.

(** [xml::writer::XmlEvent], the three kinds that are written. *)
Inductive wevent :=
| WStart (name : pname) (attrs : list (pname * string)) (ns : bmap string)
| WChars (s : string)
| WEnd.

(** What can happen to the output. *)
Inductive note :=
| NWrote (e : wevent)
| NFailed (e : serr)     (* xml-rs or the underlying writer failed *)
| NRefused (e : serr)    (* nothing was attempted: poisoned *)
| NDropped (e : serr).   (* a builder or writer was dropped too early *)

(** What has been written, how many writes were attempted, and the poison (ser/mod.rs 65-70).
    [k_log] is not in the code: it records the history for the sake of stating properties. *)
Record sink := Sink {
  k_out : list wevent; k_tries : nat; k_poison : option serr; k_log : list note }.

(** Whether the [n]th attempt to write fails, and with which message: an arbitrary function, so any
    I/O failure pattern. *)
Definition io := nat -> option string.

Definition sink0 : sink := Sink [] 0 None [].

(** ser/mod.rs 82-92: [write]. *)
Definition write (o : io) (e : wevent) (k : sink) : option serr * sink :=
  match k_poison k with
  | Some p => (Some p, Sink (k_out k) (k_tries k) (Some p) (k_log k ++ [NRefused p]))
  | None =>
      match o (k_tries k) with
      | Some m =>
          (Some (SMsg m),
           Sink (k_out k) (S (k_tries k)) (Some (SMsg m)) (k_log k ++ [NFailed (SMsg m)]))
      | None => (None, Sink (k_out k ++ [e]) (S (k_tries k)) None (k_log k ++ [NWrote e]))
      end
  end.

(** ser/mod.rs 94-96: [poison]. *)
Definition poison (e : serr) (k : sink) : sink :=
  Sink (k_out k) (k_tries k) (match k_poison k with Some p => Some p | None => Some e end)
    (k_log k ++ [NDropped e]).

(** ** Namespaces *)

(** ser/mod.rs 447-471: [Namespace]. *)
Record nsentry := NsEntry {
  q_prefix : string; q_assigned : option string; q_required : bool; q_needs : bool }.

(** ser/mod.rs 257-263: [NamespacesBuilder], by URL. *)
Definition nsbuilder := bmap nsentry.

(** ser/mod.rs 354-359: [Namespaces]. *)
Record namespaces := Namespaces { by_url : bmap nsentry; by_prefix : bmap string }.

(** xml-rs [Namespace::put]: does not overwrite. *)
Definition ns_put (p u : string) (m : bmap string) : bool * bmap string :=
  if bm_mem p m then (false, m) else (true, bm_insert p u m).

(** ser/mod.rs 270-294: [insert]. [dbg]: debug assertions are enabled. *)
Definition nb_insert (dbg : bool) (p u : string) (b : nsbuilder) : nsbuilder + abort :=
  if dbg && starts_with "xml" p then inr (Panic "prefix must not start with xml")
  else inl match bm_get u b with
       | None => bm_insert u (NsEntry p None true false) b
       | Some e => bm_insert u (NsEntry (if q_required e then q_prefix e else p) (q_assigned e)
                                  true (q_needs e)) b
       end.

(** ser/mod.rs 299-304: [attribute]. *)
Definition nb_attribute (u : string) (b : nsbuilder) : nsbuilder :=
  match bm_get u b with
  | Some e => bm_insert u (NsEntry (q_prefix e) (q_assigned e) true true) b
  | None => b
  end.

(** [format!("{}{}", prefix, i)] *)
Definition numbered (p : string) (i : nat) : string := (p ++ str_of (show_N (N.of_nat i)))%string.

(** ser/mod.rs 330-332: the loop looking for a free prefix ([i32] does not overflow: there are fewer
    than 2^31 prefixes). *)
Fixpoint pick (fuel : nat) (p : string) (i : nat) (u : string) (m : bmap string)
  : option (string * bmap string) :=
  match fuel with
  | O => None
  | S fuel' =>
      match ns_put (numbered p i) u m with
      | (true, m') => Some (numbered p i, m')
      | (false, _) => pick fuel' p (S i) u m
      end
  end.

(** ser/mod.rs 314-334: the first loop of [finalize], over the URLs in order. *)
Fixpoint assign_required (l : list (string * nsentry)) (m : bmap string)
  : option (list (string * nsentry) * bmap string) :=
  match l with
  | [] => Some ([], m)
  | (u, e) :: l' =>
      let step (e' : nsentry) (m' : bmap string) :=
        match assign_required l' m' with
        | Some (l'', m'') => Some ((u, e') :: l'', m'')
        | None => None
        end in
      if q_required e then
        let fallback (_ : unit) :=
          let '(p, i) := if String.eqb (q_prefix e) "" then ("ns"%string, 1) else (q_prefix e, 2) in
          match pick (S (List.length m)) p i u m with
          | Some (p', m') => step (NsEntry (q_prefix e) (Some p') (q_required e) (q_needs e)) m'
          | None => None
          end in
        if q_needs e && String.eqb (q_prefix e) "" then fallback tt
        else match ns_put (q_prefix e) u m with
             | (true, m') => step (NsEntry (q_prefix e) (Some (q_prefix e)) (q_required e) (q_needs e)) m'
             | (false, _) => fallback tt
             end
      else step e m
  end.

(** ser/mod.rs 337-345: the second loop. *)
Fixpoint assign_optional (l : list (string * nsentry)) (m : bmap string)
  : list (string * nsentry) * bmap string :=
  match l with
  | [] => ([], m)
  | (u, e) :: l' =>
      let '(e', m') :=
        if q_required e then (e, m)
        else match ns_put (q_prefix e) u m with
             | (true, m') => (NsEntry (q_prefix e) (Some (q_prefix e)) (q_required e) (q_needs e), m')
             | (false, _) => (e, m)
             end in
      let '(l'', m'') := assign_optional l' m' in
      ((u, e') :: l'', m'')
  end.

(** ser/mod.rs 307-351: [finalize].  [None]: the search for a free prefix does not end (it always
    does, see [C32]). *)
Definition finalize (b : nsbuilder) : option namespaces :=
  match assign_required b [] with
  | None => None
  | Some (b1, m1) => let '(b2, m2) := assign_optional b1 m1 in Some (Namespaces b2 m2)
  end.

(** ser/mod.rs 362-383: [child]; the loop over [by_prefix] in order. *)
Fixpoint child_loop (ns : string) (l : list (string * string)) (found : bool) (b : nsbuilder)
  : nsbuilder :=
  match l with
  | [] => b
  | (p, u) :: l' =>
      let required := negb found && String.eqb u ns in
      child_loop ns l' (found || required) (bm_insert u (NsEntry p None required false) b)
  end.
Definition ns_child (m : namespaces) (ns : string) : nsbuilder := child_loop ns (by_prefix m) false [].

(** ser/mod.rs 411-415, 438-442. *)
Definition prefixed (p : string) (local : string) : pname :=
  PName (if String.eqb p "" then None else Some p) local.

Definition undeclared : abort := Panic "uses undeclared namespace".
Definition default_set : abort :=
  Panic "not yet implemented: element has no namespace, but default namespace is set".

(** ser/mod.rs 385-417: [resolve_element]. *)
Definition resolve_element (m : namespaces) (n : xname) : pname + abort :=
  match bm_get (xn_ns n) (by_url m) with
  | Some (NsEntry _ (Some p) true _) => inl (prefixed p (xn_local n))
  | found =>
      match found with
      | None => if String.eqb (xn_ns n) XML_NS then inl (prefixed "xml" (xn_local n)) else
                if String.eqb (xn_ns n) "" then
                  match bm_get "" (by_prefix m) with
                  | None => inl (prefixed "" (xn_local n))
                  | Some _ => inr default_set
                  end
                else inr undeclared
      | Some _ => if String.eqb (xn_ns n) "" then
                    match bm_get "" (by_prefix m) with
                    | None => inl (prefixed "" (xn_local n))
                    | Some _ => inr default_set
                    end
                  else inr undeclared
      end
  end.

(** ser/mod.rs 419-444: [resolve_attribute]. *)
Definition resolve_attribute (m : namespaces) (n : xname) : pname + abort :=
  if String.eqb (xn_ns n) "" then inl (prefixed "" (xn_local n))
  else match bm_get (xn_ns n) (by_url m) with
       | Some e =>
           match q_assigned e with
           | Some p => if String.eqb p "" then inr undeclared else inl (prefixed p (xn_local n))
           | None => inr undeclared
           end
       | None => if String.eqb (xn_ns n) XML_NS then inl (prefixed "xml" (xn_local n))
                 else inr undeclared
       end.

Fixpoint resolve_attributes (m : namespaces) (l : list (xname * string))
  : list (pname * string) + abort :=
  match l with
  | [] => inl []
  | (n, v) :: l' =>
      match resolve_attribute m n with
      | inr x => inr x
      | inl p => match resolve_attributes m l' with
                 | inl l'' => inl ((p, v) :: l'')
                 | inr x => inr x
                 end
      end
  end.

(** ** Builders and writers *)

(** ser/mod.rs 107-117: [ElementBuilderInner]. *)
Record bstate := BState {
  b_name : xname; b_ns : nsbuilder; b_attrs : list (xname * string); b_seen : list xname }.

(** ser/mod.rs 120-126: [namespace]. *)
Definition builder_namespace (dbg : bool) (p u : string) (b : bstate) : bstate + abort :=
  match nb_insert dbg p u (b_ns b) with
  | inl n => inl (BState (b_name b) n (b_attrs b) (b_seen b))
  | inr x => inr x
  end.

(** ser/mod.rs 132-153: [attribute]. *)
Definition builder_attribute (n : xname) (v : string) (b : bstate) : (option serr * bstate) + abort :=
  if existsb (xn_eqb n) (b_seen b) then
    match find (fun a => xn_eqb (fst a) n) (b_attrs b) with
    | Some (_, old) => inl (Some (SDuplicate n old v), b)
    | None => inr (Panic "called `Option::unwrap()` on a `None` value")
    end
  else
    inl (None, BState (b_name b) (nb_attribute (xn_ns n) (b_ns b)) (b_attrs b ++ [(n, v)]) (n :: b_seen b)).

(** ser/mod.rs 161-188: [start].  The arguments of [write] are evaluated first, so an undeclared
    namespace panics even when the writer is poisoned. *)
Definition builder_start (o : io) (b : bstate) (k : sink)
  : ((namespaces + serr) * sink) + abort :=
  match finalize (b_ns b) with
  | None => inr Diverge
  | Some m =>
      match resolve_element m (b_name b) with
      | inr x => inr x
      | inl p =>
          match resolve_attributes m (b_attrs b) with
          | inr x => inr x
          | inl attrs =>
              match write o (WStart p attrs (by_prefix m)) k with
              | (None, k') => inl (inl m, k')
              | (Some e, k') => inl (inr e, k')
              end
          end
      end
  end.

(** ser/mod.rs 215-227: [element]. *)
Definition writer_element (m : namespaces) (n : xname) : bstate :=
  BState n (ns_child m (xn_ns n)) [] [].

(** ** Programs *)

(** [Serialize::write_attributes]: code holding [&mut ElementBuilder]. [None] is [Ok(())]. *)
Inductive aprog :=
| ARet (r : option serr)
| ANs (p u : string) (a : aprog)
| AAttr (n : xname) (v : string) (k : option serr -> aprog)
| APanic (m : string).

(** [Serialize::write_children]: code holding [&mut ElementWriter] of the element itself ([wprog 0]),
    or additionally owning the writers of [d] nested elements ([wprog d]). [bprog d]: code also owning
    the builder of one more. *)
Inductive wprog : nat -> Type :=
| WRet (r : option serr) : wprog 0
| WText {d} (s : string) (k : option serr -> wprog d) : wprog d
| WElem {d} (n : xname) (b : bprog d) : wprog d
| WFinish {d} (k : option serr -> wprog d) : wprog (S d)
| WDrop {d} (k : wprog d) : wprog (S d)
| WPanic {d} (m : string) : wprog d
with bprog : nat -> Type :=
| BNs {d} (p u : string) (b : bprog d) : bprog d
| BAttr {d} (n : xname) (v : string) (k : option serr -> bprog d) : bprog d
| BDrop {d} (k : wprog d) : bprog d
| BStart {d} (k : wprog (S d)) (ke : serr -> wprog d) : bprog d
| BPanic {d} (m : string) : bprog d.

(** Calling [write_attributes] of some type on an owned builder. *)
Fixpoint embed {d} (a : aprog) (k : option serr -> bprog d) : bprog d :=
  match a with
  | ARet r => k r
  | ANs p u a' => BNs p u (embed a' k)
  | AAttr n v f => BAttr n v (fun r => embed (f r) k)
  | APanic m => BPanic m
  end.

Section Run.
  Context (dbg : bool) (o : io).

  Fixpoint run_a (a : aprog) (b : bstate) : (option serr * bstate) + abort :=
    match a with
    | ARet r => inl (r, b)
    | ANs p u a' =>
        match builder_namespace dbg p u b with
        | inl b' => run_a a' b'
        | inr x => inr x
        end
    | AAttr n v f =>
        match builder_attribute n v b with
        | inl (r, b') => run_a (f r) b'
        | inr x => inr x
        end
    | APanic m => inr (Panic m)
    end.

  (** [nss]: the namespaces of the open elements, the innermost first. *)
  Fixpoint run_w {d} (p : wprog d) (nss : list namespaces) (k : sink) : (option serr * sink) + abort :=
    match p with
    | WRet r => inl (r, k)
    | WText s f => let '(r, k') := write o (WChars s) k in run_w (f r) nss k'
    | WElem n b =>
        match nss with
        | m :: _ => run_b b (writer_element m n) nss k
        | [] => inr (Panic "unreachable")
        end
    | WFinish f => let '(r, k') := write o WEnd k in run_w (f r) (tl nss) k'
    | WDrop p' => run_w p' (tl nss) (poison writer_dropped k)
    | WPanic m => inr (Panic m)
    end
  with run_b {d} (q : bprog d) (b : bstate) (nss : list namespaces) (k : sink)
    : (option serr * sink) + abort :=
    match q with
    | BNs p u q' =>
        match builder_namespace dbg p u b with
        | inl b' => run_b q' b' nss k
        | inr x => inr x
        end
    | BAttr n v f =>
        match builder_attribute n v b with
        | inl (r, b') => run_b (f r) b' nss k
        | inr x => inr x
        end
    | BDrop p => run_w p nss (poison builder_dropped k)
    | BStart p pe =>
        match builder_start o b k with
        | inr x => inr x
        | inl (inl m, k') => run_w p (m :: nss) k'
        | inl (inr e, k') => run_w (pe e) nss k'
        end
    | BPanic m => inr (Panic m)
    end.

  (** A [Serialize] implementation applied to a value. *)
  Record serialize := Ser { s_attrs : aprog; s_kids : wprog 0 }.

  (** ser/mod.rs 694-717: [Serializer::to].  An early return drops the builder or writer, which
      poisons the writer; that writer is then dropped, too. *)
  Definition to (name : xname) (v : serialize) : (option serr * sink) + abort :=
    match run_a (s_attrs v) (BState name [] [] []) with
    | inr x => inr x
    | inl (Some e, _) => inl (Some e, poison builder_dropped sink0)
    | inl (None, b) =>
        match builder_start o b sink0 with
        | inr x => inr x
        | inl (inr e, k) => inl (Some e, k)
        | inl (inl m, k) =>
            match run_w (s_kids v) [m] k with
            | inr x => inr x
            | inl (Some e, k') => inl (Some e, poison writer_dropped k')
            | inl (None, k') => inl (write o WEnd k')
            end
        end
    end.
End Run.
