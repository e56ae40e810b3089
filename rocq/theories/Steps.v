(** How much work the library does.

    The algorithms of Find.v, Normalize.v and Ser.v are written down again, each with the number of its basic steps:
    comparisons of names, bytes looked at, written or moved, prefixes tried.  The loops of Reader.v that call visitors are written
    down again with a list of the calls they make.  StepsProofs.v shows that the results are the same.

    Simplified: the time of one such step, and of allocations, is not modelled; nor is that of xml-rs. *)
From Verif Require Import Base Text Types Find Reader DeriveDe.
From Verif Require Normalize Ser.

(** ** Looking up names: de/mod.rs 948-956 *)

Definition along {A B} (b : B) (x : A * list B) : A * list B := (fst x, b :: snd x).

(** [bisect], with the positions of the names it compares. *)
Fixpoint bisect_c {A} (cmp : A -> comparison) (l : list A) (fuel left right : nat) : option nat * list nat :=
  match fuel with
  | O => (None, [])
  | S fuel' =>
      if Nat.ltb left right then
        let mid := left + Nat.div2 (right - left) in
        match nth_error l mid with
        | None => (None, [])
        | Some x =>
            along mid match cmp x with
                      | Lt => bisect_c cmp l fuel' (S mid) right
                      | Gt => bisect_c cmp l fuel' left mid
                      | Eq => (Some mid, [])
                      end
        end
      else (None, [])
  end.

(** [branchless] *)
Fixpoint branchless_c {A} (cmp : A -> comparison) (l : list A) (fuel base size : nat) : option nat * list nat :=
  match fuel with
  | O => (None, [])
  | S fuel' =>
      if Nat.ltb 1 size then
        let half := Nat.div2 size in
        let mid := base + half in
        match nth_error l mid with
        | None => (None, [])
        | Some x => along mid (branchless_c cmp l fuel' (match cmp x with Gt => base | _ => mid end) (size - half))
        end
      else
        match nth_error l base with
        | Some x => along base (match cmp x with Eq => Some base | _ => None end, [])
        | None => (None, [])
        end
  end.

Definition find_c (alg : bs_alg) (name : xname) (table : list xname) : option nat * list nat :=
  let cmp x := xn_compare x name in
  let n := List.length table in
  match alg with
  | Bisect => bisect_c cmp table (S n) 0 n
  | Branchless => if Nat.eqb n 0 then (None, []) else branchless_c cmp table (S n) 0 n
  end.

(** ** Normalizing white space: de/mod.rs 838-891 *)

(** A step, and what is done next. *)
Definition once {A} (x : A * nat) : A * nat := (fst x, S (snd x)).
Definition cost {A} (n : nat) (x : A * nat) : A * nat := (fst x, n + snd x).
Definition andthen {E A B} (x : res E A * nat) (f : A -> res E B * nat) : res E B * nat :=
  match fst x with
  | Ok a => cost (snd x) (f a)
  | Err e => (Err e, snd x)
  | Abort y => (Abort y, snd x)
  end.

Definition get_n v i : res Empty_set ascii * nat := (Normalize.get v i, 1).
Definition put_n v i b : res Empty_set (list ascii) * nat := (Normalize.put v i b, 1).
Definition copy_n v s e dest : res Empty_set (list ascii) * nat := (Normalize.copy_within v s e dest, e - s).

(** 849-851 *)
Fixpoint trim_n (v : list ascii) (e : nat) : res Empty_set nat * nat :=
  match e with
  | O => (Ok 0, 0)
  | S e' => andthen (get_n v e') (fun b => if Normalize.is_ws b then trim_n v e' else (Ok e, 0))
  end.

(** 852-856: the bytes looked at are those counted and the one after them. *)
Fixpoint count_n (l : list ascii) : nat * nat :=
  match l with
  | b :: l' => if Normalize.is_ws b then let (n, k) := count_n l' in (S n, S k) else (0, 1)
  | [] => (0, 0)
  end.

(** 868-870 *)
Fixpoint scan_n (fuel : nat) (v : list ascii) (e next_start : nat) : res Empty_set nat * nat :=
  match fuel with
  | O => (Abort Diverge, 0)
  | S fuel' =>
      if Nat.ltb next_start e
      then andthen (get_n v next_start) (fun b =>
             if Normalize.is_ws b then scan_n fuel' v e (S next_start) else (Ok next_start, 0))
      else (Ok next_start, 0)
  end.

(** 861-879 *)
Fixpoint main_n (fuel : nat) (collapse : bool) (e : nat) (st : Normalize.nstate) : res Empty_set Normalize.nstate * nat :=
  match fuel with
  | O => (Abort Diverge, 0)
  | S fuel' =>
      let '(v, outp, cs, ce) := st in
      if Nat.ltb ce e then
        let p := ce in
        let ce := S ce in
        andthen (get_n v p) (fun b =>
          if Normalize.is_ws b then
            andthen (put_n v p Normalize.space) (fun v =>
              if collapse then
                andthen (scan_n (S e) v e ce) (fun next_start =>
                  if Nat.ltb ce next_start then
                    andthen (copy_n v cs ce outp) (fun v =>
                      main_n fuel' collapse e (v, outp + (ce - cs), next_start, next_start))
                  else main_n fuel' collapse e (v, outp, cs, ce))
              else main_n fuel' collapse e (v, outp, cs, ce))
          else main_n fuel' collapse e (v, outp, cs, ce))
      else (Ok st, 0)
  end.

(** 838-891 *)
Definition normalize_n (v : list ascii) (w : Normalize.whitespace) : res Empty_set (list ascii) * nat :=
  match w with
  | Normalize.Preserve => (Ok v, 0)
  | _ =>
      let collapse := match w with Normalize.Collapse => true | _ => false end in
      let e0 := List.length v in
      andthen (if collapse
               then andthen (trim_n v e0) (fun e => let (n, k) := count_n (firstn e v) in (Ok (e, n), k))
               else (Ok (e0, 0), 0))
        (fun '(e, start) =>
           andthen (main_n (S e) collapse e (v, 0, start, start))
             (fun '(v, outp, cs, ce) =>
                if Nat.ltb outp cs
                then andthen (copy_n v cs ce outp) (fun v => (Ok (firstn (outp + (ce - cs)) v), 0))
                else (Ok (firstn e v), 0)))
  end.

(** ** Choosing prefixes: ser/mod.rs 307-351 *)

(** The prefixes tried in the loop in lines 330-332. *)
Fixpoint pick_n (fuel : nat) (p : string) (i : nat) (u : string) (m : bmap string) : option (string * bmap string) * nat :=
  match fuel with
  | O => (None, 0)
  | S fuel' =>
      once match Ser.ns_put (Ser.numbered p i) u m with
           | (true, m') => (Some (Ser.numbered p i, m'), 0)
           | (false, _) => pick_n fuel' p (S i) u m
           end
  end.

(** 314-334 *)
Fixpoint required_n (l : list (string * Ser.nsentry)) (m : bmap string)
  : option (list (string * Ser.nsentry) * bmap string) * nat :=
  match l with
  | [] => (Some ([], m), 0)
  | (u, e) :: l' =>
      let step (e' : Ser.nsentry) (m' : bmap string) :=
        match required_n l' m' with
        | (Some (l'', m''), n) => (Some ((u, e') :: l'', m''), n)
        | (None, n) => (None, n)
        end in
      if Ser.q_required e then
        let fallback (_ : unit) :=
          let '(p, i) := if String.eqb (Ser.q_prefix e) "" then ("ns"%string, 1) else (Ser.q_prefix e, 2) in
          match pick_n (S (List.length m)) p i u m with
          | (Some (p', m'), n) =>
              cost n (step (Ser.NsEntry (Ser.q_prefix e) (Some p') (Ser.q_required e) (Ser.q_needs e)) m')
          | (None, n) => (None, n)
          end in
        if Ser.q_needs e && String.eqb (Ser.q_prefix e) "" then fallback tt
        else once match Ser.ns_put (Ser.q_prefix e) u m with
                  | (true, m') => step (Ser.NsEntry (Ser.q_prefix e) (Some (Ser.q_prefix e)) (Ser.q_required e) (Ser.q_needs e)) m'
                  | (false, _) => fallback tt
                  end
      else step e m
  end.

(** 337-345 *)
Fixpoint optional_n (l : list (string * Ser.nsentry)) (m : bmap string) : (list (string * Ser.nsentry) * bmap string) * nat :=
  match l with
  | [] => (([], m), 0)
  | (u, e) :: l' =>
      let '(e', m', n) :=
        if Ser.q_required e then (e, m, 0)
        else match Ser.ns_put (Ser.q_prefix e) u m with
             | (true, m') => (Ser.NsEntry (Ser.q_prefix e) (Some (Ser.q_prefix e)) (Ser.q_required e) (Ser.q_needs e), m', 1)
             | (false, _) => (e, m, 1)
             end in
      let '((l'', m''), k) := optional_n l' m' in
      (((u, e') :: l'', m''), n + k)
  end.

(** 307-351 *)
Definition finalize_n (b : Ser.nsbuilder) : option Ser.namespaces * nat :=
  match required_n b [] with
  | (None, n) => (None, n)
  | (Some (b1, m1), n) => let '((b2, m2), k) := optional_n b1 m1 in (Some (Ser.Namespaces b2 m2), n + k)
  end.

(** ** Calling visitors: de/mod.rs 540-637 *)

Inductive call (St : Type) :=
| CAttribute (s : St) (name : xname) (value : string)
| CElement (s : St) (i : einfo)
| CCharacters (s : St) (str : string) (p : position).
Arguments CAttribute {St} s name value.
Arguments CElement {St} s i.
Arguments CCharacters {St} s str p.

Section ReadTo.
  Context {St : Type} (dbg : bool) (V : visitors St).

  (** 557-565 *)
  Fixpoint attrs_c (stack : list selem) (p : position) (attrs : list attr) (s : St) : res error unit * St * list (call St) :=
    match attrs with
    | [] => (Ok tt, s, [])
    | a :: attrs' =>
        let c := CAttribute s (from_xml_name (a_name a)) (a_value a) in
        match v_attribute V s (from_xml_name (a_name a)) (a_value a) with
        | (Ok _, s') => let (r, l) := attrs_c stack p attrs' s' in (r, c :: l)
        | (Err e, s') => (Err (wrap e stack p), s', [c])
        | (Abort x, s') => (Abort x, s', [c])
        end
    end.

  Definition run_c {A} (body : nat -> nsmap -> St -> rstate -> res error endinfo * St * rstate * list (call St))
    (sp : nat) (attrs : list attr) (ns : nsmap) (act : action St A) (r : rstate)
    : (A + abort) * rstate * list (call St) :=
    match act with
    | ANoRead a => (inl a, r, [])
    | AReadString k =>
        match read_string dbg sp r with
        | (Ok s, r') => (inl (k (inl s)), r', [])
        | (Err e, r') => (inl (k (inr (Propagate e))), r', [])
        | (Abort x, r') => (inr x, r', [])
        end
    | AReadTo s0 k =>
        match nth_error (r_stack r) sp with
        | None => (inr (Panic "index out of bounds"), r, [])
        | Some el =>
            match attrs_c (r_stack r) (se_pos el) attrs s0 with
            | (Ok _, s1, l) =>
                match body sp ns s1 r with
                | (Ok i, s2, r', l') => (inl (k (inl i) s2), r', l ++ l')
                | (Err e, s2, r', l') => (inl (k (inr (Propagate e)) s2), r', l ++ l')
                | (Abort x, _, r', l') => (inr x, r', l ++ l')
                end
            | (Err e, s1, l) => (inl (k (inr (Propagate e)) s1), r, l)
            | (Abort x, _, l) => (inr x, r, l)
            end
        end
    end.

  (** 566-602 *)
  Fixpoint loop_c (fuel : nat) (sp : nat) (ns : nsmap) (s : St) (r : rstate)
    : res error endinfo * St * rstate * list (call St) :=
    match fuel with
    | O => (Abort Diverge, s, r, [])
    | S fuel' =>
        if stack_check dbg sp r then
          match next dbg r with
          | (Ok (EvStart attrs ns', p), r1) =>
              match nth_error (r_stack r1) (S sp) with
              | None => (Abort (Panic "index out of bounds"), s, r1, [])
              | Some el =>
                  let child := EInfo (se_name el) ns' (S (S sp)) in
                  let c := CElement s child in
                  match run_c (loop_c fuel') (S sp) attrs ns' (v_element V s child) r1 with
                  | (inr x, r2, l) => (Abort x, s, r2, c :: l)
                  | (inl (Abort x, s'), r2, l) => (Abort x, s', r2, c :: l)
                  | (inl (Err e, s'), r2, l) => (Err (wrap e (r_stack r2) p), s', r2, c :: l)
                  | (inl (Ok _, s'), r2, l) =>
                      match return_to_depth dbg (S sp) r2 with
                      | (Ok _, r3) => let (x, l') := loop_c fuel' sp ns s' r3 in (x, c :: l ++ l')
                      | (Err e, r3) => (Err e, s', r3, c :: l)
                      | (Abort x, r3) => (Abort x, s', r3, c :: l)
                      end
                  end
              end
          | (Ok (EvEnd name, p), r1) => (Ok (name, ns, p), s, r1, [])
          | (Ok (EvChars str, p), r1) =>
              let c := CCharacters s str p in
              match v_characters V s str p with
              | (Ok _, s') => let (x, l) := loop_c fuel' sp ns s' r1 in (x, c :: l)
              | (Err m, s') => (Err (Error (EDeserializer m) (r_stack r1) p), s', r1, [c])
              | (Abort x, s') => (Abort x, s', r1, [c])
              end
          | (Err e, r1) => (Err e, s, r1, [])
          | (Abort x, r1) => (Abort x, s, r1, [])
          end
        else (Abort stack_panic, s, r, [])
    end.

  (** 260-269 *)
  Definition read_c {T} (D : einfo -> action St (res verr T)) (r : rstate) : res error T * list (call St) :=
    match root dbg r with
    | (Err e, _) => (Err e, [])
    | (Abort x, _) => (Abort x, [])
    | (Ok (attrs, ns), r1) =>
        match nth_error (r_stack r1) 0 with
        | None => (Abort (Panic "index out of bounds"), [])
        | Some el =>
            match run_c (loop_c (S (List.length (r_src r1)))) 0 attrs ns (D (EInfo (se_name el) ns 1)) r1 with
            | (inr x, _, l) => (Abort x, l)
            | (inl (Abort x), _, l) => (Abort x, l)
            | (inl (Err e), r2, l) => (Err (wrap e (r_stack r2) (r_pos r2)), l)
            | (inl (Ok v), r2, l) =>
                (match end_ dbg r2 with
                 | Ok _ => Ok v
                 | Err e => Err e
                 | Abort x => Abort x
                 end, l)
            end
        end
    end.
End ReadTo.

(** ** The tables that derived visitors look names up in *)

Section Derived.
  Context (alg : bs_alg).

  (** deserialize.rs 415-431: an enum's visitor looks every name up.  It takes the child if it has its variant already, or if the
      name is that of one of its variants. *)
  Definition enum_table (e : estate) : list xname := variant_table (e_variants e).
  Definition takes (e : estate) (n : xname) : bool :=
    e_init e || match find alg n (enum_table e) with Some _ => true | None => false end.

  (** de/mod.rs 893-910: flattened fields are asked until one takes the child. *)
  Fixpoint asked (ss : list slot) (n : xname) : list (xname * list xname) :=
    match ss with
    | [] => []
    | SField _ _ :: ss' => asked ss' n
    | SFlat e :: ss' => (n, enum_table e) :: if takes e n then [] else asked ss' n
    end.

  (** deserialize.rs 289-303: the names looked up in a call, and the tables.  Flattened enums do not look at attributes. *)
  Definition looked_up (c : call vstate) : list (xname * list xname) :=
    match c with
    | CElement s i =>
        let n := from_xml_name (ei_name i) in
        match vs_kind s with
        | VkStruct fs ss =>
            let t := table (sorted_fields is_element fs) in
            (n, t) :: match find alg n t with Some _ => [] | None => asked ss n end
        | VkEnum e => [(n, enum_table e)]
        end
    | CAttribute s n _ =>
        match vs_kind s with
        | VkStruct fs _ => [(n, table (sorted_fields is_attribute fs))]
        | VkEnum _ => []
        end
    | CCharacters _ _ _ => []
    end.

  (** The comparisons of names for a call. *)
  Definition comparisons (c : call vstate) : nat :=
    list_sum (map (fun '(n, t) => List.length (snd (find_c alg n t))) (looked_up c)).
End Derived.
