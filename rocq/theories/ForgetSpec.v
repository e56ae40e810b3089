(** Programs that forget no writer; and what they do, as programs that forget nothing and catch nothing. *)
From Verif Require Import Base Text Ser SerSpec Forget.

Fixpoint keeps_writers {d} (p : uprog d) : Prop :=
  match p with
  | URet _ | UPanic _ => True
  | UText _ g => forall r, keeps_writers (g r)
  | UElem _ b => keeps_writers_b b
  | UFinish g => forall r, keeps_writers (g r)
  | UDrop p' => keeps_writers p'
  | UForget _ => False
  end
with keeps_writers_b {d} (q : ubprog d) : Prop :=
  match q with
  | UBNs _ _ q' c => keeps_writers_b q' /\ keeps_writers_b c
  | UBAttr _ _ g => forall r, keeps_writers_b (g r)
  | UBDrop p | UBForget p => keeps_writers p
  | UBStart p pe c => keeps_writers p /\ (forall e, keeps_writers (pe e)) /\ keeps_writers c
  | UBPanic _ => True
  end.

(** Calls of a builder's methods, as the program made them. *)
Inductive call := CNs (p u : string) | CAttr (n : xname) (v : string).
Fixpoint calls {d} (l : list call) (q : bprog d) : bprog d :=
  match l with
  | [] => q
  | CNs p u :: l' => BNs p u (calls l' q)
  | CAttr n v :: l' => BAttr n v (fun _ => calls l' q)
  end.

Section Without.
  Context (dbg : bool).

  (** The namespaces of an element, or how [start] panics. *)
  Definition starts (b : bstate) : namespaces + abort :=
    match finalize (b_ns b) with
    | None => inr Diverge
    | Some m =>
        match resolve_element m (b_name b) with
        | inr x => inr x
        | inl _ => match resolve_attributes m (b_attrs b) with inr x => inr x | inl _ => inl m end
        end
    end.

  (** The same program without the elements whose builder is forgotten, or whose [start] panics, and without
      the calls of [namespace] that panic. [l]: the calls to the builder that is open, in order. *)
  Fixpoint plain {d} (p : uprog d) (nss : list namespaces) : wprog d :=
    match p with
    | URet r => WRet r
    | UText s g => WText s (fun r => plain (g r) nss)
    | UElem n b =>
        match nss with
        | m :: _ => plain_b b n [] (writer_element m n) nss
        | [] => WPanic "unreachable"
        end
    | UFinish g => WFinish (fun r => plain (g r) (tl nss))
    | UDrop p' => WDrop (plain p' (tl nss))
    | UForget p' => WDrop (plain p' (tl nss))
    | UPanic m => WPanic m
    end
  with plain_b {d} (q : ubprog d) (n : xname) (l : list call) (b : bstate) (nss : list namespaces) : wprog d :=
    match q with
    | UBNs p u q' c =>
        match builder_namespace dbg p u b with
        | inl b' => plain_b q' n (l ++ [CNs p u]) b' nss
        | inr _ => plain_b c n l b nss
        end
    | UBAttr a v g =>
        match builder_attribute a v b with
        | inl (r, b') => plain_b (g r) n (l ++ [CAttr a v]) b' nss
        | inr (Panic m) => WPanic m
        | inr _ => WPanic "unreachable"
        end
    | UBDrop p => WElem n (calls l (BDrop (plain p nss)))
    | UBForget p => plain p nss
    | UBStart p pe c =>
        match starts b with
        | inl m => WElem n (calls l (BStart (plain p (m :: nss)) (fun e => plain (pe e) nss)))
        | inr Diverge => WElem n (calls l (BStart (WPanic "unreachable") (fun _ => WPanic "unreachable")))
        | inr _ => plain c nss
        end
    | UBPanic m => WPanic m
    end.

  Fixpoint plain_a (a : uaprog) : aprog :=
    match a with
    | UARet r => ARet r
    | UANs p u a' c => if dbg && starts_with "xml" p then plain_a c else ANs p u (plain_a a')
    | UAAttr n v f => AAttr n v (fun r => plain_a (f r))
    | UAPanic m => APanic m
    end.

  (** [nss]: those of the root, if it can be started. *)
  Definition plain_ser (name : xname) (v : userialize) : serialize :=
    Ser (plain_a (u_attrs v))
      match run_ua dbg (u_attrs v) (BState name [] [] []) with
      | inl (None, b) => match starts b with inl m => plain (u_kids v) [m] | inr _ => WRet None end
      | _ => WRet None
      end.
End Without.

(** Start and end tags. *)
Definition count_starts (l : list wevent) : nat := List.length (filter (fun e => match e with WStart _ _ _ => true | _ => false end) l).
Definition count_ends (l : list wevent) : nat := List.length (filter (fun e => match e with WEnd => true | _ => false end) l).
