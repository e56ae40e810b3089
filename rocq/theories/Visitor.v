(** The visitors generated for derived types, in the hands of other code.

    [RawDeserializeVisitor] (static-xml/src/de/mod.rs 709-720) is an unsafe trait: its implementations promise that
    after an [Ok] of [finalize] the value is initialized.  But [new], [finalize] and the methods of [ElementVisitor] are
    safe functions.  Hand-written code can make a visitor of a derived type (that of an enum is its
    [RawDeserialize::Visitor]; that of a struct can be named in the same module), read elements into it or call its
    methods itself in any order, go on with it after errors, and catch panics that come out of it.

    A visitor can be made, called and finalized, nothing else; so here it is the list of the calls made.  (It can be
    moved and swapped with another one, too; then the memory it fills goes with it.) *)
From Verif Require Import Base Normalize Text Find Types Reader DeriveDe DeriveMixed Catch.

(** The methods of [ElementVisitor] (de/mod.rs 777-820).  [r]: what [T::deserialize] comes to for the child, if it is called. *)
Inductive vcall :=
| CallAttribute (n : xname) (v : string)
| CallCharacters (s : string) (p : position)
| CallElement (i : einfo) (r : res verr value).

(** [RawDeserializeVisitor::new] (de/mod.rs 713-714; deserialize.rs 312-318, 439-446) and the calls made since. *)
Record dvisitor := DVisitor { dv_type : nat; dv_calls : list vcall }.

Definition called (w : dvisitor) (c : vcall) : dvisitor := DVisitor (dv_type w) (dv_calls w ++ [c]).

(** [finalize] (de/mod.rs 716-719) and then [assume_init].  [default]: what the function given as the default returns,
    or the message it panics with.  Structs ignore it (deserialize.rs 320-330); enums: 448-461. *)
Definition finalize_with (default : option (value + string)) (s : vstate) : res verr value :=
  match vs_kind s with
  | VkStruct _ _ => fst (finalize s)
  | VkEnum e =>
      if e_init e then match e_mem e with Some v => Ok v | None => Abort UB end
      else
        match default with
        | None => Err (cant_be_empty (e_ident e))
        | Some (inr m) => Abort (Panic m)
        | Some (inl v) => bind (write_mem (e_mem e) v) (fun mem => match mem with Some v => Ok v | None => Abort UB end)
        end
  end.

Section Visitor.
  Context (o : oracles) (alg : bs_alg) (env : tenv).

  (** [ElementVisitor::element] (deserialize.rs 193-224, 284-293 and 344-435) if [T::deserialize], called for the child,
      comes to [r]. *)
  Definition element_reply (s : vstate) (i : einfo) (r : res verr value) : res verr bool * vstate :=
    match gelement (St := unit) alg (fun _ _ => ANoRead (r, [])) s i with
    | ANoRead a => a
    | _ => (Abort ill_typed, s)
    end.

  (** The type whose [deserialize] it calls for the child. *)
  Definition asks (s : vstate) (i : einfo) : option ety :=
    match gelement (St := ety) alg (fun t _ => AReadTo t (fun _ _ => (Err (Wrap ""), []))) s i with
    | AReadTo t _ => Some t
    | _ => None
    end.

  (** The visitor after a call, whatever the call returned. *)
  Definition after (s : vstate) (c : vcall) : vstate :=
    match c with
    | CallAttribute n v => snd (v_attribute (derived o alg env) s n v)
    | CallCharacters str p => snd (v_characters (derived o alg env) s str p)
    | CallElement i r => snd (element_reply s i r)
    end.

  (** The state of the visitor after its calls.  [None]: there is no such type. *)
  Definition state_of (w : dvisitor) : option vstate :=
    option_map (fold_left after (dv_calls w)) (new_visitor env (dv_type w)).

  (** What the methods return (de/mod.rs 777-820), and [finalize]. *)
  Definition reply_attribute (w : dvisitor) (n : xname) (v : string) : res verr (option string) :=
    match state_of w with
    | Some s => fst (v_attribute (derived o alg env) s n v)
    | None => Abort ill_typed
    end.

  Definition reply_characters (w : dvisitor) (str : string) (p : position) : res string (option string) :=
    match state_of w with
    | Some s => fst (v_characters (derived o alg env) s str p)
    | None => Abort ill_typed
    end.

  Definition reply_element (w : dvisitor) (i : einfo) (r : res verr value) : res verr bool :=
    match state_of w with
    | Some s => fst (element_reply s i r)
    | None => Abort ill_typed
    end.

  Definition reply_finalize (w : dvisitor) (default : option (value + string)) : res verr value :=
    match state_of w with
    | Some s => finalize_with default s
    | None => Abort ill_typed
    end.
End Visitor.

(** ** Programs with such code *)

(** A decision about an [ElementReader] (de/mod.rs 506-639; [uaction] in DeriveMixed.v, [caction] in Catch.v): also [read_to] with a derived
    visitor, and [w.element(child)], which may hand the child back unread; then something else can be done with it. *)
Inductive haction (U A : Type) :=
| HNoRead (a : A)
| HReadString (k : string + failure -> A)
| HReadTo (u0 : U) (k : endinfo + failure -> U -> A)
| HReadDerived (w0 : dvisitor) (k : endinfo + failure -> dvisitor -> A)
| HElement (w : dvisitor) (back : dvisitor -> haction U A) (k : unit + failure -> dvisitor -> A)
| HDeserialize (t : ety) (k : value + failure -> A).
Arguments HNoRead {U A} a.
Arguments HReadString {U A} k.
Arguments HReadTo {U A} u0 k.
Arguments HReadDerived {U A} w0 k.
Arguments HElement {U A} w back k.
Arguments HDeserialize {U A} t k.

(** See [user] (de/mod.rs 666-668, 777-820).  The methods that do not read (and [finalize]) hand-written code can call wherever it likes:
    [reply_attribute], [reply_characters] and [reply_finalize] are functions. *)
Record huser (U : Type) := HUserCode {
  h_type : nat -> option (einfo -> haction U (res verr value));
  h_attribute : U -> xname -> string -> res verr (option string) * U;
  h_characters : U -> string -> position -> res string (option string) * U;
  h_element : U -> einfo -> haction U (res verr bool * U);
}.
Arguments HUserCode {U} _ _ _ _.
Arguments h_type {U} _.
Arguments h_attribute {U} _.
Arguments h_characters {U} _.
Arguments h_element {U} _.

Inductive hstate (U : Type) := HDerived (w : dvisitor) | HUser (u : U).
Arguments HDerived {U} w.
Arguments HUser {U} u.

Definition camap {St A B} (f : A -> B) (act : caction St A) : caction St B :=
  match act with
  | CNoRead a => CNoRead (f a)
  | CReadString k => CReadString (fun x => f (k x))
  | CReadTo s k => CReadTo s (fun x s' => f (k x s'))
  end.

(** [overwritten] and [ill_typed] are not panics of the program; nobody catches them. *)
Definition is_panic (x : abort) : option string :=
  match x with
  | Panic m => if String.eqb m "live value overwritten" || String.eqb m "does not compile" then None else Some m
  | _ => None
  end.

(** A call of hand-written code that may fail: [k] gets the panic it catches (and may panic itself). *)
Definition catching {A X} (ab : abort -> A) (k : X + failure -> A) (r : res verr X) : A :=
  match r with
  | Ok v => k (inl v)
  | Err e => k (inr (Failed e))
  | Abort x => match is_panic x with Some m => k (inr (Panicked m)) | None => ab x end
  end.

Definition as_res {X} (x : X + failure) : res verr X :=
  match x with inl v => Ok v | inr (Failed e) => Err e | inr (Panicked m) => Abort (Panic m) end.

Section Program.
  Context {U : Type} (o : oracles) (alg : bs_alg) (env : tenv) (P : huser U).

  Section Nested.
    (** [T::deserialize]. *)
    Context (des : ety -> einfo -> caction (hstate U) (res verr value)).

    (** [w.element(child)]: what it returns, and the visitor afterwards.  Derived code catches no panics. *)
    Definition call_element (w : dvisitor) (i : einfo) : caction (hstate U) (res verr bool * dvisitor) :=
      let reply r := (reply_element o alg env w i r, called w (CallElement i r)) in
      match state_of o alg env w with
      | None => CNoRead (reply (Abort ill_typed))
      | Some s =>
          match asks alg s i with
          | None => CNoRead (reply (Err (Wrap "")))
          | Some t => camap reply (des t i)
          end
      end.

    Fixpoint hlower {A} (ab : abort -> A) (i : einfo) (act : haction U A) : caction (hstate U) A :=
      match act with
      | HNoRead a => CNoRead a
      | HReadString k => CReadString (fun x => catching ab k (as_res x))
      | HReadTo u0 k => CReadTo (HUser u0) (fun x s =>
          match s with HUser u => catching ab (fun x => k x u) (as_res x) | HDerived _ => ab ill_typed end)
      | HReadDerived w0 k => CReadTo (HDerived w0) (fun x s =>
          match s with HDerived w => catching ab (fun x => k x w) (as_res x) | HUser _ => ab ill_typed end)
      | HElement w back k =>
          match call_element w i with
          | CNoRead (Ok true, w') => hlower ab i (back w')
          | c => camap (fun '(r, w') => catching ab (fun x => k x w') (map_ok (fun _ => tt) r)) c
          end
      | HDeserialize t k => camap (catching ab k) (des t i)
      end.

    (** [T::deserialize] for text types (de/mod.rs 1067-1072), derived types (de/mod.rs 743-755) and hand-written
        ones. *)
    Definition hdeserialize1 (t : ety) (i : einfo) : caction (hstate U) (res verr value) :=
      match t with
      | EText t => CReadString (fun x => bind (as_res x) (fun s => map_ok VText (map_err Wrap (parse_text o t s))))
      | ERef id =>
          match env id, h_type P id with
          | None, Some D => hlower Abort i (D i)
          | _, _ => CReadTo (HDerived (DVisitor id [])) (fun x s =>
              match s with
              | HDerived w => bind (as_res x) (fun _ => reply_finalize o alg env w None)
              | HUser _ => Abort ill_typed
              end)
          end
      end.
  End Nested.

  (** At most [fuel] calls of [T::deserialize] and [w.element] may be nested on the same element: hand-written code
      could call them in circles, without reading. *)
  Fixpoint hdeserialize (fuel : nat) (t : ety) (i : einfo) : caction (hstate U) (res verr value) :=
    match fuel with
    | O => CNoRead (Abort Diverge)
    | S fuel' => hdeserialize1 (hdeserialize fuel') t i
    end.

  (** All visitors of the program. *)
  Definition hvisitors (fuel : nat) : cvisitors (hstate U) := {|
    c_attribute := fun s n v =>
      match s with
      | HDerived w => (reply_attribute o alg env w n v, HDerived (called w (CallAttribute n v)))
      | HUser u => let (r, u') := h_attribute P u n v in (r, HUser u')
      end;
    c_characters := fun s str p =>
      match s with
      | HDerived w => (reply_characters o alg env w str p, HDerived (called w (CallCharacters str p)))
      | HUser u => let (r, u') := h_characters P u str p in (r, HUser u')
      end;
    c_element := fun s i =>
      match s with
      | HDerived w => camap (fun '(r, w') => (r, HDerived w')) (call_element (hdeserialize fuel) w i)
      | HUser u =>
          camap (fun '(r, u') => (r, HUser u')) (hlower (hdeserialize fuel) (fun x => (Abort x, u)) i (h_element P u i))
      end;
  |}.

  (** [static_xml::de::read::<T>] (de/mod.rs 260-269). *)
  Definition hread (fuel : nat) (dbg : bool) (t : ety) (src : list (xevent * position)) (fin : final) : res error value :=
    cread dbg (hvisitors fuel) (hdeserialize fuel t) (reader_new src fin).
End Program.
