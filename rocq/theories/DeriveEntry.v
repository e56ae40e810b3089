(** The entry points of the derive macros: static-xml-derive/src/lib.rs, and [Errors] of common.rs.

    Left out: spans and the tokens of the generated code; what is generated is described by the value the
    derivation returns (DeriveAttr.v).  [RefCell]: every borrow ends within the statement it is in, so no
    borrow can fail. *)
From Verif Require Import Base Normalize Text Find Types DeriveAttr.

(** common.rs 14 [Errors]: the errors pushed so far; [None] once they have been taken. *)
Definition errors := option (list derr).

(** common.rs 17-19 [Errors::new]. *)
Definition errors_new : errors := Some [].

Definition unwrap_none : abort := Panic "called `Option::unwrap()` on a `None` value".

(** common.rs 21-23 [Errors::push]. *)
Definition errors_push (e : derr) (s : errors) : errors + abort :=
  match s with Some l => inl (Some (l ++ [e])) | None => inr unwrap_none end.

(** common.rs 25-36 [Errors::take_compile_errors]: the errors that are turned into [compile_error!]s. *)
Definition errors_take (s : errors) : (list derr * errors) + abort :=
  match s with Some l => inl (l, None) | None => inr unwrap_none end.

(** common.rs 39-45 [Drop for Errors]: [panicking] is [std::thread::panicking()]. *)
Definition errors_drop (panicking : bool) (s : errors) : unit + abort :=
  match s with
  | Some _ => if panicking then inl tt else inr (Panic "Errors dropped without take_compile_errors call")
  | None => inl tt
  end.

(** What a call of the macro comes to. *)
Inductive expansion A :=
| Expanded (errs : list derr) (code : option A)  (* the tokens of lib.rs 26-31 *)
| NotParsed                                      (* the [compile_error!] of [parse_macro_input!] *)
| Panicked (x : abort)                           (* rustc reports the panic *)
| Killed.                                        (* a panic while unwinding ends the compiler's process *)
Arguments Expanded {A} errs code.
Arguments NotParsed {A}.
Arguments Panicked {A} x.
Arguments Killed {A}.

(** Running the code [m] with the errors [s]: each [push] in turn. *)
Fixpoint push_all (es : list derr) (s : errors) : errors + abort :=
  match es with
  | [] => inl s
  | e :: es' => match errors_push e s with inl s' => push_all es' s' | inr x => inr x end
  end.
Definition with_errors {A} (m : der A) (s : errors) : (A * errors) + abort :=
  match m with
  | inl (es, a) => match push_all es s with inl s' => inl (a, s') | inr x => inr x end
  | inr x => inr x
  end.

(** Leaving [derive] with the result [r], which drops [errors]; unwinding does, too. *)
Definition leave {A} (s : errors) (r : expansion A) : expansion A :=
  match r with
  | Panicked x => match errors_drop true s with inl _ => Panicked x | inr _ => Killed end
  | _ => match errors_drop false s with inl _ => r | inr x => Panicked x end
  end.

(** static-xml-derive/src/lib.rs 18-32 [derive].  The input is what syn parses the tokens as, [None] if it cannot.  When [f]
    panics the errors that have been pushed do not matter, since [errors] has not been taken. *)
Definition derive_entry {I A} (input : option I) (f : I -> der (option A)) : expansion A :=
  let errors := errors_new in
  match input with
  | None => leave errors NotParsed
  | Some i =>
      match with_errors (f i) errors with
      | inr x => leave errors (Panicked x)
      | inl (out, errors) =>
          match errors_take errors with
          | inr x => leave errors (Panicked x)
          | inl (errs, errors) => leave errors (Expanded errs out)
          end
      end
  end.

(** static-xml-derive/src/lib.rs 34-52: the four macros. *)
Definition macro_deserialize (input : option sinput) : expansion edesc := derive_entry input derive_deserialize.
Definition macro_serialize (input : option sinput) : expansion edesc := derive_entry input derive_serialize.
Definition macro_parse_text (input : option tinput) : expansion tty := derive_entry input derive_text.
Definition macro_to_text (input : option tinput) : expansion tty := derive_entry input derive_text.
