(** [std::error::Error::source] of the reader's errors.

    Boxed errors of user code are represented by what they display (Reader.v); nothing in the library looks at them
    (SourceProofs.v), so the strings can as well be read as their identities. *)
From Verif Require Import Base Reader.

(** xml-rs, src/reader/error.rs: [ErrorKind], with the underlying errors ([std::io::Error], [std::str::Utf8Error]). *)
Inductive xml_kind :=
| KSyntax
| KIo (e : string)
| KUtf8 (e : string)
| KUnexpectedEof.

(** What [source] returns: an error of xml-rs, the error below it, or the error user code made. *)
Inductive cause :=
| CXml (e : xerr)
| CIo (e : string)
| CUtf8 (e : string)
| CUser (m : string).

Section Source.
  (** [xml::reader::Error::kind]. *)
  Context (kind : xerr -> xml_kind).

  (** de/mod.rs 243-258: [impl std::error::Error for ErrorKind]. *)
  Definition kind_source (k : ekind) : option cause :=
    match k with
    | EXml e =>
        match kind e with
        | KSyntax => Some (CXml e)
        | KIo io => Some (CIo io)
        | KUtf8 utf => Some (CUtf8 utf)
        | KUnexpectedEof => Some (CXml e)
        end
    | EDeserializer e => Some (CUser e)
    | EMsg _ => None
    end.

  (** de/mod.rs 208-212. *)
  Definition error_source (e : error) : option cause := kind_source (er_kind e).
End Source.
