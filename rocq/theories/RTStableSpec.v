(** Values that were read: which of them survive being written and read again. *)
From Verif Require Import Base Normalize Text Find FindProofs Types Ser SerSpec DSerSpec Reader
  ReaderSpec DeSpec RTSpec.

(** No element of the document has a text of spaces, tabs and line ends only.  (The parser reports such
    text only for CDATA sections, or between other pieces of text, see [seen].) *)
Inductive unblank : node -> Prop :=
| ub_elem : forall name attrs ns p kids pe, (blank (text_of kids) = true -> text_of kids = ""%string) ->
    Forall unblank kids -> unblank (NElem name attrs ns p kids pe)
| ub_other : forall n, is_elem n = false -> unblank n.

Section Settled.
  Context (o : oracles) (env : tenv).

  (** Printing what was parsed, and parsing it again, gives the same value. *)
  Definition settled_attr (t : tty) : Prop := forall s x, parse_text o t s = Ok x ->
    exists s', to_text o t x = Some s' /\ parse_text o t s' = Ok x.
  Definition settled_elem (t : tty) : Prop := forall s x, (blank s = true -> s = ""%string) ->
    parse_text o t s = Ok x -> exists s', to_text o t x = Some s' /\ parse_text o t (seen s') = Ok x.
  Definition settled_ety (t : ety) : Prop := match t with EText t => settled_elem t | ERef _ => True end.

  Definition settled_field (f : field) : Prop :=
    match f_mode f with
    | MElement _ t => settled_ety t
    | MAttribute _ t => settled_attr t
    | MFlatten _ => True
    | MText _ => False
    end.

  Definition settled_variant (w : variant) : Prop :=
    match v_ty w with None => True | Some (_, t) => settled_ety t end.

  (** Types all of whose values that were read survive.  Unlike for [lossless_env], fields may have any
      default that survives itself, variants may hold [Option] and [Vec], and may be skipped. *)
  Definition settled_env : Prop := forall id d, env id = Some d ->
    match d with
    | TDStruct _ _ _ fs => Forall settled_field fs /\ List.length (filter is_flatten fs) <= 1 /\
        (forall f v, In f fs -> f_default f = Some v ->
           typed_field o (typed o env) f v /\
           survives_field o env (survives o env) (field_names is_element fs) f v)
    | TDEnum _ _ _ ws _ => Forall settled_variant ws
    end.
End Settled.
