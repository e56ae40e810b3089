(** Round trips: what the XML parser shows of a document that was written, and which values survive
    being written and read. *)
From Verif Require Import Base Normalize Text Find FindProofs Types Ser SerSpec DSerSpec Reader
  ReaderSpec DeSpec.

(** ** What the parser shows of a tree

    The parser (xml-rs, not in /repo) resolves names, reports attributes with their values, merges
    adjacent text, reports nothing for empty text, and reports text consisting of spaces, tabs and
    line ends only as [Whitespace], which static-xml ignores ([NBlank]). *)

Definition blank_char (c : ascii) : bool :=
  existsb (Ascii.eqb c) [" "; "009"; "010"; "013"]%char.
Definition blank (s : string) : bool := forallb blank_char (bytes_of s).

(** The text that is reported other than as [Whitespace]. *)
Definition seen (s : string) : string := if blank s then ""%string else s.

(** The text before, between and after the child elements: one more than there are elements. *)
Definition onto (s : string) (l : list string) : list string :=
  match l with [] => [s] | h :: r => (s ++ h)%string :: r end.

Fixpoint texts (l : list wtree) : list string :=
  match l with
  | [] => [""%string]
  | TText s :: l' => onto s (texts l')
  | TElem _ _ _ :: l' => ""%string :: texts l'
  end.

Fixpoint node_texts (l : list node) : list string :=
  match l with
  | [] => [""%string]
  | NText _ s _ :: l' => onto s (node_texts l')
  | NElem _ _ _ _ _ _ :: l' => ""%string :: node_texts l'
  | _ :: l' => node_texts l'
  end.

Definition is_telem (t : wtree) : bool := match t with TElem _ _ _ => true | TText _ => false end.

(** [shows t n]: the parser may deliver [n] for a document with the tree [t]. Where text is split, or
    comments and whitespace are reported, is left open. *)
Inductive shows : wtree -> node -> Prop :=
| sh_elem : forall n attrs kids name attrs' ns p kids' pe,
    from_xml_name name = n ->
    map (fun a => (from_xml_name (a_name a), a_value a)) attrs' = attrs ->
    Forall2 shows (filter is_telem kids) (filter is_elem kids') ->
    node_texts kids' = map seen (texts kids) ->
    shows (TElem n attrs kids) (NElem name attrs' ns p kids' pe).

(** Indentation: blank text inserted between the tags of elements that contain no text. *)
Inductive indented : wtree -> wtree -> Prop :=
| ind_text : forall s, indented (TText s) (TText s)
| ind_same : forall n attrs kids kids', Forall2 indented kids kids' ->
    indented (TElem n attrs kids) (TElem n attrs kids')
| ind_more : forall n attrs kids kids', forallb is_telem kids = true ->
    Forall2 indented kids (filter is_telem kids') ->
    Forall (fun k => match k with TText s => blank s = true | TElem _ _ _ => True end) kids' ->
    indented (TElem n attrs kids) (TElem n attrs kids').

(** ** Which values survive *)

Section Survives.
  Context (o : oracles) (env : tenv).

  (** The name of the variant that an enum value holds. *)
  Definition variant_name (id : nat) (v : value) (n : xname) : Prop :=
    exists ident root nss ws sk i p w, env id = Some (TDEnum ident root nss ws sk) /\ v = VEnum i p /\
      nth_error (sorted_variants ws) i = Some w /\ expanded (v_name w) = n.

  (** - The text of an element must parse to the same value although blank text is lost;
      - the text of an attribute must parse to the same value;
      - an element or attribute field that writes nothing must hold what a missing field gives
        ([absent]: [None], the empty [Vec], or the field's default);
      - a struct must not have two flattened fields; the variant that a flattened field holds must not
        have the name of an own field;
      - an enum must not hold a skipped variant, [None] or an empty [Vec]. *)
  Inductive survives_field (R : ety -> value -> Prop) (claimed : list xname) (f : field) : value -> Prop :=
  | sf_element : forall k t v l, f_mode f = MElement k t -> items k v l -> Forall (R t) l ->
      (l = [] -> absent f v) -> survives_field R claimed f v
  | sf_attribute : forall opt t x s, f_mode f = MAttribute opt t -> to_text o t x = Some s ->
      parse_text o t s = Ok x ->
      survives_field R claimed f (if opt then VSome (VText x) else VText x)
  | sf_no_attribute : forall t, f_mode f = MAttribute true t -> absent f VNone ->
      survives_field R claimed f VNone
  | sf_flatten : forall id v, f_mode f = MFlatten id -> R (ERef id) v ->
      (forall n, variant_name id v n -> ~ In n claimed) -> survives_field R claimed f v.

  Inductive survives : ety -> value -> Prop :=
  | su_text : forall t x s, to_text o t x = Some s -> parse_text o t (seen s) = Ok x ->
      survives (EText t) (VText x)
  | su_struct : forall id ident root nss fs vs, env id = Some (TDStruct ident root nss fs) ->
      Forall2 (survives_field survives (field_names is_element fs)) fs vs ->
      List.length (filter is_flatten fs) <= 1 ->
      survives (ERef id) (VStruct vs)
  | su_unit : forall id ident root nss ws sk i w, env id = Some (TDEnum ident root nss ws sk) ->
      nth_error (sorted_variants ws) i = Some w -> v_ty w = None -> survives (ERef id) (VEnum i None)
  | su_payload : forall id ident root nss ws sk i w k t x l,
      env id = Some (TDEnum ident root nss ws sk) ->
      nth_error (sorted_variants ws) i = Some w -> v_ty w = Some (k, t) ->
      items k x l -> l <> [] -> Forall (survives t) l -> survives (ERef id) (VEnum i (Some x)).
End Survives.

(** ** Types all of whose values survive *)

Section Lossless.
  Context (o : oracles) (env : tenv).

  Definition lossless_attr (t : tty) : Prop := forall x s, to_text o t x = Some s -> parse_text o t s = Ok x.
  Definition lossless_elem (t : tty) : Prop := forall x s, to_text o t x = Some s -> parse_text o t (seen s) = Ok x.
  Definition lossless_ety (t : ety) : Prop := match t with EText t => lossless_elem t | ERef _ => True end.

  Definition lossless_field (fs : list field) (f : field) : Prop :=
    match f_mode f with
    | MElement KOne t => lossless_ety t
    | MElement KOpt t => lossless_ety t /\ (f_default f = None \/ f_default f = Some VNone)
    | MElement KVec t => lossless_ety t /\ (f_default f = None \/ f_default f = Some (VVec []))
    | MAttribute false t => lossless_attr t
    | MAttribute true t => lossless_attr t /\ (f_default f = None \/ f_default f = Some VNone)
    | MFlatten id => forall ident root nss ws sk, env id = Some (TDEnum ident root nss ws sk) ->
        forall w, In w ws -> ~ In (expanded (v_name w)) (field_names is_element fs)
    | MText _ => False
    end.

  Definition lossless_variant (w : variant) : Prop :=
    match v_ty w with
    | None => True
    | Some (KOne, t) => lossless_ety t
    | Some (_, _) => False
    end.

  Definition lossless_env : Prop := forall id d, env id = Some d ->
    match d with
    | TDStruct _ _ _ fs => Forall (lossless_field fs) fs /\ List.length (filter is_flatten fs) <= 1
    | TDEnum _ _ _ ws sk => Forall lossless_variant ws /\ sk = false
    end.
End Lossless.
