(** What flattened fields with hand-written visitors see of an element: the parts that no field of the struct is for,
    in document order, less those that earlier flattened fields took. *)
From Verif Require Import Base Find FindProofs Types Reader ReaderSpec DeriveDe DeSpec DeriveMixed DeriveFlat.

(** ** The parts of an element *)

Inductive piece :=
| PAttr (n : xname) (v : string)
| PText (s : string) (p : position)
| PElem (c : node).

Definition attr_piece (a : attr) : piece := PAttr (from_xml_name (a_name a)) (a_value a).
Definition kid_piece (k : node) : list piece :=
  match k with
  | NElem _ _ _ _ _ _ => [PElem k]
  | NText _ s p => [PText s p]
  | _ => []
  end.

(** What no field is for. *)
Definition spare_attrs (fs : list field) (attrs : list attr) : list attr :=
  filter (fun a => negb (existsb (xn_eqb (from_xml_name (a_name a))) (field_names is_attribute fs))) attrs.
Definition spare_kids (fs : list field) (kids : list node) : list node :=
  filter (fun k => negb (name_in (field_names is_element fs) k)) kids.

Definition pieces (attrs : list attr) (kids : list node) : list piece := map attr_piece attrs ++ flat_map kid_piece kids.

Section Flat.
  Context {St : Type} (V : visitors (fstate St)) (P : fuser St).

  (** [fed path s ps s' rest]: of the parts [ps] of the element at [path], the visitor in state [s] hands back [rest] and
      ends in state [s'], without an error.  It may hand back another text than it was given. *)
  Inductive fed (path : list selem) : St -> list piece -> St -> list piece -> Prop :=
  | fed_nil : forall s, fed path s [] s []
  | fed_attr_take : forall s n v s1 ps s' rest, fu_attribute P s n v = (Ok None, s1) -> fed path s1 ps s' rest ->
      fed path s (PAttr n v :: ps) s' rest
  | fed_attr_pass : forall s n v v1 s1 ps s' rest, fu_attribute P s n v = (Ok (Some v1), s1) -> fed path s1 ps s' rest ->
      fed path s (PAttr n v :: ps) s' (PAttr n v1 :: rest)
  | fed_text_take : forall s str p s1 ps s' rest, fu_characters P s str p = (Ok None, s1) -> fed path s1 ps s' rest ->
      fed path s (PText str p :: ps) s' rest
  | fed_text_pass : forall s str p str1 s1 ps s' rest, fu_characters P s str p = (Ok (Some str1), s1) -> fed path s1 ps s' rest ->
      fed path s (PText str p :: ps) s' (PText str1 p :: rest)
  | fed_elem_take : forall s name attrs ns p kids pe act s1 ps s' rest,
      let c := NElem name attrs ns p kids pe in
      let path' := path ++ [SElem name p] in
      fu_element P s (EInfo name ns (List.length path')) = Take act ->
      fst (sem_act (sem_read V c path) path' p kids pe act) = inl (Ok tt, s1) -> fed path s1 ps s' rest ->
      fed path s (PElem c :: ps) s' rest
  | fed_elem_pass : forall s name attrs ns p kids pe s1 ps s' rest,
      let c := NElem name attrs ns p kids pe in
      let path' := path ++ [SElem name p] in
      fu_element P s (EInfo name ns (List.length path')) = Pass s1 -> fed path s1 ps s' rest ->
      fed path s (PElem c :: ps) s' (PElem c :: rest).

  (** Flattened fields in declaration order: each gets what those before it handed back. *)
  Inductive fed_all (path : list selem) : list St -> list piece -> list St -> list piece -> Prop :=
  | fa_nil : forall ps, fed_all path [] ps [] ps
  | fa_cons : forall s fl ps s' rest fl' rest', fed path s ps s' rest -> fed_all path fl rest fl' rest' ->
      fed_all path (s :: fl) ps (s' :: fl') rest'.
End Flat.

(** The values of the fields in declaration order, from those of the flattened ones and of the others. *)
Inductive merge : list field -> list value -> list value -> list value -> Prop :=
| mg_nil : merge [] [] [] []
| mg_own : forall f fs v ovs fvs vs, is_flatten f = false -> merge fs ovs fvs vs -> merge (f :: fs) (v :: ovs) fvs (v :: vs)
| mg_flat : forall f fs v ovs fvs vs, is_flatten f = true -> merge fs ovs fvs vs -> merge (f :: fs) ovs (v :: fvs) (v :: vs).

(** ** Programs *)

Section Program.
  Context {St : Type} (P : fuser St) (known : ety -> Prop) (Q : abort -> Prop).

  (** rustc accepts a struct with these fields: element fields have types with [Deserialize], flattened ones types with
      [RawDeserialize]. *)
  Definition flat_compiles (fs : list field) : Prop :=
    Forall (fun f => match f_mode f with
                     | MElement _ t => known t
                     | MAttribute _ _ => True
                     | MFlatten id => fu_new P id <> None
                     | MText _ => False
                     end) fs.

  Definition panics_in {E A} (r : res E A) : Prop := forall x, r = Abort x -> Q x.

  (** A hand-written decision about the element [i] whose outcomes satisfy [good]: it reads the element with a
      hand-written visitor or as one of the derived structs, reads its text, or ignores it. *)
  Inductive by_user {A} (good : A -> Prop) (i : einfo) : action (fstate St) A -> Prop :=
  | bu_ignore : forall a, good a -> by_user good i (ANoRead a)
  | bu_string : forall k, (forall x, good (k x)) -> by_user good i (AReadString k)
  | bu_visitor : forall s k, (forall x s', good (k x (FOther s'))) -> by_user good i (AReadTo (FOther s) k)
  | bu_struct : forall fs f, flat_compiles fs -> (forall r, panics_in r -> good (f r)) ->
      by_user good i (amap f (flat_deserialize P fs i)).

  (** Hand-written code panics only with [Q]. *)
  Record flat_program : Prop := FlatProgram {
    fp_attribute : forall s n v, panics_in (fst (fu_attribute P s n v));
    fp_characters : forall s str p, panics_in (fst (fu_characters P s str p));
    fp_element : forall s i act, fu_element P s i = Take act -> by_user (fun a => panics_in (fst a)) i act;
    fp_finalize : forall s, panics_in (fu_finalize P s);
    fp_deserialize : forall t i, known t -> by_user (fun a => panics_in (fst a)) i (fu_deserialize P t i);
  }.
End Program.

(** Hand-written code hands on the errors of reading. *)
Definition flat_strict {St} (P : fuser St) : Prop :=
  (forall s i act, fu_element P s i = Take act -> propagating_act (fun a => forall b, fst a <> Ok b) act) /\
  (forall t i, propagating_act (fun a => forall v, fst a <> Ok v) (fu_deserialize P t i)).

(** ** A derived enum *)

(** The generated visitor of an enum (deserialize.rs 332-462), as visitor of a flattened field: it takes elements
    only. *)
Definition derived_enum (alg : bs_alg) (P : fuser estate) : Prop :=
  (forall e n v, fu_attribute P e n v = (Ok (Some v), e)) /\
  (forall e str p, fu_characters P e str p = (Ok (Some str), e)) /\
  (forall e i, fu_element P e i =
    match genum_element alg (fu_deserialize P) e i with
    | None => Pass e
    | Some act => Take (amap (fun '(r, e', l) => (r, e')) act)
    end) /\
  (forall e, fu_finalize P e =
    bind (enum_finalize e) (fun _ => match e_mem e with Some v => Ok v | None => Abort UB end)).

(** What it leaves: everything before the first element with a variant's name, and then everything but elements. *)
Fixpoint left_by (names : list xname) (ps : list piece) : list piece :=
  match ps with
  | [] => []
  | PElem c :: ps' =>
      if name_in names c then filter (fun x => match x with PElem _ => false | _ => true end) ps'
      else PElem c :: left_by names ps'
  | x :: ps' => x :: left_by names ps'
  end.
