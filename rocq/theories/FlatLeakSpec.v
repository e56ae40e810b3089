(** What is lost when a struct with flattened fields that have hand-written visitors cannot be read, stated over the tree:
    what its fields have got from the parts of the element before the first fault, and what the visitors hold by then. *)
From Verif Require Import Base Find FindProofs Types Text Reader ReaderSpec DeriveDe DeSpec DeriveMixed DeriveFlat FlatSpec FlatLeak.

Section Spec.
  Context {St : Type} (o : oracles) (V : visitors (fstate St)) (P : fuser St) (L : losses St).

  (** What [T::deserialize] comes to for the element [c] below [path]. *)
  Definition comes_to (path : list selem) (t : ety) (c : node) (r : res verr value * list value) : Prop :=
    match c with
    | NElem name attrs ns p kids pe =>
        let path' := path ++ [SElem name p] in
        fst (sem_act (sem_read V c path) path' p kids pe (fu_deserialize P t (EInfo name ns (List.length path')))) = inl r
    | _ => False
    end.

  Definition gives (path : list selem) (t : ety) (c : node) (v : value) : Prop := comes_to path t c (Ok v, []).

  (** What a field of the struct's own has got from [attrs] and [kids]: at most one value. *)
  Inductive got (path : list selem) (attrs : list attr) (kids : list node) (f : field) : list value -> Prop :=
  | got_element : forall k t v, f_mode f = MElement k t ->
      occurs (gives path t) k (named (expanded (f_name f)) kids) v -> got path attrs kids f [v]
  | got_no_element : forall k t, f_mode f = MElement k t -> named (expanded (f_name f)) kids = [] -> got path attrs kids f []
  | got_attribute : forall opt t s x, f_mode f = MAttribute opt t ->
      attr_values (expanded (f_name f)) attrs = [s] -> parse_text o t s = Ok x ->
      got path attrs kids f [if opt then VSome (VText x) else VText x]
  | got_no_attribute : forall opt t, f_mode f = MAttribute opt t ->
      attr_values (expanded (f_name f)) attrs = [] -> got path attrs kids f [].

  (** All fields in declaration order, where [fl] are the visitors of the flattened ones. *)
  Inductive all_got (path : list selem) (attrs : list attr) (kids : list node) : list field -> list St -> list value -> Prop :=
  | ag_nil : all_got path attrs kids [] [] []
  | ag_own : forall f fs fl v vs, is_flatten f = false -> got path attrs kids f v -> all_got path attrs kids fs fl vs ->
      all_got path attrs kids (f :: fs) fl (v ++ vs)
  | ag_flat : forall f fs s fl vs, is_flatten f = true -> all_got path attrs kids fs fl vs ->
      all_got path attrs kids (f :: fs) (s :: fl) (lo_held L s ++ vs).

  (** Some field is missing, or the visitor of a flattened one gives none. Those declared before it have their values,
      those after it what they have got. *)
  Inductive got_until (path : list selem) (attrs : list attr) (kids : list node) : list field -> list St -> list value -> Prop :=
  | gu_own : forall f fs fl v vs, is_flatten f = false -> got path attrs kids f [v] \/ got path attrs kids f [] /\ absent f v ->
      got_until path attrs kids fs fl vs -> got_until path attrs kids (f :: fs) fl (v :: vs)
  | gu_flat : forall f fs s fl v vs, is_flatten f = true -> fu_finalize P s = Ok v -> got_until path attrs kids fs fl vs ->
      got_until path attrs kids (f :: fs) (s :: fl) (v :: vs)
  | gu_missing : forall f fs fl vs, is_flatten f = false -> got path attrs kids f [] -> (forall v, ~ absent f v) ->
      all_got path attrs kids fs fl vs -> got_until path attrs kids (f :: fs) fl vs
  | gu_failed : forall f fs s fl e vs, is_flatten f = true -> fu_finalize P s = Err e ->
      all_got path attrs kids fs fl vs -> got_until path attrs kids (f :: fs) (s :: fl) (lo_failed L s ++ vs).

  (** Of the visitors of the flattened fields, offered a part of the element one after the other, one fails. *)
  Inductive stopped (path : list selem) : list St -> piece -> list St -> Prop :=
  | st_attr : forall s n v e s1 fl, fu_attribute P s n v = (Err e, s1) -> stopped path (s :: fl) (PAttr n v) (s1 :: fl)
  | st_attr_pass : forall s n v v1 s1 fl fl', fu_attribute P s n v = (Ok (Some v1), s1) -> stopped path fl (PAttr n v1) fl' ->
      stopped path (s :: fl) (PAttr n v) (s1 :: fl')
  | st_text : forall s str p e s1 fl, fu_characters P s str p = (Err e, s1) -> stopped path (s :: fl) (PText str p) (s1 :: fl)
  | st_text_pass : forall s str p str1 s1 fl fl', fu_characters P s str p = (Ok (Some str1), s1) ->
      stopped path fl (PText str1 p) fl' -> stopped path (s :: fl) (PText str p) (s1 :: fl')
  | st_elem : forall s name attrs ns p kids pe act e s1 fl,
      let c := NElem name attrs ns p kids pe in
      let path' := path ++ [SElem name p] in
      fu_element P s (EInfo name ns (List.length path')) = Take act ->
      fst (sem_act (sem_read V c path) path' p kids pe act) = inl (Err e, s1) ->
      stopped path (s :: fl) (PElem c) (s1 :: fl)
  | st_elem_pass : forall s name attrs ns p kids pe s1 fl fl',
      let c := NElem name attrs ns p kids pe in
      let path' := path ++ [SElem name p] in
      fu_element P s (EInfo name ns (List.length path')) = Pass s1 -> stopped path fl (PElem c) fl' ->
      stopped path (s :: fl) (PElem c) (s1 :: fl').

  Definition gone (fl : list St) : list value := flat_map (lo_gone L) fl.

  (** What the visitors of the flattened fields come to on the parts [attrs] and [kids] of the element. *)
  Definition reach (path : list selem) (fs : list field) (fl0 : list St) (attrs : list attr) (kids : list node) (fl : list St) : Prop :=
    exists rest, fed_all V P path fl0 (pieces (spare_attrs fs attrs) (spare_kids fs kids)) fl rest.

  (** [flat_leaks path fs fl0 attrs kids vs]: the element at [path] with these attributes and children cannot be read as
      the struct, and in trying so the values [vs] are lost. *)
  Inductive flat_leaks (path : list selem) (fs : list field) (fl0 : list St) : list attr -> list node -> list value -> Prop :=
  | fl_own_attribute : forall a1 a a2 kids f opt t fl vs,
      reach path fs fl0 a1 [] fl -> In f fs -> f_mode f = MAttribute opt t ->
      expanded (f_name f) = from_xml_name (a_name a) ->
      attr_values (expanded (f_name f)) a1 <> [] \/ (exists m, parse_text o t (a_value a) = Err m) ->
      all_got path a1 [] fs fl vs -> flat_leaks path fs fl0 (a1 ++ a :: a2) kids (vs ++ gone fl)
  | fl_flat_attribute : forall a1 a a2 kids fl fl' vs,
      reach path fs fl0 a1 [] fl -> ~ In (from_xml_name (a_name a)) (field_names is_attribute fs) ->
      stopped path fl (attr_piece a) fl' ->
      all_got path a1 [] fs fl' vs -> flat_leaks path fs fl0 (a1 ++ a :: a2) kids (vs ++ gone fl')
  | fl_duplicate : forall attrs k1 c k2 f k t fl vs,
      reach path fs fl0 attrs k1 fl -> In f fs -> f_mode f = MElement k t -> k <> KVec -> has_name (expanded (f_name f)) c = true ->
      named (expanded (f_name f)) k1 <> [] ->
      all_got path attrs k1 fs fl vs -> flat_leaks path fs fl0 attrs (k1 ++ c :: k2) (vs ++ gone fl)
  | fl_own_child : forall attrs k1 c k2 f k t fl vs e inner,
      reach path fs fl0 attrs k1 fl -> In f fs -> f_mode f = MElement k t -> has_name (expanded (f_name f)) c = true ->
      k = KVec \/ named (expanded (f_name f)) k1 = [] -> comes_to path t c (Err e, inner) ->
      all_got path attrs k1 fs fl vs -> flat_leaks path fs fl0 attrs (k1 ++ c :: k2) (vs ++ inner ++ gone fl)
  | fl_flat_child : forall attrs k1 c k2 x fl fl' vs,
      reach path fs fl0 attrs k1 fl -> name_in (field_names is_element fs) c = false -> kid_piece c = [x] ->
      stopped path fl x fl' ->
      all_got path attrs k1 fs fl' vs -> flat_leaks path fs fl0 attrs (k1 ++ c :: k2) (vs ++ gone fl')
  | fl_incomplete : forall attrs kids fl vs,
      reach path fs fl0 attrs kids fl -> got_until path attrs kids fs fl vs ->
      flat_leaks path fs fl0 attrs kids (vs ++ gone fl).

  (** [T::deserialize] that succeeds has leaked nothing (as it is if it swallows no error, C66). *)
  Definition tidy_at (path : list selem) (c : node) : Prop := forall t v l, comes_to path t c (Ok v, l) -> l = [].
  Definition tidy : Prop := forall path c, tidy_at path c.
End Spec.

(** Fields of a struct that can be derived. *)
Definition no_text (fs : list field) : Prop := Forall (fun f => match f_mode f with MText _ => False | _ => True end) fs.

(** Programs where every type of a field is such a struct again, or one whose [T::deserialize] leaks nothing when it
    succeeds, and below the visitors of flattened fields nothing is leaked. *)
Definition leaks_none {St} (act : action (fstate St) (res verr value * list value)) : Prop :=
  match act with
  | ANoRead a => forall v, fst a = Ok v -> snd a = []
  | AReadString k => forall x v, fst (k x) = Ok v -> snd (k x) = []
  | AReadTo _ k => forall x s v, fst (k x s) = Ok v -> snd (k x s) = []
  end.

Definition nested_structs {St} (P : fuser St) (L : losses St) : Prop :=
  (forall s, lo_gone L s = []) /\
  forall t, (exists fs fl, NoDup (field_names is_attribute fs) /\ NoDup (field_names is_element fs) /\ new_flats P fs = Some fl /\ no_text fs /\
               forall i, fu_deserialize P t i = lflat_deserialize P L fs i) \/
            (forall i, leaks_none (fu_deserialize P t i)).
