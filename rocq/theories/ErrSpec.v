(** Which error deserializing a derived type reports: the first fault in document order, and where it is
    reported.  Stated over the tree: what a child or an attribute has to satisfy is determined by the
    siblings before it. *)
From Verif Require Import Base Normalize Text Find FindProofs Types Reader ReaderSpec DeSpec.

(** ** What is expected of a child *)

(** Given the siblings before it: it may be anything; it must not be there; or it must read as a
    value of a type. *)
Inductive demand := Ignore | Reject (m : string) | ReadAs (t : ety).

Definition node_name (c : node) : xname :=
  match c with NElem n _ _ _ _ _ => from_xml_name n | _ => XName "" "" end.

Definition duplicate (c : node) : demand :=
  Reject ("Duplicate element " ++ xn_display (node_name c)).

(** [vs]: the variants of an enum that was offered [l] before the child [c]. The first child that
    names a variant chooses it. *)
Definition variant_for (vs : list variant) (c : node) : option variant :=
  List.find (fun v => has_name (expanded (v_name v)) c) vs.

Definition enum_demand (vs : list variant) (l : list node) (c : node) : demand :=
  match variant_for vs c, filter (name_in (variant_names vs)) l with
  | None, _ => Ignore
  | Some v, [] => match v_ty v with None => Ignore | Some (_, t) => ReadAs t end
  | Some v, first :: _ =>
      if has_name (expanded (v_name v)) first then
        match v_ty v with
        | None => Ignore
        | Some (KVec, t) => ReadAs t
        | Some _ => duplicate c
        end
      else Reject ("Got unexpected element " ++ xn_display (node_name c) ++ " after " ++
                   xn_display (node_name first))%string
  end.

Section Spec.
  Context (o : oracles) (env : tenv).

  Definition flattened (f : field) : option (string * list variant) :=
    match f_mode f with
    | MFlatten id =>
        match env id with Some (TDEnum ident _ _ vs _) => Some (ident, vs) | _ => None end
    | _ => None
    end.

  (** A child no field claims by name is for the first flattened field that recognises it or has
      recognised an earlier one. *)
  Fixpoint flat_demand (fs : list field) (l : list node) (c : node) : demand :=
    match fs with
    | [] => Ignore
    | f :: fs' =>
        match flattened f with
        | Some (_, vs) =>
            if existsb (name_in (variant_names vs)) (l ++ [c]) then enum_demand vs l c
            else flat_demand fs' l c
        | None => flat_demand fs' l c
        end
    end.

  Definition field_for (fs : list field) (c : node) : option field :=
    List.find (fun f => is_element f && has_name (expanded (f_name f)) c) fs.

  Definition struct_demand (fs : list field) (before : list node) (c : node) : demand :=
    match field_for fs c with
    | Some f =>
        match f_mode f, existsb (has_name (expanded (f_name f))) before with
        | MElement KVec t, _ | MElement _ t, false => ReadAs t
        | _, _ => duplicate c
        end
    | None => flat_demand fs (unclaimed fs before) c
    end.

  Definition child_demand (d : tdesc) (before : list node) (c : node) : demand :=
    match d with
    | TDStruct _ _ _ fs => struct_demand fs before c
    | TDEnum _ _ _ vs _ => enum_demand vs before c
    end.

  Definition met (d : demand) (c : node) : Prop :=
    match d with Ignore => True | Reject _ => False | ReadAs t => exists v, reads o env t c v end.

  (** Every child is as it should be. *)
  Definition all_met (D : list node -> node -> demand) (kids : list node) : Prop :=
    forall k1 c k2, kids = k1 ++ c :: k2 -> met (D k1 c) c.

  (** ** Attributes *)

  Definition attr_field (fs : list field) (a : attr) : option field :=
    List.find (fun f => is_attribute f && xn_eqb (from_xml_name (a_name a)) (expanded (f_name f))) fs.

  (** [Ok]: it is as it should be; [Err m]: what is wrong with it. *)
  Definition attr_check (fs : list field) (before : list attr) (a : attr) : res string unit :=
    match attr_field fs a with
    | None => Ok tt
    | Some f =>
        match f_mode f, attr_values (expanded (f_name f)) before with
        | MAttribute _ t, [] => map_ok (fun _ => tt) (parse_text o t (a_value a))
        | _, _ => Err ("Duplicate attribute " ++ xn_display (from_xml_name (a_name a)))%string
        end
    end.

  Definition attrs_check (d : tdesc) (before : list attr) (a : attr) : res string unit :=
    match d with
    | TDStruct _ _ _ fs => attr_check fs before a
    | TDEnum _ _ _ _ _ => Ok tt
    end.

  Definition all_fine (C : list attr -> attr -> res string unit) (attrs : list attr) : Prop :=
    forall a1 a a2, attrs = a1 ++ a :: a2 -> C a1 a = Ok tt.

  (** ** What is missing at the end *)

  Definition enum_lacks (ident : string) (vs : list variant) (l : list node) : option string :=
    if existsb (name_in (variant_names vs)) l then None else Some (ident ++ " can't be empty")%string.

  Definition field_lacks (attrs : list attr) (kids : list node) (f : field) : option string :=
    match f_mode f, f_default f with
    | MElement KOne _, None =>
        if existsb (has_name (expanded (f_name f))) kids then None
        else Some ("Missing expected element " ++ xn_display (expanded (f_name f)))%string
    | MAttribute false _, None =>
        match attr_values (expanded (f_name f)) attrs with
        | [] => Some ("Missing expected attribute " ++ xn_display (expanded (f_name f)))%string
        | _ => None
        end
    | _, _ => None
    end.

  (** The first field, in declaration order, that cannot be filled.  [l]: the children offered to the
      next flattened field. *)
  Fixpoint fields_lack (attrs : list attr) (kids l : list node) (fs : list field) : option string :=
    match fs with
    | [] => None
    | f :: fs' =>
        match flattened f with
        | Some (ident, vs) =>
            match enum_lacks ident vs l with
            | Some m => Some m
            | None => fields_lack attrs kids (before_first (variant_names vs) l) fs'
            end
        | None =>
            match field_lacks attrs kids f with
            | Some m => Some m
            | None => fields_lack attrs kids l fs'
            end
        end
    end.

  Definition lacks (d : tdesc) (attrs : list attr) (kids : list node) : option string :=
    match d with
    | TDStruct _ _ _ fs => fields_lack attrs kids (unclaimed fs kids) fs
    | TDEnum ident _ _ vs _ => enum_lacks ident vs kids
    end.

  (** ** The fault *)

  (** Of the element as a whole (the caller says where), or located inside it. *)
  Inductive fault := Here (m : string) | Inside (e : error).

  Definition blame (f : fault) (stack : list selem) (p : position) : error :=
    match f with Here m => Error (EDeserializer m) stack p | Inside e => e end.

  (** [fails t parents n f]: [f] is what goes wrong first when the element [n], below [parents], is
      read as type [t]. *)
  Inductive fails : ety -> list selem -> node -> fault -> Prop :=
  | fails_text_child : forall t parents name attrs ns p k1 cn ca cns cp ck cpe k2 pe,
      existsb is_elem k1 = false ->
      fails (EText t) parents (NElem name attrs ns p (k1 ++ NElem cn ca cns cp ck cpe :: k2) pe)
        (Inside (Error (EMsg (MUnexpectedElement cn)) (parents ++ [SElem name p] ++ [SElem cn cp]) cp))
  | fails_text : forall t parents name attrs ns p kids pe m,
      existsb is_elem kids = false -> parse_text o t (text_of kids) = Err m ->
      fails (EText t) parents (NElem name attrs ns p kids pe) (Here m)
  | fails_attribute : forall id d parents name a1 a a2 ns p kids pe m, env id = Some d ->
      all_fine (attrs_check d) a1 -> attrs_check d a1 a = Err m ->
      fails (ERef id) parents (NElem name (a1 ++ a :: a2) ns p kids pe)
        (Inside (Error (EDeserializer m) (parents ++ [SElem name p]) p))
  | fails_rejected : forall id d parents name attrs ns p k1 cn ca cns cp ck cpe k2 pe m, env id = Some d ->
      all_fine (attrs_check d) attrs -> all_met (child_demand d) k1 ->
      child_demand d k1 (NElem cn ca cns cp ck cpe) = Reject m ->
      fails (ERef id) parents (NElem name attrs ns p (k1 ++ NElem cn ca cns cp ck cpe :: k2) pe)
        (Inside (Error (EDeserializer m) (parents ++ [SElem name p] ++ [SElem cn cp]) cp))
  | fails_nested : forall id d parents name attrs ns p k1 cn ca cns cp ck cpe k2 pe t f, env id = Some d ->
      all_fine (attrs_check d) attrs -> all_met (child_demand d) k1 ->
      child_demand d k1 (NElem cn ca cns cp ck cpe) = ReadAs t ->
      fails t (parents ++ [SElem name p]) (NElem cn ca cns cp ck cpe) f ->
      fails (ERef id) parents (NElem name attrs ns p (k1 ++ NElem cn ca cns cp ck cpe :: k2) pe)
        (Inside (blame f (parents ++ [SElem name p] ++ [SElem cn cp]) cp))
  | fails_incomplete : forall id d parents name attrs ns p kids pe m, env id = Some d ->
      all_fine (attrs_check d) attrs -> all_met (child_demand d) kids -> lacks d attrs kids = Some m ->
      fails (ERef id) parents (NElem name attrs ns p kids pe) (Here m).

  (** The root element's own faults are reported at its end. *)
  Definition doc_error (t : ety) (d : doc) (e : error) : Prop :=
    exists f, fails t [] (d_root d) f /\ e = blame f [SElem (d_name d) (d_pos d)] (d_pe d).
End Spec.
