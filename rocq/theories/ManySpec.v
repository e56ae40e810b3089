(** Elements that are each one of several choices. *)
From Verif Require Import Base Find FindProofs Types Reader ReaderSpec DeriveDe DeSpec DeriveMixed DeriveFlat FlatSpec Ser SerSpec Many.

(** The children of the root that are called like a choice, unless a field is for them. *)
Definition chosen (cs : choices) (fs : list field) (d : doc) : list node :=
  filter (name_in (map fst cs)) (spare_kids fs (d_kids d)).

(** [c], a child of the element at [path], is read as the choice it is called like: [v]. *)
Definition reads_as {St} (V : visitors (fstate St)) (deser : ety -> einfo -> action (fstate St) (res verr value * list value))
    (cs : choices) (path : list selem) (c : node) (v : value) : Prop :=
  match c with
  | NElem name attrs ns p kids pe =>
      exists k t x l, nth_error cs k = Some (from_xml_name name, t) /\ v = VEnum k (Some x) /\
        let path' := path ++ [SElem name p] in
        fst (sem_act (sem_read V c path) path' p kids pe (deser t (EInfo name ns (List.length path')))) = inl (Ok x, l)
  | _ => False
  end.

(** The element [T] is asked for on behalf of the choice [v]: it is called like the choice and what is in it is asked for by
    what the choice holds. *)
Definition asks_item (cs : choices) (sub : ety -> value -> serialize) (v : value) (T : rtree) : Prop :=
  exists k n t x, v = VEnum k (Some x) /\ nth_error cs k = Some (n, t) /\ asked n (sub t x) = Some T.

(** An element with further requests and children. *)
Definition with_items (T : rtree) (reqs : list req) (kids : list rtree) : rtree :=
  match T with
  | RElem n rs ks => RElem n (rs ++ reqs) (ks ++ kids)
  | RText s => RText s
  end.
