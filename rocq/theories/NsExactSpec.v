(** Exactly which namespace mappings a start tag carries. *)
From Verif Require Import Base Text Find FindProofs BMap Ser SerSpec NsSpec TextSpec.
From Coq Require Import Sorted.

(** An attribute in the namespace [u] follows something that maps [u]: the parent ([known]), or a
    [namespace] call. *)
Fixpoint attribute_in (known : bool) (u : string) (l : list req) : bool :=
  match l with
  | [] => false
  | ReqNs _ v :: l' => attribute_in (known || String.eqb u v) u l'
  | ReqAttr n _ :: l' => (known && String.eqb u (xn_ns n)) || attribute_in known u l'
  end.

(** The prefix [q] is used for a namespace that wants [p]: [p] itself, if it is free and not the empty one
    although an attribute needs it ([attr]); otherwise the first free one of p2, p3, …, or, if [p] is empty,
    of ns1, ns2, …. *)
Definition picks (taken : string -> Prop) (attr : bool) (p q : string) : Prop :=
  let usable := ~ (p = ""%string /\ attr = true) /\ ~ taken p in
  let '(base, first) := if String.eqb p "" then ("ns"%string, 1) else (p, 2) in
  (usable /\ q = p) \/
  (~ usable /\ exists i s, first <= i /\ canonical s (Z.of_nat i) /\ q = (base ++ s)%string /\ ~ taken q /\
     forall j s', first <= j < i -> canonical s' (Z.of_nat j) -> taken (base ++ s')%string).

(** The prefix that [u] wants on the element [x], if it is needed there. *)
Definition wanted (parent : bmap string) (x : xname * list req) (u : string) : option string :=
  requested (parent_prefix parent u) (String.eqb u (xn_ns (fst x))) u (snd x).

(** The mappings [snd y] of an element [x], whose parent's are [fst y].  First each wanted namespace picks a
    prefix, in the order of the URLs; then the others of the parent's mappings are kept whose prefix has
    not been taken by one of these. *)
Definition exact_tag (x : xname * list req) (y : bmap string * bmap string) : Prop :=
  let '(parent, own) := y in
  let known u := existsb (fun d => String.eqb u (snd d)) parent in
  let taken u q := exists v, String.compare v u = Lt /\ wanted parent x v <> None /\ In (q, v) own in
  forall q u, In (q, u) own <->
    match wanted parent x u with
    | Some p => picks (taken u) (attribute_in (known u) u (snd x)) p q
    | None => In (q, u) parent /\ forall v, wanted parent x v <> None -> ~ In (q, v) own
    end.

(** ** The whole document *)

Definition in_prefix (q : string) : option string := if String.eqb q "" then None else Some q.

(** The prefix of an element in the namespace [u]. *)
Inductive element_prefix (own : bmap string) (u : string) : option string -> Prop :=
| ep_mapped : forall q, In (q, u) own -> element_prefix own u (in_prefix q)
| ep_xml : u = XML_NS -> ~ In u (map snd own) -> element_prefix own u (Some "xml"%string)
| ep_none : u = ""%string -> ~ In u (map snd own) -> ~ In ""%string (map fst own) -> element_prefix own u None.

(** The prefix of an attribute. *)
Inductive attribute_prefix (own : bmap string) (u : string) : option string -> Prop :=
| ap_none : u = ""%string -> attribute_prefix own u None
| ap_mapped : forall q, u <> ""%string -> In (q, u) own -> q <> ""%string -> attribute_prefix own u (Some q)
| ap_xml : u = XML_NS -> ~ In u (map snd own) -> attribute_prefix own u (Some "xml"%string).

Definition in_order (m : bmap string) : Prop :=
  StronglySorted (fun a b => String.compare (fst a) (fst b) = Lt) m.

(** The events for a tree inside an element with the mappings [parent].  [dbg]: debug assertions are enabled. *)
Inductive written_as (dbg : bool) (parent : bmap string) : rtree -> list wevent -> Prop :=
| wa_text : forall s, written_as dbg parent (RText s) [WChars s]
| wa_elem : forall n reqs kids own p attrs evs,
    (dbg = true -> forall q u, In (ReqNs q u) reqs -> starts_with "xml" q = false) ->
    in_order own -> exact_tag (n, reqs) (parent, own) ->
    element_prefix own (xn_ns n) p ->
    Forall2 (fun a b => snd b = snd a /\ pn_local (fst b) = xn_local (fst a) /\
               attribute_prefix own (xn_ns (fst a)) (pn_prefix (fst b))) (req_attrs reqs) attrs ->
    Forall2 (written_as dbg own) kids evs ->
    written_as dbg parent (RElem n reqs kids) (WStart (PName p (xn_local n)) attrs own :: concat evs ++ [WEnd]).
