(** Which documents have all their namespaces declared, in terms of what a program asked for. *)
From Verif Require Import Base Ser SerSpec.

Definition requests (reqs : list req) (u : string) : Prop := exists p, In (ReqNs p u) reqs.

(** A start tag asks for a default namespace. *)
Definition asks_default (reqs : list req) : Prop := exists u, In (ReqNs "" u) reqs.

(** The prefixes that may be asked for: none that starts with [xml], and the namespace of [xml:] is
    not made the default. *)
Definition allowed_mappings (reqs : list req) : Prop :=
  forall p u, In (ReqNs p u) reqs -> starts_with "xml" p = false /\ (p = ""%string -> u <> XML_NS).

(** The namespaces a start tag asks for or uses. *)
Definition own_scope (n : xname) (reqs : list req) (u : string) : Prop :=
  requests reqs u \/
  u <> ""%string /\ (u = xn_ns n \/ exists a v, In (ReqAttr a v) reqs /\ xn_ns a = u).

(** [up]: the namespaces asked for or used by the start tag of the parent. [dflt]: some enclosing
    start tag asked for a default namespace.

    A name may use the namespace of [xml:], one of [up], or one the same start tag asks for (for an
    attribute: before the attribute). An element needs no declaration to be in no namespace if there
    is no default namespace; an attribute never needs one for that. *)
Inductive declared (up : string -> Prop) (dflt : Prop) : rtree -> Prop :=
| decl_text : forall s, declared up dflt (RText s)
| decl_elem : forall n reqs kids,
    allowed_mappings reqs ->
    xn_ns n = XML_NS \/ up (xn_ns n) \/ requests reqs (xn_ns n) \/
      (xn_ns n = ""%string /\ ~ dflt /\ ~ asks_default reqs) ->
    (forall before a v after, reqs = before ++ ReqAttr a v :: after ->
       xn_ns a = ""%string \/ xn_ns a = XML_NS \/ up (xn_ns a) \/ requests before (xn_ns a)) ->
    (forall k, In k kids -> declared (own_scope n reqs) (dflt \/ asks_default reqs) k) ->
    declared up dflt (RElem n reqs kids).

Definition nothing_declared (u : string) : Prop := False.

(** Some name is in a namespace that no start tag asks for, neither its own nor an enclosing one.
    [up]: asked for by enclosing start tags. *)
Definition foreign (asked_for : string -> Prop) (u : string) : Prop :=
  u <> ""%string /\ u <> XML_NS /\ ~ asked_for u.

Inductive undeclared_name (up : string -> Prop) : rtree -> Prop :=
| un_elem : forall n reqs kids, foreign (fun u => up u \/ requests reqs u) (xn_ns n) ->
    undeclared_name up (RElem n reqs kids)
| un_attr : forall n reqs kids a v, In (ReqAttr a v) reqs ->
    foreign (fun u => up u \/ requests reqs u) (xn_ns a) ->
    undeclared_name up (RElem n reqs kids)
| un_kid : forall n reqs kids k, In k kids -> undeclared_name (fun u => up u \/ requests reqs u) k ->
    undeclared_name up (RElem n reqs kids).
