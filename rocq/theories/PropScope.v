(** Serialization: when a namespace counts as declared. *)
From Verif Require Import Base Ser SerSpec ScopeSpec NsScope.

(** ** C52: declared namespaces are enough, undeclared ones panic *)

(** Any program that returns [Ok] when every call works, and whose names are declared, succeeds if no
    write fails. *)
Theorem C52_declared_succeeds : forall dbg o n v t, asked n v = Some t -> (forall i, o i = None) ->
  declared nothing_declared False t -> exists k, to dbg o n v = inl (None, k).
Proof. exact declared_to. Qed.
Print Assumptions C52_declared_succeeds.

Definition u1 : string := "urn:1".
Definition u2 : string := "urn:2".
Definition leaf {d} (n : xname) (k : wprog d) : wprog d :=
  WElem n (BStart (WFinish (fun _ => k)) (fun _ => k)).

(** The root declares two namespaces; its child uses both, declares one more and has children in two
    of the three and in no namespace. *)
Definition z_good : serialize :=
  Ser (ANs "p" u1 (ANs "q" u2 (AAttr (XName u2 "a") "1" (fun _ => ARet None))))
      (WElem (XName u2 "kid") (BAttr (XName u1 "b") "2" (fun _ => BNs "r" "urn:3" (
         BStart (leaf (XName "" "plain") (leaf (XName u1 "c") (leaf (XName "urn:3" "d") (WFinish (fun _ => WRet None)))))
                (fun _ => WRet None))))).

Example C52_declared_example : exists t, asked (XName u1 "root") z_good = Some t /\
  declared nothing_declared False t /\
  t = RElem (XName u1 "root") [ReqNs "p" u1; ReqNs "q" u2; ReqAttr (XName u2 "a") "1"]
        [RElem (XName u2 "kid") [ReqAttr (XName u1 "b") "2"; ReqNs "r" "urn:3"]
           [RElem (XName "" "plain") [] []; RElem (XName u1 "c") [] []; RElem (XName "urn:3" "d") [] []]].
Proof.
  eexists. split; [vm_compute; reflexivity|]. split; [|reflexivity].
  assert (Nil : forall before a v after, @nil req = before ++ ReqAttr a v :: after -> False)
    by (intros [|x before] a v after H; discriminate).
  assert (Nd1 : ~ asks_default [ReqNs "p" u1; ReqNs "q" u2; ReqAttr (XName u2 "a") "1"]).
  { intros (u & [H|[H|[H|[]]]]); discriminate. }
  assert (Nd2 : ~ asks_default [ReqAttr (XName u1 "b") "2"; ReqNs "r" "urn:3"]).
  { intros (u & [H|[H|[]]]); discriminate. }
  assert (Nd3 : ~ asks_default []) by (intros (u & [])).
  constructor.
  - intros p u [H|[H|[H|[]]]]; inversion H; subst; (split; [reflexivity|discriminate]).
  - right. right. left. exists "p"%string. now left.
  - intros before a v after H. destruct before as [|x [|y [|z [|]]]]; inversion H; subst.
    right. right. right. exists "q"%string. right. now left.
  - intros k [<-|[]]. constructor.
    + intros p u [H|[H|[]]]; inversion H; subst; (split; [reflexivity|discriminate]).
    + right. left. left. exists "q"%string. right. now left.
    + intros before a v after H. destruct before as [|x [|y [|]]]; inversion H; subst.
      right. right. left. left. exists "p"%string. now left.
    + intros k [<-|[<-|[<-|[]]]]; constructor;
        try (intros before a v after H; exfalso; exact (Nil _ _ _ _ H));
        try (intros p u H; destruct H; fail); try (intros k H; destruct H; fail).
      * right. right. right. split; [reflexivity|]. split; [|exact Nd3]. intros [[[]|H]|H]; auto.
      * right. left. right. split; [discriminate|]. right. exists (XName u1 "b"), "2"%string. split; [now left|reflexivity].
      * right. left. left. exists "r"%string. right. now left.
Qed.

(** A name in a namespace that neither its own start tag nor an enclosing one asks for: panic. *)
Theorem C52_undeclared_panics : forall dbg o n v t, asked n v = Some t -> (forall i, o i = None) ->
  undeclared_name nothing_declared t -> exists m, to dbg o n v = inr (Panic m).
Proof. exact undeclared_to. Qed.
Print Assumptions C52_undeclared_panics.

(** The second child is in a namespace only the first one declares. *)
Definition z_bad : serialize :=
  Ser (ANs "p" u1 (ARet None))
      (WElem (XName u2 "one") (BNs "q" u2 (BStart (WFinish (fun _ => leaf (XName u2 "two") (WRet None))) (fun _ => WRet None)))).

Example C52_undeclared_example : exists t, asked (XName u1 "root") z_bad = Some t /\
  undeclared_name nothing_declared t /\ to false (fun _ => None) (XName u1 "root") z_bad = inr undeclared.
Proof.
  eexists. split; [vm_compute; reflexivity|]. split; [|vm_compute; reflexivity].
  eapply un_kid; [right; left; reflexivity|]. apply un_elem. split; [discriminate|]. split; [discriminate|].
  intros [[[]|(p & [H|[]])]|(p & [])]. discriminate.
Qed.

(** Serialization never hangs or has undefined behaviour: it returns or panics. *)
Theorem C52_returns_or_panics : forall dbg o n v,
  (exists r k, to dbg o n v = inl (r, k)) \/ exists m, to dbg o n v = inr (Panic m).
Proof. exact returns_or_panics. Qed.
Print Assumptions C52_returns_or_panics.

(** Being declared by an enclosing start tag is not enough if the one in between maps the prefix
    otherwise. *)
Theorem C52_grandparent_refuted : exists n v t, asked n v = Some t /\
  ~ undeclared_name nothing_declared t /\
  forall dbg, to dbg (fun _ => None) n v = inr undeclared.
Proof. exact grandparent_not_enough. Qed.
Print Assumptions C52_grandparent_refuted.

(** Declaring a default namespace after the attribute that uses it is not enough; before it is. *)
Theorem C52_order_refuted : exists n p u a x, 
  (forall dbg, exists k, to dbg (fun _ => None) n (Ser (ANs p u (AAttr a x (fun _ => ARet None))) (WRet None)) = inl (None, k)) /\
  (forall dbg, to dbg (fun _ => None) n (Ser (AAttr a x (fun _ => ANs p u (ARet None))) (WRet None)) = inr undeclared).
Proof. exact order_matters. Qed.
Print Assumptions C52_order_refuted.
