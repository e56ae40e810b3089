(** Serialization: names, prefixes and attributes. *)
From Verif Require Import Base BMap Ser SerSpec SerProofs SerTree NsProofs NsSpec NsMain NsMeaning NsChoice
  NsExactSpec NsExact.

(** ** C31: what is written means what was asked for *)

(** [pol]: which namespace declarations the event writer omits. With a writer that omits only those
    already in scope (or none), prefixes may be remapped freely. *)
Theorem C31_names_keep_their_meaning : forall dbg o n v k pol t,
  to dbg o n v = inl (None, k) -> asked n v = Some t ->
  legal_mappings t -> default_ok t -> (pol = SkipIfAnywhere -> coherent t) ->
  meaning [] (emit pol [] (k_out k)) = Some (tree_events (tree_of t)).
Proof. exact to_meaning. Qed.
Print Assumptions C31_names_keep_their_meaning.

Definition u1 : string := "urn:1".
Definition u2 : string := "urn:2".
Definition leaf {d} (n : xname) (k : wprog d) : wprog d :=
  WElem n (BStart (WFinish (fun _ => k)) (fun _ => k)).

(** Two prefixes, an attribute and a child redeclaring one of them. *)
Definition y_good : serialize :=
  Ser (ANs "p" u1 (ANs "q" u2 (AAttr (XName u2 "a") "1" (fun _ => ARet None))))
      (WElem (XName u2 "kid") (BNs "q" u2 (BAttr (XName u1 "b") "2" (fun _ =>
         BStart (leaf (XName "" "plain") (leaf (XName u1 "c") (WFinish (fun _ => WRet None))))
                (fun _ => WRet None))))).

Example C31_example : exists k t,
  to true (fun _ => None) (XName u1 "root") y_good = inl (None, k) /\
  asked (XName u1 "root") y_good = Some t /\
  emit SkipIfAnywhere [] (k_out k) =
    [XStart (PName (Some "p"%string) "root") [("p"%string, u1); ("q"%string, u2)] [(PName (Some "q"%string) "a", "1"%string)];
     XStart (PName (Some "q"%string) "kid") [] [(PName (Some "p"%string) "b", "2"%string)];
     XStart (PName None "plain") [] []; XEnd; XStart (PName (Some "p"%string) "c") [] []; XEnd; XEnd; XEnd] /\
  legal_mappings t /\ default_ok t /\ coherent t.
Proof.
  eexists. eexists. split; [vm_compute; reflexivity|]. split; [vm_compute; reflexivity|].
  split; [vm_compute; reflexivity|].
  assert (Ns : forall p u, asks_ns
     (RElem (XName u1 "root") [ReqNs "p" u1; ReqNs "q" u2; ReqAttr (XName u2 "a") "1"]
        [RElem (XName u2 "kid") [ReqNs "q" u2; ReqAttr (XName u1 "b") "2"]
           [RElem (XName "" "plain") [] []; RElem (XName u1 "c") [] []]]) p u ->
     p = "p"%string /\ u = u1 \/ p = "q"%string /\ u = u2).
  { intros p u H. apply asks_ns_spec in H. cbn in H.
    repeat destruct H as [H | H]; try discriminate; try (inversion H; auto). }
  split; [|split].
  - intros p u H. apply Ns in H. destruct H as [[-> ->] | [-> ->]]; repeat split; discriminate.
  - apply default_apart. left. intros u H. apply Ns in H. destruct H as [[H _] | [H _]]; discriminate.
  - exists (fun p => if String.eqb p "p" then u1 else u2). split.
    + intros p u H. apply Ns in H. destruct H as [[-> ->] | [-> ->]]; reflexivity.
    + intros u n H. apply Ns in H. destruct H as [[H _] | [H _]]; discriminate.
Qed.

(** An attribute in the default namespace: [ns1] is generated for it. *)
Definition y_attr : serialize :=
  Ser (ANs "" u1 (ANs "q" u2 (AAttr (XName u1 "a") "1" (fun _ => ARet None))))
      (WElem (XName u2 "kid") (BNs "" u1 (BStart (leaf (XName u1 "c") (WFinish (fun _ => WRet None)))
         (fun _ => WRet None)))).

Example C31_default_example : exists k t,
  to true (fun _ => None) (XName u1 "root") y_attr = inl (None, k) /\
  asked (XName u1 "root") y_attr = Some t /\
  emit SkipIfAnywhere [] (k_out k) =
    [XStart (PName (Some "ns1"%string) "root") [("ns1"%string, u1); ("q"%string, u2)] [(PName (Some "ns1"%string) "a", "1"%string)];
     XStart (PName (Some "q"%string) "kid") [(""%string, u1)] [];
     XStart (PName None "c") [] []; XEnd; XEnd; XEnd] /\
  legal_mappings t /\ default_ok t /\ coherent t.
Proof.
  eexists. eexists. split; [vm_compute; reflexivity|]. split; [vm_compute; reflexivity|].
  split; [vm_compute; reflexivity|].
  set (t := RElem _ _ _).
  assert (Ns : forall p u, asks_ns t p u -> p = ""%string /\ u = u1 \/ p = "q"%string /\ u = u2).
  { intros p u H. apply asks_ns_spec in H. cbn in H.
    repeat destruct H as [H | H]; try discriminate; try (inversion H; auto). }
  split; [|split].
  - intros p u H. apply Ns in H. destruct H as [[-> ->] | [-> ->]]; repeat split; discriminate.
  - apply default_apart. right. intros n (reqs & kids & H). inversion H as [|? ? ? ? k1 H1 H2]; subst; [discriminate|].
    destruct H1 as [<- | []]. inversion H2 as [|? ? ? ? k2 H3 H4]; subst; [discriminate|].
    destruct H3 as [<- | []]. inversion H4 as [|? ? ? ? k3 H5 H6]; subst; [discriminate|]. destruct H5.
  - exists (fun p => if String.eqb p "q" then u2 else u1). split.
    + intros p u H. apply Ns in H. destruct H as [[-> ->] | [-> ->]]; reflexivity.
    + intros u n H _ _. apply Ns in H. destruct H as [[_ ->] | [H _]]; [reflexivity|discriminate].
Qed.

(** A default namespace beside elements without namespace. *)
Definition y_beside : serialize :=
  Ser (ARet None)
      (leaf (XName "" "plain") (WElem (XName u1 "kid") (BNs "" u1 (BStart
         (leaf (XName u1 "c") (WFinish (fun _ => leaf (XName "" "other") (WRet None)))) (fun _ => WRet None))))).

Example C31_beside_example : exists k t,
  to true (fun _ => None) (XName "" "root") y_beside = inl (None, k) /\
  asked (XName "" "root") y_beside = Some t /\
  emit SkipIfAnywhere [] (k_out k) =
    [XStart (PName None "root") [] []; XStart (PName None "plain") [] []; XEnd;
     XStart (PName None "kid") [(""%string, u1)] []; XStart (PName None "c") [] []; XEnd; XEnd;
     XStart (PName None "other") [] []; XEnd; XEnd] /\
  legal_mappings t /\ default_ok t /\ coherent t.
Proof.
  eexists. eexists. split; [vm_compute; reflexivity|]. split; [vm_compute; reflexivity|].
  split; [vm_compute; reflexivity|].
  set (t := RElem _ _ _).
  assert (Ns : forall p u, asks_ns t p u -> p = ""%string /\ u = u1).
  { intros p u H. apply asks_ns_spec in H. cbn in H.
    repeat destruct H as [H | H]; try discriminate; try (inversion H; auto). }
  split; [|split].
  - intros p u H. apply Ns in H. destruct H as [-> ->]; repeat split; discriminate.
  - intros n reqs kids u n' H In_ (r & ks & H').
    assert (E : RElem n reqs kids = RElem (XName u1 "kid") [ReqNs "" u1] [RElem (XName u1 "c") [] []]).
    { inversion H as [|? ? ? ? k1 H1 H2]; subst; [destruct In_|].
      destruct H1 as [<-|[<-|[<-|[]]]]; inversion H2 as [|? ? ? ? k2 H3 H4]; subst; try (destruct In_ as []; fail);
        try reflexivity; try (destruct H3; fail).
      destruct H3 as [<-|[]]. inversion H4 as [|? ? ? ? k3 H5 H6]; subst; [destruct In_|destruct H5]. }
    rewrite E in H'. inversion H' as [|? ? ? ? k1 H1 H2]; subst; [discriminate|].
    destruct H1 as [<-|[]]. inversion H2 as [|? ? ? ? k2 H3 H4]; subst; [discriminate|destruct H3].
  - exists (fun p => u1). split.
    + intros p u H. apply Ns in H. now destruct H as [-> ->].
    + intros u n H _ _. apply Ns in H. now destruct H.
Qed.

(** Mapping one prefix to [u1], then below to [u2], then below to [u1] again: the writer omits the
    innermost declaration, and the innermost name means [u2]. *)
Definition y_shadow : serialize :=
  Ser (ANs "p" u1 (ARet None))
      (WElem (XName u2 "mid") (BNs "p" u2 (BStart
         (WElem (XName u1 "leaf") (BNs "p" u1 (BStart (WFinish (fun _ => WFinish (fun _ => WRet None))) (fun _ => WDrop (WRet None)))))
         (fun _ => WRet None)))).

Theorem C31_remapped_prefix_refuted : exists n v k t,
  to true (fun _ => None) n v = inl (None, k) /\ asked n v = Some t /\
  meaning [] (emit SkipIfAnywhere [] (k_out k)) =
    Some [EvStart (XName u1 "root") []; EvStart (XName u2 "mid") []; EvStart (XName u2 "leaf") []; EvEnd; EvEnd; EvEnd] /\
  tree_events (tree_of t) =
    [EvStart (XName u1 "root") []; EvStart (XName u2 "mid") []; EvStart (XName u1 "leaf") []; EvEnd; EvEnd; EvEnd] /\
  (* a writer that looks at the scope would do *)
  meaning [] (emit SkipIfInScope [] (k_out k)) = Some (tree_events (tree_of t)).
Proof. exists (XName u1 "root"), y_shadow. do 2 eexists. repeat split; vm_compute; reflexivity. Qed.
Print Assumptions C31_remapped_prefix_refuted.

(** The same with a prefix that is generated: no prefix is given two URLs here, but [ns1] is generated
    for the middle element's attribute. *)
Definition y_generated : serialize :=
  Ser (ANs "ns1" u2 (ARet None))
      (WElem (XName u1 "mid") (BNs "" u1 (BAttr (XName u1 "a") "1" (fun _ => BStart
         (WElem (XName u2 "leaf") (BNs "ns1" u2 (BStart (WFinish (fun _ => WFinish (fun _ => WRet None))) (fun _ => WDrop (WRet None)))))
         (fun _ => WRet None))))).

Theorem C31_generated_prefix_refuted : exists n v k t,
  to true (fun _ => None) n v = inl (None, k) /\ asked n v = Some t /\ legal_mappings t /\ default_ok t /\
  (exists f, forall p u, asks_ns t p u -> f p = u) /\
  meaning [] (emit SkipIfAnywhere [] (k_out k)) =
    Some [EvStart (XName u2 "root") []; EvStart (XName u1 "mid") [(XName u1 "a", "1"%string)];
          EvStart (XName u1 "leaf") []; EvEnd; EvEnd; EvEnd] /\
  tree_events (tree_of t) =
    [EvStart (XName u2 "root") []; EvStart (XName u1 "mid") [(XName u1 "a", "1"%string)];
     EvStart (XName u2 "leaf") []; EvEnd; EvEnd; EvEnd].
Proof.
  exists (XName u2 "root"), y_generated. do 2 eexists. split; [vm_compute; reflexivity|].
  split; [vm_compute; reflexivity|].
  set (t := RElem _ _ _).
  assert (Ns : forall p u, asks_ns t p u -> p = ""%string /\ u = u1 \/ p = "ns1"%string /\ u = u2).
  { intros p u H. apply asks_ns_spec in H. cbn in H.
    repeat destruct H as [H | H]; try discriminate; try (inversion H; auto). }
  split; [|split; [|split; [|split; vm_compute; reflexivity]]].
  - intros p u H. apply Ns in H. destruct H as [[-> ->] | [-> ->]]; repeat split; discriminate.
  - apply default_apart. right. intros n (reqs & kids & H). inversion H as [|? ? ? ? k1 H1 H2]; subst; [discriminate|].
    destruct H1 as [<- | []]. inversion H2 as [|? ? ? ? k2 H3 H4]; subst; [discriminate|].
    destruct H3 as [<- | []]. inversion H4 as [|? ? ? ? k3 H5 H6]; subst; [discriminate|]. destruct H5.
  - exists (fun p => if String.eqb p "ns1" then u2 else u1).
    intros p u H. apply Ns in H. destruct H as [[-> ->] | [-> ->]]; reflexivity.
Qed.
Print Assumptions C31_generated_prefix_refuted.

(** A default namespace, whose URL a descendant maps to a prefix: an element without namespace below
    that is written without prefix, and means the default namespace.  This does not depend on what the
    writer omits. *)
Definition y_default : serialize :=
  Ser (ANs "" u1 (ANs "p" u2 (ARet None)))
      (WElem (XName u2 "mid") (BNs "q" u1 (BStart
         (leaf (XName "" "leaf") (WFinish (fun _ => WRet None)))
         (fun _ => WRet None)))).

Theorem C31_default_namespace_refuted : exists n v k t,
  to true (fun _ => None) n v = inl (None, k) /\ asked n v = Some t /\
  tree_events (tree_of t) =
    [EvStart (XName u1 "root") []; EvStart (XName u2 "mid") []; EvStart (XName "" "leaf") []; EvEnd; EvEnd; EvEnd] /\
  forall pol, meaning [] (emit pol [] (k_out k)) =
    Some [EvStart (XName u1 "root") []; EvStart (XName u2 "mid") []; EvStart (XName u1 "leaf") []; EvEnd; EvEnd; EvEnd].
Proof.
  exists (XName u1 "root"), y_default. do 2 eexists.
  split; [vm_compute; reflexivity|]. split; [vm_compute; reflexivity|]. split; [vm_compute; reflexivity|].
  intros []; vm_compute; reflexivity.
Qed.
Print Assumptions C31_default_namespace_refuted.

(** ** C32: prefixes *)

(** The search for a free prefix always ends. *)
Theorem C32_terminates : forall dbg o n v, to dbg o n v <> inr Diverge.
Proof. exact to_terminates. Qed.
Print Assumptions C32_terminates.

(** Every start tag, with the element it is for: its mappings are one-to-one; every namespace asked
    for is mapped; the names use the mappings; attributes never use the default namespace. *)
Theorem C32_tags : forall dbg o n v k t, to dbg o n v = inl (None, k) -> asked n v = Some t ->
  Forall2 tag_ok (elements t) (tags (k_out k)).
Proof. exact (fun dbg o n v k t H A => proj1 (to_choice dbg o n v k t H A)). Qed.
Print Assumptions C32_tags.

(** One prefix asked for three URLs, and another asked for a name that is generated. *)
Definition y_clash : serialize :=
  Ser (ANs "a" "urn:3" (ANs "a" "urn:1" (ANs "a" "urn:2" (ANs "a2" "urn:9" (ANs "" "urn:0"
        (AAttr (XName "urn:0" "x") "1" (fun _ => ARet None)))))))
      (WRet None).
Example C32_example :
  match to true (fun _ => None) (XName "urn:3" "root") y_clash with
  | inl (None, k) => tags (k_out k) =
      [(PName (Some "a3"%string) "root", [(PName (Some "ns1"%string) "x", "1"%string)],
        [("a", "urn:1"); ("a2", "urn:2"); ("a22", "urn:9"); ("a3", "urn:3"); ("ns1", "urn:0")]%string)]
  | _ => False
  end.
Proof. vm_compute. reflexivity. Qed.

(** ** C33: attributes *)

Theorem C33_attributes_distinct : forall n v t, asked n v = Some t -> distinct_attrs t.
Proof. exact asked_distinct. Qed.
Print Assumptions C33_attributes_distinct.

(** After any calls on a new builder: an attribute given before is refused and nothing changes; any
    other is accepted. *)
Theorem C33_second_attribute_refused : forall dbg m n b, reached dbg (writer_element m n) b ->
  (forall a v old, In (a, old) (b_attrs b) ->
     builder_attribute a v b = inl (Some (SDuplicate a old v), b)) /\
  (forall a v, ~ In a (map fst (b_attrs b)) ->
     exists b', builder_attribute a v b = inl (None, b') /\ b_attrs b' = b_attrs b ++ [(a, v)]).
Proof. exact builder_attributes. Qed.
Print Assumptions C33_second_attribute_refused.

Example C33_example : exists b,
  reached true (writer_element (Namespaces [] []) (XName "" "e")) b /\
  In (XName "" "a", "1"%string) (b_attrs b) /\
  builder_attribute (XName "" "a") "2" b = inl (Some (SDuplicate (XName "" "a") "1" "2"), b).
Proof.
  eexists. split; [|split].
  - apply (reach_ns true _ (BState (XName "" "e") [] [(XName "" "a", "1"%string)] [XName "" "a"]) "p" u1).
    + apply (reach_attr true _ (writer_element (Namespaces [] []) (XName "" "e")) (XName "" "a") "1" None);
        [apply reach_start|reflexivity].
    + vm_compute. reflexivity.
  - left. reflexivity.
  - vm_compute. reflexivity.
Qed.

(** ** C34: which prefix *)

(** [choice_ok]: when no two of the namespaces an element needs want the same prefix, and none wants the
    empty prefix although an attribute is in it, each gets the prefix it wants.  It wants: the parent's
    prefix, if it is the element's own namespace; otherwise the prefix given first on the builder; or the
    parent's, if an attribute used it before that. *)
Theorem C34_choice : forall dbg o n v k t, to dbg o n v = inl (None, k) -> asked n v = Some t ->
  Forall2 choice_ok (elements t) (tags_in [[]] (k_out k)).
Proof. exact (fun dbg o n v k t H A => proj2 (to_choice dbg o n v k t H A)). Qed.
Print Assumptions C34_choice.

(** The parent's prefix is used for the element's own namespace. *)
Definition y_own : serialize :=
  Ser (ANs "p" u1 (ARet None)) (WElem (XName u1 "kid") (BNs "q" u1 (BStart (WFinish (fun _ => WRet None)) (fun _ => WRet None)))).
Example C34_example :
  match to true (fun _ => None) (XName u1 "root") y_own with
  | inl (None, k) => tags_in [[]] (k_out k) = [([], [("p"%string, u1)]); ([("p"%string, u1)], [("p"%string, u1)])]
  | _ => False
  end.
Proof. vm_compute. reflexivity. Qed.

(** In all cases: the mappings of each start tag are exactly those described by [exact_tag]. *)
Theorem C34_exact : forall dbg o n v k t, to dbg o n v = inl (None, k) -> asked n v = Some t ->
  Forall2 exact_tag (elements t) (tags_in [[]] (k_out k)).
Proof. exact to_exact. Qed.
Print Assumptions C34_exact.

(** [exact_tag] leaves no choice. *)
Theorem C34_determined : forall x parent m m', exact_tag x (parent, m) -> exact_tag x (parent, m') ->
  forall d, In d m <-> In d m'.
Proof. exact exact_determined. Qed.
Print Assumptions C34_determined.

(** Three namespaces want [p], and [p2] is taken as well; the child drops the parent's [p]. *)
Definition y_four : serialize :=
  Ser (ANs "p" "urn:c" (ANs "p2" "urn:a" (ANs "p" "urn:b" (ANs "p" "urn:d" (ARet None)))))
      (WElem (XName "" "kid") (BNs "p" "urn:e" (BStart (WFinish (fun _ => WRet None)) (fun _ => WRet None)))).
Example C34_clash_example :
  match to true (fun _ => None) (XName "urn:d" "root") y_four with
  | inl (None, k) =>
      let root := [("p", "urn:b"); ("p2", "urn:a"); ("p3", "urn:c"); ("p4", "urn:d")]%string in
      tags_in [[]] (k_out k) =
      [([], root); (root, [("p", "urn:e"); ("p2", "urn:a"); ("p3", "urn:c"); ("p4", "urn:d")]%string)]
  | _ => False
  end.
Proof. vm_compute. reflexivity. Qed.

(** The documented rules (lib.rs 230-239) fail in these cases.  For another namespace than the
    element's own, the parent's prefix is not used. *)
Definition y_parent : serialize :=
  Ser (ANs "p" u1 (ARet None))
      (WElem (XName "" "kid") (BNs "q" u1 (BAttr (XName u1 "a") "" (fun _ =>
         BStart (WFinish (fun _ => WRet None)) (fun _ => WRet None))))).
Theorem C34_parents_prefix_refuted : exists n v k,
  to true (fun _ => None) n v = inl (None, k) /\
  tags (k_out k) = [(PName (Some "p"%string) "root", [], [("p"%string, u1)]);
                    (PName None "kid", [(PName (Some "q"%string) "a", ""%string)], [("q"%string, u1)])].
Proof. exists (XName u1 "root"), y_parent. eexists. split; vm_compute; reflexivity. Qed.
Print Assumptions C34_parents_prefix_refuted.

(** When a container and a field flattened into it map one prefix to different URLs, the lesser URL gets
    it: here that of the flattened field, whose mappings are added last. *)
Definition y_flat : serialize := Ser (ANs "p" u2 (ANs "p" u1 (ARet None))) (WRet None).
Theorem C34_containers_prefix_refuted : exists n v k,
  to true (fun _ => None) n v = inl (None, k) /\
  tags (k_out k) = [(PName (Some "p2"%string) "root", [], [("p"%string, u1); ("p2"%string, u2)])].
Proof. exists (XName u2 "root"), y_flat. eexists. split; vm_compute; reflexivity. Qed.
Print Assumptions C34_containers_prefix_refuted.

(** A namespace mapped both as the default and with a prefix, used by an attribute: a generated prefix is
    used, not the given one. *)
Definition y_both : serialize :=
  Ser (ANs "" u1 (ANs "q" u1 (AAttr (XName u1 "a") "" (fun _ => ARet None)))) (WRet None).
Theorem C34_prefixed_form_refuted : exists n v k,
  to true (fun _ => None) n v = inl (None, k) /\
  tags (k_out k) = [(PName (Some "ns1"%string) "root", [(PName (Some "ns1"%string) "a", ""%string)], [("ns1"%string, u1)])].
Proof. exists (XName u1 "root"), y_both. eexists. split; vm_compute; reflexivity. Qed.
Print Assumptions C34_prefixed_form_refuted.
