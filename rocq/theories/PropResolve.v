(** Property theorem C81: what the names in the generated code refer to. *)
From Verif Require Import Base Resolve ResolveSpec ResolveProofs.

(** In a module that leaves the names it relies on alone, all names in the generated code refer to what they should, exactly if no
    field of a struct to be read has a type called like the visitor, and no identifier comes from elsewhere. *)
Theorem C81_names : forall m d, leaves_alone m -> names_fit m d = true <-> no_visitor_types d /\ from_here d.
Proof. exact names_fit_iff. Qed.
Print Assumptions C81_names.

(** ** Examples *)

Local Open Scope string_scope.
Definition at0 (x : string) : uid := UId x 0.
(** [struct Foo { a: String, #[static_xml(attribute)] b: Option<bool>, #[static_xml(flatten)] c: Bar }] *)
Definition foo_fields : list rfield :=
  [ RField (at0 "a") 0 ["String"] RElement false; RField (at0 "b") 0 ["Option"; "bool"] RAttribute false;
    RField (at0 "c") 0 ["Bar"] RFlatten false ].
Definition foo_de : derivation := DeStruct (at0 "Foo") foo_fields.
(** [enum Bar { X, Y(Baz) }], a union and restrictions. *)
Definition bar_de : derivation := DeEnum (at0 "Bar") [(at0 "X", false); (at0 "Y", true)].
Definition baz_de : derivation := Parse (at0 "Baz") true (RUnion [(at0 "N", ["u32"]); (at0 "C", ["Colour"])]).
Definition colour : rtext := RRestriction [(at0 "Red", false); (at0 "Other", true)].

(** A module with these types, a constant, and a function that is called like a variable. *)
Definition a_module : module := fun s x =>
  match s with
  | STy => if mem x ["Foo"; "FooVisitor"; "Bar"; "Baz"; "Colour"] then Some false else None
  | SVal => if mem x ["MAX"; "ELEMENTS"] then Some true else if mem x ["child"; "builder"] then Some false else None
  | SMac => None
  end.

Example C81_example : leaves_alone a_module /\
  Forall (fun d => no_visitor_types d /\ from_here d)
    [foo_de; bar_de; SerStruct (at0 "Foo") 2 foo_fields; SerEnum (at0 "Bar") 0 [(at0 "X", false); (at0 "Y", true)];
     baz_de; Parse (at0 "Colour") false colour; Print (at0 "Colour") colour].
Proof.
  split.
  - split; [intros [] x H; cbn in H; intuition subst; reflexivity|]. intros x H. cbn in H. intuition subst; discriminate.
  - repeat constructor; cbn; try (intuition discriminate). intros v [= <-]. reflexivity.
Qed.

(** ** The conditions are needed *)

(** None of the names can be redefined. *)
Ltac break := split; [|split; [|vm_compute; reflexivity]];
  cbn; repeat constructor; cbn; try (intuition discriminate); intros v [= <-]; reflexivity.
Theorem C81_reserved_needed : forall s x, In x (reserved s) ->
  exists d, no_visitor_types d /\ from_here d /\ names_fit (with_item s x false) d = false.
Proof.
  intros [] x H; cbn in H; intuition subst;
    first [exists foo_de; break | exists bar_de; break | exists baz_de; break | exists (Parse (at0 "Colour") true RStd); break
          | exists (Print (at0 "Colour") colour); break].
Qed.
Print Assumptions C81_reserved_needed.

(** And no constant can be called like one of the variables. *)
Theorem C81_variables_needed : forall x, In x variables ->
  exists d, no_visitor_types d /\ from_here d /\ names_fit (with_item SVal x true) d = false.
Proof.
  intros x H; cbn in H; intuition subst;
    first [exists foo_de; break | exists bar_de; break | exists baz_de; break | exists (SerStruct (at0 "Foo") 1 foo_fields); break
          | exists (Parse (at0 "Colour") false (RRestriction [(at0 "Red", false)])); break].
Qed.
Print Assumptions C81_variables_needed.

(** [struct Foo { a: FooVisitor }]: the type of the field is taken for the generated visitor. *)
Theorem C81_visitor_refuted : exists m d, leaves_alone m /\ from_here d /\ names_fit m d = false.
Proof.
  exists a_module, (DeStruct (at0 "Foo") [RField (at0 "a") 0 ["FooVisitor"] RElement false]).
  split; [exact (proj1 C81_example)|]. split; [repeat constructor; discriminate|]. vm_compute. reflexivity.
Qed.
Print Assumptions C81_visitor_refuted.

(** [macro_rules! m { ($f:ident) => { #[derive(Deserialize, Serialize)] struct Foo { $f: String } } }]: [self] is not found in the
    code for the field, whichever derivation; an [enum] whose variant is such an argument has the same problem. *)
Theorem C81_macro_refuted : exists m ds, leaves_alone m /\ ds <> [] /\ Forall no_visitor_types ds /\
  Forall (fun d => names_fit m d = false) ds.
Proof.
  exists a_module,
    [ DeStruct (at0 "Foo") [RField (UId "a" 2) 2 ["String"] RElement false];
      SerStruct (at0 "Foo") 0 [RField (UId "a" 2) 2 ["String"] RElement false];
      DeEnum (at0 "Bar") [(UId "X" 2, false)]; SerEnum (at0 "Bar") 0 [(UId "X" 2, false)] ].
  split; [exact (proj1 C81_example)|]. split; [discriminate|].
  split; [repeat constructor; cbn; intuition discriminate|]. repeat constructor; vm_compute; reflexivity.
Qed.
Print Assumptions C81_macro_refuted.
