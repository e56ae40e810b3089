(** Specification for C81: names that a module must not redefine, and declarations whose names are found. *)
From Verif Require Import Base Resolve.

(** Names the generated code uses as in the standard prelude (or, [static_xml], as that of the crate). *)
Definition reserved (s : space) : list string :=
  match s with
  | STy => ["Result"; "Option"; "String"; "bool"; "Vec"; "Box"; "str"; "static_xml"]
  | SVal => ["Ok"; "Err"; "Some"; "None"]
  | SMac => ["stringify"]
  end%string.
(** Its variables. *)
Definition variables : list string :=
  ["child"; "name"; "value"; "s"; "p"; "out"; "default"; "_default"; "element"; "visitor"; "element_i"; "expected_i"; "f"; "d";
   "builder"; "writer"; "text"; "errors"; "r"; "e"; "t"]%string.

(** The module redefines none of them, and has no constants named like variables. *)
Definition leaves_alone (m : module) : Prop :=
  (forall s x, In x (reserved s) -> m s x = None) /\ forall x, In x variables -> m SVal x <> Some true.

(** No field of a struct that can be read has a type that mentions a type called like the struct's visitor. *)
Definition no_visitor_types (d : derivation) : Prop :=
  match d with
  | DeStruct ident fs => Forall (fun f => ~ In (u_name ident ++ "Visitor")%string (rf_type f)) fs
  | _ => True
  end.

(** All identifiers and fields come from the place of the derivation. *)
Definition from_here (d : derivation) : Prop :=
  match d with
  | DeStruct _ fs => Forall (fun f => rf_first f = 0 /\ (rf_mode f = RFlatten -> u_place (rf_ident f) = 0)) fs
  | SerStruct _ _ fs => Forall (fun f => u_place (rf_ident f) = 0) fs
  | DeEnum _ vs | SerEnum _ _ vs => Forall (fun v => u_place (fst v) = 0) vs
  | Parse _ _ (RUnion l) => Forall (fun v => u_place (fst v) = 0) l
  | Parse _ _ (RRestriction l) => forall v, find snd l = Some v -> u_place (fst v) = 0
  | Parse _ _ RStd | Print _ _ => True
  end.

(** A module with one item. *)
Definition with_item (s : space) (x : string) (c : bool) : module :=
  fun t y => if space_eqb s t && String.eqb x y then Some c else None.
