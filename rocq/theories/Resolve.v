(** What the names in the generated code refer to.

    Every derivation puts its code into a block [const _: () = { … };] where the type is declared (static-xml-derive/src/lib.rs
    26-31).  The names that [quote!] puts there are looked up as if they had been written there; most start with [::] and
    mean the same everywhere, but the ones listed here do not.  Local variables and [self] are found only by names from the
    same place: a name with the span of an identifier that a [macro_rules] macro got as an argument does not mean a variable
    introduced by [quote!].

    Simplified: names of fields, methods, variants after [::], lifetimes and literals are left out (GenCode.v has the first);
    names are without [r#]; the module has the standard prelude. *)
From Verif Require Import Base.

(** Rust's namespaces, and what a name can refer to. *)
Inductive space := STy | SVal | SMac.
Inductive found := FBlock | FModule | FCrate | FStd | FNothing.
Definition space_eqb (s t : space) : bool :=
  match s, t with STy, STy | SVal, SVal | SMac, SMac => true | _, _ => false end.

(** What is declared in or imported to the module: [Some true] if the name stands for a constant in patterns (constants, statics, unit
    and tuple structs or variants). *)
Definition module := space -> string -> option bool.

(** The items of the block. *)
Definition block := list (space * string).
Definition in_block (b : block) (s : space) (x : string) : bool :=
  existsb (fun '(t, y) => space_eqb s t && String.eqb x y) b.

Definition mem (x : string) (l : list string) : bool := existsb (String.eqb x) l.

(** The prelude, as far as needed, and the crates. *)
Definition prelude (s : space) : list string :=
  match s with
  | STy => ["Result"; "Option"; "String"; "Vec"; "Box"; "bool"; "str"]
  | SVal => ["Ok"; "Err"; "Some"; "None"]
  | SMac => ["stringify"]
  end%string.
Definition crates : list string := ["static_xml"; "std"]%string.

(** The first place where a name is declared: the block, the module, the crates, the prelude. *)
Definition refers (b : block) (m : module) (s : space) (x : string) : found :=
  if in_block b s x then FBlock
  else match m s x with
       | Some _ => FModule
       | None =>
           if (match s with STy => mem x crates | _ => false end) then FCrate
           else if mem x (prelude s) then FStd else FNothing
       end.
Definition found_eqb (x y : found) : bool :=
  match x, y with FBlock, FBlock | FModule, FModule | FCrate, FCrate | FStd, FStd | FNothing, FNothing => true | _, _ => false end.

(** A name in a pattern is a new variable unless it stands for a constant. *)
Definition constant (b : block) (m : module) (x : string) : bool :=
  negb (String.eqb x "self") &&
  (in_block b SVal x || match m SVal x with Some c => c | None => String.eqb x "None" end).

(** The names of a piece of code.  Places names can come from are numbers: 0 is that of the derivation. *)
Inductive code :=
| Done
| Name (s : space) (x : string) (want : found)     (* an item, and what it should be *)
| Given (s : space) (x : string)                   (* a name from the declaration: should be what it is outside of the block *)
| Var (x : string) (c : nat)                       (* a local variable *)
| Let (x : string) (c : nat) (scope : code)        (* its introduction *)
| Seq (a b : code).
Fixpoint seqs (l : list code) : code := match l with [] => Done | a :: l' => Seq a (seqs l') end.

(** All names refer to what they should. *)
Fixpoint fits (b : block) (m : module) (vars : list (string * nat)) (k : code) : bool :=
  match k with
  | Done => true
  | Name s x want =>
      found_eqb (refers b m s x) want && negb (space_eqb s SVal && mem x (map fst vars))
  | Given s x => found_eqb (refers b m s x) (refers [] m s x)
  | Var x c => existsb (fun '(y, d) => String.eqb x y && Nat.eqb c d) vars
  | Let x c scope => negb (constant b m x) && fits b m ((x, c) :: vars) scope
  | Seq k1 k2 => fits b m vars k1 && fits b m vars k2
  end.

(** ** Declarations *)

Record uid := UId { u_name : string; u_place : nat }.
Inductive rmode := RElement | RAttribute | RFlatten.
(** The identifier, the place its first token comes from, the names in its type, how it is used, whether it has a default. *)
Record rfield := RField { rf_ident : uid; rf_first : nat; rf_type : list string; rf_mode : rmode; rf_default : bool }.
Definition rvariant : Type := uid * bool.   (* whether there is a payload *)
(** The variants of a union with the names in their types; those of a restriction, and whether they stand for all other texts. *)
Inductive rtext := RStd | RUnion (l : list (uid * list string)) | RRestriction (l : list (uid * bool)).

Inductive derivation :=
| DeStruct (ident : uid) (fs : list rfield)
| DeEnum (ident : uid) (vs : list rvariant)
| SerStruct (ident : uid) (namespaces : nat) (fs : list rfield)
| SerEnum (ident : uid) (namespaces : nat) (vs : list rvariant)
| Parse (ident : uid) (normalize : bool) (t : rtext)
| Print (ident : uid) (t : rtext).

(** ** The generated code *)

Definition std_ty (x : string) : code := Name STy x FStd.
Definition std_val (x : string) : code := Name SVal x FStd.
Definition here (x : string) : code := Var x 0.
Definition own (x : string) : code := Name SVal x FBlock.
Definition given (l : list string) : code := seqs (map (Given STy) l).
Fixpoint params (l : list string) (c : nat) (body : code) : code :=
  match l with [] => body | x :: l' => Let x c (params l' c body) end.

Definition is_mode (k : rmode) (f : rfield) : bool :=
  match k, rf_mode f with RElement, RElement | RAttribute, RAttribute | RFlatten, RFlatten => true | _, _ => false end.

(** deserialize.rs 233, 338 [format_ident!("{}Visitor", …)]. *)
Definition visitor_name (ident : uid) : string := (u_name ident ++ "Visitor")%string.

(** 12-25 [quote_flatten_visitors]. *)
Definition flatten_visitors (fs : list rfield) : code :=
  seqs (map (fun f => Var "self" (u_place (rf_ident f))) (filter (is_mode RFlatten) fs)).

(** 27-30 [field_mut]. *)
Definition field_mut : code := here "self".

(** 32-54 [visitor_field_definitions]. *)
Definition field_definition (f : rfield) : code :=
  match rf_mode f with RFlatten => given (rf_type f) | _ => std_ty "bool" end.

(** 56-88 [visitor_initializers]. *)
Definition field_initializer (f : rfield) : code :=
  match rf_mode f with
  | RFlatten => seqs [given (rf_type f); Var "out" (rf_first f); given (rf_type f)]
  | _ => Done
  end.

(** 90-146 [finalize_visitor_fields]. *)
Definition finalize_field (f : rfield) : code :=
  let value table := if rf_default f then given (rf_type f) else Seq (given (rf_type f)) (own table) in
  match rf_mode f with
  | RElement => seqs [Var "self" (rf_first f); field_mut; given (rf_type f); value "ELEMENTS"%string]
  | RAttribute => seqs [Var "self" (rf_first f); field_mut; value "ATTRIBUTES"%string]
  | RFlatten =>
      seqs [given (rf_type f); Var "self" (rf_first f);
            if rf_default f then Seq (std_val "Some") (given (rf_type f)) else std_val "None"]
  end.

(** 164-191 [attribute_match_branches]. *)
Definition attribute_branch : code :=
  seqs [std_val "Some"; here "self"; std_val "Err"; here "name";
        std_val "Some"; field_mut; here "value"; here "self"; std_val "Ok"; std_val "None"].

(** 193-223 [element_match_branches]. *)
Definition element_branch (f : rfield) : code :=
  let c := rf_first f in
  seqs [std_val "Some"; Var "self" c; field_mut; Var "child" c; std_val "Ok"; std_val "None";
        std_val "Some"; field_mut; Var "child" c; Var "self" c; std_val "Ok"; std_val "None"].

(** de/mod.rs 740-757 [impl_deserialize_via_raw!]; its variables come from a place of their own. *)
Definition via_raw (ident visitor : string) : code :=
  seqs [Given STy ident; std_ty "Result";
        params ["element"] 1 (Let "out" 1 (seqs [Name STy visitor FBlock; Var "out" 1;
          Let "visitor" 1 (seqs [Var "element" 1; Var "visitor" 1; Var "visitor" 1; std_val "None"; std_val "Ok"; Var "out" 1])]))]%string.

(** 225-334 [do_struct] for [Deserialize]. *)
Definition de_struct (ident : uid) (fs : list rfield) : code :=
  let visitor := visitor_name ident in
  let flat := existsb (is_mode RFlatten) fs in
  let elements := filter (is_mode RElement) fs in
  let attributes := filter (is_mode RAttribute) fs in
  seqs
    [ Given STy (u_name ident); Given STy (u_name ident); seqs (map field_definition fs);
      Name STy visitor FBlock;
      Seq (seqs (map std_ty ["Result"; "Option"]))
        (params ["self"; "child"] 0
          (seqs [here "child"; own "ELEMENTS"; seqs (map element_branch elements);
                 if flat then Seq (flatten_visitors fs) (here "child")
                 else seqs [std_val "Ok"; std_val "Some"; here "child"]]));
      Seq (seqs (map std_ty ["String"; "Result"; "Option"; "String"]))
        (params ["self"; "name"; "value"] 0
          (seqs [here "name"; own "ATTRIBUTES"; seqs (map (fun _ => attribute_branch) attributes);
                 if flat then seqs [flatten_visitors fs; here "name"; here "value"]
                 else seqs [std_val "Ok"; std_val "Some"; here "value"]]));
      if flat then
        Seq (seqs (map std_ty ["String"; "Result"; "Option"; "String"]))
          (params ["self"; "s"; "p"] 0 (seqs [flatten_visitors fs; here "s"; here "p"]))
      else Done;
      Name STy visitor FBlock; Given STy (u_name ident);
      params ["out"] 0 (Seq (here "out") (seqs (map field_initializer fs)));
      Seq (seqs (map std_ty ["Option"; "Result"]))
        (params ["self"; "_default"] 0 (Seq (seqs (map finalize_field fs)) (std_val "Ok")));
      via_raw (u_name ident) visitor ]%string.

(** 344-371 and 373-393 in [do_enum]. *)
Definition initialized_arm (ident : uid) (v : rvariant) : code :=
  let c := u_place (fst v) in
  if snd v then
    seqs [Given STy (u_name ident);
          Let "f" c (seqs [Var "element_i" c; std_val "Some"; Var "f" c; Var "child" c; std_val "Ok"; std_val "None"]);
          Given STy (u_name ident)]
  else seqs [Given STy (u_name ident); Var "element_i" c; std_val "Some"; std_val "Ok"; std_val "None"; Given STy (u_name ident)].
Definition uninitialized_arm (ident : uid) (v : rvariant) : code :=
  let c := u_place (fst v) in
  seqs [std_val "Some"; Given STy (u_name ident); if snd v then Var "child" c else Done].

(** 336-470 [do_enum] for [Deserialize].  The path in line 456 starts without [::]. *)
Definition de_enum (ident : uid) (vs : list rvariant) : code :=
  let visitor := visitor_name ident in
  seqs
    [ Given STy (u_name ident); std_ty "bool"; Name STy visitor FBlock;
      Seq (seqs (map std_ty ["Result"; "Option"]))
        (params ["self"; "child"] 0
          (Seq (here "child")
            (Let "name" 0 (seqs [here "name"; own "ELEMENTS";
              Let "element_i" 0 (seqs [
                here "self"; here "self"; seqs (map (initialized_arm ident) vs);
                Let "expected_i" 0 (seqs [std_val "Some"; here "element_i";
                  Let "element_i" 0 (seqs [std_val "Err"; here "name"; own "ELEMENTS"; here "expected_i"]);
                  std_val "Ok"; std_val "None"]);
                here "self"; here "element_i"; seqs (map (uninitialized_arm ident) vs);
                std_val "Ok"; std_val "Some"; here "child"; here "self"; std_val "Ok"; std_val "None"])]))));
      Name STy visitor FBlock; Given STy (u_name ident);
      params ["out"] 0 (here "out");
      Seq (seqs (map std_ty ["Option"; "Result"]))
        (params ["self"; "default"] 0
          (seqs [here "self"; std_val "Some"; here "default"; Let "d" 0 (Seq (here "self") (here "d"));
                 std_val "Err"; Name STy "static_xml" FCrate; Name SMac "stringify" FStd; std_val "Ok"]));
      Given STy (u_name ident); Name STy visitor FBlock;
      via_raw (u_name ident) visitor ]%string.

(** serialize.rs 24-73, 87-108 [do_struct] for [Serialize]. *)
Definition ser_struct (ident : uid) (namespaces : nat) (fs : list rfield) : code :=
  let pick k := filter (is_mode k) fs in
  seqs
    [ Given STy (u_name ident); std_ty "Result";
      params ["self"; "builder"] 0
        (seqs [seqs (repeat (here "builder") namespaces);
               seqs (map (fun f => Seq (Var "self" (u_place (rf_ident f))) (Var "builder" (u_place (rf_ident f))))
                 (pick RAttribute ++ pick RFlatten));
               std_val "Ok"]);
      std_ty "Result";
      params ["self"; "writer"] 0
        (seqs [seqs (map (fun f => Seq (Var "self" (u_place (rf_ident f))) (Var "writer" (u_place (rf_ident f))))
                 (pick RElement ++ pick RFlatten));
               std_val "Ok"]);
      Given STy (u_name ident) ]%string.

(** 110-153 [do_enum] for [Serialize]. *)
Definition ser_enum (ident : uid) (namespaces : nat) (vs : list rvariant) : code :=
  let arm (v : rvariant) :=
    let c := u_place (fst v) in
    if snd v then Let "f" c (Seq (Var "f" c) (Var "writer" c)) else Var "writer" c in
  seqs
    [ Given STy (u_name ident); std_ty "Result";
      params ["self"; "builder"] 0 (Seq (seqs (repeat (here "builder") namespaces)) (std_val "Ok"));
      std_ty "Result";
      params ["self"; "writer"] 0 (seqs [here "self"; seqs (map arm vs); std_val "Ok"]);
      Given STy (u_name ident) ]%string.

(** parse.rs 26-122. *)
Definition parse_text (ident : uid) (normalize : bool) (t : rtext) : code :=
  let body k := if normalize then Seq (here "text") (Let "text" 0 k) else k in
  let attempt (v : uid * list string) :=
    let c := u_place (fst v) in
    seqs [given (snd v); Var "text" c; std_val "Ok"; Let "r" c (seqs [std_val "Ok"; Var "r" c]);
          std_val "Err"; Let "e" c (Seq (Var "errors" c) (Var "e" c))] in
  let arm (v : uid * bool) := if snd v then Done else std_val "Ok" in
  let rest l := match find snd l with
                | Some v => seqs [std_val "Ok"; Var "text" (u_place (fst v))]
                | None => Let "t" 0 (seqs [std_val "Err"; Name SMac "stringify" FStd; here "t"])
                end in
  seqs
    [ Given STy (u_name ident); std_ty "String"; std_ty "Result";
      params ["text"] 0 (body
        match t with
        | RUnion l => Seq (std_ty "Vec") (Let "errors" 0
            (seqs [seqs (map attempt l); std_val "Err"; Name SMac "stringify" FStd; here "errors"]))
        | RRestriction l => seqs [here "text"; seqs (map arm l); rest l]
        | RStd => seqs [here "text"; Let "e" 0 (Seq (std_ty "Box") (here "e"))]
        end) ]%string.

(** to_text.rs 20-76; but for [std], everything has the span of the identifier of the type or of the variant. *)
Definition print_text (ident : uid) (t : rtext) : code :=
  let place := match t with RStd => 0 | _ => u_place ident end in
  let union_arm (v : uid * list string) := Let "f" (u_place (fst v)) (Var "f" (u_place (fst v))) in
  let arm (v : uid * bool) :=
    if snd v then Let "text" (u_place (fst v)) (Seq (std_ty "str") (Var "text" (u_place (fst v)))) else Done in
  seqs
    [ Given STy (u_name ident); std_ty "Result"; std_ty "String";
      params ["self"] place
        match t with
        | RUnion l => Seq (Var "self" place) (seqs (map union_arm l))
        | RRestriction l => seqs [std_val "Ok"; Var "self" place; seqs (map arm l)]
        | RStd => Seq (std_val "Ok") (Var "self" place)
        end ]%string.

(** The items of the blocks: deserialize.rs 267-282 and 402-407. *)
Definition items_of (d : derivation) : block :=
  match d with
  | DeStruct ident _ => [(SVal, "ATTRIBUTES"%string); (SVal, "ELEMENTS"%string); (STy, visitor_name ident)]
  | DeEnum ident _ => [(SVal, "ELEMENTS"%string); (STy, visitor_name ident)]
  | _ => []
  end.
Definition code_of (d : derivation) : code :=
  match d with
  | DeStruct ident fs => de_struct ident fs
  | DeEnum ident vs => de_enum ident vs
  | SerStruct ident n fs => ser_struct ident n fs
  | SerEnum ident n vs => ser_enum ident n vs
  | Parse ident n t => parse_text ident n t
  | Print ident t => print_text ident t
  end.

(** All names in the code generated for [d] in the module [m] refer to what they should. *)
Definition names_fit (m : module) (d : derivation) : bool := fits (items_of d) m [] (code_of d).
