(** Which errors a declaration has, in which order: each item is judged by itself and by the items before
    it that it is in conflict with. *)
From Verif Require Import Base Normalize Text Find Types DeriveAttr DASpec.

(** ** Items *)

(** [static_xml] attributes that are not lists of items. *)
Definition shape_errors (attrs : list attribute) : list derr :=
  flat_map (fun a => match a with ANotList => [EExpectedList] | ABad => [EParse] | _ => [] end) attrs.

(** The errors of the items [l], when [before] are the items before them. *)
Fixpoint judged (judge : list item -> item -> list derr) (before l : list item) : list derr :=
  match l with
  | [] => []
  | i :: l' => judge before i ++ judged judge (before ++ [i]) l'
  end.

(** What [i] assigns to [key]. *)
Definition about (key : string) (i : item) : option lit :=
  match i with INameValue (Some k) v => if String.eqb k key then Some v else None | _ => None end.
Definition string_only (v : lit) : list derr := match v with LStr _ => [] | LOther => [EString] end.

(** ** Namespaces and names *)

(** The mappings that items try to declare; of two for a prefix, the first counts. *)
Definition offers (l : list item) : list (string * string) :=
  flat_map (fun i =>
    match about "namespace" i, about "default_namespace" i with
    | Some (LStr s), _ =>
        match split_colon s with
        | Some (p, u) => if starts_with "xml" p then [] else [(str_trim p, str_trim u)]
        | None => [(""%string, str_trim s)]
        end
    | _, Some (LStr s) => [(""%string, str_trim s)]
    | _, _ => []
    end) l.
Definition url_of (decls : list (string * string)) (p : string) : option string :=
  option_map snd (List.find (fun d => String.eqb (fst d) p) decls).

(** [prefix = v] after the prefixes [earlier]. *)
Definition prefix_errors (decls : list (string * string)) (earlier : list string) (v : lit) : list derr :=
  match v with
  | LOther => [EString]
  | LStr s =>
      match earlier with
      | p :: _ => [EDuplicatePrefix (str_trim p) (str_trim s)]
      | [] =>
          if String.eqb (str_trim s) "" || String.eqb (str_trim s) "xml" || negb (is_none (url_of decls (str_trim s)))
          then [] else [EPrefixNotFound (str_trim s)]
      end
  end.

(** ** Types *)

Definition type_judge (before : list item) (i : item) : list derr :=
  match about "rename" i, about "prefix" i with
  | Some v, _ => string_only v
  | None, Some _ => []
  | None, None =>
      match about "namespace" i, about "default_namespace" i with
      | Some v, _ | None, Some v =>
          string_only v ++
          flat_map (fun d => match url_of (offers before) (fst d) with
                             | Some old => [EReassign (fst d) old (snd d)]
                             | None => []
                             end) (offers [i])
      | None, None => [ENotUnderstood]
      end
  end.

(** The last prefix of a type is looked at after everything else, the others are not. *)
Definition type_errors (attrs : list attribute) : list derr :=
  shape_errors attrs ++ judged type_judge [] (items_in attrs) ++
  match rev (literals "prefix" (items_in attrs)) with
  | [] => []
  | v :: _ => prefix_errors (offers (items_in attrs)) [] v
  end.

(** ** Fields *)

Definition is_flag (keys : list string) (i : item) : bool :=
  match i with IPath (Some k) => existsb (String.eqb k) keys | _ => false end.

(** Names of fields and variants. *)
Definition name_judge (decls : list (string * string)) (flags : list string) (before : list item) (i : item) : list derr :=
  if is_flag flags i then []
  else match about "rename" i, about "prefix" i with
       | Some v, _ => string_only v
       | None, Some v => prefix_errors decls (values "prefix" before) v
       | None, None => [ENotUnderstood]
       end.

Definition mode_errors (l : list item) : list derr :=
  match has_flag "attribute" l, has_flag "flatten" l, has_flag "text" l with
  | true, true, _ | true, _, true | _, true, true => [EExclusive]
  | false, true, false => if has_flag "default" l then [EDefaultFlatten] else []
  | _, _, _ => []
  end.

Definition field_errors (decls : list (string * string)) (sf : sfield) : list derr :=
  let l := items_in (sf_attrs sf) in
  shape_errors (sf_attrs sf) ++
  judged (name_judge decls ["attribute"; "default"; "flatten"; "text"]%string) [] l ++
  mode_errors l.

(** Fields that are text and nothing else. *)
Definition text_field (sf : sfield) : bool :=
  let l := items_in (sf_attrs sf) in
  has_flag "text" l && negb (has_flag "attribute" l) && negb (has_flag "flatten" l).

(** ** Variants *)

(** The items before the first [skip]; whether there is one. *)
Fixpoint until_skip (l : list item) : list item * bool :=
  match l with
  | [] => ([], false)
  | i :: l' => if is_flag ["skip"%string] i then ([], true) else let (a, s) := until_skip l' in (i :: a, s)
  end.

Definition payload_errors {T} (fs : fields T) : list derr :=
  match fs with FUnit | FUnnamed [_] => [] | _ => [EPayload] end.

Definition variant_errors {T} (decls : list (string * string)) (v : svariant T) : list derr :=
  let (l, skipped) := until_skip (items_in (sv_attrs v)) in
  shape_errors (sv_attrs v) ++ judged (name_judge decls []) [] l ++
  if skipped : bool then [] else payload_errors (sv_fields v).

(** ** Declarations *)

Definition input_errors (i : sinput) : list derr :=
  let decls := offers (items_in (si_attrs i)) in
  match si_data i with
  | SStruct (FNamed fs) =>
      type_errors (si_attrs i) ++ flat_map (field_errors decls) fs ++
      if Nat.leb 2 (List.length (filter text_field fs)) then [ETwoTexts] else []
  | SStruct _ => type_errors (si_attrs i) ++ [ENamedFields]
  | SEnum vs => type_errors (si_attrs i) ++ flat_map (variant_errors decls) vs
  | SUnion => [EUnsupported]
  end.

(** ** Text types *)

Definition a_mode (s : string) : bool := existsb (String.eqb s) ["std"; "restriction"; "union"]%string.
(** The mode: the first that is one. *)
Definition mode_of (l : list item) : option string := List.find a_mode (values "mode" l).

Definition text_judge (before : list item) (i : item) : list derr :=
  match about "whitespace" i, about "mode" i with
  | Some (LStr s), _ => if existsb (String.eqb s) ["preserve"; "replace"; "collapse"]%string then [] else [EWhitespace]
  | Some LOther, _ => [EString]
  | None, Some v =>
      match mode_of before, v with
      | Some _, _ => [ERedundantMode]
      | None, LOther => [EString]
      | None, LStr s => if a_mode s then [] else [EUnknownMode]
      end
  | None, None => [ENotUnderstood]
  end.

Definition restr_judge (_ : list item) (i : item) : list derr :=
  if is_flag ["unknown"%string] i then []
  else match about "rename" i with Some v => string_only v | None => [ENotUnderstood] end.

Definition is_unknown {T} (v : svariant T) : bool := has_flag "unknown" (items_in (sv_attrs v)).

(** A variant of a restriction, after the variants [before]. *)
Definition restr_errors (before : list (svariant tty)) (v : svariant tty) : list derr :=
  let l := items_in (sv_attrs v) in
  shape_errors (sv_attrs v) ++ judged restr_judge [] l ++
  if is_unknown v then
    (match values "rename" l with [] => [] | _ => [EUnknownRename] end) ++
    (match sv_fields v with FUnnamed [_] => [] | _ => [EUnknownField] end) ++
    (if existsb is_unknown before then [EUnknownTwice] else [])
  else match sv_fields v with FUnit => [] | _ => [EKnownFields] end.
Fixpoint restrs_errors (before vs : list (svariant tty)) : list derr :=
  match vs with
  | [] => []
  | v :: vs' => restr_errors before v ++ restrs_errors (before ++ [v]) vs'
  end.

Definition union_errors (v : svariant tty) : list derr :=
  shape_errors (sv_attrs v) ++ map (fun _ => ENotUnderstood) (items_in (sv_attrs v)) ++
  match sv_fields v with FUnnamed [_] => [] | _ => [EUnionField] end.

Definition text_errors (i : tinput) : list derr :=
  shape_errors (ti_attrs i) ++ judged text_judge [] (items_in (ti_attrs i)) ++
  match mode_of (items_in (ti_attrs i)) with
  | None => [EModeMissing]
  | Some m =>
      if String.eqb m "std" then []
      else match ti_data i with
           | TDataOther => [EUnsupported]
           | TDataEnum vs => if String.eqb m "restriction" then restrs_errors [] vs else flat_map union_errors vs
           end
  end.
