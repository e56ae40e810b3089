(** Property theorem C61: flattened fields with hand-written visitors.

    [read_flat o alg P dbg fs]: reading a document as a derived struct with the fields [fs] in a program with the
    hand-written code [P] (DeriveFlat.v), in particular the visitors of the types of flattened fields.
    [fed], [fed_all]: what visitors make of parts of an element, one after the other; [own fs]: the fields that are not
    flattened; [spare_attrs], [spare_kids]: what none of these is for (FlatSpec.v). *)
From Verif Require Import Base Normalize Text TextProofs Find FindProofs Types Reader ReaderSpec ReaderProofs ReaderRel DeriveDe DeSpec
  DeriveMixed MixedSpec MixedProofs DeriveFlat FlatSpec FlatProofs FlatSafe FlatEnum PropDe.

(** ** C61: what the struct and the visitors of its flattened fields see *)

(** A document is read as a struct iff it is read as the struct without its flattened fields, and the visitors of these
    accept, in declaration order, what is not for another field of the struct and was handed back by those before.  The
    value consists of what both make of it.  [fine_names]: no two fields are for the same attribute or element.
    [flat_strict]: see C14. *)
Theorem C61_struct : forall St o alg (P : fuser St) dbg fs fl d pe v,
  fine_names fs -> new_flats P fs = Some fl -> (dbg = true -> flat_strict P) ->
  read_flat o alg P dbg fs (doc_events d) (FEndDocument pe) = Ok v <->
  exists ovs fl' rest fvs vs, read_flat o alg P dbg (own fs) (doc_events d) (FEndDocument pe) = Ok (VStruct ovs) /\
    fed_all (flat_visitors o alg P) P [SElem (d_name d) (d_pos d)] fl
      (pieces (spare_attrs fs (d_attrs d)) (spare_kids fs (d_kids d))) fl' rest /\
    Forall2 (fun s v => fu_finalize P s = Ok v) fl' fvs /\ merge fs ovs fvs vs /\ v = VStruct vs.
Proof. intros St. exact flat_value. Qed.
Print Assumptions C61_struct.

(** The same of an element anywhere in the document that is read with the visitor of a struct. *)
Theorem C61_element : forall St o alg (P : fuser St) fs name attrs ns p kids pe parents ss l fl fin s',
  fine_names fs -> let V := flat_visitors o alg P in let n := NElem name attrs ns p kids pe in
  fst (sem_read V n parents (FStruct fs ss l fl)) = (Ok fin, s') <->
  exists ss' l' fl' rest, s' = FStruct fs ss' l' fl' /\
    fst (sem_read V n parents (FStruct fs ss l [])) = (Ok fin, FStruct fs ss' l' []) /\
    fed_all V P (parents ++ [SElem name p]) fl (pieces (spare_attrs fs attrs) (spare_kids fs kids)) fl' rest.
Proof. intros St. exact read_split. Qed.
Print Assumptions C61_element.

(** To be fed all parts of an element is to read it: a flattened field reads the element as its visitor would alone,
    except that what the struct has fields for, and what visitors before it took, is not there. *)
Theorem C61_alone : forall St o alg (P : fuser St) name attrs ns p kids pe parents s fin s2,
  let V := flat_visitors o alg P in
  fst (sem_read V (NElem name attrs ns p kids pe) parents (FOther s)) = (Ok fin, s2) <->
  fin = (name, ns, pe) /\ exists s' rest, s2 = FOther s' /\ fed V P (parents ++ [SElem name p]) s (pieces attrs kids) s' rest.
Proof. intros St. exact other_read. Qed.
Print Assumptions C61_alone.

(** After a visitor that takes everything, the others see nothing. *)
Theorem C61_greedy : forall St o alg (P : fuser St) path s fl ps s' fl' rest,
  (forall s n v v1, fst (fu_attribute P s n v) <> Ok (Some v1)) ->
  (forall s str p str1, fst (fu_characters P s str p) <> Ok (Some str1)) ->
  (forall s i s1, fu_element P s i <> Pass s1) ->
  fed_all (flat_visitors o alg P) P path (s :: fl) ps (s' :: fl') rest -> fl' = fl /\ rest = [].
Proof. intros St. exact greedy. Qed.
Print Assumptions C61_greedy.

(** What a derived enum leaves to those after it: attributes, text, and the elements before the first that has the name
    of a variant.  (The elements after it are gone, whatever their names; see C28.) *)
Theorem C61_enum : forall o alg (P : fuser estate), derived_enum alg P -> forall path ps e e' rest,
  e_init e = false -> no_empty_ns (e_variants e) -> NoDup (variant_names (e_variants e)) ->
  fed (flat_visitors o alg P) P path e ps e' rest -> rest = left_by (variant_names (e_variants e)) ps.
Proof. exact enum_leaves. Qed.
Print Assumptions C61_enum.

(** ** C61: memory safety *)

(** Whatever the visitors of flattened fields do and whatever the parser reports, the code derived for structs neither
    uses uninitialized memory nor overwrites a live value. *)
Theorem C61_memory_safe : forall St o alg (P : fuser St) known dbg fs src fin x,
  flat_program P known harmless -> oracles_total o -> flat_compiles P known fs ->
  read_flat o alg P dbg fs src fin = Abort x -> harmless x.
Proof.
  exact (fun St o alg P known dbg fs src fin x HP Ho HC =>
    flat_safe o alg P known harmless HP Ho dbg fs src fin x reader_harmless HC).
Qed.
Print Assumptions C61_memory_safe.

(** A read ends, except for panics of the hand-written code and the reader's own. *)
Theorem C61_only_own_panics : forall St o alg (P : fuser St) known Q dbg fs src fin x,
  flat_program P known (fun x => Q x \/ reader_abort x) -> oracles_total o -> flat_compiles P known fs ->
  read_flat o alg P dbg fs src fin = Abort x -> Q x \/ reader_abort x.
Proof.
  exact (fun St o alg P known Q dbg fs src fin x HP Ho HC =>
    flat_safe o alg P known (fun x => Q x \/ reader_abort x) HP Ho dbg fs src fin x (fun x H => or_intror H) HC).
Qed.
Print Assumptions C61_only_own_panics.

(** ** Example *)

(** [struct Foo { known: String, #[static_xml(flatten)] attrs: Attrs, #[static_xml(flatten)] rest: Rest,
    #[static_xml(attribute)] id: Option<String> }]: [Attrs] keeps attributes except [hidden], [Rest] everything.
    Elements are kept with their text. *)
Inductive unknown := UAttrs (l : list value) | URest (l : list value).
Definition kv (n : string) (v : string) : value := VStruct [VText (TVStr n); VText (TVStr v)].

Definition unknowns : fuser unknown := {|
  fu_new := fun id => match id with 1 => Some (UAttrs []) | 2 => Some (URest []) | _ => None end;
  fu_attribute := fun s n v =>
    match s with
    | UAttrs l => if String.eqb (xn_local n) "hidden" then (Ok (Some v), s) else (Ok None, UAttrs (l ++ [kv (xn_local n) v]))
    | URest l => (Ok None, URest (l ++ [kv (xn_local n) v]))
    end;
  fu_characters := fun s str _ =>
    match s with UAttrs _ => (Ok (Some str), s) | URest l => (Ok None, URest (l ++ [VText (TVStr str)])) end;
  fu_element := fun s i =>
    match s with
    | UAttrs _ => Pass s
    | URest l => Take (AReadString (fun x =>
        match x with inl str => (Ok tt, URest (l ++ [kv (on_local (ei_name i)) str])) | inr e => (Err e, s) end))
    end;
  fu_finalize := fun s => match s with UAttrs l | URest l => Ok (VVec l) end;
  fu_deserialize := fun _ _ => AReadString (fun x =>
    match x with inl str => (Ok (VText (TVStr str)), []) | inr e => (Err e, []) end);
|}.

Definition foo : list field :=
  [ Field (DName None "known") (MElement KOne (EText TString)) None;
    Field (DName None "attrs") (MFlatten 1) None;
    Field (DName None "rest") (MFlatten 2) None;
    Field (DName None "id") (MAttribute true TString) None ].

Definition foo_doc : doc :=
  let at0 := (0, 0)%N in let nm := OName None None in
  let el n s := NElem (nm n) [] [] at0 [NText false s at0] at0 in
  Doc at0 [] (nm "foo") [Attr (nm "id") "7"; Attr (nm "x") "1"; Attr (nm "hidden") "2"; Attr (nm "y") "3"] [] at0
    [el "a" "A"; NText false "t" at0; el "known" "K"; el "b" "B"] at0 [].

Example C61_example : fine_names foo /\ new_flats unknowns foo = Some [UAttrs []; URest []] /\
  flat_strict unknowns /\ oracles_total oracles0 /\
  flat_program unknowns (fun t => t = EText TString) harmless /\ flat_compiles unknowns (fun t => t = EText TString) foo /\
  read_flat oracles0 Bisect unknowns true foo (doc_events foo_doc) (FEndDocument (0, 0)%N) =
  Ok (VStruct [ VText (TVStr "K");
                VVec [kv "x" "1"; kv "y" "3"];
                VVec [kv "hidden" "2"; kv "a" "A"; VText (TVStr "t"); kv "b" "B"];
                VSome (VText (TVStr "7")) ]).
Proof.
  split; [split; repeat constructor; intros []|]. split; [reflexivity|].
  split; [|split; [|split; [|split; [|vm_compute; reflexivity]]]].
  - split; [|intros t i e v; discriminate]. intros [l|l] i act; [discriminate|]. intros [= <-] e b. discriminate.
  - exact oracles0_total.
  - split.
    + intros [l|l] n v x; cbn; [destruct (String.eqb _ _)|]; discriminate.
    + intros [l|l] str p x; discriminate.
    + intros [l|l] i act; [discriminate|]. intros [= <-]. constructor. intros [str|e] x; discriminate.
    + intros [l|l] x; discriminate.
    + intros t i ->. constructor. intros [str|e] x; discriminate.
  - repeat constructor; cbn; discriminate.
Qed.

(** [enum E { A, B(String) }] as the first of two flattened fields. *)
Definition enums : fuser estate :=
  let deser := fun (_ : ety) (_ : einfo) => AReadString (fun x =>
    match x with inl str => (Ok (VText (TVStr str)), []) | inr e => (Err e, []) end) in {|
  fu_new := fun id => Some (new_enum "E" [Variant (ln "a") None; Variant (ln "b") (Some (KOne, str_ty))]);
  fu_attribute := fun e _ v => (Ok (Some v), e);
  fu_characters := fun e str _ => (Ok (Some str), e);
  fu_element := fun e i =>
    match genum_element Bisect deser e i with
    | None => Pass e
    | Some act => Take (amap (fun '(r, e', l) => (r, e')) act)
    end;
  fu_finalize := fun e => bind (enum_finalize e) (fun _ => match e_mem e with Some v => Ok v | None => Abort UB end);
  fu_deserialize := deser;
|}.

Example C61_enum_example : derived_enum Bisect enums /\
  let e := new_enum "E" [Variant (ln "a") None; Variant (ln "b") (Some (KOne, str_ty))] in
  let at0 := (0, 0)%N in let el n := PElem (NElem (OName None None n) [] [] at0 [NText false "x" at0] at0) in
  let ps := [PAttr (XName "" "i") "1"; el "c"; el "b"; PText "t" at0; el "d"] in
  no_empty_ns (e_variants e) /\ NoDup (variant_names (e_variants e)) /\
  (exists e' rest, fed (flat_visitors oracles0 Bisect enums) enums [] e ps e' rest /\
    fu_finalize enums e' = Ok (VEnum 1 (Some (VText (TVStr "x"))))) /\
  left_by (variant_names (e_variants e)) ps = [PAttr (XName "" "i") "1"; el "c"; PText "t" at0].
Proof.
  split; [repeat split|]. cbv zeta. split; [intros v; cbn; intuition (subst; discriminate)|].
  split; [repeat constructor; cbn; intuition discriminate|]. split; [|reflexivity].
  do 2 eexists. split.
  - eapply fed_attr_pass; [reflexivity|]. eapply fed_elem_pass; [reflexivity|]. eapply fed_elem_take; [reflexivity|reflexivity|].
    eapply fed_text_pass; [reflexivity|]. eapply fed_elem_take; [reflexivity|reflexivity|]. constructor.
  - reflexivity.
Qed.
