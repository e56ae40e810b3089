(** The project's own tests, run on the model.

    These are tests, not proofs: they check that the model does what the assertions in /repo's test
    files say the code does.  Documents are given as the events xml-rs delivers for them.  For the
    tests that compare the text of the output, [render] prints the events written the way xml-rs does
    with its default configuration (no indentation; characters that need escaping do not occur). *)
From Verif Require Import Base Normalize Text Find Types DeriveAttr NsSpec Ser DeriveSer Reader ReaderSpec DeriveDe
  Display DeSpec.

Definition t_oracles : oracles := {|
  o_debug := fun s => s;
  o_std_parse := fun _ _ => Err "none"%string; o_std_show := fun _ _ => ""%string;
  o_float_parse := fun _ _ => Err "none"%string; o_float_show := fun _ _ => ""%string;
  o_hand_parse := fun _ _ => Err "no"%string; o_hand_show := fun _ _ => inl ""%string |}.

(** ** Input *)

Definition t_pos : position := (1%N, 4%N).
Definition plain (s : string) : oname := OName None None s.
Definition ws : node := NBlank "  " t_pos.
Definition el (n : oname) (kids : list node) : node := NElem n [] [] t_pos kids t_pos.
Definition txt (s : string) : node := NText false s t_pos.
Definition leaf (n s : string) : node := el (plain n) [txt s].

(** A document whose root is called [foo], with the given attributes and content. *)
Definition doc_src (attrs : list attr) (kids : list node) : list (xevent * position) :=
  (XStartDocument, t_pos) :: events (NElem (plain "foo") attrs [] t_pos kids t_pos).
Definition t_end : final := FEndDocument t_pos.

Definition kv_ (k v : string) : item := INameValue (Some k) (LStr v).
Definition fl (k : string) : item := IPath (Some k).
Definition tstr : ety := EText TString.

(** ** test-suite/tests/element_enum.rs *)

(** 6-21. *)
Definition holder_src : sinput := SInput "Holder" []
  (SStruct (FNamed [DeriveAttr.SField "enum_" [AList [fl "flatten"]] (KOne, ERef 1) None])).
Definition enum_src : sinput := SInput "Enum" []
  (SEnum [SVariant "Simple" [] (FUnnamed [(KOne, tstr)]); SVariant "Vec" [] (FUnnamed [(KVec, tstr)]);
          SVariant "Unit" [] FUnit]).

Definition enum_env : tenv := fun id =>
  match id with 0 => declaration holder_src | 1 => declaration enum_src | _ => None end.

Definition read_holder (alg : bs_alg) (dbg : bool) (kids : list node) : res error value :=
  read_as t_oracles alg enum_env dbg (ERef 0) (doc_src [] kids) t_end.

(** The variants in the sorted order of their names: [Simple], [Unit], [Vec]. *)
Definition enum_simple (s : string) : value := VEnum 0 (Some (VText (TVStr s))).
Definition enum_vec (l : list string) : value := VEnum 2 (Some (VVec (map (fun s => VText (TVStr s)) l))).

(** 29-49. *)
Example deserialize_simple : forall alg dbg,
  read_holder alg dbg
    [ws; leaf "field" "before"; ws; leaf "Simple" "asdf"; ws; leaf "field" "after"; ws] =
  Ok (VStruct [enum_simple "asdf"]).
Proof. intros [] []; vm_compute; reflexivity. Qed.

(** 51-75. *)
Example deserialize_vec : forall alg dbg,
  read_holder alg dbg
    [ws; leaf "field" "before"; ws; leaf "Vec" "foo"; ws; leaf "Vec" "bar"; ws; leaf "field" "after"; ws] =
  Ok (VStruct [enum_vec ["foo"; "bar"]%string]).
Proof. intros [] []; vm_compute; reflexivity. Qed.

(** 77-101. *)
Example deserialize_mix_error : forall alg dbg, exists e,
  read_holder alg dbg [ws; leaf "Vec" "foo"; ws; leaf "Simple" "bar"; ws] = Err e /\
  (forall show, starts_with "Got unexpected element Simple after Vec" (error_display show e) = true) /\
  map (fun el => on_local (se_name el)) (er_stack e) = ["foo"; "Simple"]%string.
Proof.
  intros [] []; eexists; (split; [vm_compute; reflexivity|]); (split; [intros show; reflexivity|]); reflexivity.
Qed.

(** ** test-suite/tests/basic.rs *)

(** 29-42: [ConstrainedString]; 44-51: [UnconstrainedString]; 70-76: [MyUnion]. *)
Definition constrained_src : tinput := TInput "ConstrainedString"
  [AList [kv_ "mode" "restriction"; kv_ "whitespace" "collapse"]]
  (TDataEnum [SVariant "Foo" [] FUnit; SVariant "Bar" [] FUnit;
              SVariant "Baz" [AList [kv_ "rename" "BAZ"]] FUnit]) 0.
Definition unconstrained_src : tinput := TInput "UnconstrainedString"
  [AList [kv_ "mode" "restriction"; kv_ "whitespace" "collapse"]]
  (TDataEnum [SVariant "Foo" [AList [kv_ "rename" "foo"]] FUnit;
              SVariant "Other" [AList [fl "unknown"]] (FUnnamed [TString])]) 1.
Definition union_src : tinput := TInput "MyUnion" [AList [kv_ "mode" "union"]]
  (TDataEnum [SVariant "Int" [] (FUnnamed [TInt I32]); SVariant "Bool" [] (FUnnamed [TBool]);
              SVariant "String" [] (FUnnamed [TString])]) 2.

Definition text_ty (i : tinput) : tty :=
  match accepted (derive_text i) with Some t => t | None => TUnion "" Preserve [] end.

Example text_types_accepted : forall i, In i [constrained_src; unconstrained_src; union_src] ->
  accepted (derive_text i) <> None.
Proof. intros i [<-|[<-|[<-|[]]]]; vm_compute; discriminate. Qed.

(** 6-27: [Foo]; 53-63: [MyChoice]. *)
Definition foo_src : sinput := SInput "Foo"
  [AList [kv_ "namespace" "foo: http://example.com/foo"; kv_ "namespace" "bar: http://example.com/bar";
          kv_ "prefix" "foo"]]
  (SStruct (FNamed
    [ DeriveAttr.SField "mybool" [AList [fl "default"; fl "attribute"]] (KOne, EText TBool) (Some (VText (TVBool false)));
      DeriveAttr.SField "string" [AList [kv_ "prefix" "bar"; kv_ "rename" "blah"]] (KVec, tstr) None;
      DeriveAttr.SField "text" [] (KOne, tstr) None;
      DeriveAttr.SField "constrained" [] (KOne, EText (text_ty constrained_src)) None;
      DeriveAttr.SField "choice" [] (KOne, ERef 1) None ])).
Definition choice_src : sinput := SInput "MyChoice" []
  (SEnum [SVariant "Foo" [AList [kv_ "rename" "foo"]] (FUnnamed [(KOne, tstr)]);
          SVariant "Bar" [AList [kv_ "rename" "bar"]] (FUnnamed [(KOne, tstr)]);
          SVariant "Baz" [AList [kv_ "rename" "baz"]] (FUnnamed [(KOne, tstr)]);
          SVariant "UnitValue" [] FUnit]).

Definition basic_env : tenv := fun id =>
  match id with 0 => declaration foo_src | 1 => declaration choice_src | _ => None end.

Definition b_name (s : string) : oname := OName (Some "b"%string) (Some "http://example.com/bar"%string) s.

(** The variants in order: [UnitValue], [bar], [baz], [foo]. *)
Definition foo_value : value :=
  VStruct [VText (TVBool true); VVec [VText (TVStr "foo"); VText (TVStr "bar")]; VText (TVStr "asdf");
           VText (TVKnown 0); VEnum 3 (Some (VText (TVStr "blah")))].

(** 83-113. *)
Example deserialize : forall alg dbg,
  read_as t_oracles alg basic_env dbg (ERef 0)
    (doc_src [Attr (plain "mybool") "true"]
       [ws; el (b_name "blah") [txt "foo"]; ws; el (b_name "blah") [txt "bar"]; ws; leaf "more" "more"; ws;
        leaf "text" "asdf"; ws; leaf "constrained" "Foo"; ws;
        el (plain "choice") [leaf "foo" "blah"]; ws]) t_end = Ok foo_value.
Proof. intros [] []; vm_compute; reflexivity. Qed.

(** 115-132: what is written, and reading that. *)
Definition io_ok : io := fun _ => None.
Definition no_ns (s : string) : pname := PName None s.
Definition fb : bmap string :=
  [("bar", "http://example.com/bar"); ("foo", "http://example.com/foo")]%string.

Example round_trip_writes : forall dbg, exists k,
  serialize_root t_oracles basic_env dbg io_ok 0 foo_value = inl (None, k) /\
  k_out k =
    [ WStart (PName (Some "foo"%string) "Foo") [(no_ns "mybool", "true"%string)] fb;
      WStart (PName (Some "bar"%string) "blah") [] fb; WChars "foo"; WEnd;
      WStart (PName (Some "bar"%string) "blah") [] fb; WChars "bar"; WEnd;
      WStart (no_ns "text") [] fb; WChars "asdf"; WEnd;
      WStart (no_ns "constrained") [] fb; WChars "Foo"; WEnd;
      WStart (no_ns "choice") [] fb; WStart (no_ns "foo") [] fb; WChars "blah"; WEnd; WEnd; WEnd ].
Proof. intros []; eexists; (split; [vm_compute; reflexivity|]); reflexivity. Qed.

Definition named (p u s : string) : oname := OName (Some p) (Some u) s.
Example round_trip_reads : forall alg dbg,
  read_as t_oracles alg basic_env dbg (ERef 0)
    ((XStartDocument, t_pos) :: events
      (NElem (named "foo" "http://example.com/foo" "Foo") [Attr (plain "mybool") "true"] fb t_pos
         [el (named "bar" "http://example.com/bar" "blah") [txt "foo"];
          el (named "bar" "http://example.com/bar" "blah") [txt "bar"];
          leaf "text" "asdf"; leaf "constrained" "Foo"; el (plain "choice") [leaf "foo" "blah"]] t_pos))
    t_end = Ok foo_value.
Proof. intros [] []; vm_compute; reflexivity. Qed.

(** 134-167. *)
Definition parse_constrained := parse_text t_oracles (text_ty constrained_src).
Definition parse_unconstrained := parse_text t_oracles (text_ty unconstrained_src).
Example parse_str_variants :
  parse_constrained "Foo" = Ok (TVKnown 0) /\ parse_constrained "Bar" = Ok (TVKnown 1) /\
  parse_constrained "BAZ" = Ok (TVKnown 2) /\
  parse_constrained (String (ascii_of_N 10) "  BAZ  ") = Ok (TVKnown 2) /\
  (exists e, parse_constrained "asdf" = Err e) /\ (exists e, parse_constrained "baz" = Err e) /\
  parse_unconstrained "foo" = Ok (TVKnown 0) /\ parse_unconstrained "bar" = Ok (TVUnknown "bar").
Proof.
  do 4 (split; [vm_compute; reflexivity|]). do 2 (split; [eexists; vm_compute; reflexivity|]).
  split; vm_compute; reflexivity.
Qed.

(** ** static-xml/src/ser/mod.rs, tests *)

Definition quote_char : string := String (ascii_of_N 34) "".
Definition show_pname (n : pname) : string :=
  match pn_prefix n with Some p => p ++ ":" ++ pn_local n | None => pn_local n end.
Definition show_attr (n v : string) : string := (" " ++ n ++ "=" ++ quote_char ++ v ++ quote_char)%string.
Definition show_start (n : pname) (ds : list (string * string)) (attrs : list (pname * string)) : string :=
  ("<" ++ show_pname n ++
   String.concat "" (map (fun d => show_attr (if String.eqb (fst d) "" then "xmlns" else "xmlns:" ++ fst d) (snd d)) ds) ++
   String.concat "" (map (fun a => show_attr (show_pname (fst a)) (snd a)) attrs))%string.

(** [stack]: the names of the open elements. *)
Fixpoint render (stack : list pname) (evs : list NsSpec.xevent) : string :=
  match evs with
  | [] => ""
  | XStart n ds attrs :: XEnd :: r => show_start n ds attrs ++ " />" ++ render stack r
  | XStart n ds attrs :: r => show_start n ds attrs ++ ">" ++ render (n :: stack) r
  | XChars s :: r => s ++ render stack r
  | XEnd :: r =>
      match stack with
      | n :: stack' => "</" ++ show_pname n ++ ">" ++ render stack' r
      | [] => ""
      end
  end%string.

Definition document (r : (option serr * sink) + abort) : option string :=
  match r with
  | inl (None, k) =>
      Some ("<?xml version=" ++ quote_char ++ "1.0" ++ quote_char ++ " encoding=" ++ quote_char ++ "utf-8" ++
            quote_char ++ "?>" ++ render [] (emit SkipIfAnywhere [] (k_out k)))%string
  | _ => None
  end.

(** [f()?; rest] *)
Definition try_a (rest : aprog) (r : option serr) : aprog := match r with Some e => ARet (Some e) | None => rest end.

(** 769-832: [blah]. *)
Definition blah : serialize := Ser
  (ANs "old" "http://example.com/old" (ANs "new" "http://example.com/new"
    (AAttr (XName "http://example.com/old" "attr") "old-value"
      (try_a (AAttr (XName "http://example.com/new" "attr") "new-value" (try_a (ARet None)))))))
  (WText "some text here" (fun r => WRet r)).
Example blah_reads : forall dbg, exists k,
  to dbg io_ok (XName "http://example.com/old" "foo") blah = inl (None, k) /\
  meaning [] (emit SkipIfAnywhere [] (k_out k)) =
    Some [ NsSpec.EvStart (XName "http://example.com/old" "foo")
             [(XName "http://example.com/old" "attr", "old-value"%string);
              (XName "http://example.com/new" "attr", "new-value"%string)];
           NsSpec.EvChars "some text here"; NsSpec.EvEnd ].
Proof. intros []; eexists; (split; [vm_compute; reflexivity|]); vm_compute; reflexivity. Qed.

(** 834-863: [dropped_builder]. *)
Example dropped_builder : forall dbg, exists k,
  to dbg io_ok (XName "" "foo") (Ser (ARet None) (WElem (XName "" "bar") (BDrop (WRet None)))) =
  inl (Some (SMsg "ElementBuilder dropped before start"), k).
Proof. intros []; eexists; vm_compute; reflexivity. Qed.

(** 865-892: [dropped_writer]. *)
Example dropped_writer : forall dbg, exists k,
  to dbg io_ok (XName "" "foo")
    (Ser (ARet None) (WElem (XName "" "bar") (BStart (WDrop (WRet None)) (fun _ => WRet None)))) =
  inl (Some (SMsg "ElementWriter dropped before finish"), k).
Proof. intros []; eexists; vm_compute; reflexivity. Qed.

(** 894-929: [unprefixed_attr_namespace]. *)
Definition q (s : string) : string := (quote_char ++ s ++ quote_char)%string.
Example unprefixed_attr_namespace : forall dbg,
  document (to dbg io_ok (XName "" "foo")
    (Ser (ANs "" "http://example.com/default"
            (AAttr (XName "http://example.com/default" "attr") "value" (try_a (ARet None)))) (WRet None))) =
  Some ("<?xml version=" ++ q "1.0" ++ " encoding=" ++ q "utf-8" ++ "?><foo xmlns:ns1=" ++
        q "http://example.com/default" ++ " ns1:attr=" ++ q "value" ++ " />")%string.
Proof. intros []; vm_compute; reflexivity. Qed.

(** 931-974: [namespace_prefix_renamed]. *)
Definition renamed_kids : wprog 0 :=
  WElem (XName "http://example.com/default" "child")
    (BNs "foo" "http://example.com/override"
      (BAttr (XName "http://example.com/override" "attr") "value"
        (fun r => match r with
                  | Some e => BDrop (WRet (Some e))
                  | None => BStart (WFinish (fun r => WRet r)) (fun e => WRet (Some e))
                  end))).
Example namespace_prefix_renamed : forall dbg,
  document (to dbg io_ok (XName "" "root")
    (Ser (ANs "foo" "http://example.com/default"
            (AAttr (XName "http://example.com/default" "attr") "value" (try_a (ARet None)))) renamed_kids)) =
  Some ("<?xml version=" ++ q "1.0" ++ " encoding=" ++ q "utf-8" ++ "?><root xmlns:foo=" ++
        q "http://example.com/default" ++ " foo:attr=" ++ q "value" ++ "><foo:child xmlns:foo2=" ++
        q "http://example.com/override" ++ " foo2:attr=" ++ q "value" ++ " /></root>")%string.
Proof. intros []; vm_compute; reflexivity. Qed.

(** ** static-xml/src/de/mod.rs, tests (commented out there) *)

(** 1137-1141 [bad_xml]: xml-rs reports an error at once. *)
Definition dummy : visitors unit := {|
  v_attribute := fun s _ v => (Ok (Some v), s);
  v_characters := fun s str _ => (Ok (Some str), s);
  v_element := fun s _ => ANoRead (Ok true, s) |}.
Definition dummy_de (_ : einfo) : action unit (res verr unit) :=
  AReadTo tt (fun x _ => match x with inl _ => Ok tt | inr e => Err e end).
Example bad_xml : forall dbg, exists e,
  read dbg dummy dummy_de (reader_new [] (FError (XErr t_pos "Unexpected characters outside the root element"))) = Err e.
Proof. intros []; eexists; vm_compute; reflexivity. Qed.

(** 1143-1153 [empty_element], [nested_element]. *)
Example empty_element : forall dbg, read dbg dummy dummy_de (reader_new (doc_src [] []) t_end) = Ok tt.
Proof. intros []; vm_compute; reflexivity. Qed.
Example nested_element : forall dbg,
  read dbg dummy dummy_de
    (reader_new (doc_src [] [el (plain "a") [el (plain "b") [el (plain "c") []]]]) t_end) = Ok tt.
Proof. intros []; vm_compute; reflexivity. Qed.

(** 1155-1205 [bool]. *)
Definition attr_env : tenv := fun id => match id with
  | 0 => Some (TDStruct "AttrWrapper" (DName None "root") [] [Field (DName None "attr") (MAttribute false TBool) None])
  | _ => None
  end.
Example bools : forall alg dbg s b,
  In (s, b) [("true", true); ("false", false); ("1", true); ("0", false);
             (" true ", true); (" false ", false); (" 1 ", true); (" 0 ", false)]%string ->
  read_as t_oracles alg attr_env dbg (EText TBool) (doc_src [] [txt s]) t_end = Ok (VText (TVBool b)) /\
  read_as t_oracles alg attr_env dbg (ERef 0) (doc_src [Attr (plain "attr") s] []) t_end =
    Ok (VStruct [VText (TVBool b)]).
Proof.
  intros alg dbg s b H. cbn [In] in H.
  repeat (destruct H as [[= <- <-]|H]; [destruct alg, dbg; split; vm_compute; reflexivity|]). destruct H.
Qed.

(** ** static-xml-derive/tests/ui/field-not-parsetext.rs *)

(** A field of type [Foo] (1), for which nothing is derived: rejected by rustc. *)
Definition ui_env : tenv := fun id => match id with
  | 0 => Some (TDStruct "Outer" (DName None "outer") [] [Field (DName None "foo") (MElement KOne (ERef 1)) None])
  | _ => None
  end.
Example field_not_parsetext : ~ compiles ui_env.
Proof. intro H. specialize (H 0 _ eq_refl). inversion H as [|? ? Hf _]. now apply Hf. Qed.
