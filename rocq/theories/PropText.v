(** Property theorems C01-C07, C09, C10. Proofs are in the *Proofs.v files. *)
From Verif Require Import Base Normalize NormalizeSpec NormalizeProofs NormalizeWords Text TextSpec TextProofs TextCanon
  Find Types FindProofs.
From Coq Require Import Sorted.

(** ** C01: whitespace normalization computes the XML Schema result. *)
Theorem C01_normalize_preserve : forall s, normalize s Preserve = Ok s.
Proof. exact normalize_preserve. Qed.
Print Assumptions C01_normalize_preserve.

Theorem C01_normalize_replace : forall s,
  normalize s Replace = Ok (str_of (spec_replace ws_byte " "%char (bytes_of s))).
Proof. exact normalize_replace. Qed.
Print Assumptions C01_normalize_replace.

Theorem C01_normalize_collapse : forall s,
  normalize s Collapse = Ok (str_of (spec_collapse ws_byte " "%char (bytes_of s))).
Proof. exact normalize_collapse. Qed.
Print Assumptions C01_normalize_collapse.

(** The words of the specification are the maximal white-space-free ones: the string consists of
    exactly these, in this order, with white space around them and at least one white space
    character between two of them. *)
Theorem C01_words_maximal : forall s l, words ws_byte s = l <-> separated ws_byte s l.
Proof. exact (words_separated ws_byte). Qed.
Print Assumptions C01_words_maximal.

(** So they are nonempty and contain no white space, and nothing else is lost. *)
Theorem C01_words_are_words : forall s w, In w (words ws_byte s) ->
  w <> [] /\ forall b, In b w -> ws_byte b = false.
Proof. exact words_are_words. Qed.
Print Assumptions C01_words_are_words.

Theorem C01_words_complete : forall s, concat (words ws_byte s) = filter (fun b => negb (ws_byte b)) s.
Proof. exact words_complete. Qed.
Print Assumptions C01_words_complete.

Example C01_example :
  normalize (str_of (map ascii_of_N [10; 32; 102; 111; 9; 32; 98; 10; 10]%N)) Collapse = Ok "fo b".
Proof. vm_compute. reflexivity. Qed.

(** ** C02: normalization never produces invalid UTF-8. *)
Theorem C02_normalize_utf8 : forall cs w, forallb is_scalar cs = true ->
  normalize_bytes (utf8 cs) w = Ok (utf8 (norm_spec_chars w cs)) /\
  forallb is_scalar (norm_spec_chars w cs) = true.
Proof. exact normalize_utf8_valid. Qed.
Print Assumptions C02_normalize_utf8.

(** U+00E9, tab, space, U+1F600, line feed *)
Example C02_example :
  forallb is_scalar [0xE9; 9; 32; 0x1F600; 10]%N = true /\
  normalize_bytes (utf8 [0xE9; 9; 32; 0x1F600; 10]%N) Collapse = Ok (utf8 [0xE9; 32; 0x1F600]%N).
Proof. split; vm_compute; reflexivity. Qed.

(** ** C03: idempotence and normal form. *)
Theorem C03_normalize_idempotent : forall w s t, normalize s w = Ok t -> normalize t w = Ok t.
Proof. exact normalize_idempotent. Qed.
Print Assumptions C03_normalize_idempotent.

Theorem C03_collapse_after_replace : forall s t,
  normalize s Replace = Ok t -> normalize t Collapse = normalize s Collapse.
Proof. exact normalize_collapse_replace. Qed.
Print Assumptions C03_collapse_after_replace.

Theorem C03_collapse_normal_form : forall s t, normalize s Collapse = Ok t ->
  let l := bytes_of t in
  Forall (fun b => ws_byte b = true -> b = " "%char) l /\
  (forall b l', l = b :: l' -> b <> " "%char) /\
  (forall b l', l = l' ++ [b] -> b <> " "%char) /\
  (forall p q, l <> p ++ " "%char :: " "%char :: q) /\
  List.length l <= List.length (bytes_of s).
Proof. exact collapse_normal_form. Qed.
Print Assumptions C03_collapse_normal_form.

Example C03_example : normalize "  a  b " Replace = Ok "  a  b " /\ normalize "  a  b " Collapse = Ok "a b".
Proof. split; vm_compute; reflexivity. Qed.

(** ** C04: booleans. *)
Theorem C04_bool_parse : forall o text,
  (parse_bool o text = Ok true <-> true_lex text) /\
  (parse_bool o text = Ok false <-> false_lex text) /\
  ((exists e, parse_bool o text = Err e) <-> ~ true_lex text /\ ~ false_lex text).
Proof. exact parse_bool_spec. Qed.
Print Assumptions C04_bool_parse.

Theorem C04_bool_error : forall o text e,
  parse_bool o text = Err e <->
  ~ true_lex text /\ ~ false_lex text /\ e = ("invalid bool " ++ o_debug o text)%string.
Proof. exact parse_bool_err. Qed.
Print Assumptions C04_bool_error.

Theorem C04_bool_roundtrip : forall o b, parse_bool o (show_bool b) = Ok b.
Proof. exact parse_show_bool. Qed.
Print Assumptions C04_bool_roundtrip.

Example C04_example : forall o, parse_bool o " 1 " = Ok true /\ exists e, parse_bool o "TRUE" = Err e.
Proof. intro o. split; [vm_compute; reflexivity|]. eexists. vm_compute. reflexivity. Qed.

(** ** C05: integers. *)
Theorem C05_int_parse : forall k signed lo hi, int_range k = (signed, lo, hi) -> forall text z,
  parse_int k text = Ok z <->
  (exists core, padded core (bytes_of text) /\ numeral signed core z) /\ (lo <= z <= hi)%Z.
Proof. exact parse_int_range. Qed.
Print Assumptions C05_int_parse.

(** Which of std's four messages is returned, for each text that is not a number of the type. *)
Theorem C05_int_error : forall k signed lo hi, int_range k = (signed, lo, hi) -> forall text e,
  parse_int k text = Err e <->
  exists core, padded core (bytes_of text) /\ trimmed core /\ int_error signed lo hi core e.
Proof. exact parse_int_err. Qed.
Print Assumptions C05_int_error.

Theorem C05_int_total : forall k text,
  (exists z, parse_int k text = Ok z) \/ (exists e, parse_int k text = Err e).
Proof. exact parse_int_total. Qed.
Print Assumptions C05_int_total.

Theorem C05_int_roundtrip : forall k signed lo hi, int_range k = (signed, lo, hi) -> forall z,
  (lo <= z <= hi)%Z -> parse_int k (show_int z) = Ok z.
Proof. exact show_int_range. Qed.
Print Assumptions C05_int_roundtrip.

(** What is written is the usual numeral, for any integer. *)
Theorem C05_int_text : forall z s, show_int z = s <-> canonical s z.
Proof. exact show_int_text. Qed.
Print Assumptions C05_int_text.

(** Overflow is reported before the invalid character after it. *)
Example C05_error_example :
  parse_int I8 "300x" = Err "number too large to fit in target type" /\
  int_error true (-128) 127 (bytes_of "300x") "number too large to fit in target type" /\
  int_error true (-128) 127 (bytes_of "-129") "number too small to fit in target type" /\
  int_error false 0 255 (bytes_of "-1") "invalid digit found in string".
Proof.
  split; [vm_compute; reflexivity|]. split; [|split].
  - now apply ie_large with (ds := bytes_of "300") (rest := bytes_of "x").
  - now apply ie_small with (ds := bytes_of "129") (rest := []).
  - now apply ie_digit with (neg := false) (ds := []) (b := "-"%char) (rest := bytes_of "1").
Qed.

Example C05_example :
  parse_int I8 " -128 " = Ok (-128)%Z /\ parse_int I8 "128" = Err msg_pos /\
  parse_int U8 "-0" = Err msg_invalid /\ parse_int U8 "+007" = Ok 7%Z /\
  parse_int U128 "340282366920938463463374607431768211455" = Ok (imax U128) /\
  show_int (imin I64) = "-9223372036854775808".
Proof. repeat split; vm_compute; reflexivity. Qed.

(** ** C06: restriction enums. *)
Theorem C06_restriction_known : forall o name ws vs text i,
  parse_text o (TRestr name ws vs) text = Ok (TVKnown i) <->
  nth_error vs i = Some (RKnown (spec_norm ws text)) /\
  (forall j, j < i -> nth_error vs j <> Some (RKnown (spec_norm ws text))).
Proof. exact parse_restr_known. Qed.
Print Assumptions C06_restriction_known.

Theorem C06_restriction_unknown : forall o name ws vs text s,
  parse_text o (TRestr name ws vs) text = Ok (TVUnknown s) <->
  s = spec_norm ws text /\ ~ In (RKnown (spec_norm ws text)) vs /\ In RUnknown vs.
Proof. exact parse_restr_unknown. Qed.
Print Assumptions C06_restriction_unknown.

Theorem C06_restriction_error : forall o name ws vs text e,
  parse_text o (TRestr name ws vs) text = Err e <->
  ~ In (RKnown (spec_norm ws text)) vs /\ ~ In RUnknown vs /\
  e = ("no such " ++ name ++ " variant " ++ o_debug o (spec_norm ws text))%string.
Proof. exact parse_restr_err. Qed.
Print Assumptions C06_restriction_error.

Theorem C06_restriction_roundtrip : forall o name ws vs i t,
  NoDup (restr_texts vs) -> spec_norm ws t = t -> nth_error vs i = Some (RKnown t) ->
  to_text o (TRestr name ws vs) (TVKnown i) = Some t /\
  parse_text o (TRestr name ws vs) t = Ok (TVKnown i).
Proof. exact restr_roundtrip_known. Qed.
Print Assumptions C06_restriction_roundtrip.

Theorem C06_restriction_roundtrip_unknown : forall o name ws vs s,
  In RUnknown vs -> spec_norm ws s = s -> ~ In (RKnown s) vs ->
  to_text o (TRestr name ws vs) (TVUnknown s) = Some s /\
  parse_text o (TRestr name ws vs) s = Ok (TVUnknown s).
Proof. exact restr_roundtrip_unknown. Qed.
Print Assumptions C06_restriction_roundtrip_unknown.

Example C06_example : forall o,
  let t := TRestr "E" Collapse [RKnown "a b"; RUnknown; RKnown "c"] in
  parse_text o t " a  b " = Ok (TVKnown 0) /\ parse_text o t "c" = Ok (TVKnown 2) /\
  parse_text o t " d " = Ok (TVUnknown "d").
Proof. intro o. repeat split; vm_compute; reflexivity. Qed.

(** ** C07: union enums. *)
Theorem C07_union_ok : forall o name ws vs text i v,
  parse_text o (TUnion name ws vs) text = Ok (TVUnion i v) <->
  (exists t, nth_error vs i = Some t /\ parse_text o t (spec_norm ws text) = Ok v) /\
  (forall j t, j < i -> nth_error vs j = Some t -> exists e, parse_text o t (spec_norm ws text) = Err e).
Proof. exact parse_union_ok. Qed.
Print Assumptions C07_union_ok.

Theorem C07_union_error : forall o name ws vs text m,
  parse_text o (TUnion name ws vs) text = Err m <->
  exists es, Forall2 (fun t e => parse_text o t (spec_norm ws text) = Err e) vs es /\
    m = ("all " ++ name ++ " union variants failed to parse:" ++
         fold_right (fun e r => String (ascii_of_N 10) "" ++ "* " ++ e ++ r) "" es)%string.
Proof. exact parse_union_err. Qed.
Print Assumptions C07_union_error.

Theorem C07_union_roundtrip : forall o name ws vs i v t s,
  nth_error vs i = Some t -> to_text o t v = Some s ->
  to_text o (TUnion name ws vs) (TVUnion i v) = Some s /\
  (parse_text o (TUnion name ws vs) s = Ok (TVUnion i v) <->
   parse_text o t (spec_norm ws s) = Ok v /\
   (forall j t', j < i -> nth_error vs j = Some t' ->
      exists e, parse_text o t' (spec_norm ws s) = Err e)).
Proof. exact union_roundtrip. Qed.
Print Assumptions C07_union_roundtrip.

(** No text type ever panics or diverges, if the user's and std's parsers do not. *)
Theorem C07_parse_total : forall o, oracles_total o -> forall t s x, parse_text o t s <> Abort x.
Proof. exact parse_text_total. Qed.
Print Assumptions C07_parse_total.

Example C07_example : forall o,
  let t := TUnion "U" Preserve [TInt I8; TUnion "V" Collapse [TBool; TInt I16]; TString] in
  parse_text o t "300" = Ok (TVUnion 1 (TVUnion 1 (TVInt 300))) /\
  parse_text o t " true" = Ok (TVUnion 1 (TVUnion 0 (TVBool true))) /\
  parse_text o t "x" = Ok (TVUnion 2 (TVStr "x")).
Proof. intro o. repeat split; vm_compute; reflexivity. Qed.

(** ** C09: name lookup. *)
Theorem C09_find : forall alg name l p, StronglySorted xn_lt l ->
  find alg name l = Some p <-> nth_error l p = Some name.
Proof. exact find_spec. Qed.
Print Assumptions C09_find.

Theorem C09_find_none : forall alg name l, StronglySorted xn_lt l ->
  find alg name l = None <-> ~ In name l.
Proof. exact find_none. Qed.
Print Assumptions C09_find_none.

Example C09_example :
  let l := [XName "" "b"; XName "" "c"; XName "u" "a"] in
  StronglySorted xn_lt l /\ find Bisect (XName "u" "a") l = Some 2 /\
  find Branchless (XName "" "b") l = Some 0.
Proof. cbn. repeat split; repeat constructor. Qed.

(** ** C10: generated tables. *)
Theorem C10_struct_table : forall sel fields, NoDup (field_names sel fields) ->
  StronglySorted xn_lt (table (sorted_fields sel fields)).
Proof. exact struct_table_sorted. Qed.
Print Assumptions C10_struct_table.

Theorem C10_struct_lookup : forall alg sel fields n p, NoDup (field_names sel fields) ->
  lookup alg sel fields n = Some p <->
  exists f, nth_error fields p = Some f /\ sel f = true /\ expanded (f_name f) = n.
Proof. exact lookup_spec. Qed.
Print Assumptions C10_struct_lookup.

(** For enums the statement needs an extra condition: no variant with an explicitly empty namespace
    next to variants without one. *)
Theorem C10_enum_table : forall vs, no_empty_ns vs -> NoDup (variant_names vs) ->
  StronglySorted xn_lt (variant_table vs).
Proof. exact enum_table_sorted. Qed.
Print Assumptions C10_enum_table.

Theorem C10_enum_lookup : forall alg vs n i, no_empty_ns vs -> NoDup (variant_names vs) ->
  vlookup alg vs n = Some i <->
  exists v, nth_error (sorted_variants vs) i = Some v /\ expanded (v_name v) = n.
Proof. exact vlookup_spec. Qed.
Print Assumptions C10_enum_lookup.

(** The unconditional statement is false: variants [A] with [prefix = ""] under
    [default_namespace = ""] and [B] without prefix. *)
Theorem C10_enum_table_refuted : exists vs, NoDup (variant_names vs) /\
  ~ StronglySorted xn_lt (variant_table vs) /\
  exists n, In n (variant_names vs) /\ forall alg, vlookup alg vs n = None.
Proof. exact enum_table_refuted. Qed.
Print Assumptions C10_enum_table_refuted.

Example C10_example :
  let fields := [Field (DName None "b") (MElement KOne (EText TString)) None;
                 Field (DName (Some "u") "a") (MElement KVec (EText TBool)) None;
                 Field (DName None "a") (MElement KOpt (EText TString)) None] in
  NoDup (field_names is_element fields) /\
  lookup Bisect is_element fields (XName "" "a") = Some 2 /\
  lookup Branchless is_element fields (XName "u" "a") = Some 1.
Proof. cbn zeta. split; [cbn; nodup|split; vm_compute; reflexivity]. Qed.
