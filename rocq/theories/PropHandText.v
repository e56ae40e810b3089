(** Property theorems C58: errors of hand-written text types, when serializing.

    [of_type o env t v]: [v] is a value of type [t], whether or not its texts can be printed;
    [content o env t v reqs kids]: what [v] is as a tree, if they can (DSerSpec.v); [fails o env n t v p m]:
    the first of them that cannot be printed has the error [m], and [p] is the part of the element [n] that
    comes before it (HandTextSpec.v). *)
From Verif Require Import Base Normalize Text Find Types BMap Reader ReaderSpec DeriveDe HandParse Ser SerSpec DeriveSer DSerSpec
  HandTextSpec HandText PropDeriveSer.

(** Hand-written code sees the text as it is in the document (without normalization), and decides. *)
Theorem C58_parse : forall o alg env dbg i d pe, existsb is_elem (d_kids d) = false ->
  read_as o alg env dbg (EText (THand i)) (doc_events d) (FEndDocument pe) =
  match o_hand_parse o i (text_of (d_kids d)) with
  | Ok n => Ok (VText (TVHand n))
  | Err m => Err (Error (EDeserializer m) [SElem (d_name d) (d_pos d)] (d_pe d))
  | Abort x => Abort x
  end.
Proof. exact hand_parsed. Qed.
Print Assumptions C58_parse.

Theorem C58_print : forall o env dbg w i n x s, (forall j, w j = None) -> o_hand_show o i x = inl s ->
  exists k, serialize_with_name o env dbg w (EText (THand i)) (VText (TVHand x)) (XName "" n) = inl (None, k) /\
    map ev_sev (k_out k) = [SStart n []; SChars s; SEnd].
Proof. exact hand_printed. Qed.
Print Assumptions C58_print.

(** Either all texts can be printed or one of them is the first that cannot. *)
Theorem C58_decided : forall o env, flats_enums env -> forall n t v, of_type o env t v ->
  (exists reqs kids, content o env t v reqs kids) \/ (exists p m, fails o env n t v p m).
Proof. exact content_or_fails. Qed.
Print Assumptions C58_decided.

Theorem C58_unique : forall o env n t v p m, fails o env n t v p m ->
  (forall reqs kids, ~ content o env t v reqs kids) /\
  (forall p' m', fails o env n t v p' m' -> p' = p /\ m' = m).
Proof. exact fails_unique. Qed.
Print Assumptions C58_unique.

(** The values of C35-C37 are those without such texts. *)
Theorem C58_typed : forall o env v t, typed o env t v -> of_type o env t v.
Proof. exact typed_of_type. Qed.
Print Assumptions C58_typed.

(** No panic, whatever the texts and the writer do. *)
Theorem C58_never_panics : forall o env dbg w id v, of_type o env (ERef id) v ->
  names_declared env -> prefixes_ok env -> no_default env ->
  exists r k, serialize_root o env dbg w id v = inl (r, k).
Proof. exact of_type_root_no_panic. Qed.
Print Assumptions C58_never_panics.

Theorem C58_with_name_never_panics : forall o env dbg w t v n, of_type o env t v ->
  names_declared env -> prefixes_ok env -> no_default env ->
  (xn_ns n = ""%string /\ (forall id d u, env id = Some d -> ~ In (""%string, u) (td_nss d)) \/
   xn_ns n = XML_NS \/
   exists id d p, t = ERef id /\ env id = Some d /\ In (p, xn_ns n) (td_nss d)) ->
  exists r k, serialize_with_name o env dbg w t v n = inl (r, k).
Proof. exact of_type_no_panic. Qed.
Print Assumptions C58_with_name_never_panics.

(** If a text fails, serialization is not [Ok], whatever the writer does. *)
Theorem C58_never_ok : forall o env dbg w id v d p m k, env id = Some d ->
  fails o env (expanded (td_root d)) (ERef id) v p m ->
  serialize_root o env dbg w id v <> inl (None, k).
Proof. exact root_never_ok. Qed.
Print Assumptions C58_never_ok.

(** Its error is returned, and exactly what comes before it is written. *)
Theorem C58_error : forall o env dbg w id v d p m, attrs_apart env ->
  names_declared env -> prefixes_ok env -> no_default env -> (forall i, w i = None) ->
  env id = Some d -> fails o env (expanded (td_root d)) (ERef id) v p m ->
  exists k, serialize_root o env dbg w id v = inl (Some (SMsg m), k) /\ map ev_sev (k_out k) = part_sevs p.
Proof. exact fails_root_error. Qed.
Print Assumptions C58_error.

(** If none does, serialization succeeds. *)
Theorem C58_success : forall o env dbg w id v d reqs kids, attrs_apart env -> of_type o env (ERef id) v ->
  names_declared env -> prefixes_ok env -> no_default env -> (forall i, w i = None) ->
  env id = Some d -> content o env (ERef id) v reqs kids ->
  exists k, serialize_root o env dbg w id v = inl (None, k) /\
    map ev_sev (k_out k) = tree_sevs (tree_of (RElem (expanded (td_root d)) reqs kids)).
Proof. exact root_content_succeeds. Qed.
Print Assumptions C58_success.

(** [struct Order { #[attribute] code: Code, note: String, item: Vec<Code>, part: Vec<Order>,
    #[flatten] pay: Pay }], [enum Pay { Card(Code), Cash }] with a hand-written [ToText for Code] that
    refuses 7. *)
Definition oracles58 : oracles := {|
  o_debug := fun s => s;
  o_std_parse := fun _ _ => Err "no"%string; o_std_show := fun _ _ => ""%string;
  o_float_parse := fun _ _ => Err "no"%string; o_float_show := fun _ _ => ""%string;
  o_hand_parse := fun _ _ => Err "no"%string;
  o_hand_show := fun _ n => if N.eqb n 7 then inr "seven"%string else inl "c"%string |}.
Definition code_ty : ety := EText (THand 0).
Definition code (n : N) : value := VText (TVHand n).
Definition order_ : tdesc := TDStruct "Order" (ln "order") []
  [ Field (ln "code") (MAttribute false (THand 0)) None;
    Field (ln "note") (MElement KOne str_ty) None;
    Field (ln "item") (MElement KVec code_ty) None;
    Field (ln "part") (MElement KVec (ERef 0)) None;
    Field (ln "pay") (MFlatten 1) None ].
Definition pay : tdesc := TDEnum "Pay" (ln "pay") []
  [ Variant (ln "card") (Some (KOne, code_ty)); Variant (ln "cash") None ] false.
Definition env58 : tenv := fun id => match id with 0 => Some order_ | 1 => Some pay | _ => None end.

(** The third item of the second part fails, and then the card; and here an attribute. *)
Definition small (c i : N) : value :=
  VStruct [code c; st "n"; VVec [code 1; code 2; code i]; VVec []; VEnum 1 None].
Definition late : value := VStruct [code 1; st "n"; VVec [code 5]; VVec [small 1 3; small 2 7]; VEnum 0 (Some (code 7))].
Definition early : value := VStruct [code 1; st "n"; VVec [code 5]; VVec [small 7 3]; VEnum 1 None].

Ltac typing58 := unfold of_type; lazymatch goal with
  | |- Forall2 _ [] [] => constructor
  | |- Forall2 _ _ _ => constructor; [typing58|typing58]
  | |- Forall _ [] => constructor
  | |- Forall _ _ => constructor; [typing58|typing58]
  | |- typed_field _ _ _ _ => first
      [ eapply tf_element; [reflexivity|constructor|typing58]
      | eapply tf_attribute; [reflexivity|discriminate]
      | eapply tf_flatten; [reflexivity|typing58] ]
  | |- typed _ _ _ _ => first
      [ eapply ty_struct; [reflexivity|typing58]
      | eapply ty_unit; [reflexivity|reflexivity|reflexivity]
      | eapply ty_payload; [reflexivity|reflexivity|reflexivity|constructor|typing58]
      | eapply ty_text; discriminate ]
  end.

Definition an (s : string) : xname := XName "" s.
Definition text_elem (n s : string) : rtree := RElem (an n) [] [RText s].
Definition c_attr : list req := [ReqAttr (an "code") "c"%string].
Definition small_tree : rtree := RElem (an "part") c_attr
  [text_elem "note" "n"; text_elem "item" "c"; text_elem "item" "c"; text_elem "item" "c"; RElem (an "cash") [] []].
Definition late_part : part :=
  Opened (an "order") c_attr [text_elem "note" "n"; text_elem "item" "c"; small_tree]
    (Opened (an "part") c_attr [text_elem "note" "n"; text_elem "item" "c"; text_elem "item" "c"]
      (Opened (an "item") [] [] Nothing)).
Definition early_part : part :=
  Opened (an "order") c_attr [text_elem "note" "n"; text_elem "item" "c"] Nothing.

Ltac tag58 := unfold str_ty, code_ty; match goal with
  | |- HandTextSpec.tag _ _ (EText _) _ _ => constructor
  | |- HandTextSpec.tag _ _ (ERef 0) _ _ => apply (tag_struct oracles58 env58 0 "Order" (ln "order") []
         [ Field (ln "code") (MAttribute false (THand 0)) None;
           Field (ln "note") (MElement KOne str_ty) None;
           Field (ln "item") (MElement KVec code_ty) None;
           Field (ln "part") (MElement KVec (ERef 0)) None;
           Field (ln "pay") (MFlatten 1) None ] _ c_attr []); [reflexivity| |];
       [apply (aa_here oracles58 (Field (ln "code") (MAttribute false (THand 0)) None) _ false (THand 0) (TVHand _) "c"%string);
          [reflexivity|reflexivity|repeat (apply aa_other; [reflexivity|]); constructor]
       |do 4 (apply ft_other; [reflexivity|]); eapply (ft_here env58 _ _ 1 _ _ []); [reflexivity|reflexivity|left; do 2 eexists; reflexivity|constructor]]
  end.
Ltac content58 := try change code_ty with (EText (THand 0)); try change str_ty with (EText TString); lazymatch goal with
  | |- DSerSpec.content _ _ (EText _) _ _ _ => constructor; reflexivity
  | |- DSerSpec.content _ _ (ERef 0) _ _ _ => apply (co_struct oracles58 env58 0 "Order" (ln "order") []
         [ Field (ln "code") (MAttribute false (THand 0)) None;
           Field (ln "note") (MElement KOne str_ty) None;
           Field (ln "item") (MElement KVec code_ty) None;
           Field (ln "part") (MElement KVec (ERef 0)) None;
           Field (ln "pay") (MFlatten 1) None ] _ c_attr
           [text_elem "note" "n"; text_elem "item" "c"; text_elem "item" "c"; text_elem "item" "c"] [] [RElem (an "cash") [] []]);
       [reflexivity
       |apply (aa_here oracles58 (Field (ln "code") (MAttribute false (THand 0)) None) _ false (THand 0) (TVHand _) "c"%string);
          [reflexivity|reflexivity|repeat (apply aa_other; [reflexivity|]); constructor]
       |apply ok_other; [reflexivity|];
        eapply (ok_here _ (Field (ln "note") (MElement KOne str_ty) None) _ KOne str_ty _ [st "n"] [text_elem "note" "n"]); [reflexivity|constructor|elems58|];
        eapply (ok_here _ (Field (ln "item") (MElement KVec code_ty) None) _ KVec code_ty _ _ [text_elem "item" "c"; text_elem "item" "c"; text_elem "item" "c"]); [reflexivity|constructor|elems58|];
        eapply (ok_here _ (Field (ln "part") (MElement KVec (ERef 0)) None) _ KVec (ERef 0) _ _ []); [reflexivity|constructor|elems58|];
        apply ok_other; [reflexivity|]; constructor
       |do 4 (apply fl_other; [reflexivity|]);
        apply (fl_here _ (Field (ln "pay") (MFlatten 1) None) [] 1 _ [] [] [RElem (an "cash") [] []] [] []); [reflexivity| |constructor];
        apply (co_unit oracles58 env58 1 "Pay" (ln "pay") [] [Variant (ln "card") (Some (KOne, code_ty)); Variant (ln "cash") None] false 1
                 (Variant (ln "cash") None)); reflexivity]
  end
with elems58 := repeat first [apply ea_nil|apply ea_cons; [content58|]].

Example C58_example :
  of_type oracles58 env58 (ERef 0) late /\ ~ typed oracles58 env58 (ERef 0) late /\
  names_declared env58 /\ prefixes_ok env58 /\ no_default env58 /\ attrs_apart env58 /\ flats_enums env58 /\
  fails oracles58 env58 (an "order") (ERef 0) late late_part "seven" /\
  fails oracles58 env58 (an "order") (ERef 0) early early_part "seven" /\
  part_sevs early_part =
    [SStart "order" [("code", "c")]; SStart "note" []; SChars "n"; SEnd; SStart "item" []; SChars "c"; SEnd]%string.
Proof.
  assert (T : of_type oracles58 env58 (ERef 0) late) by typing58.
  assert (L : fails oracles58 env58 (an "order") (ERef 0) late late_part "seven").
  { apply ef_kids; [tag58|].
    eapply kf_own; [reflexivity|]. apply of_other; [reflexivity|].
    apply (of_later _ _ _ (Field (ln "note") (MElement KOne str_ty) None) _ KOne str_ty _ [st "n"] _ [text_elem "note" "n"]); [reflexivity|constructor|elems58|].
    apply (of_later _ _ _ (Field (ln "item") (MElement KVec code_ty) None) _ KVec code_ty _ [code 5] _ [text_elem "item" "c"]); [reflexivity|constructor|elems58|].
    eapply of_here; [reflexivity|constructor|]. apply if_later; [content58|]. apply if_here.
    apply ef_kids; [tag58|].
    eapply kf_own; [reflexivity|]. apply of_other; [reflexivity|].
    apply (of_later _ _ _ (Field (ln "note") (MElement KOne str_ty) None) _ KOne str_ty _ [st "n"] _ [text_elem "note" "n"]); [reflexivity|constructor|elems58|].
    eapply of_here; [reflexivity|constructor|].
    apply if_later; [content58|]. apply if_later; [content58|]. apply if_here.
    apply ef_kids; [tag58|]. apply kf_text. reflexivity. }
  split; [exact T|]. split.
  { intros T'. destruct (C36_content_exists _ _ _ _ T') as (r & k & C). exact (proj1 (C58_unique _ _ _ _ _ _ _ L) r k C). }
  split; [intros [|[|id]] d [= <-]; declares|].
  split; [intros [|[|id]] d p u [= <-] []|].
  split; [left; intros [|[|id]] d u [= <-] []|].
  assert (Ap : attrs_apart env58).
  { intros [|[|id]] ident root nss fs [= <- <- <- <-]. split.
    - repeat constructor; cbn; intuition discriminate.
    - intros f id' Hf. cbn in Hf.
      repeat (destruct Hf as [<-|Hf]; [cbn; intros E; try discriminate; injection E as <-; do 5 eexists; reflexivity|]).
      destruct Hf. }
  split; [exact Ap|]. split; [intros id ident root nss fs f id' E Hf M; exact (proj2 (Ap _ _ _ _ _ E) f id' Hf M)|].
  split; [exact L|]. split; [|reflexivity].
  apply ef_kids; [tag58|].
  eapply kf_own; [reflexivity|]. apply of_other; [reflexivity|].
  apply (of_later _ _ _ (Field (ln "note") (MElement KOne str_ty) None) _ KOne str_ty _ [st "n"] _ [text_elem "note" "n"]); [reflexivity|constructor|elems58|].
  apply (of_later _ _ _ (Field (ln "item") (MElement KVec code_ty) None) _ KVec code_ty _ [code 5] _ [text_elem "item" "c"]); [reflexivity|constructor|elems58|].
  eapply of_here; [reflexivity|constructor|]. apply if_here. apply ef_tag.
  eapply tag_fails_struct; [reflexivity|].
  apply (af_here oracles58 (Field (ln "code") (MAttribute false (THand 0)) None) _ false (THand 0) (TVHand 7)); reflexivity.
Qed.
