(** Property theorem C54: writing and reading back when some types have hand-written [Serialize] and
    [Deserialize] implementations.

    [R t n v]: the element [n] read as type [t] is [v], as in C51.  [M t v]: the value [v] of type [t]
    survives; for text types and derived types this is determined as in C38 from what [M] says about the
    types of the fields ([survival]).  [hand_written_faithful o env hand R M]: each pair of hand-written
    implementations reads back what it wrote exactly if [M] says so, provided that the types they use
    do (MixedRTSpec.v). *)
From Verif Require Import Base Normalize Text Find FindProofs Types Ser SerSpec DeriveSer DSerSpec DeriveMixedSer MixedSerSpec
  Reader ReaderSpec ReaderMore DeriveDe DeSpec DeriveMixed MixedSpec MixedReads MixedDe RTSpec RTProofs RTProps NsSpec MixedRTSpec MixedRT.

(** ** C54: the round trip next to hand-written implementations *)

(** If serialization succeeds, a document has been written that is read back as the value exactly if
    the value survives. *)
Theorem C54_round_trip_iff : forall U o alg env (P : user U) hand R M,
  flattens_enums env -> names_ok env ->
  denotes o env P R -> hand_written_ok o alg env P R ->
  survival o env M -> hand_written_faithful o env hand R M ->
  forall dbg w t v n k pol,
  (forall reqs kids, mcontent o env hand t v reqs kids ->
     legal_mappings (RElem n reqs kids) /\ default_ok (RElem n reqs kids) /\
     (pol = SkipIfAnywhere -> coherent (RElem n reqs kids))) ->
  to dbg w n (mser_value o env hand t v) = inl (None, k) ->
  exists t0, meaning [] (emit pol [] (k_out k)) = Some (tree_events t0) /\ is_telem t0 = true /\
    forall t' d, indented t0 t' -> shows t' (d_root d) -> forall dbg' pe, (dbg' = true -> strict P) ->
      read_mixed o alg env P dbg' t (doc_events d) (FEndDocument pe) = Ok v <-> M t v.
Proof. intros U. exact mixed_round_trip. Qed.
Print Assumptions C54_round_trip_iff.

(** The same for the element of a value anywhere in a document. *)
Theorem C54_everywhere : forall U o env (P : user U) hand R M,
  denotes o env P R -> survival o env M -> flattens_enums env -> names_ok env ->
  hand_written_faithful o env hand R M ->
  forall c t v n reqs kids, mcontent o env hand t v reqs kids ->
  shows (tree_of (RElem n reqs kids)) c -> (R t c v <-> M t v).
Proof. intros U. exact all_faithful. Qed.
Print Assumptions C54_everywhere.

(** If all types are derived, [survives] of C38 is such an [M]. *)
Theorem C54_all_derived : forall o env, survival o env (survives o env).
Proof. exact survives_survival. Qed.
Print Assumptions C54_all_derived.

(** ** Example *)

Definition oracles2 : oracles := {|
  o_debug := fun s => s;
  o_std_parse := fun _ _ => Err "no"%string; o_std_show := fun _ _ => ""%string;
  o_float_parse := fun _ _ => Err "no"%string; o_float_show := fun _ _ => ""%string;
  o_hand_parse := fun _ _ => Err "no"%string; o_hand_show := fun _ _ => inl ""%string |}.
Definition ln (s : string) : dname := DName None s.
Definition lx (s : string) : xname := XName "" s.
Definition st (s : string) : value := VText (TVStr s).

(** [struct Note { #[attribute] id: bool, raw: Vec<Verbatim>, on: Option<Flag>, title: String }].
    [Verbatim]: a string, written with a bar in front so that blank ones survive.
    [Flag]: a wrapper of [bool] that delegates to it. *)
Definition note_fields : list field :=
  [ Field (ln "id") (MAttribute false TBool) None;
    Field (ln "raw") (MElement KVec (ERef 1)) None;
    Field (ln "on") (MElement KOpt (ERef 2)) None;
    Field (ln "title") (MElement KOne (EText TString)) None ].
Definition env4 : tenv := fun id => match id with 0 => Some (TDStruct "Note" (ln "note") [] note_fields) | _ => None end.

Definition hand4 : nat -> option (value -> serialize) := fun id =>
  match id with
  | 1 => Some (fun v => match v with
                        | VText (TVStr s) => Ser (ARet None) (WText (String "|" s) WRet)
                        | _ => Ser (ARet None) (WPanic "ill-typed") end)
  | 2 => Some (fun v => match v with
                        | VSome (VText (TVBool b)) => Ser (ARet None) (WText (show_bool b) WRet)
                        | _ => Ser (ARet None) (WPanic "ill-typed") end)
  | _ => None
  end.

Definition user4 : user unit := {|
  u_type := fun id =>
    match id with
    | 1 => Some (fun _ => UReadString (fun x =>
             match x with
             | inl (String "|" s) => Ok (st s)
             | inl _ => Err (Wrap "no bar")
             | inr e => Err e end))
    | 2 => Some (fun _ => UDeserialize (EText TBool) (fun x =>
             match x with inl v => Ok (VSome v) | inr e => Err e end))
    | _ => None
    end;
  u_attribute := fun u _ v => (Ok (Some v), u);
  u_characters := fun u s _ => (Ok (Some s), u);
  u_element := fun u _ => UNoRead (Ok true, u);
|}.

Inductive note_reads : ety -> node -> value -> Prop :=
| nr_text : forall t name attrs ns p kids pe x,
    existsb is_elem kids = false -> parse_text oracles2 t (text_of kids) = Ok x ->
    note_reads (EText t) (NElem name attrs ns p kids pe) (VText x)
| nr_struct : forall name attrs ns p kids pe vs,
    fields_hold oracles2 env4 note_reads attrs kids (unclaimed note_fields kids) note_fields vs ->
    note_reads (ERef 0) (NElem name attrs ns p kids pe) (VStruct vs)
| nr_verbatim : forall name attrs ns p kids pe s,
    existsb is_elem kids = false -> text_of kids = String "|" s ->
    note_reads (ERef 1) (NElem name attrs ns p kids pe) (st s)
| nr_flag : forall n v, note_reads (EText TBool) n v -> note_reads (ERef 2) n (VSome v).

(** Every [Verbatim] and every [Flag] survives. *)
Inductive note_survives : ety -> value -> Prop :=
| ns_text : forall t x s, to_text oracles2 t x = Some s -> parse_text oracles2 t (seen s) = Ok x ->
    note_survives (EText t) (VText x)
| ns_struct : forall vs,
    Forall2 (survives_field oracles2 env4 note_survives (field_names is_element note_fields)) note_fields vs ->
    note_survives (ERef 0) (VStruct vs)
| ns_verbatim : forall s, note_survives (ERef 1) (st s)
| ns_flag : forall b, note_survives (ERef 2) (VSome (VText (TVBool b))).

Lemma env4_ok : names_ok env4.
Proof.
  intros [|id] d [= <-]. cbn. split; repeat constructor; cbn; intuition discriminate.
Qed.

Lemma env4_flat : flattens_enums env4.
Proof.
  intros [|id] ident root nss fs f [= <- <- <- <-] I.
  destruct I as [<-|[<-|[<-|[<-|[]]]]]; exact I.
Qed.

Lemma note_denotes : denotes oracles2 env4 user4 note_reads.
Proof.
  constructor.
  - intros. split.
    + intro H. inversion H; subst. eauto.
    + intros (x & -> & H1 & H2). now constructor.
  - intros [|id] ident root nss fs name attrs ns p kids pe v [= <- <- <- <-]. split.
    + intro H. inversion H; subst. eauto.
    + intros (vs & -> & H). now constructor.
  - intros [|id] ident root nss vs sk name attrs ns p kids pe v; discriminate.
  - intros t n v H. induction H; auto.
  - intros id n v H1 H2 H. inversion H; subst; discriminate.
Qed.

Lemma note_survival : survival oracles2 env4 note_survives.
Proof.
  constructor.
  - intros t v. split.
    + intros H. inversion H; subst. eauto.
    + intros (x & s & -> & H1 & H2). econstructor; eauto.
  - intros [|id] ident root nss fs v [= <- <- <- <-]. split.
    + intros H. inversion H; subst. eexists. split; [reflexivity|]. split; [assumption|]. cbn. auto.
    + intros (vs & -> & H1 & H2). now constructor.
  - intros [|id] ident root nss ws sk v; discriminate.
Qed.

Lemma note_hand_reads alg : hand_written_ok oracles2 alg env4 user4 note_reads.
Proof.
  intros id n He Hu _ Hk Hn parents v. destruct n as [name attrs ns p kids pe| | |]; try discriminate.
  destruct id as [|[|[|id]]]; try (cbn in Hu; congruence).
  - (* Verbatim *)
    unfold result_of. cbn [mdeserialize env4 u_type user4 lower amap sem_act].
    destruct (existsb is_elem kids) eqn:E.
    + destruct (sem_string_elem kids (parents ++ [SElem name p]) "" pe E) as (k1 & n & a & ns1 & p1 & kk & pk & k2 & _ & _ & ->). cbn. split; [discriminate|].
      intro H. inversion H; subst; congruence.
    + rewrite (sem_string_text kids (parents ++ [SElem name p]) "" pe E). cbn [append].
      destruct (text_of kids) as [|c s] eqn:Et.
      { split; [discriminate|]. intro H. inversion H; subst; congruence. }
      split.
      * destruct c as [[] [] [] [] [] [] [] []]; try discriminate. intros [= <-]. now constructor.
      * intro H. inversion H; subst. rewrite Et in *.
        match goal with G : String _ _ = String _ _ |- _ => injection G as -> -> end. reflexivity.
  - (* Flag *)
    pose proof (Hk (EText TBool) I eq_refl parents) as HT. unfold result_of in HT |- *.
    cbn [mdeserialize env4 u_type user4 lower] in HT |- *.
    set (act := known_deserialize _ _ _ _ _) in *. clearbody act.
    set (rd := sem_read _ _ _) in *. set (path := parents ++ _) in *. clearbody rd path.
    pose proof (fun A B => @DeProofs.run_amap _ rd path p kids pe A B) as RA. unfold DeProofs.run in RA.
    assert (F : forall A B C (x : (A * B + C) * place),
      match x with (inl (r, _), _) => Some r | (inr _, _) => None end =
      match fst x with inl (r, _) => Some r | inr _ => None end) by (now intros A B C [[[]|] ?]).
    rewrite F in HT. rewrite F, RA, RA. clear F RA.
    destruct (fst (sem_act rd path p kids pe act)) as [[[x|e|x] l]|x]; cbn in *.
    + split.
      * intros [= <-]. constructor. now apply HT.
      * intro H. inversion H as [| | |n' v' H']; subst. apply HT in H'. congruence.
    + split; [discriminate|]. intro H. inversion H as [| | |n' v' H']; subst. apply HT in H'. congruence.
    + split; [discriminate|]. intro H. inversion H as [| | |n' v' H']; subst. apply HT in H'. congruence.
    + split; [discriminate|]. intro H. inversion H as [| | |n' v' H']; subst. apply HT in H'. congruence.
Qed.

Lemma note_faithful : hand_written_faithful oracles2 env4 hand4 note_reads note_survives.
Proof.
  intros id c He _ Hk v n reqs kids C Sh.
  inversion C as [| | | | |id' h v' r' k' E0 Eh A W]; subst; try congruence.
  inversion Sh as [n1 attrs1 kids1 name a2 ns p K pe E1 E2 E3 E4]; subst.
  destruct id as [|[|[|id]]]; try discriminate Eh; injection Eh as <-.
  - (* Verbatim *)
    destruct v as [[s| | | | | | | |]| | | | | |]; try discriminate W; try discriminate A.
    injection A as <-. injection W as <-. cbn [map tree_of filter is_telem texts onto] in *.
    assert (E5 : filter is_elem K = []) by now inversion E3.
    rewrite (no_elems_texts _ E5), append_nil in E4. injection E4 as E4.
    split; intros _; [constructor|]. constructor; [now apply no_elems_existsb|]. exact E4.
  - (* Flag: as the [bool] inside *)
    destruct v as [x| | | | |[[|b| | | | | | |]| | | | | |]|]; try discriminate W; try discriminate A.
    injection A as <-. injection W as <-.
    assert (HT := Hk (EText TBool) I (VText (TVBool b)) (from_xml_name name) [] [RText (show_bool b)]).
    split; [constructor|]. intros _. constructor. apply HT; [now constructor|exact Sh|].
    eapply ns_text; [reflexivity|]. now destruct b.
Qed.

Definition note1 : value :=
  VStruct [VText (TVBool true); VVec [st "  "; st "x"]; VSome (VSome (VText (TVBool false))); st "T"].
Definition note_tree : wtree :=
  TElem (lx "note") [(lx "id", "true"%string)]
    [ TElem (lx "raw") [] [TText "|  "]; TElem (lx "raw") [] [TText "|x"]; TElem (lx "on") [] [TText "false"];
      TElem (lx "title") [] [TText "T"] ].
Definition note_doc : doc :=
  match render note_tree with
  | NElem name attrs ns p kids pe => Doc (0, 0)%N [] name attrs ns p kids pe []
  | _ => Doc (0, 0)%N [] (OName None None "") [] [] (0, 0)%N [] (0, 0)%N []
  end.

Lemma note1_survives : note_survives (ERef 0) note1.
Proof.
  constructor. constructor; [|constructor; [|constructor; [|constructor; [|constructor]]]].
  - apply sf_attribute with (opt := false) (t := TBool) (s := "true"%string); reflexivity.
  - eapply sf_element; [reflexivity|constructor| |discriminate]. constructor; [|constructor; [|constructor]]; constructor.
  - eapply sf_element; [reflexivity|constructor| |discriminate]. constructor; [|constructor]. constructor.
  - eapply sf_element; [reflexivity|constructor| |discriminate]. constructor; [|constructor].
    eapply ns_text; reflexivity.
Qed.

Lemma note1_content : mcontent oracles2 env4 hand4 (ERef 0) note1 [ReqAttr (lx "id") "true"]
  [RElem (lx "raw") [] [RText "|  "]; RElem (lx "raw") [] [RText "|x"]; RElem (lx "on") [] [RText "false"];
   RElem (lx "title") [] [RText "T"]].
Proof.
  apply (mco_struct oracles2 env4 hand4 0 "Note" (ln "note") [] note_fields
    [VText (TVBool true); VVec [st "  "; st "x"]; VSome (VSome (VText (TVBool false))); st "T"]
    [ReqAttr (lx "id") "true"]
    [RElem (lx "raw") [] [RText "|  "]; RElem (lx "raw") [] [RText "|x"]; RElem (lx "on") [] [RText "false"];
     RElem (lx "title") [] [RText "T"]] [] []).
  - reflexivity.
  - apply (aa_here oracles2 (Field (ln "id") (MAttribute false TBool) None) _ false TBool (TVBool true) "true"); [reflexivity|reflexivity|].
    do 3 (apply aa_other; [reflexivity|]). constructor.
  - apply ok_other; [reflexivity|].
    apply (ok_here _ (Field (ln "raw") (MElement KVec (ERef 1)) None) _ KVec (ERef 1) _ [st "  "; st "x"]
      [RElem (lx "raw") [] [RText "|  "]; RElem (lx "raw") [] [RText "|x"]] _
      [RElem (lx "on") [] [RText "false"]; RElem (lx "title") [] [RText "T"]]); [reflexivity|constructor| |].
    { constructor; [|constructor; [|constructor]]; eapply mco_hand; reflexivity. }
    apply (ok_here _ (Field (ln "on") (MElement KOpt (ERef 2)) None) _ KOpt (ERef 2) _ [VSome (VText (TVBool false))]
      [RElem (lx "on") [] [RText "false"]] _ [RElem (lx "title") [] [RText "T"]]); [reflexivity|constructor| |].
    { constructor; [|constructor]. eapply mco_hand; reflexivity. }
    apply (ok_here _ (Field (ln "title") (MElement KOne (EText TString)) None) _ KOne (EText TString) _ [st "T"]
      [RElem (lx "title") [] [RText "T"]] _ []); [reflexivity|constructor| |constructor].
    constructor; [|constructor]. now constructor.
  - do 4 (apply fl_other; [reflexivity|]). constructor.
Qed.

Lemma no_namespaces reqs kids pol : mcontent oracles2 env4 hand4 (ERef 0) note1 reqs kids ->
  legal_mappings (RElem (lx "note") reqs kids) /\ default_ok (RElem (lx "note") reqs kids) /\
  (pol = SkipIfAnywhere -> coherent (RElem (lx "note") reqs kids)).
Proof.
  intros C. destruct (MixedSer.mcontent_det _ _ _ _ _ _ _ _ _ C note1_content) as [-> ->].
  assert (N : forall p u, ~ asks_ns (RElem (lx "note") [ReqAttr (lx "id") "true"]
    [RElem (lx "raw") [] [RText "|  "]; RElem (lx "raw") [] [RText "|x"]; RElem (lx "on") [] [RText "false"];
     RElem (lx "title") [] [RText "T"]]) p u).
  { intros p u (n & rs & ks & S & I).
    inversion S as [|? ? ? ? k Hk S']; subst; [destruct I as [I|[]]; discriminate|].
    destruct Hk as [<-|[<-|[<-|[<-|[]]]]]; (inversion S' as [|? ? ? ? k' Hk' S'']; subst; [destruct I|]);
      destruct Hk' as [<-|[]]; inversion S''. }
  split; [intros p u H; destruct (N _ _ H)|]. split; [apply NsMeaning.default_apart; left; intros u H; destruct (N _ _ H)|].
  intros _. exists (fun _ => ""%string). split; [intros p u H; destruct (N _ _ H)|intros u n H; destruct (N _ _ H)].
Qed.

Example C54_example :
  flattens_enums env4 /\ names_ok env4 /\ denotes oracles2 env4 user4 note_reads /\
  (forall alg, hand_written_ok oracles2 alg env4 user4 note_reads) /\ survival oracles2 env4 note_survives /\
  hand_written_faithful oracles2 env4 hand4 note_reads note_survives /\ strict user4 /\
  mtyped oracles2 env4 hand4 (ERef 0) note1 /\ note_survives (ERef 0) note1 /\
  (forall reqs kids pol, mcontent oracles2 env4 hand4 (ERef 0) note1 reqs kids ->
     legal_mappings (RElem (lx "note") reqs kids) /\ default_ok (RElem (lx "note") reqs kids) /\
     (pol = SkipIfAnywhere -> coherent (RElem (lx "note") reqs kids))) /\
  (forall dbg, exists k, to dbg (fun _ => None) (lx "note") (mser_value oracles2 env4 hand4 (ERef 0) note1) = inl (None, k) /\
     forall pol, meaning [] (emit pol [] (k_out k)) = Some (tree_events note_tree)) /\
  shows note_tree (d_root note_doc) /\
  read_mixed oracles2 Bisect env4 user4 true (ERef 0) (doc_events note_doc) (FEndDocument (9, 9)%N) = Ok note1.
Proof.
  split; [exact env4_flat|]. split; [exact env4_ok|]. split; [exact note_denotes|]. split; [exact note_hand_reads|].
  split; [exact note_survival|]. split; [exact note_faithful|]. split.
  { split.
    - intros [|[|[|id]]] D i; try discriminate; intros [= <-] e v; discriminate.
    - intros u i. exact I. }
  split.
  { eapply mty_struct; [reflexivity|]. constructor; [|constructor; [|constructor; [|constructor; [|constructor]]]].
    - eapply tf_attribute; [reflexivity|discriminate].
    - eapply tf_element; [reflexivity|constructor|]. constructor; [|constructor; [|constructor]]; eapply mty_hand; reflexivity.
    - eapply tf_element; [reflexivity|constructor|]. constructor; [|constructor]. eapply mty_hand; reflexivity.
    - eapply tf_element; [reflexivity|constructor|]. constructor; [|constructor]. apply mty_text. discriminate. }
  split; [exact note1_survives|]. split; [exact no_namespaces|]. split.
  { intros []; eexists; (split; [vm_compute; reflexivity|]); intros []; vm_compute; reflexivity. }
  split; [exact (render_shows note_tree eq_refl)|]. vm_compute. reflexivity.
Qed.
