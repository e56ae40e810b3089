(** Property theorems C53: derived serialization next to hand-written implementations.

    [mser_value o env hand t v]: the program that serializing [v] of type [t] runs, where the types [env]
    does not know have the hand-written implementations [hand] (DeriveMixedSer.v).  [mtyped], [mcontent]:
    MixedSerSpec.v.  [asked n p]: the tree a program asks for.  [to dbg w n p]: runs it. *)
From Verif Require Import Base Normalize Text Find Types Ser SerSpec SerTree NsSpec ScopeSpec NsScope DeriveSer DSerSpec
  DeriveMixedSer MixedSerSpec MixedSer.

(** ** C53: derived types write their hand-written parts where they belong *)

(** What is asked for is exactly the content; nothing is asked for if there is none (for example if a text
    cannot be printed). *)
Theorem C53_tree : forall o env hand, flattens_hand_on env hand -> forall t v n T,
  asked n (mser_value o env hand t v) = Some T <->
  exists reqs kids, mcontent o env hand t v reqs kids /\ T = RElem n reqs kids /\ distinct_attrs T.
Proof. exact masked_iff. Qed.
Print Assumptions C53_tree.

Theorem C53_content_unique : forall o env hand v t reqs kids reqs' kids',
  mcontent o env hand t v reqs kids -> mcontent o env hand t v reqs' kids' -> reqs = reqs' /\ kids = kids'.
Proof. exact mcontent_det. Qed.
Print Assumptions C53_content_unique.

(** Whatever the hand-written code does: if serialization succeeds, what was written is the content. *)
Theorem C53_written : forall o env hand, flattens_hand_on env hand -> forall dbg w t v n k,
  to dbg w n (mser_value o env hand t v) = inl (None, k) ->
  exists reqs kids, mcontent o env hand t v reqs kids /\ distinct_attrs (RElem n reqs kids) /\
    map ev_sev (k_out k) = tree_sevs (tree_of (RElem n reqs kids)).
Proof. exact mixed_written. Qed.
Print Assumptions C53_written.

(** So no error, panic or dropped writer of hand-written code gets lost. *)
Theorem C53_no_content_no_success : forall o env hand, flattens_hand_on env hand -> forall dbg w t v n k,
  (forall reqs kids, ~ mcontent o env hand t v reqs kids) ->
  to dbg w n (mser_value o env hand t v) <> inl (None, k).
Proof. exact no_content_fails. Qed.
Print Assumptions C53_no_content_no_success.

(** If there is a content, its namespaces are declared and no write fails, it is written. *)
Theorem C53_succeeds : forall o env hand, flattens_hand_on env hand -> forall dbg w t v n reqs kids,
  mcontent o env hand t v reqs kids -> distinct_attrs (RElem n reqs kids) ->
  ScopeSpec.declared nothing_declared False (RElem n reqs kids) -> (forall i, w i = None) ->
  exists k, to dbg w n (mser_value o env hand t v) = inl (None, k) /\
    map ev_sev (k_out k) = tree_sevs (tree_of (RElem n reqs kids)).
Proof. exact mixed_succeeds. Qed.
Print Assumptions C53_succeeds.

(** If every type is derived, this is the program of C35-C37. *)
Theorem C53_all_derived : forall o env t v, mser_value o env (fun _ => None) t v = ser_value o env t v.
Proof. exact no_hand_written. Qed.
Print Assumptions C53_all_derived.

(** ** Example *)

Definition oracles1 : oracles := {|
  o_debug := fun s => s;
  o_std_parse := fun _ _ => Err "no"%string; o_std_show := fun _ _ => ""%string;
  o_float_parse := fun _ _ => Err "no"%string; o_float_show := fun _ _ => ""%string;
  o_hand_parse := fun _ _ => Err "no"%string; o_hand_show := fun _ _ => inl ""%string |}.
Definition ln (s : string) : dname := DName None s.
Definition lx (s : string) : xname := XName "" s.

(** [struct Order { #[attribute] id: bool, at: Vec<Point>, note: String, #[flatten] price: Price }], where
    [Point] and [Price] have hand-written implementations. *)
Definition order : tdesc := TDStruct "Order" (ln "order") []
  [ Field (ln "id") (MAttribute false TBool) None;
    Field (ln "at") (MElement KVec (ERef 1)) None;
    Field (ln "note") (MElement KOne (EText TString)) None;
    Field (ln "price") (MFlatten 2) None ].
Definition env2 : tenv := fun id => match id with 0 => Some order | _ => None end.

(** A point is an element with an attribute and a text.  A price writes an attribute and an element. *)
Definition point (v : value) : serialize :=
  match v with
  | VText (TVStr s) => Ser (AAttr (lx "unit") "m" ARet) (WText s WRet)
  | _ => Ser (ARet None) (WRet (Some (SMsg "no point")))
  end.
Definition price (v : value) : serialize :=
  match v with
  | VText (TVStr s) =>
      Ser (AAttr (lx "currency") s ARet)
          (WElem (lx "price") (BStart (WText "12" (fun r => match r with
             | Some e => WDrop (WRet (Some e)) | None => WFinish WRet end)) (fun e => WRet (Some e))))
  | _ => Ser (APanic "no price") (WRet None)
  end.
Definition hand2 : nat -> option (value -> serialize) :=
  fun id => match id with 1 => Some point | 2 => Some price | _ => None end.
Definition st (s : string) : value := VText (TVStr s).
Definition order1 : value := VStruct [VText (TVBool true); VVec [st "1 2"; st "3 4"]; st "hi"; st "EUR"].

Lemma hand2_flat : flattens_hand_on env2 hand2.
Proof.
  intros [|id] ident root nss fs f id' h v [= <- <- <- <-] I M E Eh.
  destruct I as [<-|[<-|[<-|[<-|[]]]]]; try discriminate M. injection M as <-. injection Eh as <-.
  destruct v as [[]| | | | | |]; cbn; auto.
Qed.

Lemma order1_content : mcontent oracles1 env2 hand2 (ERef 0) order1
  [ReqAttr (lx "id") "true"; ReqAttr (lx "currency") "EUR"]
  [RElem (lx "at") [ReqAttr (lx "unit") "m"] [RText "1 2"];
   RElem (lx "at") [ReqAttr (lx "unit") "m"] [RText "3 4"];
   RElem (lx "note") [] [RText "hi"];
   RElem (lx "price") [] [RText "12"]].
Proof.
  apply (mco_struct oracles1 env2 hand2 0 "Order" (ln "order") []
    [ Field (ln "id") (MAttribute false TBool) None;
      Field (ln "at") (MElement KVec (ERef 1)) None;
      Field (ln "note") (MElement KOne (EText TString)) None;
      Field (ln "price") (MFlatten 2) None ]
    [VText (TVBool true); VVec [st "1 2"; st "3 4"]; st "hi"; st "EUR"]
    [ReqAttr (lx "id") "true"]
    [RElem (lx "at") [ReqAttr (lx "unit") "m"] [RText "1 2"];
     RElem (lx "at") [ReqAttr (lx "unit") "m"] [RText "3 4"];
     RElem (lx "note") [] [RText "hi"]]
    [ReqAttr (lx "currency") "EUR"] [RElem (lx "price") [] [RText "12"]]).
  - reflexivity.
  - apply (aa_here oracles1 (Field (ln "id") (MAttribute false TBool) None) _ false TBool (TVBool true) "true"); [reflexivity|reflexivity|].
    do 3 (apply aa_other; [reflexivity|]). constructor.
  - apply ok_other; [reflexivity|].
    apply (ok_here _ (Field (ln "at") (MElement KVec (ERef 1)) None) _ KVec (ERef 1) _ [st "1 2"; st "3 4"]
      [RElem (lx "at") [ReqAttr (lx "unit") "m"] [RText "1 2"]; RElem (lx "at") [ReqAttr (lx "unit") "m"] [RText "3 4"]]
      _ [RElem (lx "note") [] [RText "hi"]]); [reflexivity|constructor| |].
    + constructor; [|constructor; [|constructor]]; eapply mco_hand; reflexivity.
    + apply (ok_here _ (Field (ln "note") (MElement KOne (EText TString)) None) _ KOne (EText TString) _ [st "hi"] [RElem (lx "note") [] [RText "hi"]] _ []);
        [reflexivity|constructor| |].
      * constructor; [|constructor]. now constructor.
      * apply ok_other; [reflexivity|constructor].
  - do 3 (apply fl_other; [reflexivity|]).
    apply (fl_here _ (Field (ln "price") (MFlatten 2) None) _ 2 _ _ [ReqAttr (lx "currency") "EUR"] [RElem (lx "price") [] [RText "12"]] [] []);
      [reflexivity| |constructor].
    eapply mco_hand; reflexivity.
Qed.

Definition no_writes_fail : io := fun _ => None.

Example C53_example :
  flattens_hand_on env2 hand2 /\ mtyped oracles1 env2 hand2 (ERef 0) order1 /\
  (exists reqs kids, mcontent oracles1 env2 hand2 (ERef 0) order1 reqs kids /\
     distinct_attrs (RElem (lx "order") reqs kids) /\
     ScopeSpec.declared nothing_declared False (RElem (lx "order") reqs kids)) /\
  (forall dbg, exists k, to dbg no_writes_fail (lx "order") (mser_value oracles1 env2 hand2 (ERef 0) order1) = inl (None, k) /\
     map ev_sev (k_out k) =
       [ SStart "order" [("id", "true"); ("currency", "EUR")]%string;
         SStart "at" [("unit", "m")]%string; SChars "1 2"; SEnd;
         SStart "at" [("unit", "m")]%string; SChars "3 4"; SEnd;
         SStart "note" []; SChars "hi"; SEnd;
         SStart "price" []; SChars "12"; SEnd; SEnd ]).
Proof.
  split; [exact hand2_flat|]. split; [|split].
  - eapply mty_struct; [reflexivity|]. constructor; [|constructor; [|constructor; [|constructor; [|constructor]]]].
    + eapply tf_attribute; [reflexivity|discriminate].
    + eapply tf_element; [reflexivity|constructor|]. constructor; [|constructor; [|constructor]]; eapply mty_hand; reflexivity.
    + eapply tf_element; [reflexivity|constructor|]. constructor; [|constructor]. apply mty_text. discriminate.
    + eapply tf_flatten; [reflexivity|]. eapply mty_hand; reflexivity.
  - eexists. eexists. split; [exact order1_content|].
    split.
    + apply (tree_ok_distinct). vm_compute. reflexivity.
    + assert (No : forall l : list req, (forall p u, ~ In (ReqNs p u) l) -> ~ asks_default l) by (intros l H (u & I); eapply H; eauto).
      assert (D : forall n l up dflt kids, xn_ns n = ""%string -> ~ dflt -> (forall p u, ~ In (ReqNs p u) l) ->
        (forall a v, In (ReqAttr a v) l -> xn_ns a = ""%string) ->
        (forall k, In k kids -> ScopeSpec.declared (own_scope n l) (dflt \/ asks_default l) k) ->
        ScopeSpec.declared up dflt (RElem n l kids)).
      { intros n l up dflt kids H1 H2 H3 H4 H5. constructor; [| | |exact H5].
        - intros p u I. exfalso. eapply H3; eauto.
        - right. right. right. auto.
        - intros b a v af ->. left. eapply H4. apply in_or_app. right. now left. }
      assert (N : forall (l : list req) (P : Prop), ~ P -> (forall p u, ~ In (ReqNs p u) l) -> ~ (P \/ asks_default l)).
      { intros l P H1 H2 [H|(u & I)]; [auto|eapply H2; eauto]. }
      assert (L1 : forall p u, ~ In (ReqNs p u) [ReqAttr (lx "id") "true"; ReqAttr (lx "currency") "EUR"])
        by (intros p u [?|[?|[]]]; discriminate).
      assert (L2 : forall p u, ~ In (ReqNs p u) [ReqAttr (lx "unit") "m"]) by (intros p u [?|[]]; discriminate).
      assert (NF : ~ False) by (intros []).
      assert (L0 : forall p u, ~ In (ReqNs p u) []) by (intros p u []).
      apply D; auto.
      * intros a v [[= <- <-]|[[= <- <-]|[]]]; reflexivity.
      * intros k [<-|[<-|[<-|[<-|[]]]]]; (apply D; [reflexivity|apply N; auto| | |]); auto;
          try (intros a v [[= <- <-]|[]]; reflexivity); try (intros a v H; destruct H; fail);
          intros k [<-|[]]; constructor.
  - intros []; eexists; (split; [vm_compute; reflexivity|]); vm_compute; reflexivity.
Qed.

(** The same order with a point that is none: no content, and the error is returned. *)
Example C53_error_example :
  let v := VStruct [VText (TVBool true); VVec [st "1 2"; VNone]; st "hi"; st "EUR"] in
  (forall reqs kids, ~ mcontent oracles1 env2 hand2 (ERef 0) v reqs kids) /\
  (exists k, to true no_writes_fail (lx "order") (mser_value oracles1 env2 hand2 (ERef 0) v) = inl (Some (SMsg "no point"), k)).
Proof.
  split.
  - intros reqs kids C.
    inversion C as [|id ident root nss fs vs at1 k1 r1 k2 E A O F| | | |id h v r k E]; subst; [|discriminate].
    injection E as <- <- <- <-.
    inversion O as [|f1 fs1 kk1 t1 v1 xs1 l1 vs1 l3 M1 I1 E1 O1|f1 fs1 v1 vs1 l1 M1 O1]; subst; [discriminate|].
    inversion O1 as [|f2 fs2 kk2 t2 v2 xs2 l2 vs2 l4 M2 I2 E2 O2|f2 fs2 v2 vs2 l2 M2 O2]; subst; [|discriminate].
    injection M2 as <- <-. inversion I2; subst.
    inversion E2 as [|x1 y1 r2 q2 z2 C2 E3]; subst. inversion E3 as [|x2 y2 r3 q3 z3 C3 E4]; subst.
    inversion C3 as [| | | | |id h v r k E5 E6 A5 W5]; subst. injection E6 as <-. discriminate.
  - eexists. vm_compute. reflexivity.
Qed.

(** ** The condition on flattened types *)

(** A flattened type whose [write_attributes] ignores the error of a repeated attribute: serialization
    succeeds, but its attribute is not written. *)
Theorem C53_ignored_error_refuted : exists env hand v, mtyped oracles1 env hand (ERef 0) v /\
  (forall dbg, exists k, to dbg no_writes_fail (lx "a") (mser_value oracles1 env hand (ERef 0) v) = inl (None, k) /\
     map ev_sev (k_out k) = [SStart "a" [("id", "true")]%string; SEnd]) /\
  forall reqs kids, mcontent oracles1 env hand (ERef 0) v reqs kids ->
    ~ distinct_attrs (RElem (lx "a") reqs kids).
Proof. exact ignored_error. Qed.
Print Assumptions C53_ignored_error_refuted.
