From Coq Require Import Lia.
From Verif Require Import Base DisplayProofs NsSpec NsMeaning ScopeSpec NsScope Ser SerSpec DSerSpec DSerProofs Reader ReaderSpec ReaderProofs
  RTSpec RTProps Dom DomSpec.

(** ** Reading *)

Lemma dom_propagating : propagating dom_visitor.
Proof. intros s i. cbn. intros e s' b. discriminate. Qed.
Lemma dom_propagating_root : propagating_root dom_deserialize.
Proof. intros i. cbn. intros e s v. discriminate. Qed.

Definition push_kid (l : list wtree) (c : node) : list wtree :=
  match c with
  | NText _ s _ => add_piece s l
  | NElem _ _ _ _ _ _ => dom_of c :: l
  | _ => l
  end.

Definition put_piece (s : string) (l : list wtree) : list wtree := if String.eqb s "" then l else TText s :: l.
Definition closed (l : list wtree) : Prop := match l with TText _ :: _ => False | _ => True end.

Lemma eqb_app s0 s : String.eqb (s0 ++ s) "" = String.eqb s0 "" && String.eqb s "".
Proof. destruct s0; reflexivity. Qed.

Lemma add_put s s0 l : closed l -> add_piece s (put_piece s0 l) = put_piece (s0 ++ s) l.
Proof.
  intros C. unfold add_piece, put_piece. rewrite eqb_app.
  destruct (String.eqb_spec s "") as [->|Hs].
  - rewrite andb_true_r, append_nil_r. reflexivity.
  - rewrite andb_false_r. destruct (String.eqb_spec s0 "") as [->|H0]; [|reflexivity].
    destruct l as [|[|] l]; cbn in C; try reflexivity. contradiction.
Qed.

Lemma rev_put s l : rev (put_piece s l) = rev l ++ text_part s.
Proof. unfold put_piece, text_part. destruct (String.eqb s ""); [now rewrite app_nil_r|reflexivity]. Qed.

Lemma onto_onto a b l : onto a (onto b l) = onto (a ++ b) l.
Proof. destruct l as [|h r]; cbn; [reflexivity|]. now rewrite append_assoc. Qed.

Lemma onto_empty l : l <> [] -> onto "" l = l.
Proof. destruct l; [easy|reflexivity]. Qed.

Lemma onto_some a l : onto a l <> [].
Proof. destruct l; discriminate. Qed.

Lemma node_texts_some l : node_texts l <> [].
Proof. induction l as [|[] l IH]; cbn; try discriminate; auto using onto_some. Qed.

Lemma texts_some l : texts l <> [].
Proof. destruct l as [|[] l]; cbn; try discriminate. apply onto_some. Qed.

Lemma push_weave kids : forall s0 l, closed l ->
  rev (fold_left push_kid kids (put_piece s0 l)) =
  rev l ++ weave (onto s0 (node_texts kids)) (flat_map (fun c => if is_elem c then [dom_of c] else []) kids).
Proof.
  induction kids as [|c kids IH]; intros s0 l C.
  - cbn. rewrite append_nil_r, rev_put, app_nil_r. reflexivity.
  - destruct c as [n a ns p ks pe|cd s p|m p|s p]; cbn [fold_left push_kid node_texts flat_map is_elem].
    + change (dom_of (NElem n a ns p ks pe) :: put_piece s0 l)
        with (put_piece "" (dom_of (NElem n a ns p ks pe) :: put_piece s0 l)).
      rewrite IH by exact I. rewrite onto_empty by apply node_texts_some.
      cbn [rev onto]. rewrite append_nil_r, rev_put. cbn [weave]. cbn [List.app].
      rewrite <- !app_assoc. reflexivity.
    + rewrite add_put by exact C. rewrite IH by exact C. now rewrite onto_onto.
    + now apply IH.
    + now apply IH.
Qed.

Lemma push_weave_all kids :
  rev (fold_left push_kid kids []) = weave (node_texts kids) (flat_map (fun c => if is_elem c then [dom_of c] else []) kids).
Proof.
  change (@nil wtree) with (put_piece "" []) at 1. rewrite push_weave by exact I.
  now rewrite onto_empty by apply node_texts_some.
Qed.

(** Any visitor that does to some of its states what [dom_visitor] does. *)
Section Collects.
  Context {St : Type} (V : visitors St) (inj : building -> St).
  Hypothesis attribute : forall b n v, exists r,
    v_attribute V (inj b) n v = (Ok r, inj (Building ((n, v) :: b_attributes b) (b_children b))).
  Hypothesis characters : forall b s p, exists r,
    v_characters V (inj b) s p = (Ok r, inj (Building (b_attributes b) (add_piece s (b_children b)))).
  Hypothesis element : forall b i, exists k, v_element V (inj b) i = AReadTo (inj fresh) k /\
    forall x b', exists r, k (inl x) (inj b') =
      (Ok r, inj (Building (b_attributes b) (finished (from_xml_name (ei_name i)) b' :: b_children b))).

  Lemma dom_attrs_read path p attrs : forall b,
    sem_attrs V path p attrs (inj b) =
    (Ok tt, inj (Building (rev (map (fun a => (from_xml_name (a_name a), a_value a)) attrs) ++ b_attributes b) (b_children b))).
  Proof.
    induction attrs as [|a attrs IH]; intros b; cbn [sem_attrs]; [now destruct b|].
    destruct (attribute b (from_xml_name (a_name a)) (a_value a)) as (r & ->).
    rewrite IH. cbn [b_attributes b_children map rev]. now rewrite <- app_assoc.
  Qed.

  Definition dom_reads (n : node) : Prop := forall name attrs ns p kids pe, n = NElem name attrs ns p kids pe ->
    forall parents, exists l pl,
      sem_read V n parents (inj fresh) =
        ((Ok (name, ns, pe), inj (Building (rev (map (fun a => (from_xml_name (a_name a), a_value a)) attrs)) l)), pl) /\
      TElem (from_xml_name name) (map (fun a => (from_xml_name (a_name a), a_value a)) attrs) (rev l) = dom_of n.

  Lemma dom_kids_read path fin : forall kids, Forall dom_reads kids -> forall b, exists pl,
    sem_kids V (sem_read V) path fin kids (inj b) =
    ((Ok fin, inj (Building (b_attributes b) (fold_left push_kid kids (b_children b)))), pl).
  Proof.
    induction kids as [|c kids IH]; intros HF b; [destruct b; eexists; reflexivity|].
    inversion HF as [|c' k' Hc HF']; subst.
    destruct c as [n a ns p ks pe|cd s p|m p|s p]; cbn [sem_kids fold_left push_kid].
    - destruct (Hc _ _ _ _ _ _ eq_refl path) as (l & pl & E & D).
      destruct (element b (EInfo n ns (List.length (path ++ [SElem n p])))) as (k & -> & K).
      cbn [sem_act]. rewrite E.
      destruct (K (n, ns, pe) (Building (rev (map (fun a => (from_xml_name (a_name a), a_value a)) a)) l)) as (r & ->).
      cbn [ei_name].
      match goal with |- context [finished ?x ?y] => replace (finished x y) with (dom_of (NElem n a ns p ks pe)) end.
      2:{ rewrite <- D. unfold finished. cbn [b_attributes b_children]. now rewrite rev_involutive. }
      destruct (IH HF' (Building (b_attributes b) (dom_of (NElem n a ns p ks pe) :: b_children b))) as (pl' & ->).
      cbn [b_attributes b_children]. eexists; reflexivity.
    - destruct (characters b s p) as (r & ->).
      destruct (IH HF' (Building (b_attributes b) (add_piece s (b_children b)))) as (pl' & ->).
      cbn [b_attributes b_children]. eexists; reflexivity.
    - now apply IH.
    - now apply IH.
  Qed.

  Lemma dom_read n : dom_reads n.
  Proof.
    induction n as [name attrs ns p kids pe IH| | |] using node_ind'; intros ? ? ? ? ? ? E; try discriminate E.
    injection E as <- <- <- <- <- <-. intros parents. cbn [sem_read]. rewrite dom_attrs_read.
    cbn [b_attributes b_children fresh]. rewrite app_nil_r.
    destruct (dom_kids_read (parents ++ [SElem name p]) (name, ns, pe) kids IH
      (Building (rev (map (fun a => (from_xml_name (a_name a), a_value a)) attrs)) [])) as (pl & ->).
    cbn [b_attributes b_children]. do 2 eexists. split; [reflexivity|].
    cbn [dom_of]. now rewrite push_weave_all.
  Qed.
End Collects.

Theorem dom_document dbg d pe :
  read dbg dom_visitor dom_deserialize (reader_new (doc_events d) (FEndDocument pe)) = Ok (dom_of (d_root d)).
Proof.
  rewrite read_sem by (split; [apply dom_propagating|apply dom_propagating_root]).
  unfold sem_doc. cbn [dom_deserialize sem_act].
  destruct (dom_read dom_visitor (fun b => b) ltac:(intros; eexists; reflexivity) ltac:(intros; eexists; reflexivity)
    ltac:(intros b i; eexists; split; [reflexivity|]; intros; eexists; reflexivity)
    (d_root d) _ _ _ _ _ _ eq_refl []) as (l & pl & E & D). cbn beta in E. rewrite E.
  cbn [ei_name]. unfold finished. cbn [b_attributes b_children]. rewrite rev_involutive, D. reflexivity.
Qed.

(** ** What is shown of a tree *)

Lemma flat_map_filter {A B} (f : A -> bool) (g : A -> B) l :
  flat_map (fun c => if f c then [g c] else []) l = map g (filter f l).
Proof. induction l as [|x l IH]; cbn; [reflexivity|]. destruct (f x); cbn; now rewrite IH. Qed.

Lemma Forall_filter {A} (P : A -> Prop) f (l : list A) : Forall P l -> Forall P (filter f l).
Proof. induction 1; cbn; [constructor|]. destruct (f x); auto. Qed.

Theorem dom_of_shown t : forall n, shows t n -> dom_of n = clean t.
Proof.
  induction t as [s|n a kids IH] using wtree_ind'; intros c HS; inversion HS; subst.
  cbn [dom_of clean]. rewrite !flat_map_filter. f_equal.
  match goal with H : node_texts _ = _ |- _ => rewrite H end. f_equal.
  match goal with H : Forall2 shows _ _ |- _ => revert H end.
  apply (Forall_filter _ is_telem) in IH. revert IH. generalize (filter is_telem kids) (filter is_elem kids').
  intros l l' HF H. induction H; [reflexivity|]. inversion HF; subst. cbn. f_equal; auto.
Qed.

(** ** Tidy trees *)

Lemma weave_no_text es : weave [""%string] es = match es with [] => [] | e :: r => e :: r end.
Proof. destruct es; reflexivity. Qed.

Definition rebuilt (kids : list wtree) : list wtree :=
  weave (map seen (texts kids)) (flat_map (fun c => if is_telem c then [clean c] else []) kids).

Lemma seen_empty s : seen s = ""%string <-> blank s = true.
Proof.
  unfold seen. destruct (blank s) eqn:B; [easy|]. split; [|discriminate]. intros ->. discriminate B.
Qed.

Lemma rebuilt_elem t l : is_telem t = true -> rebuilt (t :: l) = clean t :: rebuilt l.
Proof.
  destruct t as [n a k|s]; [|discriminate]. intros _. unfold rebuilt.
  cbn [texts map flat_map is_telem]. reflexivity.
Qed.

Lemma rebuilt_text_elem s t l : is_telem t = true -> rebuilt (TText s :: t :: l) = text_part (seen s) ++ clean t :: rebuilt l.
Proof.
  destruct t as [n a k|]; [|discriminate]. intros _. unfold rebuilt. cbn [texts onto map flat_map is_telem].
  rewrite append_nil_r. reflexivity.
Qed.

Lemma rebuilt_text s : rebuilt [TText s] = text_part (seen s).
Proof. unfold rebuilt. cbn. rewrite append_nil_r, app_nil_r. reflexivity. Qed.

Lemma rebuilt_texts s s' l : rebuilt (TText s :: TText s' :: l) = rebuilt (TText (s ++ s') :: l).
Proof. unfold rebuilt. cbn [texts flat_map is_telem]. now rewrite onto_onto. Qed.

Lemma piece_seen s : blank s = false -> text_part (seen s) = [TText s].
Proof.
  intros B. unfold seen, text_part. rewrite B. destruct (String.eqb_spec s ""); [subst; discriminate|reflexivity].
Qed.

Lemma clean_is_telem t : is_telem (clean t) = is_telem t.
Proof. destruct t; reflexivity. Qed.

(** Rebuilding makes no list longer, and shorter ones out of ones that are not tidy. *)
Lemma rebuilt_shorter : forall k l, List.length l <= k ->
  List.length (rebuilt l) <= List.length l /\
  (List.length (rebuilt l) = List.length l -> apart l /\ forall s, In (TText s) l -> blank s = false).
Proof.
  induction k as [|k IH]; intros l Hk.
  - destruct l; [|cbn in Hk; lia]. cbn. repeat split; auto. intros s [].
  - destruct l as [|t l]; [cbn; repeat split; auto; intros s []|].
    cbn [List.length] in Hk. destruct (is_telem t) eqn:Et.
    + rewrite rebuilt_elem by exact Et. cbn [List.length]. destruct (IH l ltac:(lia)) as [L E].
      split; [lia|]. intros H. destruct E as [A B]; [lia|]. split.
      * destruct t; [exact A|discriminate].
      * intros s [->|H']; [discriminate|auto].
    + destruct t as [|s]; [discriminate|]. clear Et.
      destruct l as [|[n a ks|s'] l].
      * rewrite rebuilt_text. unfold text_part. destruct (String.eqb_spec (seen s) "") as [E|E]; cbn [List.length].
        { split; [lia|]. discriminate. }
        split; [lia|]. intros _. split; [exact I|]. intros s0 [H|[]]. injection H as <-.
        destruct (blank s) eqn:B; [|reflexivity]. elim E. now apply seen_empty.
      * rewrite rebuilt_text_elem by reflexivity. cbn [List.length] in *. destruct (IH l ltac:(lia)) as [L E].
        rewrite app_length. cbn [List.length]. unfold text_part.
        destruct (String.eqb_spec (seen s) "") as [Es|Es]; cbn [List.length].
        { split; [lia|]. intros H. lia. }
        split; [lia|]. intros H. destruct E as [A B]; [lia|]. split; [exact A|].
        intros s0 [H'|[H'|H']]; [|discriminate|auto]. injection H' as <-.
        destruct (blank s) eqn:Bs; [|reflexivity]. elim Es. now apply seen_empty.
      * rewrite rebuilt_texts. cbn [List.length] in *.
        destruct (IH (TText (s ++ s') :: l)) as [L _]; [cbn; lia|]. cbn [List.length] in L. split; [lia|]. lia.
Qed.

Lemma rebuilt_tidy : forall k l, List.length l <= k -> apart l -> (forall s, In (TText s) l -> blank s = false) ->
  rebuilt l = map clean l.
Proof.
  induction k as [|k IH]; intros l Hk A B.
  - destruct l; [reflexivity|cbn in Hk; lia].
  - destruct l as [|t l]; [reflexivity|]. cbn [List.length] in Hk.
    destruct t as [n a ks|s].
    + rewrite rebuilt_elem by reflexivity. cbn [map]. rewrite (IH l); [reflexivity|lia|exact A|].
      intros s H. apply B. now right.
    + destruct l as [|[n a ks|s'] l].
      * rewrite rebuilt_text, piece_seen by (apply B; now left). reflexivity.
      * rewrite rebuilt_text_elem by reflexivity. rewrite piece_seen by (apply B; now left).
        cbn [List.length] in Hk. cbn [map List.app]. rewrite (IH l); [reflexivity|lia|exact A|].
        intros s0 H. apply B. now right; right.
      * destruct A.
Qed.

Theorem clean_tidy t : is_telem t = true -> (clean t = t <-> tidy t).
Proof.
  induction t as [s|n a kids IH] using wtree_ind'; [discriminate|]. intros _. cbn [clean]. fold (rebuilt kids).
  assert (E : clean (TElem n a kids) = TElem n a (rebuilt kids)) by reflexivity.
  split.
  - intros H. injection H as H.
    destruct (rebuilt_shorter _ kids (le_n _)) as [_ T]. destruct T as [A B]; [now rewrite H|].
    constructor; auto. rewrite (rebuilt_tidy _ kids (le_n _) A B) in H.
    intros c Hc Ec. rewrite Forall_forall in IH. apply (IH c Hc Ec).
    clear - H Hc. revert H Hc. induction kids as [|x kids IH]; [easy|]. cbn. intros H [->|Hc]; injection H; auto.
  - intros H. inversion H; subst. f_equal. rewrite (rebuilt_tidy _ kids (le_n _)) by assumption.
    rewrite <- (map_id kids) at 2. apply map_ext_in. intros c Hc. destruct c as [n' a' k'|s]; [|reflexivity].
    rewrite Forall_forall in IH. apply (IH _ Hc eq_refl). auto.
Qed.

(** ** Writing *)

Section Writing.
  Context (px : string -> string).

  Definition tag_reqs (n : xname) (attrs : list (xname * string)) : list req :=
    map (fun u => ReqNs (px u) u) (urls n attrs) ++ map (fun a => ReqAttr (fst a) (snd a)) attrs.

  Fixpoint dom_request (t : wtree) : rtree :=
    match t with
    | TElem n attrs kids => RElem n (tag_reqs n attrs) (map dom_request kids)
    | TText s => RText s
    end.

  Lemma req_attrs_app l l' : req_attrs (l ++ l') = req_attrs l ++ req_attrs l'.
  Proof. induction l as [|[p u|n v] l IH]; cbn; [reflexivity|exact IH|now rewrite IH]. Qed.

  Lemma req_attrs_ns us : req_attrs (map (fun u => ReqNs (px u) u) us) = [].
  Proof. induction us; auto. Qed.

  Lemma req_attrs_attrs (attrs : list (xname * string)) : req_attrs (map (fun a => ReqAttr (fst a) (snd a)) attrs) = attrs.
  Proof. induction attrs as [|[n v] attrs IH]; cbn; [reflexivity|now rewrite IH]. Qed.

  Lemma tag_reqs_attrs n attrs : req_attrs (tag_reqs n attrs) = attrs.
  Proof. unfold tag_reqs. now rewrite req_attrs_app, req_attrs_ns, req_attrs_attrs. Qed.

  Lemma tree_dom_request t : tree_of (dom_request t) = t.
  Proof.
    induction t as [s|n a kids IH] using wtree_ind'; [reflexivity|]. cbn [dom_request tree_of].
    rewrite tag_reqs_attrs, map_map. f_equal. rewrite <- (map_id kids) at 2. apply map_ext_in.
    intros c Hc. rewrite Forall_forall in IH. now apply IH.
  Qed.

  Lemma ask_dom_attributes attrs : forall l, NoDup (map fst (req_attrs l ++ attrs)) ->
    ask_a (dom_attributes attrs) l = Some (l ++ map (fun a => ReqAttr (fst a) (snd a)) attrs).
  Proof.
    induction attrs as [|[n v] attrs IH]; intros l N; cbn [dom_attributes ask_a map].
    - now rewrite app_nil_r.
    - assert (V : attr_value n l = None).
      { unfold attr_value. destruct (find _ _) as [[n' v']|] eqn:F; [exfalso|reflexivity].
        apply find_some in F. destruct F as [F1 F2]. cbn in F2.
        rewrite map_app in N. cbn [map fst] in N. apply NoDup_remove_2 in N. apply N, in_or_app. left.
        assert (n' = n) as ->. { clear - F2. unfold xn_eqb in F2. apply andb_true_iff in F2. destruct F2 as [A B].
          apply String.eqb_eq in A, B. destruct n, n'. cbn in *. congruence. }
        now apply (in_map fst) in F1. }
      unfold add_attr. rewrite V. rewrite IH.
      + now rewrite <- app_assoc.
      + rewrite req_attrs_app. cbn [req_attrs]. rewrite <- app_assoc. exact N.
  Qed.

  Lemma ask_dom_start n attrs : NoDup (map fst attrs) -> ask_a (dom_start px n attrs) [] = Some (tag_reqs n attrs).
  Proof.
    intros N. unfold dom_start, tag_reqs.
    assert (G : forall us l, req_attrs l = [] ->
      ask_a (fold_right (fun u => ANs (px u) u) (dom_attributes attrs) us) l =
      Some (l ++ map (fun u => ReqNs (px u) u) us ++ map (fun a => ReqAttr (fst a) (snd a)) attrs)).
    { induction us as [|u us IH]; intros l L; cbn [fold_right ask_a map List.app].
      - rewrite ask_dom_attributes; [reflexivity|]. now rewrite L.
      - rewrite IH by now rewrite req_attrs_app, L. now rewrite <- app_assoc. }
    now rewrite G.
  Qed.

  Definition put (ts : list rtree) (rs : list rtree * list frame) : list rtree * list frame :=
    fold_left (fun rs t => add_kid t (fst rs) (snd rs)) ts rs.

  Lemma ask_give_up d : forall e root st, ask_w (give_up d e) root st = None.
  Proof. destruct d; reflexivity. Qed.

  Lemma put_root ts : forall root, put ts (root, []) = (root ++ ts, []).
  Proof.
    induction ts as [|t ts IH]; intros root; cbn; [now rewrite app_nil_r|]. rewrite IH. now rewrite <- app_assoc.
  Qed.

  Lemma put_frame ts : forall root n l ks st,
    put ts (root, Frame n l ks :: st) = (root, Frame n l (ks ++ ts) :: st).
  Proof.
    induction ts as [|t ts IH]; intros root n l ks st; cbn; [now rewrite app_nil_r|].
    rewrite IH. now rewrite <- app_assoc.
  Qed.

  Definition asks_child (t : wtree) : Prop := expressible t -> forall d (k : wprog d) root st,
    ask_w (dom_child px t d k) root st =
    let rs := add_kid (dom_request t) root st in ask_w k (fst rs) (snd rs).

  Lemma ask_dom_kids kids : Forall asks_child kids -> (forall c, In c kids -> expressible c) ->
    forall d (k : wprog d) root st,
    ask_w (fold_right (fun c => dom_child px c d) k kids) root st =
    let rs := put (map dom_request kids) (root, st) in ask_w k (fst rs) (snd rs).
  Proof.
    induction 1 as [|c kids Hc HF IH]; intros EX d k root st; [reflexivity|].
    cbn [fold_right map]. rewrite Hc by (apply EX; now left). cbn zeta.
    rewrite IH by (intros; apply EX; now right). cbn [put fold_left]. fold (put (map dom_request kids)).
    unfold put. cbn [fold_left fst snd].
    destruct (add_kid (dom_request c) root st); reflexivity.
  Qed.

  Lemma ask_dom_child t : asks_child t.
  Proof.
    induction t as [s|n a kids IH] using wtree_ind'; intros EX d k root st.
    - cbn [dom_child ask_w dom_request]. destruct (add_kid (RText s) root st). reflexivity.
    - inversion EX; subst. cbn [dom_child ask_w]. rewrite ask_embed.
      2:{ intros e l. reflexivity. }
      rewrite ask_dom_start by assumption. cbn [ask_b].
      rewrite ask_dom_kids by assumption. cbn zeta. rewrite put_frame. cbn [fst snd ask_w fr_name fr_reqs fr_kids List.app dom_request].
      destruct (add_kid _ root st) as [root' st']. reflexivity.
  Qed.

  Lemma asked_dom n attrs kids : expressible (TElem n attrs kids) ->
    asked n (dom_serialize px n attrs kids) = Some (dom_request (TElem n attrs kids)).
  Proof.
    intros EX. inversion EX; subst. unfold asked, dom_serialize. cbn [s_attrs s_kids].
    rewrite ask_dom_start by assumption. unfold dom_children. rewrite ask_dom_kids; auto.
    2:{ apply Forall_forall. intros c _. apply ask_dom_child. }
    cbn zeta. rewrite put_root. reflexivity.
  Qed.

  (** The conditions of C31 and C52. *)
  Lemma in_tag_ns n attrs p u : In (ReqNs p u) (tag_reqs n attrs) ->
    p = px u /\ u <> ""%string /\ u <> XML_NS /\ (u = xn_ns n \/ exists a, In a attrs /\ xn_ns (fst a) = u).
  Proof.
    unfold tag_reqs. rewrite in_app_iff, !in_map_iff. intros [(u' & E & H)|(a & E & _)]; [|discriminate].
    injection E as <- ->. apply filter_In in H. destruct H as [H N]. unfold needs in N.
    apply negb_true_iff, orb_false_iff in N. destruct N as [N1 N2]. apply String.eqb_neq in N1, N2.
    repeat split; auto. destruct H as [H|H]; [now left|right]. apply in_map_iff in H. destruct H as (a & E & H). eauto.
  Qed.

  Lemma tag_requests n attrs u : In u (xn_ns n :: map (fun a => xn_ns (fst a)) attrs) -> u <> ""%string -> u <> XML_NS ->
    In (ReqNs (px u) u) (map (fun u => ReqNs (px u) u) (urls n attrs)).
  Proof.
    intros H N1 N2. apply in_map_iff. exists u. split; [reflexivity|]. apply filter_In. split; [exact H|].
    unfold needs. apply negb_true_iff, orb_false_iff. split; now apply String.eqb_neq.
  Qed.

  Context (good : good_prefixes px).

  Lemma dom_declared t : forall up dflt, ~ dflt -> ScopeSpec.declared up dflt (dom_request t).
  Proof.
    destruct good as [inj legal].
    induction t as [s|n a kids IH] using wtree_ind'; intros up dflt ND; [constructor|].
    assert (NA : ~ asks_default (tag_reqs n a)).
    { intros (u & H). apply in_tag_ns in H. destruct H as (H & _). symmetry in H. now apply legal in H. }
    cbn [dom_request]. constructor.
    - intros p u H. apply in_tag_ns in H. destruct H as (-> & N & X & _). destruct (legal u) as [L1 L2]. split; auto.
    - destruct (string_dec (xn_ns n) "") as [E|E]; [auto 6|].
      destruct (string_dec (xn_ns n) XML_NS) as [X|X]; [auto|]. right; right; left.
      exists (px (xn_ns n)). unfold tag_reqs. apply in_or_app. left. apply tag_requests; auto. now left.
    - intros before b v after E. destruct (string_dec (xn_ns b) "") as [B|B]; [auto|].
      destruct (string_dec (xn_ns b) XML_NS) as [X|X]; [auto|]. right; right; right.
      exists (px (xn_ns b)).
      assert (Hb : In (b, v) a).
      { rewrite <- (tag_reqs_attrs n a), E, req_attrs_app. apply in_or_app. right. now left. }
      unfold tag_reqs in E.
      assert (G : forall us (l1 : list req) after', map (fun u => ReqNs (px u) u) us ++ after' = l1 ++ ReqAttr b v :: after ->
                 forall x, In x (map (fun u => ReqNs (px u) u) us) -> In x l1).
      { induction us as [|u us IHu]; intros l1 after' EE x Hx; [destruct Hx|].
        destruct l1 as [|y l1]; [discriminate EE|]. cbn in EE. injection EE as E1 E2.
        destruct Hx as [Hx|Hx]; [left; congruence|right; eauto]. }
      eapply G; [exact E|]. apply tag_requests; auto. right.
      change (xn_ns b) with ((fun a : xname * string => xn_ns (fst a)) (b, v)). now apply in_map.
    - intros k Hk. apply in_map_iff in Hk. destruct Hk as (c & <- & Hc). rewrite Forall_forall in IH.
      apply IH; auto. tauto.
  Qed.

  Lemma dom_subtree t : forall s, subtree s (dom_request t) -> expressible t -> exists t', s = dom_request t' /\ expressible t'.
  Proof.
    induction t as [s|n a kids IH] using wtree_ind'; intros s' H EX.
    - inversion H; subst. now exists (TText s).
    - cbn [dom_request] in H. inversion H; subst.
      + exists (TElem n a kids). split; auto.
      + match goal with H : In _ (map _ _) |- _ => apply in_map_iff in H; destruct H as (c & <- & Hc) end.
        rewrite Forall_forall in IH. inversion EX; subst. apply (IH c Hc); auto.
  Qed.

  Lemma dom_asks_ns t p u : expressible t -> asks_ns (dom_request t) p u ->
    p = px u /\ u <> ""%string /\ u <> XML_NS /\ u <> XMLNS_NS.
  Proof.
    intros EX (n & reqs & kids & HS & HI). apply dom_subtree in HS; [|exact EX].
    destruct HS as ([n' a' k'|] & E & EX'); [|discriminate]. cbn in E. injection E as -> -> ->.
    apply in_tag_ns in HI. destruct HI as (-> & N1 & N2 & HI). repeat split; auto.
    inversion EX'; subst. destruct HI as [->|(a & Ha & <-)]; auto.
  Qed.

  Lemma dom_legal t : expressible t -> legal_mappings (dom_request t).
  Proof.
    intros EX p u H. apply dom_asks_ns in H; [|exact EX]. destruct H as (-> & N1 & N2 & N3).
    repeat split; auto. apply good.
  Qed.

  Lemma dom_no_default t u : expressible t -> ~ asks_ns (dom_request t) "" u.
  Proof.
    intros EX H. apply dom_asks_ns in H; [|exact EX]. destruct H as (H & _). destruct good as [_ G].
    symmetry in H. now apply G in H.
  Qed.

  Definition urls_asked (t : rtree) : list (string * string) :=
    flat_map (fun x => flat_map (fun r => match r with ReqNs p u => [(p, u)] | _ => [] end) (snd x)) (elements t).

  Lemma asks_ns_listed t p u : asks_ns t p u -> In (p, u) (urls_asked t).
  Proof.
    intros (n & reqs & kids & HS & HI). unfold urls_asked. apply in_flat_map. exists (n, reqs). split.
    - clear HI. remember (RElem n reqs kids) as s eqn:E. induction HS as [s|s n' reqs' kids' k Hk HS IH].
      + subst. now left.
      + cbn. right. apply in_flat_map. exists k. auto.
    - cbn. apply in_flat_map. exists (ReqNs p u). split; [exact HI|]. now left.
  Qed.

  Lemma dom_coherent t : expressible t -> coherent (dom_request t).
  Proof.
    intros EX. exists (fun p => match find (fun x => String.eqb (px (snd x)) p) (urls_asked (dom_request t)) with
                         | Some x => snd x | None => ""%string end).
    split.
    - intros p u H. pose proof (asks_ns_listed _ _ _ H) as L. apply dom_asks_ns in H; [|exact EX].
      destruct H as (-> & _). destruct (find _ _) as [[p' u']|] eqn:F.
      + apply find_some in F. destruct F as [_ F]. apply String.eqb_eq in F. now apply good in F.
      + apply (find_none _ _ F) in L. cbn in L. now rewrite String.eqb_refl in L.
    - intros u n H _ _. now apply dom_no_default in H.
  Qed.

  Theorem dom_written dbg n attrs kids : expressible (TElem n attrs kids) ->
    exists k, to dbg (fun _ => None) n (dom_serialize px n attrs kids) = inl (None, k) /\
      forall pol, meaning [] (emit pol [] (k_out k)) = Some (tree_events (TElem n attrs kids)).
  Proof.
    intros EX. pose proof (asked_dom n attrs kids EX) as A.
    destruct (declared_to dbg (fun _ => None) n _ _ A) as (k & E); auto.
    { apply dom_declared. tauto. }
    exists k. split; [exact E|]. intros pol.
    rewrite (to_meaning dbg _ n _ k pol _ E A).
    - now rewrite tree_dom_request.
    - now apply dom_legal.
    - apply default_apart. left. intros u. now apply dom_no_default.
    - intros _. now apply dom_coherent.
  Qed.
End Writing.

(** ** Prefixes *)

Lemma letter_inj a b : a < 16 -> b < 16 -> letter a = letter b -> a = b.
Proof.
  intros Ha Hb E. apply (f_equal nat_of_ascii) in E. unfold letter in E.
  rewrite !nat_ascii_embedding in E by lia. lia.
Qed.

Lemma String_inj a s b t : String a s = String b t -> a = b /\ s = t.
Proof. intros H. injection H. auto. Qed.

Lemma in_letters_inj s : forall s', in_letters s = in_letters s' -> s = s'.
Proof.
  induction s as [|c s IH]; intros [|c' s'] E; cbn [in_letters] in E; try discriminate; [reflexivity|].
  apply String_inj in E. destruct E as [E1 E]. apply String_inj in E. destruct E as [E2 E3].
  assert (B : forall x, nat_of_ascii x < 256) by apply nat_ascii_bounded.
  apply letter_inj in E1; try (apply Nat.div_lt_upper_bound; [lia|apply B]).
  apply letter_inj in E2; try (apply Nat.mod_upper_bound; lia).
  f_equal; [|auto]. rewrite <- (ascii_nat_embedding c), <- (ascii_nat_embedding c').
  rewrite (Nat.div_mod (nat_of_ascii c) 16), (Nat.div_mod (nat_of_ascii c') 16) by lia. now rewrite E1, E2.
Qed.

Lemma px_letters_good : good_prefixes px_letters.
Proof.
  split; [|intros u; split; [discriminate|reflexivity]].
  intros u v E. apply String_inj in E. now apply in_letters_inj.
Qed.

(** ** Both *)

Theorem dom_round_trip px dbg n attrs kids : good_prefixes px -> expressible (TElem n attrs kids) ->
  exists k, to dbg (fun _ => None) n (dom_serialize px n attrs kids) = inl (None, k) /\
    (forall pol, meaning [] (emit pol [] (k_out k)) = Some (tree_events (TElem n attrs kids))) /\
    forall t' d, indented (TElem n attrs kids) t' -> shows t' (d_root d) -> forall dbg' pe,
      read dbg' dom_visitor dom_deserialize (reader_new (doc_events d) (FEndDocument pe)) =
      Ok (clean (TElem n attrs kids)).
Proof.
  intros G EX. destruct (dom_written px G dbg n attrs kids EX) as (k & E & M). exists k. repeat split; auto.
  intros t' d HI HS dbg' pe. rewrite dom_document. f_equal. apply dom_of_shown.
  eapply shows_indented; eauto.
Qed.
