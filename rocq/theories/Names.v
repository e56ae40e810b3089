(** Names and texts that are written are well-formed, if those asked for are. *)
From Verif Require Import Base NormalizeSpec Text DisplaySpec DisplayProofs Find FindProofs BMap Types Ser SerSpec SerProofs SerTree
  NsProofs DeriveSer DSerSpec NamesSpec.
From Coq Require Import Lia.

(** ** Strings *)

Lemma utf8_app a b : utf8 (a ++ b) = utf8 a ++ utf8 b.
Proof. unfold utf8. apply flat_map_app. Qed.

Lemma str_of_app a b : str_of (a ++ b) = (str_of a ++ str_of b)%string.
Proof. induction a as [|c a IH]; cbn; [reflexivity|]. now rewrite IH. Qed.

Lemma ncname_app s cs : ncname s -> Forall name_char cs -> ncname (s ++ str_of (utf8 cs)).
Proof.
  intros (c & l & -> & Hc & Hl) H. exists c, (l ++ cs). split; [|split; [assumption|]].
  - change (c :: l ++ cs) with ((c :: l) ++ cs). now rewrite utf8_app, str_of_app.
  - now apply Forall_app.
Qed.

Lemma digits_names base l n : numeral_of base l n -> (base <= 10)%N ->
  exists cs, l = utf8 cs /\ Forall name_char cs.
Proof.
  intros H B. assert (D : forall b d, dvalue b = Some d -> (d < base)%N -> exists c, [b] = utf8 [c] /\ name_char c).
  { intros b d Hd Hb. exists (N_of_ascii b). unfold dvalue in Hd.
    destruct (N.leb_spec 48 (N_of_ascii b)) as [L|L], (N.leb_spec (N_of_ascii b) 57) as [G|G]; cbn [andb] in Hd.
    2-4: destruct (N.leb 97 (N_of_ascii b) && N.leb (N_of_ascii b) 102)%bool eqn:E; [|discriminate];
      apply andb_prop in E as [E1 E2]; apply N.leb_le in E1; apply N.leb_le in E2; injection Hd as <-; lia.
    split.
    - unfold utf8, utf8_char. cbn [flat_map]. destruct (N.ltb_spec (N_of_ascii b) 128) as [_|X]; [|lia].
      unfold byte. now rewrite ascii_N_embedding.
    - right. lia. }
  induction H as [b d Hd Hb|l n b d H IH Hn Hd Hb].
  - destruct (D b d Hd Hb) as (c & E & Hc). exists [c]. auto.
  - destruct IH as (cs & -> & F). destruct (D b d Hd Hb) as (c & E & Hc). exists (cs ++ [c]).
    rewrite utf8_app, <- E. split; [reflexivity|]. apply Forall_app. auto.
Qed.

Lemma ncname_numbered p i : ncname p -> ncname (numbered p i).
Proof.
  intro H. unfold numbered. destruct (digits_names 10 (show_N (N.of_nat i)) (N.of_nat i)) as (cs & -> & F);
    [apply show_N_numeral|lia|]. now apply ncname_app.
Qed.

Lemma ncname_ns : ncname "ns".
Proof. exists 110%N, [115%N]. split; [reflexivity|]. split; [|repeat constructor]; unfold name_char, name_start_char; lia. Qed.

Lemma ncname_xml : ncname "xml".
Proof. exists 120%N, [109%N; 108%N]. split; [reflexivity|]. split; [|repeat constructor]; unfold name_char, name_start_char; lia. Qed.

Lemma from_request_wf e p : prefix_wf (q_prefix e) -> from_request e p -> prefix_wf p.
Proof.
  intros H [->|(i & ->)]; [assumption|]. right. apply ncname_numbered.
  destruct (String.eqb_spec (q_prefix e) ""); [exact ncname_ns|]. destruct H; [contradiction|assumption].
Qed.

Lemma ascii_ident_ncname s : ascii_ident s -> ncname s.
Proof.
  intros (c & cs & -> & Hc & Hcs). exists c, cs. split; [reflexivity|]. split; [unfold name_start_char; lia|].
  eapply Forall_impl; [|exact Hcs]. intros a H. cbn in H. unfold name_char, name_start_char. lia.
Qed.

(** ** Builders *)

Definition entries_wf (b : nsbuilder) : Prop := forall u e, bm_get u b = Some e -> prefix_wf (q_prefix e) /\ xml_text u.
Definition map_wf (m : namespaces) : Prop := forall p u, In (p, u) (by_prefix m) -> prefix_wf p /\ xml_text u.

Record builder_wf (b : bstate) : Prop := BuilderWf {
  bw_name : ncname (xn_local (b_name b));
  bw_sorted : wf_builder (b_ns b);
  bw_ns : entries_wf (b_ns b);
  bw_attrs : forall n v, In (n, v) (b_attrs b) -> ncname (xn_local n) /\ xml_text v;
}.

Lemma entries_insert u e b : entries_wf b -> prefix_wf (q_prefix e) -> xml_text u -> entries_wf (bm_insert u e b).
Proof.
  intros H He Hu u' e'. rewrite bm_get_insert. destruct (String.eqb_spec u' u); [|apply H].
  intros [= <-]. now subst.
Qed.

Lemma insert_wf dbg p u b b' : entries_wf b -> prefix_wf p -> xml_text u -> nb_insert dbg p u b = inl b' -> entries_wf b'.
Proof.
  intros H Hp Hu. unfold nb_insert. destruct (_ && _); [discriminate|].
  destruct (bm_get u b) as [e|] eqn:E; intros [= <-]; apply entries_insert; auto; cbn.
  destruct (q_required e); [|assumption]. now apply H in E.
Qed.

Lemma attribute_wf u b : entries_wf b -> entries_wf (nb_attribute u b).
Proof.
  intro H. unfold nb_attribute. destruct (bm_get u b) as [e|] eqn:E; [|assumption].
  apply H in E as [E1 E2]. now apply entries_insert.
Qed.

Lemma namespace_wf dbg p u b b' : builder_wf b -> prefix_wf p -> xml_text u ->
  builder_namespace dbg p u b = inl b' -> builder_wf b'.
Proof.
  intros [H1 H2 H3 H4] Hp Hu. unfold builder_namespace. destruct (nb_insert dbg p u (b_ns b)) as [n|] eqn:E; [|discriminate].
  intros [= <-]. constructor; cbn; auto; [eapply wf_nb_insert|eapply insert_wf]; eauto.
Qed.

Lemma builder_attribute_wf n v b r b' : builder_wf b -> ncname (xn_local n) -> xml_text v ->
  builder_attribute n v b = inl (r, b') -> builder_wf b'.
Proof.
  intros [H1 H2 H3 H4] Hn Hv. unfold builder_attribute. destruct (existsb _ _).
  - destruct (List.find _ _) as [[]|]; [|discriminate]. intros [= <- <-]. now constructor.
  - intros [= <- <-]. constructor; cbn; auto using wf_nb_attribute, attribute_wf.
    intros n' v' H. apply in_app_or in H as [H|[[= <- <-]|[]]]; auto.
Qed.

Lemma finalize_wf b m : wf_builder b -> entries_wf b -> finalize b = Some m ->
  map_wf m /\ forall u e p, bm_get u (by_url m) = Some e -> q_assigned e = Some p -> prefix_wf p.
Proof.
  intros W E F. destruct (finalize_ok b W) as (m' & F' & O). rewrite F in F'. injection F' as <-. split.
  - intros p u H. apply In_bm_get in H; [|apply sorted_NoDup, O].
    destruct (fo_prefix _ _ O p u H) as (e & He & e' & He' & Ha).
    destruct (fo_url _ _ O u e He) as (a & Hu & _ & Hf). rewrite He' in Hu. injection Hu as ->. cbn in Ha.
    destruct (E u e He) as [E1 E2]. split; [|assumption]. eapply from_request_wf; [exact E1|]. now apply Hf.
  - intros u e' p He' Ha. destruct (bm_get u b) as [e|] eqn:He.
    + destruct (fo_url _ _ O u e He) as (a & Hu & _ & Hf). rewrite He' in Hu. injection Hu as ->. cbn in Ha.
      destruct (E u e He) as [E1 E2]. eapply from_request_wf; [exact E1|]. now apply Hf.
    + rewrite (fo_only _ _ O u He) in He'. discriminate.
Qed.

Lemma prefixed_wf p l : prefix_wf p -> ncname l -> name_wf (prefixed p l).
Proof.
  intros Hp Hl. unfold prefixed, name_wf. cbn. split; [|assumption].
  destruct (String.eqb_spec p ""); [exact I|]. destruct Hp; [contradiction|assumption].
Qed.

Lemma prefix_none : prefix_wf "".
Proof. now left. Qed.
Lemma prefix_xml : prefix_wf "xml".
Proof. right. apply ncname_xml. Qed.

Lemma resolve_element_wf m n p : (forall u e q, bm_get u (by_url m) = Some e -> q_assigned e = Some q -> prefix_wf q) ->
  ncname (xn_local n) -> resolve_element m n = inl p -> name_wf p.
Proof.
  intros H Hn. unfold resolve_element.
  repeat match goal with
  | |- context [match ?x with _ => _ end] => destruct x eqn:?; try discriminate
  end; intros [= <-]; apply prefixed_wf; auto using prefix_none, prefix_xml.
  all: eapply H; [eassumption|reflexivity].
Qed.

Lemma resolve_attributes_wf m l : (forall u e q, bm_get u (by_url m) = Some e -> q_assigned e = Some q -> prefix_wf q) ->
  forall l', (forall n v, In (n, v) l -> ncname (xn_local n) /\ xml_text v) -> resolve_attributes m l = inl l' ->
  forall n v, In (n, v) l' -> name_wf n /\ xml_text v.
Proof.
  intros H. induction l as [|[n v] l IH]; intros l' Hl; cbn [resolve_attributes].
  - intros [= <-] ? ? [].
  - destruct (resolve_attribute m n) as [p|] eqn:E; [|discriminate].
    destruct (resolve_attributes m l) as [l''|]; [|discriminate]. intros [= <-] n' v' [[= <- <-]|HI].
    + destruct (Hl n v (or_introl eq_refl)) as [Hn Hv]. split; [|assumption]. revert E. unfold resolve_attribute.
      repeat match goal with
      | |- context [match ?x with _ => _ end] => destruct x eqn:?; try discriminate
      end; intros [= <-]; apply prefixed_wf; auto using prefix_none, prefix_xml.
      eapply H; eassumption.
    + eapply IH; eauto. intros; apply Hl. now right.
Qed.

Definition sink_wf (k : sink) : Prop := Forall event_wf (k_out k).

Lemma write_wf o e k : sink_wf k -> event_wf e -> sink_wf (snd (write o e k)).
Proof.
  intros Hk He. unfold write. destruct (k_poison k); [assumption|]. destruct (o (k_tries k)); [assumption|].
  unfold sink_wf. cbn. apply Forall_app. auto.
Qed.

Lemma start_wf o b k r k' : builder_wf b -> sink_wf k -> builder_start o b k = inl (r, k') ->
  sink_wf k' /\ forall m, r = inl m -> map_wf m.
Proof.
  intros [H1 H2 H3 H4] Hk. unfold builder_start. destruct (finalize (b_ns b)) as [m|] eqn:F; [|discriminate].
  destruct (finalize_wf _ _ H2 H3 F) as [M A].
  destruct (resolve_element m (b_name b)) as [p|] eqn:E; [|discriminate].
  destruct (resolve_attributes m (b_attrs b)) as [l|] eqn:L; [|discriminate].
  match goal with |- context [write o ?ev k] => pose proof (write_wf o ev k Hk) as W; destruct (write o ev k) as [[e|] k1] end;
    intros [= <- <-]; (split; [apply W|]).
  1,3: cbn; split; [eapply resolve_element_wf; eauto|split; [|exact M]]; eapply resolve_attributes_wf; eauto.
  - discriminate.
  - now intros m' [= <-].
Qed.

Lemma child_loop_wf ns l : (forall p u, In (p, u) l -> prefix_wf p /\ xml_text u) ->
  forall found b, entries_wf b -> entries_wf (child_loop ns l found b).
Proof.
  induction l as [|[p u] l IH]; intros H found b Hb; cbn; [assumption|].
  apply IH; [intros; apply H; now right|]. apply entries_insert; auto; cbn; now apply (H p u (or_introl eq_refl)).
Qed.

Lemma writer_element_wf m n : map_wf m -> ncname (xn_local n) -> builder_wf (writer_element m n).
Proof.
  intros H Hn. constructor; cbn; auto.
  - apply wf_child.
  - apply child_loop_wf; [exact H|]. intros u e. discriminate.
  - intros ? ? [].
Qed.

Lemma new_builder_wf n : ncname (xn_local n) -> builder_wf (BState n [] [] []).
Proof. intro H. constructor; cbn; [assumption|apply wf_nil|intros u e; discriminate|intros ? ? []]. Qed.

(** ** Programs *)

Lemma run_a_wf dbg a : forall b r b', proper_a a -> builder_wf b -> run_a dbg a b = inl (r, b') -> builder_wf b'.
Proof.
  induction a as [r | p u a IH | x v f IH | m]; cbn [run_a proper_a]; intros b r0 b' H B R.
  - now inversion R; subst.
  - destruct H as (Hp & Hu & H). destruct (builder_namespace dbg p u b) as [b1|] eqn:E; [|discriminate].
    eapply IH; [exact H| |exact R]. eauto using namespace_wf.
  - destruct H as (Hx & Hv & H). destruct (builder_attribute x v b) as [[r b1]|] eqn:E; [|discriminate].
    eapply IH; [apply H| |exact R]. eauto using builder_attribute_wf.
  - discriminate.
Qed.

Lemma run_wf dbg o :
  (forall d (p : wprog d) nss k r k', proper_w p -> Forall map_wf nss -> sink_wf k ->
     run_w dbg o p nss k = inl (r, k') -> sink_wf k') /\
  (forall d (q : bprog d) b nss k r k', proper_b q -> builder_wf b -> Forall map_wf nss -> sink_wf k ->
     run_b dbg o q b nss k = inl (r, k') -> sink_wf k').
Proof.
  assert (T : forall l, Forall map_wf l -> Forall map_wf (tl l)) by (intros ? []; cbn; auto).
  apply prog_mut; cbn [run_w run_b proper_w proper_b]; try discriminate.
  - intros r nss k r' k' _ _ K [= <- <-]. assumption.
  - intros d s f IH nss k r k' [Hs H] N K R. pose proof (write_wf o (WChars s) k K Hs) as W.
    destruct (write o (WChars s) k) as [r0 k0]. eauto.
  - intros d n b IH nss k r k' [Hn H] N K R. destruct nss as [|m nss]; [discriminate|].
    eapply IH; [exact H| |exact N|exact K|exact R]. inversion N; subst. now apply writer_element_wf.
  - intros d f IH nss k r k' H N K R. pose proof (write_wf o WEnd k K I) as W.
    destruct (write o WEnd k) as [r0 k0]. eauto.
  - intros d p IH nss k r k' H N K R. eapply IH; [exact H|apply T, N| |exact R]. exact K.
  - intros d p u q IH b nss k r k' (Hp & Hu & H) B N K R.
    destruct (builder_namespace dbg p u b) as [b1|] eqn:E; [|discriminate]. eapply IH; [exact H| |exact N|exact K|exact R]. eauto using namespace_wf.
  - intros d n v f IH b nss k r k' (Hn & Hv & H) B N K R.
    destruct (builder_attribute n v b) as [[r0 b1]|] eqn:E; [|discriminate]. eapply IH; [apply H| |exact N|exact K|exact R]. eauto using builder_attribute_wf.
  - intros d p IH b nss k r k' H B N K R. eapply IH; [exact H|exact N| |exact R]. exact K.
  - intros d p IHp pe IHe b nss k r k' [H1 H2] B N K R.
    destruct (builder_start o b k) as [[[m|e] k0]|] eqn:E; [| |discriminate];
      destruct (start_wf _ _ _ _ _ B K E) as [K0 M].
    + eapply IHp; [exact H1| |exact K0|exact R]. constructor; auto.
    + eapply IHe; [apply H2|exact N|exact K0|exact R].
Qed.

(** Whatever is written, in whatever way the run ends. *)
Theorem written_wf dbg o n v r k : ncname (xn_local n) -> proper_a (s_attrs v) -> proper_w (s_kids v) ->
  to dbg o n v = inl (r, k) -> Forall event_wf (k_out k).
Proof.
  intros Hn Ha Hw. unfold to.
  destruct (run_a dbg (s_attrs v) (BState n [] [] [])) as [[[e|] b]|] eqn:A; [| |discriminate].
  - intros [= <- <-]. constructor.
  - assert (B : builder_wf b) by (eapply run_a_wf; eauto using new_builder_wf).
    destruct (builder_start o b sink0) as [[[m|e] k0]|] eqn:S; [| |discriminate];
      destruct (start_wf _ _ _ _ _ B (Forall_nil _ : sink_wf sink0) S) as [K0 M].
    + destruct (run_w dbg o (s_kids v) [m] k0) as [[[e|] k1]|] eqn:R; [| |discriminate].
      * intros [= <- <-]. exact (proj1 (run_wf dbg o) _ _ _ _ _ _ Hw (Forall_cons _ (M m eq_refl) (Forall_nil _)) K0 R).
      * pose proof (proj1 (run_wf dbg o) _ _ _ _ _ _ Hw (Forall_cons _ (M m eq_refl) (Forall_nil _)) K0 R) as K1.
        pose proof (write_wf o WEnd k1 K1 I) as W. destruct (write o WEnd k1). intros [= <- <-]. exact W.
    + intros [= <- <-]. exact K0.
Qed.
