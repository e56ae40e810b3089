(** Derived deserializers on streams that are cut off leak what LeakCutSpec.v says. *)
From Coq Require Import Lia.
From Verif Require Import Base Normalize Text TextProofs Find FindProofs Types Reader ReaderSpec ReaderProofs
  ReaderMore ReaderTotal ReaderOk ReaderXml ReaderProps ReaderCut DeriveDe DeSpec DeDet DeTotal DeProofs DeMain DeProps
  ErrSpec LeakSpec ErrProofs LeakProofs DeCut LeakCutSpec.

(** ** Reading the complete children at the front of a stream *)

Section Front.
  Context {St : Type} (dbg : bool) (V : visitors St).
  Hypothesis HV : dbg = true -> propagating V.

  (** Within the element [el] below [base]. *)
  Definition within (fin : final) (base : list selem) (el : selem) (src : list (xevent * position)) (pos : position) : rstate :=
    RState src fin pos (S (List.length base)) (base ++ [el]).

  Lemma next_text_front fin base el c s p src pos :
    next dbg (within fin base el ((text_event c s, p) :: src) pos) = (Ok (EvChars s, p), within fin base el src p).
  Proof. unfold within. rewrite next_in_sync by apply in_sync_elem. now destruct c. Qed.

  Lemma next_noise_front fin base el e p src pos : noise_event e = true ->
    next dbg (within fin base el ((e, p) :: src) pos) = next dbg (within fin base el src pos).
  Proof. intro H. unfold within. apply next_noise; [exact H|apply in_sync_elem]. Qed.

  Lemma next_start fin base el name attrs ns p src pos :
    next dbg (within fin base el ((XStartElement name attrs ns, p) :: src) pos) =
    (Ok (EvStart attrs ns, p), within fin (base ++ [el]) (SElem name p) src p).
  Proof.
    unfold within. rewrite next_in_sync by apply in_sync_elem. cbn [next_loop].
    rewrite app_length. cbn [List.length]. rewrite <- !app_assoc. cbn [app]. now rewrite Nat.add_1_r.
  Qed.

  Definition goes_on (k : nat) (base : list selem) (el : selem) (ns : nsmap) (fin : final) (src : list (xevent * position))
    (y : res error endinfo * St) (x : res error endinfo * St * rstate) : Prop :=
    match y with
    | (Ok _, s') => exists fuel' pos', k <= fuel' /\
        x = read_loop dbg V fuel' (List.length base) ns s' (within fin base el src pos')
    | (Err e, s') => exists r', x = (Err e, s', r')
    | (Abort a, _) => fst (fst x) = Abort a
    end.

  Lemma front : forall fuel k kids fin base el ns pe src pos s,
    List.length (flat_map events kids) + k <= fuel -> 0 < fuel ->
    goes_on k base el ns fin src
      (fst (sem_kids V (sem_read V) (base ++ [el]) (se_name el, ns, pe) kids s))
      (read_loop dbg V fuel (List.length base) ns s (within fin base el (flat_map events kids ++ src) pos)).
  Proof.
    induction fuel as [|fuel IHf]; [lia|].
    intros k kids. induction kids as [|c kids IH]; intros fin base el ns pe src pos s Hf _.
    - cbn [sem_kids fst flat_map app]. exists (S fuel), pos. cbn in Hf. split; [lia|reflexivity].
    - destruct c as [name attrs ns1 p kids1 pe1|c str p|m p|str p].
      + cbn [flat_map events] in Hf |- *. cbn [app]. rewrite <- app_assoc.
        cbn [read_loop]. unfold within at 1. rewrite stack_check_elem.
        rewrite next_start. cbn [sem_kids]. unfold within at 1. cbn [r_stack].
        rewrite nth_error_app2 by (rewrite app_length; cbn [List.length]; lia).
        replace (S (List.length base) - List.length (base ++ [el])) with 0 by (rewrite app_length; cbn [List.length]; lia).
        cbn [nth_error se_name].
        replace (List.length ((base ++ [el]) ++ [SElem name p])) with (S (S (List.length base)))
          by (rewrite !app_length; cbn [List.length]; lia).
        replace (S (List.length base)) with (List.length (base ++ [el]))
          by (rewrite app_length; cbn [List.length]; lia).
        assert (Hlen : List.length (flat_map events kids1) < fuel).
        { rewrite !app_length in Hf. cbn in Hf. rewrite !app_length in Hf. cbn in Hf. lia. }
        pose proof (run_action_sem dbg V _ (fun a => is_ok (fst a))
          (v_element V s (EInfo name ns1 (S (List.length (base ++ [el])))))
          fuel name attrs ns1 p kids1 pe1 fin (base ++ [el]) (flat_map events kids ++ src)
          (read_loop_sem dbg V HV fuel) Hlen) as HA.
        assert (Hp : dbg = true ->
          propagating_act (fun a : res verr bool * St => is_ok (fst a) = false)
            (v_element V s (EInfo name ns1 (S (List.length (base ++ [el])))))).
        { intros Hd. specialize (HV Hd s (EInfo name ns1 (S (List.length (base ++ [el]))))).
          destruct (v_element _ _ _); cbn in *; auto; intros.
          - specialize (HV e). destruct (fst _); cbn; auto. now destruct (HV a).
          - specialize (HV e s1). destruct (fst _); cbn; auto. now destruct (HV a). }
        specialize (HA Hp). unfold agrees_act in HA.
        replace (within fin (base ++ [el]) (SElem name p)
                   ((flat_map events kids1 ++ [(XEndElement name, pe1)]) ++ flat_map events kids ++ src) p)
          with (at_elem fin (base ++ [el]) (SElem name p) kids1 pe1 (flat_map events kids ++ src) p)
          by (unfold at_elem, within; f_equal; cbn [se_name]; rewrite <- app_assoc; reflexivity).
        destruct (sem_act _ _ _ _ _ _) as [[[[b|e|x] s']|x] pl]; cbn [fst snd is_ok] in *.
        * destruct HA as (r' & H1 & H2 & H3). rewrite H1.
          destruct (return_to_depth_pending _ _ _ _ _ _ H3) as (pos' & ->); [auto|].
          replace (RState _ _ _ _ _) with (within fin base el (flat_map events kids ++ src) pos').
          2:{ unfold within. rewrite app_length; cbn. now rewrite Nat.add_1_r. }
          apply IHf; [|lia]. cbn [List.length] in Hf. rewrite !app_length in Hf. cbn in Hf. lia.
        * destruct HA as (r' & H1 & H2 & H3). rewrite H1.
          destruct pl; cbn [fst snd] in *. injection H2 as <- <-. eexists. reflexivity.
        * destruct HA as (r' & H1 & H2 & H3). rewrite H1. reflexivity.
        * destruct (run_action _ _ _ _ _ _ _ _) as [? ?]. cbn in HA. subst. reflexivity.
      + cbn [flat_map events app] in Hf |- *. cbn [List.length] in Hf.
        cbn [read_loop]. unfold within at 1. rewrite stack_check_elem.
        rewrite next_text_front. cbn [sem_kids].
        destruct (v_characters V s str p) as [[o|e|x] s']; cbn [fst].
        * destruct fuel as [|fuel]; [|apply IHf; lia].
          assert (kids = []) as ->. { destruct kids as [|[]]; cbn in Hf; auto; lia. }
          cbn. exists 0, p. cbn in Hf. split; [lia|reflexivity].
        * eexists. reflexivity.
        * reflexivity.
      + specialize (IH fin base el ns pe src pos s). cbn [flat_map events app List.length] in Hf |- *.
        cbn [read_loop] in *. unfold within at 1. unfold within at 1 in IH.
        rewrite stack_check_elem in *. rewrite next_noise_front by now destruct m.
        apply IH; lia.
      + specialize (IH fin base el ns pe src pos s). cbn [flat_map events app List.length] in Hf |- *.
        cbn [read_loop] in *. unfold within at 1. unfold within at 1 in IH.
        rewrite stack_check_elem in *. rewrite next_noise_front by reflexivity.
        apply IH; lia.
  Qed.
End Front.

(** ** Streams within an open element *)

(** The events leave an element open, having started with [n] elements open. *)
Fixpoint stays_open (n : nat) (evs : list (xevent * position)) : Prop :=
  match evs with
  | [] => True
  | (XStartElement _ _ _, _) :: evs' => stays_open (S n) evs'
  | (XEndElement _, _) :: evs' => match n with S (S n') => stays_open (S n') evs' | _ => False end
  | _ :: evs' => stays_open n evs'
  end.

Lemma stays_events : forall k n evs, stays_open (S n) evs -> stays_open (S n) (events k ++ evs).
Proof.
  induction k as [name attrs ns p kids pe IH|c s p|m p|s p] using node_ind'; intros n evs H.
  - cbn [events app stays_open]. rewrite <- app_assoc. cbn [app].
    assert (G : stays_open (S (S n)) ((XEndElement name, pe) :: evs)) by exact H.
    clear H. induction IH as [|k kids Hk _ IHk]; [exact G|]. cbn [flat_map]. rewrite <- app_assoc. apply Hk, IHk.
  - destruct c; exact H.
  - destruct m; exact H.
  - exact H.
Qed.

Lemma stays_kids kids n evs : stays_open (S n) evs -> stays_open (S n) (flat_map events kids ++ evs).
Proof. intro H. induction kids as [|k kids IH]; [exact H|]. cbn [flat_map]. rewrite <- app_assoc. now apply stays_events. Qed.

Lemma stays_partial c : forall n, stays_open n (partial_events c).
Proof.
  induction c as [name attrs ns p kids|name attrs ns p kids c IH]; intro n; cbn [partial_events stays_open].
  - rewrite <- (app_nil_r (flat_map _ _)). apply stays_kids. exact I.
  - apply stays_kids, IH.
Qed.

Lemma stays_noise nz n evs : Forall (fun ep => noise_event (fst ep) = true) nz -> stays_open n (nz ++ evs) -> stays_open n evs.
Proof. induction 1 as [|[e p] nz He _ IH]; intro H; [exact H|]. apply IH. cbn in He. destruct e; try discriminate; exact H. Qed.

Lemma skip_open fuel : forall dbg target n r, r_depth r = target + S n -> stays_open (S n) (r_src r) ->
  fst (skip_loop fuel dbg target r) <> Ok tt.
Proof.
  induction fuel as [|fuel IH]; intros dbg target n r Hd Hs; cbn [skip_loop]; [discriminate|].
  replace (Nat.ltb target (r_depth r)) with true by (symmetry; apply Nat.ltb_lt; lia).
  pose proof (next_inv dbg r) as N. destruct (next dbg r) as [[[ev p]|er|x] r']; try discriminate.
  destruct N as (nz & e & H1 & H2 & _ & _ & H5 & H6). rewrite H1 in Hs. apply stays_noise in Hs; [|exact H2].
  destruct ev.
  - destruct H6 as (m & -> & _). apply (IH dbg target (S n)); [cbn; cbn in H5; lia|exact Hs].
  - destruct H6 as (-> & _ & _). cbn in Hs. destruct n as [|n]; [contradiction|].
    apply (IH dbg target n); [cbn; cbn in H5; lia|exact Hs].
  - destruct H6 as ([-> | ->] & _); (apply (IH dbg target n); [cbn; cbn in H5; lia|exact Hs]).
Qed.

Lemma string_open fuel : forall dbg sp out r v, stays_open 1 (r_src r) -> fst (read_string_loop fuel dbg sp out r) <> Ok v.
Proof.
  induction fuel as [|fuel IH]; intros dbg sp out r v Hs; cbn [read_string_loop]; [discriminate|].
  destruct (stack_check dbg sp r); [|discriminate].
  pose proof (next_inv dbg r) as N. destruct (next dbg r) as [[[ev p]|er|x] r']; try discriminate.
  destruct N as (nz & e & H1 & H2 & _ & _ & H5 & H6). rewrite H1 in Hs. apply stays_noise in Hs; [|exact H2].
  destruct ev.
  - destruct (nth_error _ _); discriminate.
  - destruct H6 as (-> & _ & _). contradiction.
  - apply IH. destruct H6 as ([-> | ->] & _); exact Hs.
Qed.

Definition pt_name (c : partial) := match c with Open name _ _ _ _ | OpenIn name _ _ _ _ _ => name end.
Definition pt_attrs (c : partial) := match c with Open _ attrs _ _ _ | OpenIn _ attrs _ _ _ _ => attrs end.
Definition pt_ns (c : partial) := match c with Open _ _ ns _ _ | OpenIn _ _ ns _ _ _ => ns end.
Definition pt_pos (c : partial) := match c with Open _ _ _ p _ | OpenIn _ _ _ p _ _ => p end.
Definition pt_kids (c : partial) := match c with Open _ _ _ _ kids | OpenIn _ _ _ _ kids _ => kids end.
Definition pt_rest (c : partial) := match c with Open _ _ _ _ _ => [] | OpenIn _ _ _ _ _ c => partial_events c end.
Definition pt_src (c : partial) := flat_map events (pt_kids c) ++ pt_rest c.

Lemma partial_events_eq c :
  partial_events c = (XStartElement (pt_name c) (pt_attrs c) (pt_ns c), pt_pos c) :: pt_src c.
Proof. destruct c; unfold pt_src; cbn; [now rewrite app_nil_r|reflexivity]. Qed.

Lemma tag_of_eq c : tag_of c = NElem (pt_name c) (pt_attrs c) (pt_ns c) (pt_pos c) [] (pt_pos c).
Proof. now destruct c. Qed.

Lemma stays_src c : stays_open 1 (pt_src c).
Proof. unfold pt_src. apply stays_kids. destruct c; [exact I|apply stays_partial]. Qed.

Lemma run_action_amap {St A B} dbg (V : visitors St) body sp attrs ns r (f : A -> B) (act : action St A) :
  run_action dbg V body sp attrs ns (amap f act) r =
  let (x, r) := run_action dbg V body sp attrs ns act r in
  (match x with inl a => inl (f a) | inr x => inr x end, r).
Proof.
  destruct act as [a|k|s0 k]; cbn [amap run_action]; auto.
  - destruct (read_string dbg sp r) as [[s|e|x] r2]; auto.
  - destruct (nth_error (r_stack r) sp) as [el'|]; auto.
    destruct (attrs_loop V _ _ attrs s0) as [[[]|e|x] s1]; auto.
    destruct (body sp ns s1 r) as [[[i|e|x] s2] r2]; auto.
Qed.

(** ** The state of a derived visitor *)

Section Derived.
  Context (o : oracles) (alg : bs_alg) (env : tenv).
  Notation R := (reads o env).
  Notation V := (derived o alg env).
  Hypothesis Hok : names_ok env.
  Hypothesis Hc : compiles env.

  Lemma fails_not_xml t parents n f : fails o env t parents n f -> forall e, f = Inside e -> ~ is_xml e.
  Proof.
    induction 1 as [| | | |id d parents name attrs ns p k1 cn ca cns cp ck cpe k2 pe t f Hid Ha Hk Hd Hf IH|];
      intros e E; try discriminate E; injection E as <-; try (intros (y & Ey); discriminate).
    destruct f as [m|e]; cbn [blame]; [intros (y & Ey); discriminate|now apply IH].
  Qed.

  Definition state_at (d : tdesc) (attrs : list attr) (ks : list node) (s : vstate) : Prop :=
    match d with
    | TDStruct _ _ _ fs => struct_at o env fs attrs ks s
    | TDEnum _ _ _ vs _ => enum_at o env vs ks s
    end.

  Lemma state_so_far d attrs ks s : state_at d attrs ks s ->
    exists vs, so_far o env d attrs ks vs /\ live s = vs ++ vs_leaked s.
  Proof.
    destruct d as [ident root nss fs|ident root nss vs sk]; cbn [state_at so_far].
    - intros (ss & lk & -> & Hs). exists (live_slots ss). split; [now apply so_far_run|reflexivity].
    - intros (e & lk & -> & He). exists (opt_list (e_mem e)). split; [|reflexivity].
      destruct He as [_ [(Hf & _ & ->)|(_ & x & -> & Hch)]]; [now apply cs_none|now apply cs_some].
  Qed.

  Lemma live_kind s s' : vs_kind s = vs_kind s' -> forall vs, live s = vs ++ vs_leaked s -> live s' = vs ++ vs_leaked s'.
  Proof. intros E vs. unfold live. rewrite E. intro H. apply app_inv_tail in H. now rewrite H. Qed.

  (** A child is dealt with as its demand says. *)
  Lemma state_acts id d attrs ks s cn ca cns cp ck cpe i : env id = Some d -> ei_name i = cn -> state_at d attrs ks s ->
    acts o env i (child_demand env d ks (NElem cn ca cns cp ck cpe)) (done3 s) (v_element V s i).
  Proof.
    intros Hid Hi. pose proof (Hok id d Hid) as Hn. destruct d as [ident root nss fs|ident root nss vs sk]; cbn [state_at].
    - intros (ss1 & lk1 & -> & Hs1). cbn [child_demand]. destruct Hn as [Hnde Hnda].
      apply (struct_acts o alg env R) with (attrs := attrs); auto.
      + intro m. now rewrite Hi.
      + cbn. now rewrite Hi.
    - destruct Hn as [Hns Hnd]. intros (e & lk1 & -> & He). cbn [child_demand derived v_element vs_kind].
      assert (Hcn : forall m, has_name m (NElem cn ca cns cp ck cpe) = xn_eqb (from_xml_name (ei_name i)) m) by (intro m; now rewrite Hi).
      destruct (enum_element o alg env e i) as [act|] eqn:Ea.
      + eapply acts_amap; [|eapply (enum_acts o alg env R _ i Hcn) with (e := e); eauto].
        * intros r l [[[[]|er|x] e'] l'] (<- & <- & H3); cbn in *; split; auto; split; auto; try discriminate.
          intros er' Her. now rewrite (H3 er' Her).
        * cbn. now rewrite Hi.
      + destruct (enum_ignores o alg env R _ i Hcn vs Hns Hnd ks e He Ea) as [-> _]. eexists. split; [reflexivity|]. split; auto.
  Qed.

  Lemma state_step id d attrs ks s name cattrs cns cp ck cpe parents i : env id = Some d -> ei_name i = name ->
    let c := NElem name cattrs cns cp ck cpe in
    state_at d attrs ks s ->
    computes (sem_read V c parents) (parents ++ [SElem name cp]) cp ck cpe
      (v_element V s i) get_st (state_at d attrs (ks ++ [c])).
  Proof.
    intros Hid Hi c Hs. pose proof (Hok id d Hid) as Hn.
    assert (IH : forall t, computes (sem_read V c parents) (parents ++ [SElem name cp]) cp ck cpe
      (deserialize o env t i) get_ok (R t c)) by (intro t; apply (reads_all o alg env Hok c parents i t Hi)).
    destruct d as [ident root nss fs|ident root nss vs sk]; cbn [state_at] in *; destruct Hn.
    - apply step_struct; auto.
    - apply step_enum; auto.
  Qed.

  Lemma state_skip d attrs ks s k : is_elem k = false -> state_at d attrs (ks ++ [k]) s <-> state_at d attrs ks s.
  Proof.
    intro H. destruct d; cbn [state_at].
    - now apply struct_at_skip.
    - now apply enum_at_skip.
  Qed.

  Lemma state_chars d attrs ks s str p : state_at d attrs ks s ->
    exists x s', v_characters V s str p = (Ok x, s') /\ state_at d attrs ks s' /\ state_ids s' = state_ids s /\
      vs_leaked s' = vs_leaked s.
  Proof.
    destruct d as [ident root nss fs|ident root nss vs sk]; cbn [state_at].
    - intros (ss & lk & -> & Hs). cbn. unfold struct_characters. rewrite delegate_pass by reflexivity.
      rewrite put_struct. do 2 eexists. split; [reflexivity|]. split; [exists ss, ([] ++ lk); auto|]. split; reflexivity.
    - intros (e & lk & -> & Hs). cbn. do 2 eexists. split; [reflexivity|]. split; [exists e, lk; auto|]. split; reflexivity.
  Qed.

  Lemma bad_not_xml D path ks kids e : bad_from o env D path ks kids e -> ~ is_xml e.
  Proof.
    intro H. apply bad_from_spec in H as (k1 & c & k2 & _ & _ & H). unfold bad_here in H.
    destruct c as [cn ca cns cp ck cpe| | |]; try contradiction.
    destruct H as [(m & _ & ->)|(t & f & _ & Hf & ->)]; [intros (y & Ey); discriminate|].
    destruct f as [m|e']; cbn [blame]; [intros (y & Ey); discriminate|]. eapply fails_not_xml; eauto.
  Qed.

  (** After the attributes and the children [kids]. *)
  Lemma state_after id d s0 path p attrs : env id = Some d -> new_visitor env id = Some s0 ->
    match sem_attrs V path p attrs s0 with
    | (Ok _, s1) => forall fin kids,
        match fst (sem_kids V (sem_read V) path fin kids s1) with
        | (Ok _, s2) => state_at d attrs kids s2 /\ vs_leaked s2 = []
        | (Err e, _) => ~ is_xml e
        | (Abort _, _) => True
        end
    | (Err e, _) => ~ is_xml e
    | (Abort _, _) => True
    end.
  Proof.
    intros Hid Hnew.
    assert (Hrun : forall s, state_at d attrs [] s -> vs_leaked s = [] -> forall fin kids,
      match fst (sem_kids V (sem_read V) path fin kids s) with
      | (Ok _, s2) => state_at d attrs kids s2 /\ vs_leaked s2 = []
      | (Err e, _) => ~ is_xml e
      | (Abort _, _) => True
      end).
    { intros s Hs Hl fin kids.
      pose proof (kids_run o alg env Hok (state_at d attrs) (child_demand env d)) as K.
      specialize (K (fun ks s name cattrs cns cp ck cpe i Hi Hat => state_acts id d attrs ks s name cattrs cns cp ck cpe i Hid Hi Hat)).
      specialize (K (fun ks s name cattrs cns cp ck cpe parents i Hi _ Hat =>
        state_step id d attrs ks s name cattrs cns cp ck cpe parents i Hid Hi Hat)).
      specialize (K (fun ks k Hk => child_demand_skip env d ks k Hk)
        (fun ks s k Hk => state_skip d attrs ks s k Hk) (fun ks s str p Hat => state_chars d attrs ks s str p Hat)).
      assert (Hall : Forall (errs_ok o alg env) kids) by (apply Forall_forall; intros k _; now apply errs_all).
      destruct (K kids Hall [] path fin s Hs) as (K1 & _ & K3 & _ & K5). specialize (K5 Hl).
      destruct (sem_kids V (sem_read V) path fin kids s) as [[[x|e|x] s2] pl]; cbn [fst]; auto.
      - destruct (K1 x s2 pl eq_refl) as (_ & G & _). split; [exact G|]. exact (K5 (Ok x) s2 pl eq_refl).
      - eapply bad_not_xml, K3. reflexivity. }
    pose proof (Hok id d Hid) as Hn. destruct d as [ident root nss fs|ident root nss vs sk].
    - destruct Hn as [Hnde Hnda]. unfold new_visitor in Hnew. rewrite Hid in Hnew.
      destruct (new_slots env fs) as [ss0|] eqn:Hss; [|discriminate]. cbn in Hnew. inversion Hnew; subst s0.
      destruct (attrs_run o alg env R fs path p Hnda attrs [] ss0 [] (new_slots_after o env R fs ss0 Hss))
        as (A1 & _ & A3 & _). cbn [app] in A1.
      destruct (sem_attrs V path p attrs _) as [[[]|e|x] s1]; auto.
      + destruct (A1 s1 eq_refl) as (_ & ss' & -> & G2 & _). intros fin kids. apply Hrun; [|reflexivity].
        exists ss', []. auto.
      + destruct (A3 e s1 eq_refl) as [(m & -> & _) _]. intros (y & Ey). discriminate.
    - unfold new_visitor in Hnew. rewrite Hid in Hnew. inversion Hnew; subst s0.
      set (s0 := VState (VkEnum (new_enum ident vs)) []) in *.
      assert (A0 : sem_attrs V path p attrs s0 = (Ok tt, s0)) by (induction attrs as [|a attrs' IHa]; cbn; auto).
      rewrite A0. intros fin kids. apply Hrun; [|reflexivity].
      exists (new_enum ident vs), []. split; auto. split; auto.
  Qed.

  Definition cut_ok (t : ety) (c : partial) (x : (res verr value * list value) + abort) : Prop :=
    match x with
    | inl (Ok _, _) => False
    | inl (Err e, l) => (exists e', e = Propagate e' /\ is_xml e') -> cut_leaks o env t c l
    | _ => True
    end.

  (** How reading the children of [c] ends. *)
  Definition loop_ok (id : nat) (c : partial) (x : res error endinfo * vstate * rstate) : Prop :=
    match x with
    | (Ok _, _, _) => False
    | (Err e, s, _) => is_xml e -> cut_leaks o env (ERef id) c (live s)
    | _ => True
    end.

  Definition run_ok (dbg : bool) (x : xerr) (c : partial) : Prop :=
    forall t fuel base i, ei_name i = pt_name c -> List.length (pt_src c) < fuel ->
    cut_ok t c (fst (run_action dbg V (read_loop dbg V fuel) (List.length base) (pt_attrs c) (pt_ns c)
      (deserialize o env t i) (within (FError x) base (SElem (pt_name c) (pt_pos c)) (pt_src c) (pt_pos c)))).

  (** From the end of the complete children. *)
  Lemma rest_run dbg x c : match c with Open _ _ _ _ _ => True | OpenIn _ _ _ _ _ c' => run_ok dbg x c' end ->
    forall id d base ns s fuel pos, env id = Some d ->
    state_at d (pt_attrs c) (pt_kids c) s -> vs_leaked s = [] -> List.length (pt_rest c) < fuel ->
    loop_ok id c (read_loop dbg V fuel (List.length base) ns s
      (within (FError x) base (SElem (pt_name c) (pt_pos c)) (pt_rest c) pos)).
  Proof.
    intros IH id d base ns s fuel pos Hid Hs Hl Hf. destruct fuel as [|fuel]; [lia|].
      cbn [read_loop]. unfold within at 1. rewrite stack_check_elem.
      destruct (state_so_far d _ _ s Hs) as (vs & Hvs & Hlive).
      destruct c as [name attrs cns p kids|name attrs cns p kids c']; cbn [pt_rest pt_name pt_attrs pt_kids pt_pos] in *.
      - unfold within. rewrite next_in_sync by apply in_sync_elem. cbn. intros _. rewrite Hlive, Hl, app_nil_r.
        now apply cl_open with (d := d).
      - rewrite partial_events_eq in Hf |- *. rewrite next_start. cbn [List.length] in Hf.
        unfold within at 1. cbn [r_stack].
        rewrite nth_error_app2 by (rewrite app_length; cbn [List.length]; lia).
        replace (S (List.length base) - List.length (base ++ [SElem name p])) with 0 by (rewrite app_length; cbn [List.length]; lia).
        cbn [nth_error se_name].
        set (i := EInfo (pt_name c') (pt_ns c') (S (S (List.length base)))).
        replace (S (List.length base)) with (List.length (base ++ [SElem name p]))
          by (rewrite app_length; cbn [List.length]; lia).
        pose proof (state_acts id d attrs kids s (pt_name c') (pt_attrs c') (pt_ns c') (pt_pos c') [] (pt_pos c') i
          Hid eq_refl Hs) as Ha. rewrite <- tag_of_eq in Ha.
        pose proof (state_step id d attrs kids s (pt_name c') (pt_attrs c') (pt_ns c') (pt_pos c') [] (pt_pos c') [] i
          Hid eq_refl Hs) as [Hst _]. rewrite <- tag_of_eq in Hst.
        destruct (child_demand env d kids (tag_of c')) as [|m|t] eqn:Ed; cbn [acts] in Ha.
        + destruct Ha as ([b s'] & Ha & Hd & Hlk & _). cbn [fst snd app] in Hd, Hlk. rewrite Ha in *. cbn [run_action].
          destruct b as [b|e|y]; try discriminate.
          assert (Hs' : state_at d attrs (kids ++ [tag_of c']) s') by (apply (Hst (Ok b, s') s'); reflexivity).
          destruct (state_so_far d _ _ s' Hs') as (vs' & Hvs' & Hlive').
          set (r2 := within _ _ _ _ _).
          assert (Hno : fst (return_to_depth dbg (List.length (base ++ [SElem name p])) r2) <> Ok tt).
          { unfold return_to_depth. destruct (dbg && _); [discriminate|]. apply (skip_open _ dbg _ 0).
            - unfold r2, within. cbn [r_depth]. lia.
            - apply stays_src. }
          destruct (return_to_depth dbg (List.length (base ++ [SElem name p])) r2) as [[[]|e|y] r3]; cbn [fst] in Hno; [congruence| |exact I].
          intros _. rewrite Hlive', Hlk, Hl, app_nil_r. now apply cl_skipped with (d := d).
        + destruct Ha as ([b s'] & Ha & Hd & _). cbn [fst snd app] in Hd. rewrite Ha. cbn [run_action].
          destruct b as [b|e|y]; try discriminate. cbn in Hd. injection Hd as ->. cbn. intros (y & Ey). discriminate.
        + destruct Ha as (f & Ha & Hf'). rewrite Ha. rewrite run_action_amap.
          specialize (IH t fuel (base ++ [SElem name p]) i eq_refl ltac:(lia)).
          destruct (run_action dbg V (read_loop dbg V fuel) (List.length (base ++ [SElem name p])) (pt_attrs c') (pt_ns c')
            (deserialize o env t i) _) as [[[r l]|y] r2]; cbn [fst] in IH; [|exact I].
          specialize (Hf' r l). destruct (f (r, l)) as [b s']. destruct Hf' as (Hd & Hlk & Hkd). cbn [fst snd] in Hd, Hlk, Hkd.
          destruct r as [v|e|y]; cbn [cut_ok] in IH; [contradiction| |].
          * cbn [map_ok] in Hd, Hkd. destruct b as [b|e'|y]; try discriminate. injection Hd as ->. cbn [loop_ok].
            intro Hx.
            destruct e as [e|m]; [|destruct Hx as (z & Ez); discriminate].
            rewrite (live_kind s s' (eq_sym (Hkd _ eq_refl)) vs Hlive), Hlk, Hl, app_nil_r.
            eapply cl_read; eauto.
          * cbn [map_ok] in Hd. destruct b as [b|e'|y']; try discriminate. exact I.
  Qed.

  Theorem cut_run dbg x : forall c, run_ok dbg x c.
  Proof.
    assert (Step : forall c, match c with Open _ _ _ _ _ => True | OpenIn _ _ _ _ _ c' => run_ok dbg x c' end ->
      run_ok dbg x c).
    { intros c IH t fuel base i Hi Hf. destruct t as [t|id].
      - cbn [deserialize]. unfold deserialize_text. rewrite !run_action_amap. cbn [run_action].
        unfold read_string. set (r0 := within _ _ _ _ _).
        pose proof (fun v => string_open (S (List.length (r_src r0))) dbg (List.length base) "" r0 v (stays_src c)) as N.
        destruct (read_string_loop _ dbg (List.length base) "" r0) as [[v|e|y] r1]; cbn [fst] in *.
        + now destruct (N v).
        + intros _. apply cl_text.
        + exact I.
      - cbn [deserialize]. destruct (env id) as [d|] eqn:Hid.
        2:{ unfold new_visitor. rewrite Hid. exact I. }
        destruct (new_visitor env id) as [s0|] eqn:Hnew; [|exact I].
        cbn [run_action]. unfold within at 1. cbn [r_stack]. rewrite nth_error_app2, Nat.sub_diag by lia.
        cbn [nth_error se_pos]. unfold within at 1. cbn [r_stack]. rewrite attrs_loop_sem.
        pose proof (state_after id d s0 (base ++ [SElem (pt_name c) (pt_pos c)]) (pt_pos c) (pt_attrs c) Hid Hnew) as Hst.
        destruct (sem_attrs V _ _ (pt_attrs c) s0) as [[[]|e|y] s1]; cbn [fst].
        + specialize (Hst (pt_name c, pt_ns c, pt_pos c) (pt_kids c)).
          unfold pt_src in *. rewrite app_length in Hf.
          pose proof (front dbg V (fun _ => derived_propagating o alg env) fuel (S (List.length (pt_rest c))) (pt_kids c) (FError x) base
            (SElem (pt_name c) (pt_pos c)) (pt_ns c) (pt_pos c) (pt_rest c) (pt_pos c) s1 ltac:(lia) ltac:(lia)) as F.
          cbn [se_name] in F. unfold goes_on in F.
          destruct (fst (sem_kids V (sem_read V) _ _ (pt_kids c) s1)) as [[z|e|y] s2].
          * destruct F as (fuel' & pos' & Hf' & ->). destruct Hst as [Hs2 Hl].
            pose proof (rest_run dbg x c IH id d base (pt_ns c) s2 fuel' pos' Hid Hs2 Hl ltac:(lia)) as L.
            destruct (read_loop _ _ _ _ _ _ _) as [[[z'|e|y] s3] r3]; cbn [fst loop_ok cut_ok] in *; [contradiction| |exact I].
            intros (e' & E & X). injection E as <-. auto.
          * destruct F as (r' & ->). cbn [fst cut_ok]. intros (e' & E & X). injection E as <-. contradiction.
          * destruct (read_loop _ _ _ _ _ _ _) as [[z' s3] r3]. cbn in F. subst z'. exact I.
        + cbn [cut_ok]. intros (e' & E & X). injection E as <-. contradiction.
        + exact I. }
    induction c as [name attrs cns p kids|name attrs cns p kids c' IHc]; apply Step; auto.
  Qed.

  Lemma cut_leaks_det c : forall t l1 l2, cut_leaks o env t c l1 -> cut_leaks o env t c l2 -> l1 = l2.
  Proof.
    induction c as [name attrs cns p kids|name attrs cns p kids c' IHc]; intros t l1 l2 H1 H2.
    - inversion H1; subst; inversion H2; subst; auto.
      assert (d0 = d) by congruence. subst d0. eapply so_far_det; eauto.
    - inversion H1; subst; inversion H2; subst; auto; assert (d0 = d) by congruence; subst d0; try congruence.
      + eapply so_far_det; eauto.
      + match goal with E1 : child_demand _ _ _ _ = ReadAs ?a, E2 : child_demand _ _ _ _ = ReadAs ?b |- _ =>
          rewrite E1 in E2; injection E2 as <- end.
        f_equal; [eapply so_far_det; eauto|eauto].
  Qed.

  Lemma cut_root dbg start prolog c x :
    root dbg (reader_new (cut_events start prolog c) (FError x)) =
    (Ok (pt_attrs c, pt_ns c), within (FError x) [] (SElem (pt_name c) (pt_pos c)) (pt_src c) (pt_pos c)).
  Proof.
    unfold root, inner_next, reader_new, cut_events, set_src. cbn [r_src r_fin r_depth r_stack].
    rewrite next_in_sync by (intros _; reflexivity). rewrite next_loop_prolog, partial_events_eq. reflexivity.
  Qed.

  (** The parser fails within the root element. *)
  Theorem cut_what_leaks dbg t start prolog c x e l :
    read_as o alg env dbg t (cut_events start prolog c) (FError x) = Err e -> is_xml e ->
    leaked_by o alg env dbg t (cut_events start prolog c) (FError x) = l <-> cut_leaks o env t c l.
  Proof.
    intros He Hx. assert (G : cut_leaks o env t c (leaked_by o alg env dbg t (cut_events start prolog c) (FError x))).
    { unfold leaked_by. unfold read_as, read in He. rewrite cut_root in *.
      unfold within at 1 in He. unfold within at 1. cbn [r_stack app nth_error se_name] in *.
      unfold de_root in He. rewrite run_action_amap in He.
      pose proof (cut_run dbg x c t (S (List.length (r_src (within (FError x) [] (SElem (pt_name c) (pt_pos c)) (pt_src c) (pt_pos c)))))
        [] (EInfo (pt_name c) (pt_ns c) 1) eq_refl) as G. cbn [List.length] in G. specialize (G ltac:(cbn; lia)).
      destruct (run_action _ _ _ _ _ _ (deserialize _ _ _ _) _) as [[[r l']|y] r2]; cbn [fst cut_ok] in *; [|discriminate].
      destruct r as [v|e'|y]; [contradiction| |discriminate]. apply G. injection He as He.
      destruct e' as [e'|m]; cbn [wrap] in He; [|subst e; destruct Hx as (y & Ey); discriminate]. subst e'. eauto. }
    split; [intros <-; exact G|]. intro H. eapply cut_leaks_det; eauto.
  Qed.
End Derived.

(** What was decided before the cut leaks the same however the stream goes on. *)
Theorem decided_leak o alg env dbg t pre x e : read_as o alg env dbg t pre (FError x) = Err e -> ~ is_xml e ->
  forall post fin, leaked_by o alg env dbg t (pre ++ post) fin = leaked_by o alg env dbg t pre (FError x).
Proof.
  intros He Hx post fin. unfold leaked_by. unfold read_as, read in He.
  change (reader_new (pre ++ post) fin) with (ext post fin (reader_new pre (FError x))).
  pose proof (root_sim dbg x post fin (reader_new pre (FError x)) eq_refl) as Rs.
  destruct (root dbg (reader_new pre (FError x))) as [a r1]. destruct Rs as [U|[C E]]; cbn [fst snd] in *.
  { destruct a as [[]|e'|y]; cbn in U; [contradiction| |discriminate]. congruence. }
  rewrite E. destruct a as [[attrs ns]|e'|y]; auto. cbn [ext r_stack r_src].
  destruct (nth_error (r_stack r1) 0) as [el|]; [|reflexivity].
  unfold de_root in He. rewrite run_action_amap in He.
  set (act := deserialize o env t (EInfo (se_name el) ns 1)) in *.
  pose proof (run_action_sim dbg (derived o alg env) x post fin fst (read_loop dbg (derived o alg env) (S (List.length (r_src r1))))
    (read_loop dbg (derived o alg env) (S (List.length (r_src r1 ++ post)))) 0 attrs ns act r1) as A.
  specialize (A ltac:(intros; apply read_loop_sim; [apply derived_transparent|rewrite app_length; lia|assumption])).
  assert (Ht : transparent_act fst act) by apply deserialize_transparent.
  specialize (A Ht C). unfold sima in A.
  destruct (run_action dbg (derived o alg env) (read_loop dbg (derived o alg env) (S (List.length (r_src r1)))) 0 attrs ns act r1)
    as [[[r l]|y] r2]; cbn [fst snd] in *; [|discriminate].
  destruct A as [(e' & -> & X)|[_ E2]].
  - cbn in He. injection He as <-. contradiction.
  - now rewrite E2.
Qed.

(** ** A document cut off anywhere *)

Lemma cut_kids : forall kids n, n < List.length (flat_map events kids) ->
  (forall k, In k kids -> forall m, m < List.length (events k) -> exists k1 c,
     firstn m (events k) = flat_map events k1 ++ match c with Some c => partial_events c | None => [] end) ->
  exists k1 c, firstn n (flat_map events kids) =
    flat_map events k1 ++ match c with Some c => partial_events c | None => [] end.
Proof.
  induction kids as [|k kids IH]; intros n Hn H; [cbn in Hn; lia|]. cbn [flat_map] in *. rewrite app_length in Hn.
  rewrite firstn_app. destruct (Nat.ltb_spec n (List.length (events k))) as [Hlt|Hge].
  - destruct (H k (or_introl eq_refl) n Hlt) as (k1 & c & ->). replace (n - _) with 0 by lia. cbn [firstn].
    rewrite app_nil_r. eauto.
  - rewrite firstn_all2 by lia. destruct (IH (n - List.length (events k))) as (k1 & c & ->); [lia|intros; apply H; [now right|assumption]|].
    exists (k :: k1), c. cbn [flat_map]. now rewrite app_assoc.
Qed.

Lemma cut_node : forall k n, n < List.length (events k) -> n = 0 \/ exists c, firstn n (events k) = partial_events c.
Proof.
  induction k as [name attrs ns p kids pe IH|c s p|m p|s p] using node_ind'; intros n Hn.
  2-4: left; destruct n as [|n]; [reflexivity|cbn in Hn; lia].
  destruct n as [|n]; [now left|right]. cbn [events List.length firstn] in *. rewrite app_length in Hn. cbn in Hn.
  rewrite firstn_app. destruct (Nat.ltb_spec n (List.length (flat_map events kids))) as [Hlt|Hge].
  - replace (n - _) with 0 by lia. cbn [firstn]. rewrite app_nil_r.
    destruct (cut_kids kids n Hlt) as (k1 & c & ->).
    + intros k Hk m Hm. rewrite Forall_forall in IH. destruct (IH k Hk m Hm) as [->|(c & ->)].
      * exists [], None. reflexivity.
      * exists [], (Some c). reflexivity.
    + destruct c as [c|].
      * now exists (OpenIn name attrs ns p k1 c).
      * exists (Open name attrs ns p k1). cbn. now rewrite app_nil_r.
  - rewrite firstn_all2 by lia. replace (n - _) with 0 by lia. cbn [firstn]. rewrite app_nil_r.
    now exists (Open name attrs ns p kids).
Qed.

Lemma cut_doc d n : let head := S (List.length (d_prolog d)) in
  n <= head \/ head + List.length (events (d_root d)) <= n \/
  exists c, firstn n (doc_events d) = cut_events (d_start d) (d_prolog d) c.
Proof.
  intro head. destruct (Nat.leb_spec n head) as [H|H]; [now left|right].
  destruct (Nat.leb_spec (head + List.length (events (d_root d))) n) as [H'|H']; [now left|right].
  subst head. destruct n as [|n]; [lia|].
  destruct (cut_node (d_root d) (n - List.length (d_prolog d))) as [E|(c & E)]; [lia|lia|].
  exists c. unfold doc_events, cut_events. cbn [firstn]. f_equal. rewrite firstn_app.
  unfold misc_events at 1 2. rewrite map_length, firstn_all2 by (rewrite map_length; lia).
  f_equal. rewrite firstn_app, E. replace (_ - List.length (events (d_root d))) with 0 by lia. cbn. now rewrite app_nil_r.
Qed.

(** Once the root element is complete, nothing else matters. *)
Lemma leaked_past_root o alg env dbg t d rest fin :
  leaked_by o alg env dbg t ((XStartDocument, d_start d) :: misc_events (d_prolog d) ++ events (d_root d) ++ rest) fin =
  match sem_act (sem_read (derived o alg env) (d_root d) []) [SElem (d_name d) (d_pos d)] (d_pos d) (d_kids d) (d_pe d)
          (deserialize o env t (EInfo (d_name d) (d_ns d) 1)) with
  | (inl (_, l), _) => l
  | _ => []
  end.
Proof.
  unfold leaked_by.
  assert (E : root dbg (reader_new ((XStartDocument, d_start d) :: misc_events (d_prolog d) ++ events (d_root d) ++ rest) fin) =
    (Ok (d_attrs d, d_ns d), at_elem fin [] (SElem (d_name d) (d_pos d)) (d_kids d) (d_pe d) rest (d_pos d))).
  { unfold root, inner_next, reader_new, set_src. cbn [r_src r_fin r_depth r_stack].
    rewrite next_in_sync by (intros _; reflexivity).
    rewrite next_loop_prolog. unfold d_root. cbn [events app next_loop].
    unfold at_elem. cbn [se_name List.length app]. now rewrite <- app_assoc. }
  rewrite E. set (r1 := at_elem _ _ _ _ _ _ _). unfold r1 at 1. cbn [at_elem r_stack app nth_error se_name].
  set (V := derived o alg env). set (act := deserialize o env t _).
  assert (HA : agrees_act dbg (fun x => is_ok (fst x)) fin [] rest
    (run_action dbg V (read_loop dbg V (S (List.length (r_src r1)))) 0 (d_attrs d) (d_ns d) act r1)
    (sem_act (sem_read V (d_root d) []) [SElem (d_name d) (d_pos d)] (d_pos d) (d_kids d) (d_pe d) act)).
  { apply (run_action_sem dbg V).
    - apply read_loop_sem. intros _. apply derived_propagating.
    - unfold r1. cbn [at_elem r_src]. rewrite app_length. lia.
    - intros _. pose proof (de_root_propagating o env t (EInfo (d_name d) (d_ns d) 1)) as H. unfold de_root in H.
      fold act in H. destruct act; cbn in *; auto.
      + intros e. specialize (H e). destruct (k (inr e)) as [[v|e'|x] l]; auto. cbn in *. now destruct (H v).
      + intros e s. specialize (H e s). destruct (k (inr e) s) as [[v|e'|x] l]; auto. cbn in *. now destruct (H v). }
  unfold agrees_act in HA. destruct (sem_act _ _ _ _ _ act) as [[[x l]|x] pl]; cbn [fst snd] in HA.
  - destruct HA as (r' & -> & _). reflexivity.
  - destruct (run_action _ _ _ _ _ _ _ _) as [? ?]. cbn in HA. subst. reflexivity.
Qed.

Lemma leaked_before_root o alg env dbg t d n x : n <= S (List.length (d_prolog d)) ->
  leaked_by o alg env dbg t (firstn n (doc_events d)) (FError x) = [].
Proof.
  intro H. unfold leaked_by. destruct n as [|n]; [reflexivity|].
  unfold root, inner_next, reader_new, doc_events, set_src. cbn [firstn r_src r_fin r_depth r_stack].
  rewrite next_in_sync by (intros _; reflexivity).
  rewrite firstn_app. replace (n - _) with 0 by (unfold misc_events; rewrite map_length; lia). cbn [firstn]. rewrite app_nil_r.
  assert (G : forall l m, exists r, next_loop dbg (FError x) 0 [] (firstn m (misc_events l)) =
    (Err (Error (EXml x) [] (xe_pos x)), r)).
  { induction l as [|[mi q] l IH]; intros [|m]; cbn; eauto. destruct mi; cbn; apply IH. }
  destruct (G (d_prolog d) n) as (r & ->). reflexivity.
Qed.

Theorem cut_anywhere o alg env dbg t d n x : names_ok env -> compiles env -> oracles_total o -> known_ty env t ->
  let pre := firstn n (doc_events d) in
  let l := leaked_by o alg env dbg t pre (FError x) in
  leaks o env t (d_root d) l \/
  (exists c, pre = cut_events (d_start d) (d_prolog d) c /\ cut_leaks o env t c l) \/
  l = [] /\ (n <= S (List.length (d_prolog d)) \/ exists v, reads o env t (d_root d) v).
Proof.
  intros Hok Hc Ho Hk pre l.
  destruct (cut_doc d n) as [H|[H|(c & E)]].
  - right. right. split; [now apply leaked_before_root|now left].
  - assert (E : exists rest, pre = (XStartDocument, d_start d) :: misc_events (d_prolog d) ++ events (d_root d) ++ rest).
    { unfold pre, doc_events. destruct n as [|n]; [lia|]. cbn [firstn]. exists (firstn (n - List.length (d_prolog d) - List.length (events (d_root d))) (misc_events (d_epilogue d))).
      f_equal. rewrite firstn_app. unfold misc_events at 1 2. rewrite map_length, firstn_all2 by (rewrite map_length; lia).
      f_equal. now rewrite firstn_app, firstn_all2 by lia. }
    destruct E as (rest & E). unfold l. rewrite E, leaked_past_root, <- (leaked_sem o alg env dbg t d (0, 0)%N).
    destruct (read_as o alg env dbg t (doc_events d) (FEndDocument (0, 0)%N)) as [v|e|y] eqn:Er.
    + right. right. split; [eapply ok_no_leak; eauto|right]. exists v. now apply (read_as_iff o alg env dbg t d (0, 0)%N v Hok).
    + left. now apply (what_leaks o alg env dbg t d (0, 0)%N e).
    + exfalso. destruct (cut_document o alg env Hok Hc Ho dbg t d (List.length (doc_events d)) x Hk) as [G|(e & G)].
      * destruct (read_as_err o alg env dbg t d (0, 0)%N) as (e & He); auto; [|congruence].
        intros v Hv. apply (read_as_iff o alg env dbg t d (0, 0)%N v Hok) in Hv. congruence.
      * destruct G as (_ & _ & _ & G). specialize (G [] (FEndDocument (0, 0)%N)). rewrite firstn_all, app_nil_r in G. congruence.
  - destruct (cut_document o alg env Hok Hc Ho dbg t d n x Hk) as [G|(e & Hd & Hx & G & _)]; fold pre in G.
    + right. left. exists c. fold pre in E. split; [exact E|]. unfold l. rewrite E in G |- *.
      apply (cut_what_leaks o alg env Hok Hc dbg t _ _ c x _ _ G); [now exists x|reflexivity].
    + left. pose proof (decided_leak o alg env dbg t pre x e G Hx (skipn n (doc_events d)) (FEndDocument (0, 0)%N)) as L.
      unfold pre in L at 1. rewrite firstn_skipn in L. unfold l. rewrite <- L.
      eapply what_leaks; eauto. apply (first_fault o alg env dbg t d (0, 0)%N e Hok Hc). exact Hd.
Qed.
