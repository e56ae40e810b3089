(** Serializing, step by step: proofs. *)
From Verif Require Import Base Types Ser SerSpec SerProofs SerTree Live LiveSpec.
From Coq Require Import Lia.

(** ** The same results *)

Lemma run_a_same dbg a : forall b,
  run_a dbg a b = match fst (run_al dbg a b) with (inl r, b') => inl (r, b') | (inr x, _) => inr x end.
Proof.
  induction a as [r|p u a IH|n v f IH|m]; intro b; cbn [run_a run_al]; auto.
  - destruct (builder_namespace dbg p u b) as [b'|x]; [|reflexivity]. rewrite IH. reflexivity.
  - destruct (builder_attribute n v b) as [[r b']|x]; [|reflexivity]. rewrite IH. reflexivity.
Qed.

Definition forget (y : (option serr + abort) * sink * list lcall) : (option serr * sink) + abort :=
  match fst y with (inl r, k) => inl (r, k) | (inr x, _) => inr x end.

Lemma run_same dbg o :
  (forall d (p : wprog d) nss k, run_w dbg o p nss k = forget (run_wl dbg o p nss k)) /\
  (forall d (q : bprog d) b nss k, run_b dbg o q b nss k = forget (run_bl dbg o q b nss k)).
Proof.
  apply prog_mut; cbn [run_w run_b run_wl run_bl]; auto.
  - intros d s f IH nss k. destruct (write o (WChars s) k) as [r k']. apply IH.
  - intros d n b IH nss k. destruct nss; [reflexivity|]. apply IH.
  - intros d f IH nss k. destruct (write o WEnd k) as [r k']. apply IH.
  - intros d p IH nss k. apply IH.
  - intros d p u q IH b nss k. destruct (builder_namespace dbg p u b); [apply IH|reflexivity].
  - intros d n v f IH b nss k. destruct (builder_attribute n v b) as [[r b']|]; [apply IH|reflexivity].
  - intros d p IH b nss k. apply IH.
  - intros d p IHp pe IHe b nss k. destruct (builder_start o b k) as [[[m|e] k']|]; [apply IHp|apply IHe|reflexivity].
Qed.

Lemma to_same dbg o n v : to dbg o n v = forget (to_l dbg o n v).
Proof.
  unfold to, to_l. rewrite run_a_same. destruct (run_al dbg (s_attrs v) _) as [[[[e|]|x] b] l]; cbn [fst]; try reflexivity.
  destruct (builder_start o b sink0) as [[[m|e] k]|x]; try reflexivity.
  rewrite (proj1 (run_same dbg o)). unfold forget. destruct (run_wl dbg o (s_kids v) [m] k) as [[[[e|]|x] k'] l']; cbn [fst]; try reflexivity.
  destruct (write o WEnd k'). reflexivity.
Qed.

(** ** What has been written *)

Definition adds (k k' : sink) (l : list sev) : Prop := exists evs, k_out k' = k_out k ++ evs /\ map ev_sev evs = l.

Lemma adds_refl k : adds k k [].
Proof. exists []. split; [now rewrite app_nil_r|reflexivity]. Qed.

Lemma adds_trans k1 k2 k3 l l' : adds k1 k2 l -> adds k2 k3 l' -> adds k1 k3 (l ++ l').
Proof. intros (a & A1 & A2) (b & B1 & B2). exists (a ++ b). split; [now rewrite B1, A1, app_assoc|rewrite map_app; now f_equal]. Qed.

Lemma adds_begins k k' l : adds k k' l -> begins (k_out k) (k_out k').
Proof. intros (a & A & _). now exists a. Qed.

Lemma write_adds o e k : adds k (snd (write o e k)) (match fst (write o e k) with None => [ev_sev e] | Some _ => [] end).
Proof.
  unfold write, adds. destruct (k_poison k); [|destruct (o (k_tries k))]; cbn [fst snd k_out];
    [exists []|exists []|exists [e]]; rewrite ?app_nil_r; auto.
Qed.

Definition locals (attrs : list (xname * string)) : list (string * string) := map (fun a => (xn_local (fst a), snd a)) attrs.

Lemma start_adds o b k r k' : builder_start o b k = inl (r, k') ->
  adds k k' (match r with inl _ => [SStart (xn_local (b_name b)) (locals (b_attrs b))] | inr _ => [] end).
Proof.
  unfold builder_start. destruct (finalize (b_ns b)) as [m|]; [|discriminate].
  destruct (resolve_element m (b_name b)) as [p|] eqn:E; [|discriminate].
  destruct (resolve_attributes m (b_attrs b)) as [attrs|] eqn:A; [|discriminate].
  pose proof (write_adds o (WStart p attrs (by_prefix m)) k) as W.
  destruct (write o (WStart p attrs (by_prefix m)) k) as [[e|] k0]; intros [= <- <-]; cbn [fst snd] in W; [exact W|].
  cbn [ev_sev] in W. rewrite (resolve_element_local _ _ _ E) in W. rewrite (resolve_attributes_local _ _ _ A) in W. exact W.
Qed.

Lemma attribute_adds n v b r b' : builder_attribute n v b = inl (r, b') -> b_name b' = b_name b /\
  b_attrs b' = match r with None => b_attrs b ++ [(n, v)] | Some _ => b_attrs b end.
Proof.
  unfold builder_attribute. destruct (existsb (xn_eqb n) (b_seen b)).
  - destruct (find _ (b_attrs b)) as [[n' old]|]; [|discriminate]. now intros [= <- <-].
  - now intros [= <- <-].
Qed.

Lemma namespace_adds dbg p u b b' : builder_namespace dbg p u b = inl b' -> b_name b' = b_name b /\ b_attrs b' = b_attrs b.
Proof. unfold builder_namespace. destruct (nb_insert dbg p u (b_ns b)); [|discriminate]. now intros [= <-]. Qed.

Definition shown (k : sink) (y : (option serr + abort) * sink * list lcall) (n : xname) (attrs : list (xname * string)) : Prop :=
  adds k (snd (fst y)) (effects n attrs (snd y)).

Lemma run_shown dbg o :
  (forall d (p : wprog d) nss k n attrs, shown k (run_wl dbg o p nss k) n attrs) /\
  (forall d (q : bprog d) b nss k, shown k (run_bl dbg o q b nss k) (b_name b) (b_attrs b)).
Proof.
  apply prog_mut; cbn [run_wl run_bl]; unfold shown.
  - intros. apply adds_refl.
  - intros d s f IH nss k n attrs. pose proof (write_adds o (WChars s) k) as W. destruct (write o (WChars s) k) as [r k'].
    cbn [fst snd later] in *. pose proof (adds_trans _ _ _ _ _ W (IH r nss k' n attrs)) as A. destruct r; exact A.
  - intros d n b IH nss k n' attrs. destruct nss as [|m nss]; [apply adds_refl|]. exact (IH (writer_element m n) (m :: nss) k).
  - intros d f IH nss k n attrs. pose proof (write_adds o WEnd k) as W. destruct (write o WEnd k) as [r k'].
    cbn [fst snd later] in *. pose proof (adds_trans _ _ _ _ _ W (IH r (tl nss) k' n attrs)) as A. destruct r; exact A.
  - intros d p IH nss k n attrs. exact (IH (tl nss) (poison writer_dropped k) n attrs).
  - intros. apply adds_refl.
  - intros d p u q IH b nss k. destruct (builder_namespace dbg p u b) as [b'|] eqn:E; [|apply adds_refl].
    apply namespace_adds in E. destruct E as [<- <-]. exact (IH b' nss k).
  - intros d n v f IH b nss k. destruct (builder_attribute n v b) as [[r b']|] eqn:E; [|apply adds_refl].
    apply attribute_adds in E. destruct E as [E1 E2]. pose proof (IH r b' nss k) as A. rewrite E1, E2 in A. destruct r; exact A.
  - intros d p IH b nss k. exact (IH nss (poison builder_dropped k) (b_name b) (b_attrs b)).
  - intros d p IHp pe IHe b nss k. destruct (builder_start o b k) as [[[m|e] k']|] eqn:E; [| |apply adds_refl]; apply start_adds in E.
    + exact (adds_trans _ _ _ _ _ E (IHp (m :: nss) k' (b_name b) (b_attrs b))).
    + exact (adds_trans _ _ _ _ _ E (IHe e nss k' (b_name b) (b_attrs b))).
  - intros. apply adds_refl.
Qed.

(** Calls on the builder of the root. *)
Lemma effects_a dbg a : forall b l, effects (b_name b) (b_attrs b) (snd (run_al dbg a b) ++ l) =
  effects (b_name (snd (fst (run_al dbg a b)))) (b_attrs (snd (fst (run_al dbg a b)))) l.
Proof.
  induction a as [r|p u a IH|n v f IH|m]; intros b l; cbn [run_al]; auto.
  - destruct (builder_namespace dbg p u b) as [b'|x] eqn:E; [|reflexivity]. apply namespace_adds in E. destruct E as [<- <-]. apply IH.
  - destruct (builder_attribute n v b) as [[r b']|x] eqn:E; [|reflexivity]. apply attribute_adds in E. destruct E as [E1 E2].
    cbn [later fst snd app]. rewrite <- IH. destruct r; cbn [effects]; now rewrite E1, E2.
Qed.

Lemma effects_app l' : forall l n attrs, (forall n attrs, effects n attrs l' = effects (XName "" "") [] l') ->
  effects n attrs (l ++ l') = effects n attrs l ++ effects (XName "" "") [] l'.
Proof.
  induction l as [|c l IH]; intros n attrs H; cbn [app effects]; [apply H|].
  destruct c; cbn [effects]; try destruct r; cbn [app]; rewrite ?IH; auto.
Qed.

Lemma to_shown dbg o n v : map ev_sev (k_out (snd (fst (to_l dbg o n v)))) = effects n [] (snd (to_l dbg o n v)).
Proof.
  pose proof (effects_a dbg (s_attrs v) (BState n [] [] [])) as A. cbn [b_name b_attrs] in A. unfold to_l.
  destruct (run_al dbg (s_attrs v) _) as [[[[e|]|x] b] l]; cbn [fst snd] in *.
  - now rewrite A.
  - destruct (builder_start o b sink0) as [[[m|e] k]|x] eqn:E.
    + apply start_adds in E. pose proof (proj1 (run_shown dbg o) _ (s_kids v) [m] k (b_name b) (b_attrs b)) as S1.
      pose proof (adds_trans _ _ _ _ _ E S1) as (evs & T1 & T2). cbn [sink0 k_out app] in T1.
      destruct (run_wl dbg o (s_kids v) [m] k) as [[[[e|]|x] k'] l']; cbn [fst snd] in *.
      * cbn [poison k_out]. rewrite A. cbn [effects]. rewrite effects_app by reflexivity. cbn [effects]. rewrite app_nil_r, T1, T2. reflexivity.
      * pose proof (write_adds o WEnd k') as (w & W1 & W2). destruct (write o WEnd k') as [r k'']. cbn [fst snd] in *.
        rewrite W1, map_app, W2, T1, T2, A. cbn [effects]. rewrite effects_app by (destruct r; reflexivity). destruct r; reflexivity.
      * rewrite T1, T2, A. reflexivity.
    + apply start_adds in E. destruct E as (evs & T1 & T2). cbn [snd fst]. cbn [sink0 k_out app] in T1. now rewrite T1, T2, A.
    + cbn [snd fst sink0 k_out map]. specialize (A []). rewrite app_nil_r in A. now rewrite A.
  - specialize (A []). rewrite app_nil_r in A. cbn [sink0 k_out map]. now rewrite A.
Qed.

(** ** Programs that stop early *)

Definition stopped (n : nat) (x y : (option serr + abort) * sink * list lcall) : Prop :=
  (List.length (snd x) < n -> y = x) /\ snd y = firstn n (snd x) /\ begins (k_out (snd (fst y))) (k_out (snd (fst x))) /\
  (n <= List.length (snd x) -> exists m, fst (fst y) = inr m).

Lemma stopped_later n x y c : stopped n x y -> stopped (S n) (later c x) (later c y).
Proof.
  intros (A & B & C & D). unfold stopped, later. cbn [fst snd List.length firstn]. split; [|split; [|split]].
  - intro H. rewrite A by lia. reflexivity.
  - now rewrite B.
  - exact C.
  - intro H. apply D. lia.
Qed.

Lemma run_stopped dbg o :
  (forall d (p : wprog d) n nss k, stopped n (run_wl dbg o p nss k) (run_wl dbg o (stop_w p n) nss k)) /\
  (forall d (q : bprog d) n b nss k, stopped n (run_bl dbg o q b nss k) (run_bl dbg o (stop_b q n) b nss k)).
Proof.
  assert (Zw : forall d (p : wprog d) nss k, stopped 0 (run_wl dbg o p nss k) (inr (Panic ""), k, [])).
  { intros d p nss k. split; [lia|]. split; [reflexivity|]. split; [|cbn; eauto].
    exact (adds_begins _ _ _ (proj1 (run_shown dbg o) _ p nss k (XName "" "") [])). }
  assert (Zb : forall d (q : bprog d) b nss k, stopped 0 (run_bl dbg o q b nss k) (inr (Panic ""), k, [])).
  { intros d q b nss k. split; [lia|]. split; [reflexivity|]. split; [|cbn; eauto].
    exact (adds_begins _ _ _ (proj2 (run_shown dbg o) _ q b nss k)). }
  assert (R : forall n x k, stopped (S n) (inr x, k, []) (inr x, k, [])).
  { intros n x k. split; [reflexivity|]. split; [reflexivity|]. split; [exists []; now rewrite app_nil_r|]. cbn; eauto. }
  apply prog_mut.
  - intros r [|n] nss k; [apply Zw|]. cbn [stop_w run_wl]. split; [reflexivity|]. split; [reflexivity|]. split; [exists []; now rewrite app_nil_r|].
    cbn; lia.
  - intros d s f IH [|n] nss k; [apply Zw|]. cbn [stop_w run_wl]. destruct (write o (WChars s) k) as [r k']. apply stopped_later, IH.
  - intros d x b IH [|n] nss k; [apply Zw|]. cbn [stop_w run_wl]. destruct nss; [apply R|]. apply stopped_later, IH.
  - intros d f IH [|n] nss k; [apply Zw|]. cbn [stop_w run_wl]. destruct (write o WEnd k) as [r k']. apply stopped_later, IH.
  - intros d p IH [|n] nss k; [apply Zw|]. cbn [stop_w run_wl]. apply stopped_later, IH.
  - intros d m [|n] nss k; [apply Zw|]. cbn [stop_w run_wl]. apply R.
  - intros d p u q IH [|n] b nss k; [apply Zb|]. cbn [stop_b run_bl]. destruct (builder_namespace dbg p u b); [|apply R]. apply stopped_later, IH.
  - intros d x v f IH [|n] b nss k; [apply Zb|]. cbn [stop_b run_bl]. destruct (builder_attribute x v b) as [[r b']|]; [|apply R].
    apply stopped_later, IH.
  - intros d p IH [|n] b nss k; [apply Zb|]. cbn [stop_b run_bl]. apply stopped_later, IH.
  - intros d p IHp pe IHe [|n] b nss k; [apply Zb|]. cbn [stop_b run_bl].
    destruct (builder_start o b k) as [[[m|e] k']|]; [apply stopped_later, IHp|apply stopped_later, IHe|apply R].
  - intros d m [|n] b nss k; [apply Zb|]. cbn [stop_b run_bl]. apply R.
Qed.

Lemma firstn_more {A} (l l' : list A) n : firstn (List.length l + n) (l ++ l') = l ++ firstn n l'.
Proof. rewrite firstn_app. replace (List.length l + n - List.length l) with n by lia. rewrite firstn_all2 by lia. reflexivity. Qed.

Lemma to_kids_stopped dbg o name v n :
  snd (to_l dbg o name (cut_kids v n)) = firstn (List.length (builder_calls dbg name v) + S n) (snd (to_l dbg o name v)) /\
  begins (k_out (snd (fst (to_l dbg o name (cut_kids v n))))) (k_out (snd (fst (to_l dbg o name v)))).
Proof.
  assert (T : forall (x : sink), begins (k_out x) (k_out x)) by (intro x; exists []; now rewrite app_nil_r).
  unfold to_l, cut_kids, builder_calls. cbn [s_attrs s_kids].
  destruct (run_al dbg (s_attrs v) _) as [[[[e|]|x] b] l]; cbn [fst snd].
  - split; [|apply T]. rewrite firstn_all2; [reflexivity|]. rewrite app_length. cbn. lia.
  - destruct (builder_start o b sink0) as [[[m|e] k]|x]; cbn [fst snd].
    + destruct (proj1 (run_stopped dbg o) _ (s_kids v) n [m] k) as (A & B & C & D).
      pose proof (adds_begins _ _ _ (write_adds o WEnd (snd (fst (run_wl dbg o (s_kids v) [m] k))))) as W.
      destruct (run_wl dbg o (s_kids v) [m] k) as [[x k'] l']. cbn [fst snd] in *.
      destruct (Nat.le_gt_cases n (List.length l')) as [L|L].
      * destruct (D L) as [y E]. destruct (run_wl dbg o (stop_w (s_kids v) n) [m] k) as [[x1 k1] l1]. cbn [fst snd] in *. subst x1 l1.
        assert (F : forall z, l ++ LStart None :: firstn n l' = firstn (List.length l + S n) (l ++ LStart None :: l' ++ z)).
        { intro z. rewrite firstn_more. cbn [firstn]. rewrite firstn_app. replace (n - List.length l') with 0 by lia.
          change (firstn 0 z) with (@nil lcall). now rewrite app_nil_r. }
        destruct x as [[e|]|x]; cbn [fst snd poison k_out].
        -- split; [apply F|exact C].
        -- destruct (write o WEnd k') as [r k'']. cbn [fst snd] in *. split; [apply F|]. destruct C as (c & C), W as (w & W).
           exists (c ++ w). now rewrite W, C, app_assoc.
        -- split; [|exact C]. specialize (F []). now rewrite app_nil_r in F.
      * rewrite (A L). destruct x as [[e|]|x]; cbn [fst snd poison k_out].
        -- split; [|exists []; now rewrite app_nil_r]. rewrite firstn_all2; [reflexivity|]. rewrite app_length. cbn. rewrite app_length. cbn. lia.
        -- destruct (write o WEnd k') as [r k'']. cbn [fst snd]. split; [|apply T]. rewrite firstn_all2; [reflexivity|]. rewrite app_length. cbn.
           rewrite app_length. cbn. lia.
        -- split; [|apply T]. rewrite firstn_all2; [reflexivity|]. rewrite app_length. cbn. lia.
    + split; [|apply T]. rewrite firstn_all2; [reflexivity|]. rewrite app_length. cbn. lia.
    + split; [|apply T]. rewrite firstn_all2; [reflexivity|]. lia.
  - split; [|apply T]. rewrite firstn_all2; [reflexivity|]. lia.
Qed.

Lemma run_a_stopped dbg a : forall n b,
  (List.length (snd (run_al dbg a b)) < n -> run_al dbg (stop_a a n) b = run_al dbg a b) /\
  snd (run_al dbg (stop_a a n) b) = firstn n (snd (run_al dbg a b)) /\
  (n <= List.length (snd (run_al dbg a b)) -> exists m, fst (fst (run_al dbg (stop_a a n) b)) = inr m).
Proof.
  induction a as [r|p u a IH|x v f IH|m]; intros [|n] b; (split; [|split]); cbn [stop_a run_al fst snd List.length firstn]; try lia; eauto.
  all: try (destruct (builder_namespace dbg p u b) as [b'|y]; [destruct (IH n b') as (A & B & C)|]; cbn [later fst snd List.length firstn];
    intros; rewrite ?A by lia; rewrite ?B; eauto; apply C; lia).
  all: try (destruct (builder_attribute x v b) as [[r b']|y]; [destruct (IH r n b') as (A & B & C)|]; cbn [later fst snd List.length firstn];
    intros; rewrite ?A by lia; rewrite ?B; eauto; apply C; lia).
Qed.

Lemma to_attrs_stopped dbg o name v n :
  (n <= List.length (builder_calls dbg name v) ->
     snd (to_l dbg o name (cut_attrs v n)) = firstn n (snd (to_l dbg o name v)) /\ k_out (snd (fst (to_l dbg o name (cut_attrs v n)))) = []) /\
  (List.length (builder_calls dbg name v) < n -> to_l dbg o name (cut_attrs v n) = to_l dbg o name v).
Proof.
  unfold builder_calls. destruct (run_a_stopped dbg (s_attrs v) n (BState name [] [] [])) as (A & B & C). split; intro L.
  - destruct (C L) as [m E]. unfold to_l at 1 3. unfold cut_attrs. cbn [s_attrs s_kids].
    destruct (run_al dbg (stop_a (s_attrs v) n) _) as [[x b1] l1]. cbn [fst snd] in *. subst x l1. cbn [fst snd]. split; [|reflexivity].
    assert (F : forall l z, n <= List.length l -> @firstn lcall n l = firstn n (l ++ z)).
    { intros l z H. rewrite firstn_app. replace (n - List.length l) with 0 by lia. change (firstn 0 z) with (@nil lcall). now rewrite app_nil_r. }
    unfold to_l. destruct (run_al dbg (s_attrs v) _) as [[[[e|]|x] b] l]; cbn [fst snd] in *; auto.
    destruct (builder_start o b sink0) as [[[m'|e] k]|x]; cbn [fst snd]; auto.
    destruct (run_wl dbg o (s_kids v) [m'] k) as [[[[e|]|x] k'] l']; cbn [fst snd]; auto.
    destruct (write o WEnd k'). cbn [fst snd]. auto.
  - unfold to_l, cut_attrs. cbn [s_attrs s_kids]. now rewrite (A L).
Qed.

(** ** Programs that ask for a tree *)

Definition tsevs (t : rtree) : list sev := tree_sevs (tree_of t).
Definition tag (n : xname) (l : list req) : sev := SStart (xn_local n) (locals (req_attrs l)).

(** What has been asked for so far. *)
Fixpoint opened (st : list frame) : list sev :=
  match st with
  | [] => []
  | f :: st' => opened st' ++ tag (fr_name f) (fr_reqs f) :: flat_map tsevs (fr_kids f)
  end.
Definition sofar (root : list rtree) (st : list frame) : list sev := flat_map tsevs root ++ opened st.

Lemma sofar_kid t root st : sofar (fst (add_kid t root st)) (snd (add_kid t root st)) = sofar root st ++ tsevs t.
Proof.
  unfold add_kid, sofar. destruct st as [|f st]; cbn [fst snd opened fr_name fr_reqs fr_kids].
  - rewrite flat_map_app, !app_nil_r. cbn. now rewrite app_nil_r.
  - rewrite flat_map_app. cbn [flat_map]. rewrite app_nil_r, <- !app_assoc. cbn [app]. reflexivity.
Qed.

Lemma tsevs_elem n l kids : tsevs (RElem n l kids) = tag n l :: flat_map tsevs kids ++ [SEnd].
Proof.
  unfold tsevs. cbn [tree_of tree_sevs]. unfold tag, locals. repeat f_equal.
  induction kids as [|t kids IH]; cbn [map flat_map]; [reflexivity|]. now rewrite IH.
Qed.

Lemma sofar_finish f root st :
  let '(root', st') := add_kid (RElem (fr_name f) (fr_reqs f) (fr_kids f)) root st in sofar root' st' = sofar root (f :: st) ++ [SEnd].
Proof.
  pose proof (sofar_kid (RElem (fr_name f) (fr_reqs f) (fr_kids f)) root st) as E. destruct (add_kid _ root st) as [root' st'].
  cbn [fst snd] in E. rewrite E, tsevs_elem. unfold sofar. cbn [opened]. now rewrite <- !app_assoc.
Qed.

Lemma sofar_start n l root st : sofar root (Frame n l [] :: st) = sofar root st ++ [tag n l].
Proof. unfold sofar. cbn [opened fr_name fr_reqs fr_kids flat_map]. now rewrite app_assoc. Qed.

Lemma add_kid_length t root st : List.length (snd (add_kid t root st)) = List.length st.
Proof. destruct st; reflexivity. Qed.

Lemma ask_more :
  (forall d (p : wprog d) root st kids, List.length st = d -> ask_w p root st = Some kids -> exists x, flat_map tsevs kids = sofar root st ++ x) /\
  (forall d (q : bprog d) n l root st kids, List.length st = d -> ask_b q n l root st = Some kids ->
     exists l' x, flat_map tsevs kids = sofar root st ++ tag n l' :: x).
Proof.
  apply prog_mut; cbn [ask_w ask_b]; try discriminate.
  - intros [e|] root st kids L; [discriminate|]. intros [= <-]. destruct st; [|discriminate]. exists []. unfold sofar. cbn. now rewrite !app_nil_r.
  - intros d s f IH root st kids L A. pose proof (sofar_kid (RText s) root st) as E. pose proof (add_kid_length (RText s) root st) as L'.
    destruct (add_kid (RText s) root st) as [root' st']. cbn [fst snd] in *. destruct (IH None root' st' kids (eq_trans L' L) A) as [x X].
    rewrite E, <- app_assoc in X. eauto.
  - intros d n b IH root st kids L A. destruct (IH n [] root st kids L A) as (l' & x & X). eauto.
  - intros d f IH root st kids L A. destruct st as [|fr st]; [discriminate|]. pose proof (sofar_finish fr root st) as E.
    pose proof (add_kid_length (RElem (fr_name fr) (fr_reqs fr) (fr_kids fr)) root st) as L'.
    destruct (add_kid _ root st) as [root' st']. cbn [fst snd List.length] in *. injection L as L.
    destruct (IH None root' st' kids (eq_trans L' L) A) as [x X]. rewrite E, <- app_assoc in X. eauto.
  - intros d p u q IH n l root st kids L A. eauto.
  - intros d a v f IH n l root st kids L A. destruct (add_attr a v l) as [r l']. eauto.
  - intros d p IHp pe _ n l root st kids L A. destruct (IHp root (Frame n l [] :: st) kids (f_equal S L) A) as [x X].
    rewrite sofar_start, <- app_assoc in X. eauto.
Qed.

Definition dead_too (k k' : sink) (e : serr) : Prop := k_poison k' = Some e /\ k_out k' = k_out k.

Lemma dead_out dbg o :
  (forall d (p : wprog d) nss k e, k_poison k = Some e -> dead_too k (snd (fst (run_wl dbg o p nss k))) e) /\
  (forall d (q : bprog d) b nss k e, k_poison k = Some e -> dead_too k (snd (fst (run_bl dbg o q b nss k))) e).
Proof.
  assert (W : forall ev k e, k_poison k = Some e -> dead_too k (snd (write o ev k)) e).
  { intros ev k e H. unfold write. rewrite H. split; reflexivity. }
  assert (P : forall k e e', k_poison k = Some e -> k_poison (poison e' k) = Some e) by (intros k e e' H; cbn; now rewrite H).
  assert (R : forall k e, k_poison k = Some e -> dead_too k k e) by (intros k e H; split; auto).
  assert (Tr : forall k k' k'' e, k_out k' = k_out k -> dead_too k' k'' e -> dead_too k k'' e)
    by (intros k k' k'' e H [H1 H2]; split; congruence).
  apply prog_mut; cbn [run_wl run_bl fst snd]; auto.
  - intros d s f IH nss k e H. destruct (W (WChars s) k e H) as [W1 W2]. destruct (write o (WChars s) k) as [r k']. cbn [fst snd later] in *.
    exact (Tr _ _ _ _ W2 (IH r nss k' e W1)).
  - intros d n b IH nss k e H. destruct nss; [now apply R|]. exact (IH _ _ k e H).
  - intros d f IH nss k e H. destruct (W WEnd k e H) as [W1 W2]. destruct (write o WEnd k) as [r k']. cbn [fst snd later] in *.
    exact (Tr _ _ _ _ W2 (IH r (tl nss) k' e W1)).
  - intros d p IH nss k e H. exact (Tr k _ _ _ eq_refl (IH _ (poison writer_dropped k) e (P k e writer_dropped H))).
  - intros d p u q IH b nss k e H. destruct (builder_namespace dbg p u b); [|now apply R]. exact (IH _ _ k e H).
  - intros d n v f IH b nss k e H. destruct (builder_attribute n v b) as [[r b']|]; [|now apply R]. exact (IH _ _ _ k e H).
  - intros d p IH b nss k e H. exact (Tr k _ _ _ eq_refl (IH _ (poison builder_dropped k) e (P k e builder_dropped H))).
  - intros d p IHp pe IHe b nss k e H. unfold builder_start. destruct (finalize (b_ns b)) as [m|]; [|now apply R].
    destruct (resolve_element m (b_name b)) as [pn|]; [|now apply R]. destruct (resolve_attributes m (b_attrs b)) as [attrs|]; [|now apply R].
    destruct (W (WStart pn attrs (by_prefix m)) k e H) as [W1 W2]. destruct (write o (WStart pn attrs (by_prefix m)) k) as [[e'|] k'];
      cbn [fst snd] in *; [exact (Tr _ _ _ _ W2 (IHe _ _ k' e W1))|exact (Tr _ _ _ _ W2 (IHp _ k' e W1))].
Qed.

(** [x] was still to be written: what has been by then. *)
Definition written (o : io) (k : sink) (x : list sev) (y : (option serr + abort) * sink * list lcall) : Prop :=
  exists rest, map ev_sev (k_out k) ++ x = map ev_sev (k_out (snd (fst y))) ++ rest /\
    ((forall i, o i = None) -> forall a, fst (fst y) = inr a -> exists n attrs rest', rest = SStart n attrs :: rest') /\
    (forall r, fst (fst y) = inl r -> k_poison (snd (fst y)) = None -> rest = []).

Lemma written_dead o k k' x y e : k_out k' = k_out k -> dead_too k' (snd (fst y)) e -> (exists i, o i <> None) -> written o k x y.
Proof.
  intros O [P E] [i N]. exists x. rewrite E, O. split; [reflexivity|]. split; [intros F; now rewrite F in N|]. rewrite P. discriminate.
Qed.

Lemma write_alive o ev k : k_poison k = None ->
  (exists k', write o ev k = (None, k') /\ k_poison k' = None /\ k_out k' = k_out k ++ [ev]) \/
  (exists e k', write o ev k = (Some e, k') /\ k_poison k' = Some e /\ k_out k' = k_out k /\ exists i, o i <> None).
Proof.
  intro H. unfold write. rewrite H. destruct (o (k_tries k)) as [m|] eqn:E.
  - right. eexists _, _. split; [reflexivity|]. repeat split. exists (k_tries k). now rewrite E.
  - left. eexists. split; [reflexivity|]. auto.
Qed.

Lemma run_written dbg o :
  (forall d (p : wprog d) nss k root st kids, List.length st = d -> List.length nss = S d -> k_poison k = None -> ask_w p root st = Some kids ->
     exists x, flat_map tsevs kids = sofar root st ++ x /\ written o k x (run_wl dbg o p nss k)) /\
  (forall d (q : bprog d) b nss k base n l root st kids, List.length st = d -> List.length nss = S d -> k_poison k = None ->
     built dbg base n l b -> ask_b q n l root st = Some kids ->
     exists x, flat_map tsevs kids = sofar root st ++ x /\ written o k x (run_bl dbg o q b nss k)).
Proof.
  apply prog_mut; cbn [ask_w ask_b run_wl run_bl]; try discriminate.
  - intros [e|] nss k root st kids L N H; [discriminate|]. intros [= <-]. destruct st; [|discriminate].
    exists []. unfold sofar. cbn [opened]. split; [now rewrite !app_nil_r|]. exists []. split; [reflexivity|]. split; [discriminate|reflexivity].
  - intros d s f IH nss k root st kids L N H A.
    pose proof (sofar_kid (RText s) root st) as E. pose proof (add_kid_length (RText s) root st) as L'.
    destruct (add_kid (RText s) root st) as [root' st']. cbn [fst snd] in *.
    destruct (write_alive o (WChars s) k H) as [(k' & -> & P & O)|(e & k' & -> & P & O & F)].
    + destruct (IH None nss k' root' st' kids (eq_trans L' L) N P A) as (x & X & rest & W & Z). exists (SChars s :: x).
      rewrite X, E, <- app_assoc. split; [reflexivity|]. exists rest. cbn [later fst snd]. split; [|exact Z].
      rewrite <- W, O, map_app, <- app_assoc. reflexivity.
    + destruct (proj1 ask_more _ (f None) root' st' kids (eq_trans L' L) A) as [x X]. exists (SChars s :: x). rewrite X, E, <- app_assoc.
      split; [reflexivity|]. eapply written_dead; [exact O| |exact F]. cbn [later fst snd]. apply (proj1 (dead_out dbg o)). exact P.
  - intros d n b IH nss k root st kids L N H A. destruct nss as [|m nss]; [discriminate|].
    exact (IH (writer_element m n) (m :: nss) k _ n [] root st kids L N H (built_new dbg _ n) A).
  - intros d f IH nss k root st kids L N H A. destruct st as [|fr st]; [discriminate|]. pose proof (sofar_finish fr root st) as E.
    pose proof (add_kid_length (RElem (fr_name fr) (fr_reqs fr) (fr_kids fr)) root st) as L'.
    destruct (add_kid _ root st) as [root' st']. cbn [fst snd List.length] in *. injection L as L.
    assert (N' : List.length (tl nss) = S d) by (destruct nss; cbn in *; lia).
    destruct (write_alive o WEnd k H) as [(k' & -> & P & O)|(e & k' & -> & P & O & F)].
    + destruct (IH None (tl nss) k' root' st' kids (eq_trans L' L) N' P A) as (x & X & rest & W & Z). exists (SEnd :: x).
      rewrite X, E, <- app_assoc. split; [reflexivity|]. exists rest. cbn [later fst snd]. split; [|exact Z].
      rewrite <- W, O, map_app, <- app_assoc. reflexivity.
    + destruct (proj1 ask_more _ (f None) root' st' kids (eq_trans L' L) A) as [x X]. exists (SEnd :: x). rewrite X, E, <- app_assoc.
      split; [reflexivity|]. eapply written_dead; [exact O| |exact F]. cbn [later fst snd]. apply (proj1 (dead_out dbg o)). exact P.
  - intros d p u q IH b nss k base n l root st kids L N H B A. destruct (builder_namespace dbg p u b) as [b'|y] eqn:E.
    + exact (IH b' nss k base n _ root st kids L N H (built_ns _ _ _ _ _ _ _ _ B E) A).
    + destruct (proj2 ask_more _ q n _ root st kids L A) as (l' & x & X). eexists. split; [exact X|]. eexists. split; [reflexivity|].
      split; [intros _ a _; unfold tag; eauto|discriminate].
  - intros d a v f IH b nss k base n l root st kids L N H B A. destruct (built_attr dbg base n l b a v B) as (b' & E & B').
    rewrite E. destruct (add_attr a v l) as [r l']. cbn [fst snd] in *. exact (IH r b' nss k base n l' root st kids L N H B' A).
  - intros d p IHp pe IHe b nss k base n l root st kids L N H B A. rewrite (built_start dbg o base n l b k B).
    destruct (proj1 ask_more _ p root (Frame n l [] :: st) kids (f_equal S L) A) as [x X]. rewrite sofar_start, <- app_assoc in X.
    destruct (begin_tag dbg base n l) as [[ev m]|y] eqn:T.
    + apply begin_tag_local in T. destruct (write_alive o ev k H) as [(k' & -> & P & O)|(e & k' & -> & P & O & F)].
      * destruct (IHp (m :: nss) k' root (Frame n l [] :: st) kids (f_equal S L) ltac:(cbn; lia) P A) as (x' & X' & rest & W & Z).
        exists (tag n l :: x'). rewrite X', sofar_start, <- app_assoc. split; [reflexivity|]. exists rest. split; [|exact Z].
        refine (eq_trans _ W). rewrite O, map_app, <- app_assoc. cbn [map app]. now rewrite T.
      * eexists. split; [exact X|]. eapply written_dead; [exact O| |exact F]. exact (proj1 (dead_out dbg o) _ (pe e) nss k' e P).
    + eexists. split; [exact X|]. eexists. split; [reflexivity|]. split; [|discriminate]. intros _ a _. unfold tag. cbn [app]. eauto.
Qed.

Lemma to_written dbg o n v t : asked n v = Some t ->
  exists rest, tree_sevs (tree_of t) = map ev_sev (k_out (snd (fst (to_l dbg o n v)))) ++ rest /\
    ((forall i, o i = None) -> forall a, fst (fst (to_l dbg o n v)) = inr a -> exists m attrs rest', rest = SStart m attrs :: rest').
Proof.
  unfold asked. destruct (ask_a (s_attrs v) []) as [l|] eqn:A; [|discriminate]. destruct (ask_w (s_kids v) [] []) as [kids|] eqn:K; [|discriminate].
  intros [= <-]. fold (tsevs (RElem n l kids)). rewrite tsevs_elem. unfold to_l.
  pose proof (run_a_same dbg (s_attrs v) (BState n [] [] [])) as S1.
  assert (H0 : forall (y : (option serr + abort)) (q : list lcall), exists rest, tag n l :: flat_map tsevs kids ++ [SEnd] =
    map ev_sev (k_out (snd (fst (y, sink0, q)))) ++ rest /\
    ((forall i, o i = None) -> forall a, fst (fst (y, sink0, q)) = inr a -> exists m attrs rest', rest = SStart m attrs :: rest')).
  { intros y q. eexists. split; [reflexivity|]. intros _ a _. unfold tag. eauto. }
  destruct (run_al dbg (s_attrs v) _) as [[[r|x] b] q]; cbn [fst] in S1; [|apply H0].
  destruct (ask_run_a dbg _ _ n [] _ _ _ _ (built_new dbg [] n) A S1) as [-> B].
  rewrite (built_start dbg o [] n l b sink0 B). destruct (begin_tag dbg [] n l) as [[ev m]|x] eqn:T; [|apply H0].
  apply begin_tag_local in T. destruct (write_alive o ev sink0 eq_refl) as [(k & -> & P & O)|(e & k & -> & P & O & i & F)].
  - destruct (proj1 (run_written dbg o) _ (s_kids v) [m] k [] [] kids eq_refl eq_refl P K) as (x & X & rest & W & Z & Y).
    unfold sofar in X. cbn [flat_map opened app] in X. subst x. rewrite O in W. cbn [sink0 k_out app map] in W. rewrite T in W.
    assert (W' : tag n l :: flat_map tsevs kids ++ [SEnd] = map ev_sev (k_out (snd (fst (run_wl dbg o (s_kids v) [m] k)))) ++ rest ++ [SEnd])
      by (rewrite app_assoc, <- W; reflexivity).
    destruct (run_wl dbg o (s_kids v) [m] k) as [[[[e|]|y] k'] l'] eqn:R; cbn [fst snd] in *.
    + exists (rest ++ [SEnd]). split; [exact W'|]. discriminate.
    + destruct (k_poison k') as [e|] eqn:Q.
      * exists (rest ++ [SEnd]). unfold write. rewrite Q. split; [exact W'|]. discriminate.
      * rewrite (Y None eq_refl eq_refl) in W'. unfold write. rewrite Q. destruct (o (k_tries k')); cbn [fst snd k_out].
        -- exists [SEnd]. split; [exact W'|]. discriminate.
        -- exists []. rewrite app_nil_r, map_app. split; [exact W'|]. discriminate.
    + exists (rest ++ [SEnd]). split; [exact W'|]. intros F a Ea. destruct (Z F a Ea) as (n' & attrs & rest' & ->). cbn [app]. eauto.
  - cbn [fst snd]. eexists. split; [rewrite O; reflexivity|]. discriminate.
Qed.

Lemma to_same_iff dbg o n v :
  (forall r k, to dbg o n v = inl (r, k) <-> exists l, to_l dbg o n v = (inl r, k, l)) /\
  (forall x, to dbg o n v = inr x <-> exists k l, to_l dbg o n v = (inr x, k, l)).
Proof.
  rewrite to_same. unfold forget. destruct (to_l dbg o n v) as [[[r|x] k] l]; cbn [fst]; split.
  - intros r' k'. split; [intros [= -> ->]; eauto|intros [l' [= -> -> _]]; reflexivity].
  - intro x. split; [discriminate|intros (k' & l' & [=])].
  - intros r' k'. split; [discriminate|intros [l' [=]]].
  - intro x'. split; [intros [= ->]; eauto|intros (k' & l' & [= -> _ _]); reflexivity].
Qed.
