(** Values that are written alike. *)
From Verif Require Import Base Normalize Text Find Types Ser SerSpec DSerSpec DSerProofs DSerProps DeriveSer Reader ReaderSpec
  DeriveDe DeSpec DeProps RTSpec RTProofs RTProps SchemaStable.

Lemma indented_telem t t' : indented t t' -> is_telem t = true -> is_telem t' = true.
Proof. destruct 1; auto. Qed.

Theorem written_alike o env id pol : compiles env -> names_ok env -> legal_env env -> no_default env ->
  (pol = NsSpec.SkipIfAnywhere -> coherent_env env) ->
  forall dbg1 w1 v1 k1 t1 dbg2 w2 v2 k2 t2 t',
  serialize_root o env dbg1 w1 id v1 = inl (None, k1) -> serialize_root o env dbg2 w2 id v2 = inl (None, k2) ->
  NsSpec.meaning [] (NsSpec.emit pol [] (k_out k1)) = Some (NsSpec.tree_events t1) ->
  NsSpec.meaning [] (NsSpec.emit pol [] (k_out k2)) = Some (NsSpec.tree_events t2) ->
  indented t1 t' -> indented t2 t' ->
  survives o env (ERef id) v1 -> survives o env (ERef id) v2 -> v1 = v2.
Proof.
  intros Hc Hn HL Hd Hp dbg1 w1 v1 k1 t1 dbg2 w2 v2 k2 t2 t' S1 S2 M1 M2 I1 I2 V1 V2.
  destruct (round_trip o env Bisect dbg1 w1 id v1 k1 pol Hc Hn HL Hd Hp S1) as (u1 & N1 & E1 & R1).
  destruct (round_trip o env Bisect dbg2 w2 id v2 k2 pol Hc Hn HL Hd Hp S2) as (u2 & N2 & _ & R2).
  rewrite M1 in N1. injection N1 as N1. rewrite <- (app_nil_r (NsSpec.tree_events t1)), <- (app_nil_r (NsSpec.tree_events u1)) in N1.
  apply events_tree in N1. destruct N1 as [<- _].
  rewrite M2 in N2. injection N2 as N2. rewrite <- (app_nil_r (NsSpec.tree_events t2)), <- (app_nil_r (NsSpec.tree_events u2)) in N2.
  apply events_tree in N2. destruct N2 as [<- _].
  pose proof (indented_telem _ _ I1 E1) as E'. pose proof (render_shows t' E') as Sh.
  destruct (render t') as [name attrs ns p kids pe| | |] eqn:Er; try now inversion Sh.
  set (d := Doc (0, 0)%N [] name attrs ns p kids pe []).
  pose proof (proj2 (R1 t' d I1 Sh false (0, 0)%N) V1) as Q1.
  pose proof (proj2 (R2 t' d I2 Sh false (0, 0)%N) V2) as Q2.
  rewrite Q1 in Q2. now injection Q2.
Qed.

Theorem written_apart o env id pol : compiles env -> names_ok env -> legal_env env -> no_default env ->
  (pol = NsSpec.SkipIfAnywhere -> coherent_env env) ->
  forall dbg1 w1 v1 k1 t1 dbg2 w2 v2 k2 t2,
  serialize_root o env dbg1 w1 id v1 = inl (None, k1) -> serialize_root o env dbg2 w2 id v2 = inl (None, k2) ->
  NsSpec.meaning [] (NsSpec.emit pol [] (k_out k1)) = Some (NsSpec.tree_events t1) ->
  NsSpec.meaning [] (NsSpec.emit pol [] (k_out k2)) = Some (NsSpec.tree_events t2) ->
  survives o env (ERef id) v1 -> survives o env (ERef id) v2 -> v1 <> v2 ->
  forall t', ~ (indented t1 t' /\ indented t2 t').
Proof.
  intros Hc Hn HL Hd Hp dbg1 w1 v1 k1 t1 dbg2 w2 v2 k2 t2 S1 S2 M1 M2 V1 V2 N t' [I1 I2].
  apply N. exact (written_alike o env id pol Hc Hn HL Hd Hp _ _ _ _ _ _ _ _ _ _ t' S1 S2 M1 M2 I1 I2 V1 V2).
Qed.
