(** What a document keeps when it is loaded and saved: proofs. *)
From Verif Require Import Base Normalize Text Find FindProofs Types Ser SerSpec DeriveSer DSerSpec DSerProofs DSerProps
  Reader ReaderSpec DeSpec DeProps DeriveDe RTSpec RTProofs RTProps RTStableSpec RTStable LossSpec LossProofs.
From Verif Require Import NsSpec.

Lemma saved_equal o env alg dbg id d pe v dbg1 pol :
  compiles env -> names_ok env -> defaultless env -> one_flattened env -> settled_env o env -> names_declared env ->
  legal_env env -> no_default env -> (pol = SkipIfAnywhere -> coherent_env env) -> unblank (d_root d) ->
  read_as o alg env dbg (ERef id) (doc_events d) (FEndDocument pe) = Ok v ->
  exists k t, serialize_root o env dbg1 (fun _ => None) id v = inl (None, k) /\
    meaning [] (emit pol [] (k_out k)) = Some (tree_events t) /\
    forall t' d', indented t t' -> shows t' (d_root d') -> equal_for o env (ERef id) (d_root d) (d_root d').
Proof.
  intros H1 H2 H3 H4 H5 H6 H7 H8 H9 H10 H11.
  destruct (load_save_load o env alg dbg id d pe v dbg1 pol H1 H2 H5 H6 H7 H8 H9 H10 H11) as (k & t & E1 & E2 & _ & E3).
  exists k, t. split; [exact E1|]. split; [exact E2|]. intros t' d' I S.
  exact (proj1 (read_exact o env H2 H3 H4 alg dbg dbg (ERef id) d d' pe pe v H11) (E3 t' d' I S dbg pe)).
Qed.
