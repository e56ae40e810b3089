(** Property theorems for C57: how deeply reading recurses.

    [levels_enough b V D src fin]: reading the stream [src], [fin] with the [Deserialize] implementation [D] and the
    visitors [V] never nests calls of [read_to] more than [b] deep: giving up there would not be noticed.
    [levels_exceeded]: it does (DepthSpec.v).  [chain env id b]: from type [id], [b] steps to the type of a child
    element are possible. *)
From Coq Require Import Lia.
From Verif Require Import Base Normalize Text Find FindProofs Types Reader ReaderSpec DeriveDe DeSpec DepthSpec DepthProofs
  DepthDe PropReader PropDe.

(** ** C57: nesting *)

(** Any user code, any stream: at most as deep as elements are open. *)
Theorem C57_open_elements : forall St T (V : visitors St) (D : einfo -> action St (res verr T)) b src fin,
  depth_at_most b src -> levels_enough b V D src fin.
Proof. exact @open_elements. Qed.
Print Assumptions C57_open_elements.

(** Derived types: any stream, also a malformed one, however deep. *)
Theorem C57_bounded : forall o alg env b id, ~ chain env id b ->
  forall src fin, levels_enough b (derived o alg env) (de_root o env (ERef id)) src fin.
Proof. exact chains_bound. Qed.
Print Assumptions C57_bounded.

Theorem C57_text : forall o alg env t src fin, levels_enough 0 (derived o alg env) (de_root o env (EText t)) src fin.
Proof. exact text_levels. Qed.
Print Assumptions C57_text.

(** The bound is exact. *)
Theorem C57_exact : forall o alg env b id, names_ok env -> compiles env -> unshadowed env ->
  (forall src fin, levels_enough b (derived o alg env) (de_root o env (ERef id)) src fin) <-> ~ chain env id b.
Proof. exact levels_exact. Qed.
Print Assumptions C57_exact.

(** A recursive type: no number of levels is enough for all documents. *)
Theorem C57_recursive : forall o alg env id, names_ok env -> compiles env -> unshadowed env -> below_type env id id ->
  forall b, exists d, forall pe,
  levels_exceeded b (derived o alg env) (de_root o env (ERef id)) (doc_events d) (FEndDocument pe).
Proof. exact recursive_unbounded. Qed.
Print Assumptions C57_recursive.

Theorem C57_exclusive : forall St T b (V : visitors St) (D : einfo -> action St (res verr T)) src fin,
  levels_enough b V D src fin -> levels_exceeded b V D src fin -> False.
Proof. exact @enough_not_exceeded. Qed.
Print Assumptions C57_exclusive.

(** ** Examples *)

(** A person's friends are persons. *)
Example C57_example_recursive : names_ok env0 /\ compiles env0 /\ unshadowed env0 /\ below_type env0 0 0.
Proof.
  split; [exact env0_ok|]. split; [exact env0_compiles|]. split.
  - intros [|[|[|[|[|id]]]]] ident root nss fs [= <- <- <- <-]; vm_compute; nodup.
  - eapply bt_child; [reflexivity|]. eapply ct_field with (f := nth 4 person_fields (Field (ln "") (MText TBool) None));
      [vm_compute; tauto|vm_compute; reflexivity].
Qed.

(** A library has shelves; a shelf has, flattened, boxes of books or a catalogue. *)
Definition lib_env : tenv := fun id =>
  match id with
  | 0 => Some (TDStruct "Library" (ln "library") [] [Field (ln "shelf") (MElement KVec (ERef 1)) None])
  | 1 => Some (TDStruct "Shelf" (ln "shelf") [] [Field (ln "content") (MFlatten 2) None])
  | 2 => Some (TDEnum "Content" (ln "content") []
           [Variant (ln "box") (Some (KVec, ERef 3)); Variant (ln "catalogue") (Some (KOne, str_ty))] false)
  | 3 => Some (TDStruct "Box" (ln "box") [] [Field (ln "book") (MElement KVec (str_ty)) None])
  | _ => None
  end.

Lemma lib_chain : chain lib_env 0 2 /\ ~ chain lib_env 0 3.
Proof.
  assert (C01 : forall id, child_type lib_env (TDStruct "Library" (ln "library") [] [Field (ln "shelf") (MElement KVec (ERef 1)) None]) id -> id = 1).
  { intros id H. inversion H as [? ? ? ? f k ? Hf Hm|? ? ? ? f fid ? ? ? vs sk ? Hf Hm|]; subst; destruct Hf as [<-|[]]; vm_compute in Hm; congruence. }
  assert (C12 : forall id, child_type lib_env (TDStruct "Shelf" (ln "shelf") [] [Field (ln "content") (MFlatten 2) None]) id -> id = 3).
  { intros id H. inversion H as [? ? ? ? f k ? Hf Hm|? ? ? ? f fid ? ? ? vs sk ? Hf Hm He (v & k & Hv & Ht)|]; subst;
      destruct Hf as [<-|[]]; cbn in Hm; try discriminate. injection Hm as <-. cbn in He. injection He as <- <- <- <- <-.
    destruct Hv as [<-|[<-|[]]]; vm_compute in Ht; congruence. }
  assert (C3 : forall id, child_type lib_env (TDStruct "Box" (ln "box") [] [Field (ln "book") (MElement KVec (str_ty)) None]) id -> False).
  { intros id H. inversion H as [? ? ? ? f k ? Hf Hm|? ? ? ? f fid ? ? ? vs sk ? Hf Hm|]; subst; destruct Hf as [<-|[]]; vm_compute in Hm; congruence. }
  split.
  - eapply (chain_step _ _ _ 1); [reflexivity|eapply ct_field; [now left|reflexivity]|].
    eapply (chain_step _ _ _ 3); [reflexivity| |eapply chain_here; reflexivity].
    eapply ct_flatten; [now left|reflexivity|reflexivity|]. eexists _, _. split; [now left|reflexivity].
  - intro H. inversion H as [|? d1 i1 ? E1 T1 H1]; subst. injection E1 as <-. apply C01 in T1. subst.
    inversion H1 as [|? d2 i2 ? E2 T2 H2]; subst. injection E2 as <-. apply C12 in T2. subst.
    inversion H2 as [|? d3 i3 ? E3 T3 H3]; subst. injection E3 as <-. now apply C3 in T3.
Qed.

(** Three levels: the library, a shelf, a box.  Elements nested ever deeper in it make no difference. *)
Fixpoint deep (n : nat) : list node :=
  match n with 0 => [] | S n' => [NElem (nm "x") [] [] (at_ 1) (deep n') (at_ 2)] end.

Definition lib_doc (n : nat) : doc := doc_of []
  (deep n ++ [NElem (nm "shelf") [] [] (at_ 3) (NElem (nm "box") [] [] (at_ 4) (deep n) (at_ 5) :: deep n) (at_ 6)]).

Example C57_example :
  (forall o alg src fin, levels_enough 3 (derived o alg lib_env) (de_root o lib_env (ERef 0)) src fin) /\
  (forall o alg, exists d, forall pe,
     levels_exceeded 2 (derived o alg lib_env) (de_root o lib_env (ERef 0)) (doc_events d) (FEndDocument pe)) /\
  read_as oracles0 Bisect lib_env true (ERef 0) (doc_events (lib_doc 100)) end0 =
    Ok (VStruct [VVec [VStruct [VEnum 0 (Some (VVec [VStruct [VVec []]]))]]]).
Proof.
  destruct lib_chain as [C2 C3]. split; [|split].
  - intros o alg. now apply C57_bounded.
  - intros o alg. apply chains_needed; auto.
    + intros [|[|[|[|id]]]] d [= <-]; split; try (vm_compute; nodup; fail);
        intros v Hv; vm_compute in Hv; intuition subst; discriminate.
    + intros [|[|[|[|id]]]] d [= <-]; repeat constructor; cbn; try discriminate; unfold field_compiles; cbn; do 5 eexists; reflexivity.
    + intros [|[|[|[|id]]]] ident root nss fs [= <- <- <- <-]; vm_compute; nodup.
  - vm_compute. reflexivity.
Qed.
