(** Conditions on programs in which derived and hand-written code use each other. *)
From Verif Require Import Base Types Reader DeriveDe DeSpec DeriveMixed.

Section Spec.
  Context {U : Type} (env : tenv) (P : user U).

  (** A type that has a [Deserialize] implementation, derived or not. *)
  Definition has_deserialize (t : ety) : Prop :=
    match t with EText _ => True | ERef id => env id <> None \/ u_type P id <> None end.

  (** rustc accepts the program ([compiles] in DeSpec.v, where all types are derived). *)
  Definition mfield_compiles (f : field) : Prop :=
    match f_mode f with
    | MElement _ t => has_deserialize t
    | MAttribute _ _ => True
    | MFlatten id => exists ident root nss vs sk, env id = Some (TDEnum ident root nss vs sk)
    | MText _ => False
    end.

  Definition mvariant_compiles (v : variant) : Prop :=
    match v_ty v with None => True | Some (_, t) => has_deserialize t end.

  (** Every outcome of a hand-written decision satisfies [good], and the types it uses exist. *)
  Definition every {A} (good : A -> Prop) (act : uaction U A) : Prop :=
    match act with
    | UNoRead a => good a
    | UReadString k => forall x, good (k x)
    | UReadTo _ k => forall x u, good (k x u)
    | UDeserialize t k => known_ty env t /\ forall x, good (k x)
    end.

  Definition aborts_in {E A} (Q : abort -> Prop) (r : res E A) : Prop := forall x, r = Abort x -> Q x.

  Record program (Q : abort -> Prop) : Prop := Program {
    p_derived : forall id d, env id = Some d ->
      match d with
      | TDStruct _ _ _ fs => Forall mfield_compiles fs
      | TDEnum _ _ _ vs _ => Forall mvariant_compiles vs
      end;
    (** Hand-written code panics only with [Q]. *)
    p_type : forall id D i, u_type P id = Some D -> every (aborts_in Q) (D i);
    p_attribute : forall u n v, aborts_in Q (fst (u_attribute P u n v));
    p_characters : forall u s p, aborts_in Q (fst (u_characters P u s p));
    p_element : forall u i, every (fun a => aborts_in Q (fst a)) (u_element P u i);
  }.

  (** Hand-written code hands on the errors of reading. *)
  Definition hands_on {A} (fails : A -> Prop) (act : uaction U A) : Prop :=
    match act with
    | UNoRead _ => True
    | UReadString k => forall e, fails (k (inr e))
    | UReadTo _ k => forall e u, fails (k (inr e) u)
    | UDeserialize _ k => forall e, fails (k (inr e))
    end.

  Definition strict : Prop :=
    (forall id D i, u_type P id = Some D -> hands_on (fun r => forall v, r <> Ok v) (D i)) /\
    (forall u i, hands_on (fun a => forall b, fst a <> Ok b) (u_element P u i)).
End Spec.

(** Neither undefined behaviour nor a live value overwritten; and the program was well-typed. *)
Definition harmless (x : abort) : Prop := x <> UB /\ x <> overwritten /\ x <> ill_typed.

(** Hand-written visitors [V] and the type number [id] with the implementation [D], as code of a program
    that uses no derived type. *)
Definition by_hand {U A} (act : action U A) : uaction U A :=
  match act with
  | ANoRead a => UNoRead a
  | AReadString k => UReadString k
  | AReadTo u k => UReadTo u k
  end.

Definition hand {U} (V : visitors U) (D : einfo -> action U (res verr value)) (id : nat) : user U := {|
  u_type := fun j => if Nat.eqb j id then Some (fun i => by_hand (D i)) else None;
  u_attribute := v_attribute V;
  u_characters := v_characters V;
  u_element := fun u i => by_hand (v_element V u i);
|}.
