(** Where errors come from, and that nobody looks at them: relations between two programs whose user code makes
    corresponding errors. *)
From Verif Require Import Base Text Types Reader ReaderSpec DeriveDe DeriveMixed Source.

(** The messages of derived code (de/mod.rs 38-90). *)
Inductive derived_message : string -> Prop :=
| dm_missing_element : forall n, derived_message ("Missing expected element " ++ xn_display n)
| dm_missing_attribute : forall n, derived_message ("Missing expected attribute " ++ xn_display n)
| dm_duplicate_attribute : forall n, derived_message ("Duplicate attribute " ++ xn_display n)
| dm_duplicate_element : forall n, derived_message ("Duplicate element " ++ xn_display n)
| dm_unexpected_element : forall n a,
    derived_message ("Got unexpected element " ++ xn_display n ++ " after " ++ xn_display a)%string
| dm_empty : forall ident, derived_message (ident ++ " can't be empty").

Section Spec.
  (** [W m1 m2]: where user code of the one program makes the error [m1], that of the other makes [m2].
      [fin]: how the events end. *)
  Context (W : string -> string -> Prop) (fin : final).

  Definition kind_rel (k1 k2 : ekind) : Prop :=
    match k1, k2 with
    | EXml e1, EXml e2 => e1 = e2 /\ fin = FError e1
    | EDeserializer m1, EDeserializer m2 => W m1 m2
    | EMsg m1, EMsg m2 => m1 = m2
    | _, _ => False
    end.

  Definition error_rel (e1 e2 : error) : Prop :=
    kind_rel (er_kind e1) (er_kind e2) /\ er_stack e1 = er_stack e2 /\ er_pos e1 = er_pos e2.

  Definition verr_rel (e1 e2 : verr) : Prop :=
    match e1, e2 with
    | Propagate e1, Propagate e2 => error_rel e1 e2
    | Wrap m1, Wrap m2 => W m1 m2
    | _, _ => False
    end.

  Notation same := (res_sim verr_rel).

  (** What a call of the library gives to user code. *)
  Definition given {X} (x1 x2 : X + verr) : Prop :=
    match x1, x2 with
    | inl a, inl b => a = b
    | inr e1, inr e2 => verr_rel e1 e2
    | _, _ => False
    end.

  Section Programs.
    (** [R u1 u2]: the states correspond. *)
    Context {U1 U2 : Type} (R : U1 -> U2 -> Prop).

    (** The same decision, with corresponding outcomes. *)
    Definition same_act {A1 A2} (G : A1 -> A2 -> Prop) (a1 : uaction U1 A1) (a2 : uaction U2 A2) : Prop :=
      match a1, a2 with
      | UNoRead x1, UNoRead x2 => G x1 x2
      | UReadString k1, UReadString k2 => forall x1 x2, given x1 x2 -> G (k1 x1) (k2 x2)
      | UReadTo s1 k1, UReadTo s2 k2 =>
          R s1 s2 /\ forall x1 x2 u1 u2, given x1 x2 -> R u1 u2 -> G (k1 x1 u1) (k2 x2 u2)
      | UDeserialize t1 k1, UDeserialize t2 k2 => t1 = t2 /\ forall x1 x2, given x1 x2 -> G (k1 x1) (k2 x2)
      | _, _ => False
      end.

    Definition same_step {E A} (Q : E -> E -> Prop) (x1 : res E A * U1) (x2 : res E A * U2) : Prop :=
      res_sim Q (fst x1) (fst x2) /\ R (snd x1) (snd x2).

    Record same_code (P1 : user U1) (P2 : user U2) : Prop := SameCode {
      sc_type : forall id,
        match u_type P1 id, u_type P2 id with
        | Some D1, Some D2 => forall i, same_act same (D1 i) (D2 i)
        | None, None => True
        | _, _ => False
        end;
      sc_attribute : forall u1 u2 n v, R u1 u2 -> same_step verr_rel (u_attribute P1 u1 n v) (u_attribute P2 u2 n v);
      sc_characters : forall u1 u2 s p, R u1 u2 -> same_step W (u_characters P1 u1 s p) (u_characters P2 u2 s p);
      sc_element : forall u1 u2 i, R u1 u2 -> same_act (same_step verr_rel) (u_element P1 u1 i) (u_element P2 u2 i);
    }.
  End Programs.
End Spec.

(** ** One program *)

Section One.
  (** User code makes only errors of [M]. *)
  Context (M : string -> Prop) (fin : final).

  Definition from (e : error) : Prop :=
    match er_kind e with
    | EXml x => fin = FError x
    | EDeserializer m => M m
    | EMsg _ => True
    end.

  Definition vfrom (e : verr) : Prop := match e with Propagate e => from e | Wrap m => M m end.

  Definition errs {E A} (Q : E -> Prop) (r : res E A) : Prop := forall e, r = Err e -> Q e.
  Definition gets {X} (x : X + verr) : Prop := forall e, x = inr e -> vfrom e.

  (** [I]: what the states of hand-written visitors hold (the errors they keep, for example). *)
  Context {U : Type} (I : U -> Prop).

  Definition only_act {A} (good : A -> Prop) (act : uaction U A) : Prop :=
    match act with
    | UNoRead a => good a
    | UReadString k => forall x, gets x -> good (k x)
    | UReadTo u0 k => I u0 /\ forall x u, gets x -> I u -> good (k x u)
    | UDeserialize _ k => forall x, gets x -> good (k x)
    end.

  Definition only_step {E A} (Q : E -> Prop) (x : res E A * U) : Prop := errs Q (fst x) /\ I (snd x).

  Record only_code (P : user U) : Prop := OnlyCode {
    oc_type : forall id D i, u_type P id = Some D -> only_act (errs vfrom) (D i);
    oc_attribute : forall u n v, I u -> only_step vfrom (u_attribute P u n v);
    oc_characters : forall u s p, I u -> only_step M (u_characters P u s p);
    oc_element : forall u i, I u -> only_act (only_step vfrom) (u_element P u i);
  }.
End One.
