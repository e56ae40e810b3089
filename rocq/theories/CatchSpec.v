(** Reading with caught panics, over the document's tree (C65), see ReaderSpec.v: no depth counter, no element stack,
    no skipping.  After a child's callback returned [Ok], whatever happened in it, the next child follows. *)
From Verif Require Import Base Reader ReaderSpec Catch.

Section Sem.
  Context {St : Type} (V : cvisitors St).

  Fixpoint csem_attrs (path : list selem) (p : position) (attrs : list attr) (s : St)
    : res error unit * St :=
    match attrs with
    | [] => (Ok tt, s)
    | a :: attrs' =>
        match c_attribute V s (from_xml_name (a_name a)) (a_value a) with
        | (Ok _, s') => csem_attrs path p attrs' s'
        | (Err e, s') => (Err (wrap e path p), s')
        | (Abort x, s') => (Abort x, s')
        end
    end.

  (** What reading the element [path] does.  [rd] is reading it with a visitor. *)
  Definition csem_act {A} (rd : St -> (res error endinfo * St) * place)
    (path : list selem) (p : position) (kids : list node) (pe : position) (act : caction St A)
    : (A + abort) * place :=
    match act with
    | CNoRead a => (inl a, (path, p))
    | CReadString k =>
        match sem_string path "" kids pe with
        | (Ok s, pl) => (inl (k (inl s)), pl)
        | (Err e, pl) => (inl (k (inr (Failed (Propagate e)))), pl)
        | (Abort x, pl) => (inr x, pl)
        end
    | CReadTo s0 k =>
        match rd s0 with
        | (Ok i, s, pl) => (inl (k (inl i) s), pl)
        | (Err e, s, pl) => (inl (k (inr (Failed (Propagate e))) s), pl)
        | (Abort (Panic m), s, pl) => (inl (k (inr (Panicked m)) s), pl)
        | (Abort x, _, pl) => (inr x, pl)
        end
    end.

  Definition csem_kids (rd : node -> list selem -> St -> (res error endinfo * St) * place)
    : list selem -> endinfo -> list node -> St -> (res error endinfo * St) * place :=
    fix csem_kids (path : list selem) (fin : endinfo) (kids : list node) (s : St)
    : (res error endinfo * St) * place :=
    match kids with
    | [] => ((Ok fin, s), (path, snd fin))
    | c :: kids' =>
        match c with
        | NMisc _ _ | NBlank _ _ => csem_kids path fin kids' s
        | NText _ str p =>
            match c_characters V s str p with
            | (Ok _, s') => csem_kids path fin kids' s'
            | (Err m, s') => ((Err (Error (EDeserializer m) path p), s'), (path, p))
            | (Abort x, s') => ((Abort x, s'), (path, p))
            end
        | NElem name attrs ns p kids1 pe =>
            let path' := path ++ [SElem name p] in
            match csem_act (rd c path) path' p kids1 pe
                    (c_element V s (EInfo name ns (List.length path'))) with
            | (inl (Ok _, s'), _) => csem_kids path fin kids' s'
            | (inl (Err e, s'), pl) => ((Err (wrap e (fst pl) p), s'), pl)
            | (inl (Abort x, s'), pl) => ((Abort x, s'), pl)
            | (inr x, pl) => ((Abort x, s), pl)
            end
        end
    end.

  Fixpoint csem_read (n : node) (parents : list selem) (s : St)
    : (res error endinfo * St) * place :=
    match n with
    | NElem name attrs ns p kids pe =>
        let path := parents ++ [SElem name p] in
        match csem_attrs path p attrs s with
        | (Ok _, s1) => csem_kids csem_read path (name, ns, pe) kids s1
        | (Err e, s1) => ((Err e, s1), (path, p))
        | (Abort x, s1) => ((Abort x, s1), (path, p))
        end
    | _ => ((Abort (Panic "not an element"), s), (parents, (0%N, 0%N)))
    end.

  Definition csem_doc {T} (D : einfo -> caction St (res verr T)) (d : doc) : res error T :=
    let path := [SElem (d_name d) (d_pos d)] in
    match csem_act (csem_read (d_root d) []) path (d_pos d) (d_kids d) (d_pe d)
            (D (EInfo (d_name d) (d_ns d) 1)) with
    | (inl (Ok v), _) => Ok v
    | (inl (Err e), pl) => Err (wrap e (fst pl) (snd pl))
    | (inl (Abort x), _) => Abort x
    | (inr x, _) => Abort x
    end.
End Sem.

(** ** Programs that catch nothing *)

(** A panic unwinds further. *)
Definition unwinding_act {St A B} (act : action St A) (panics : string -> option St -> B) (f : A -> B) : caction St B :=
  match act with
  | ANoRead a => CNoRead (f a)
  | AReadString k => CReadString (fun x => match x with
                                           | inl s => f (k (inl s))
                                           | inr (Failed e) => f (k (inr e))
                                           | inr (Panicked m) => panics m None
                                           end)
  | AReadTo s0 k => CReadTo s0 (fun x s => match x with
                                           | inl i => f (k (inl i) s)
                                           | inr (Failed e) => f (k (inr e) s)
                                           | inr (Panicked m) => panics m (Some s)
                                           end)
  end.

Definition unwinding {St} (V : visitors St) : cvisitors St := {|
  c_attribute := v_attribute V;
  c_characters := v_characters V;
  c_element := fun s i => unwinding_act (v_element V s i) (fun m _ => (Abort (Panic m), s)) (fun a => a);
|}.

Definition unwinding_root {St T} (D : einfo -> action St (res verr T)) (i : einfo) : caction St (res verr T) :=
  unwinding_act (D i) (fun m _ => Abort (Panic m)) (fun a => a).

(** ** Conditions on user code *)

(** Callbacks may panic (and catch panics); they do not loop. *)
Definition returns {E A} (r : res E A) : Prop := forall x, r = Abort x -> exists m, x = Panic m.

Definition returns_act {St A} (good : A -> Prop) (act : caction St A) : Prop :=
  match act with
  | CNoRead a => good a
  | CReadString k => forall x, good (k x)
  | CReadTo _ k => forall x s, good (k x s)
  end.

Record all_return {St} (V : cvisitors St) : Prop := AllReturn {
  ret_attribute : forall s n v, returns (fst (c_attribute V s n v));
  ret_characters : forall s str p, returns (fst (c_characters V s str p));
  ret_element : forall s i, returns_act (fun a => returns (fst a)) (c_element V s i);
}.

(** The implementation at the root lets no panic out. *)
Definition root_catches {St T} (D : einfo -> caction St (res verr T)) : Prop :=
  forall i, returns_act no_abort (D i).
