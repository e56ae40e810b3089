(** What the code of GenCode.v does when it runs.

    Everything is found by name: the visitor's fields, the fields of the value that is being built, and the
    variants of enums.  Code that rustc rejects (an unknown field, a field that is defined or initialized
    twice, a moved child) aborts with [ill_typed].  As in DeriveDe.v, reading uninitialized memory is
    [Abort UB] and overwriting a live value is an abort. *)
From Verif Require Import Base Normalize Text Find Types Reader DeriveDe DeriveAttr GenCode.

(** ** Fields by name *)
Section Fields.
  Context {A : Type}.

  Fixpoint get (x : string) (l : list (string * A)) : option A :=
    match l with
    | [] => None
    | (y, a) :: l' => if same_ident y x then Some a else get x l'
    end.

  Fixpoint set (x : string) (a : A) (l : list (string * A)) : list (string * A) :=
    match l with
    | [] => []
    | (y, b) :: l' => if same_ident y x then (y, a) :: l' else (y, b) :: set x a l'
    end.
End Fields.

Definition named (x : string) (l : list string) : bool := existsb (fun y => same_ident y x) l.

Fixpoint distinct (l : list string) : bool :=
  match l with [] => true | x :: l' => negb (named x l') && distinct l' end.

(** ** Memory *)

(** An enum's visitor: the enum and [initialized].  Its [out] is a field of a struct, whose name is
    [gf_field], or the place [deserialize] provides. *)
Record gflat := GFlat { gf_enum : nat; gf_field : string; gf_init : bool }.

(** The fields of a struct's visitor. *)
Inductive gfield := GFOut | GFPhantom | GFFlag (b : bool) | GFVisitor (v : gflat).

(** [mem]: the fields of the value [self.out] points to. [self]: the visitor's own fields. *)
Inductive gkind :=
| GKStruct (id : nat) (mem : list (string * option value)) (self : list (string * gfield))
| GKEnum (id : nat) (init : bool) (mem : option value).
Record gstate := GState { gs_kind : gkind; gs_leaked : list value }.

Definition mem_live (mem : list (string * option value)) : list value := flat_map (fun x => opt_list (snd x)) mem.

Definition g_live (s : gstate) : list value :=
  match gs_kind s with
  | GKStruct _ mem _ => mem_live mem
  | GKEnum _ _ mem => opt_list mem
  end ++ gs_leaked s.

(** ** The program *)

(** The types that are derived, by their numbers, as the macros understand them. *)
Section Program.
  Context (o : oracles) (alg : bs_alg) (decls : nat -> option edesc) (dflt : rty -> option value).

  (** The struct or enum the user wrote: its fields and variants with their types.  The [i]th variant in
      this order is [VEnum i] (Types.v). *)
  Definition user_fields (s : estruct) : list (string * rty) := map (fun f => (fident f, fty f)) (es_fields s).
  Definition user_variants (e : eenum) : list (string * option rty) :=
    map (fun v => (ev_ident v, ev_ty v)) (sorted_evariants (ee_variants e)).

  Fixpoint variant_index (v : string) (l : list (string * option rty)) : option (nat * option rty) :=
    match l with
    | [] => None
    | (x, t) :: l' => if same_ident x v then Some (0, t)
                      else option_map (fun '(i, t) => (S i, t)) (variant_index v l')
    end.

  Definition struct_code (id : nat) : option (estruct * gstruct) :=
    match decls id with
    | Some (EDStruct s) => option_map (fun g => (s, g)) (de_struct s)
    | _ => None
    end.

  Definition enum_code (id : nat) : option (eenum * genum) :=
    match decls id with
    | Some (EDEnum e) => Some (e, de_enum e)
    | _ => None
    end.

  (** ** [new] *)

  (** [T::Visitor] exists for enums ([RawDeserialize], deserialize.rs 464-466). *)
  Definition visitor_enum (t : rty) : option nat :=
    match t with
    | (KOne, ERef id) => match decls id with Some (EDEnum _) => Some id | _ => None end
    | _ => None
    end.

  Definition rty_eqb (a b : rty) : bool :=
    match a, b with
    | (KOne, ERef i), (KOne, ERef j) => Nat.eqb i j
    | _, _ => false
    end.

  (** One initializer, for a field of type [t]; [None]: rustc rejects it. *)
  Definition run_init (s : estruct) (t : gty) (i : ginit) : option gfield :=
    match t, i with
    | GOutPtr _, GInitOut => Some GFOut
    | GPhantom _, GInitPhantom => Some GFPhantom
    | GBool, GInitFalse => Some (GFFlag false)
    | GVisitor t, GInitVisitor t' f =>
        match visitor_enum t', get f (user_fields s) with
        | Some id, Some t'' =>
            if rty_eqb t t' && rty_eqb t' t'' then Some (GFVisitor (GFlat id f false)) else None
        | _, _ => None
        end
    | _, _ => None
    end.

  (** [Self { #inits }]: every field is initialized exactly once. *)
  Definition run_new (s : estruct) (g : gstruct) : option (list (string * gfield)) :=
    if distinct (map fst (gs_defs g)) && distinct (map fst (gs_inits g))
       && Nat.eqb (List.length (gs_defs g)) (List.length (gs_inits g))
    then all_somes (map (fun '(x, i) =>
           match get x (gs_defs g) with
           | Some t => option_map (pair x) (run_init s t i)
           | None => None
           end) (gs_inits g))
    else None.

  (** deserialize.rs 312-318 and 441-446; the memory is that of [MaybeUninit::uninit()], de/mod.rs 746-748. *)
  Definition g_new (id : nat) : option gstate :=
    match decls id with
    | Some (EDStruct s) =>
        match de_struct s with
        | Some g => option_map (fun self => GState (GKStruct id (map (fun f => (fident f, None)) (es_fields s)) self) [])
                      (run_new s g)
        | None => None
        end
    | Some (EDEnum e) => Some (GState (GKEnum id false None) [])
    | None => None
    end.

  (** ** [finalize] *)

  (** deserialize.rs 448-461. *)
  Definition g_enum_finalize (e : genum) (init : bool) (mem : option value) (d : option rty)
    : res verr (option value) :=
    if init then Ok mem
    else match d with
         | Some t => match dflt t with Some v => write_mem mem v | None => Abort ill_typed end
         | None => Err (cant_be_empty (ge_ident e))
         end.

  (** [&ELEMENTS[#p]]. *)
  Definition table_at (l : list xname) (p : option nat) : res verr xname :=
    match p with
    | Some p => match nth_error l p with Some n => Ok n | None => Abort (Panic "index out of bounds") end
    | None => Abort (Panic "index out of bounds")
    end.

  (** [DeserializeElementField::missing] and [DeserializeAttrField::missing], de/mod.rs 967-1000 and
      1006-1020. *)
  Definition run_value (g : gstruct) (v : gvalue) : res verr value :=
    match v with
    | GDefault t => match dflt t with Some v => Ok v | None => Abort ill_typed end
    | GMissingElement (k, _) p =>
        bind (table_at (gs_elements g) p) (fun n =>
          match k with KOne => Err (missing_element n) | KOpt => Ok VNone | KVec => Ok (VVec []) end)
    | GMissingAttribute (k, EText _) p =>
        bind (table_at (gs_attributes g) p) (fun n =>
          match k with KOne => Err (missing_attribute n) | KOpt => Ok VNone | KVec => Abort ill_typed end)
    | GMissingAttribute (_, ERef _) _ => Abort ill_typed
    end.

  Definition run_fin (g : gstruct) (self : list (string * gfield)) (mem : list (string * option value)) (s : gfin)
    : res verr (list (string * option value)) :=
    match s with
    | GWriteMissing flag f v =>
        match get flag self, get f mem with
        | Some (GFFlag true), Some _ => Ok mem
        | Some (GFFlag false), Some m =>
            bind (run_value g v) (fun x => map_ok (fun m' => set f m' mem) (write_mem m x))
        | _, _ => Abort ill_typed
        end
    | GFinalize t vis d =>
        match get vis self with
        | Some (GFVisitor v) =>
            match enum_code (gf_enum v), get (gf_field v) mem with
            | Some (_, e), Some m => map_ok (fun m' => set (gf_field v) m' mem) (g_enum_finalize e (gf_init v) m d)
            | _, _ => Abort ill_typed
            end
        | _ => Abort ill_typed
        end
    end.

  Fixpoint run_finalize (g : gstruct) (self : list (string * gfield)) (mem : list (string * option value)) (l : list gfin)
    : res verr unit * list (string * option value) :=
    match l with
    | [] => (Ok tt, mem)
    | s :: l' =>
        match run_fin g self mem s with
        | Ok mem' => run_finalize g self mem' l'
        | Err e => (Err e, mem)
        | Abort x => (Abort x, mem)
        end
    end.

  (** [assume_init]. *)
  Fixpoint g_assume_init (mem : list (string * option value)) : res verr (list value) :=
    match mem with
    | [] => Ok []
    | (_, None) :: _ => Abort UB
    | (_, Some v) :: mem' => map_ok (cons v) (g_assume_init mem')
    end.

  Definition g_finalize (s : gstate) : res verr value * list value :=
    match gs_kind s with
    | GKStruct id mem self =>
        match struct_code id with
        | None => (Abort ill_typed, g_live s)
        | Some (_, g) =>
            match run_finalize g self mem (gs_finalize g) with
            | (Ok _, mem') => (map_ok VStruct (g_assume_init mem'), gs_leaked s)
            | (Err e, mem') => (Err e, mem_live mem' ++ gs_leaked s)
            | (Abort x, mem') => (Abort x, mem_live mem' ++ gs_leaked s)
            end
        end
    | GKEnum id init mem =>
        match enum_code id with
        | None => (Abort ill_typed, g_live s)
        | Some (_, e) =>
            match g_enum_finalize e init mem None with
            | Ok mem' => (match mem' with Some v => Ok v | None => Abort UB end, gs_leaked s)
            | Err err => (Err err, g_live s)
            | Abort x => (Abort x, g_live s)
            end
        end
    end.

  (** ** Library: de/mod.rs 741-757, 958-1000, 1067-1072 *)

  Definition g_deserialize (t : ety) (i : einfo) : action gstate (res verr value * list value) :=
    match t with
    | EText t => amap (fun r => (map_ok VText r, [])) (deserialize_text (parse_text o t) i)
    | ERef id =>
        match g_new id with
        | None => ANoRead (Abort ill_typed, [])
        | Some s0 => AReadTo s0 (fun x s =>
            match x with
            | inl _ => g_finalize s
            | inr e => (Err e, g_live s)
            end)
        end
    end.

  Definition g_init (t : rty) (i : einfo) : action gstate (res verr value * list value) :=
    amap (fun '(r, l) => (map_ok (init_value (fst t)) r, l)) (g_deserialize (snd t) i).

  Definition g_update (t : rty) (old : value) (i : einfo) : action gstate (res verr value * list value) :=
    match fst t with
    | KOne | KOpt => ANoRead (Err (duplicate_element (from_xml_name (ei_name i))), [])
    | KVec => amap (fun '(r, l) => (bind r (push_value old), l)) (g_deserialize (snd t) i)
    end.

  (** ** [element] of an enum: deserialize.rs 410-435 *)

  (** The match on the value: [inl] is [return Ok(None)] after updating the payload of the given type, if
      any; [inr] is [expected_i]. *)
  Fixpoint run_same (variant : string) (payload : bool) (element_i : option nat) (arms : list gsame)
    : option (unit + nat) :=
    match arms with
    | [] => None
    | GIfSame v p i :: arms' =>
        if same_ident v variant && Bool.eqb p payload
           && match element_i with Some j => Nat.eqb j i | None => false end
        then Some (inl tt) else run_same variant payload element_i arms'
    | GExpected v p i :: arms' =>
        if same_ident v variant && Bool.eqb p payload then Some (inr i)
        else run_same variant payload element_i arms'
    end.

  Fixpoint run_new_arm (element_i : nat) (arms : list gnew) : option (string * bool) :=
    match arms with
    | [] => None
    | GNew i v p :: arms' => if Nat.eqb i element_i then Some (v, p) else run_new_arm element_i arms'
    end.

  (** [None]: the child is handed back unread. *)
  Definition g_enum_element (e : eenum) (g : genum) (init : bool) (mem : option value) (i : einfo)
    : option (action gstate (res verr unit * (bool * option value) * list value)) :=
    let name := from_xml_name (ei_name i) in
    let element_i := find alg name (ge_elements g) in
    let same := (init, mem) in
    if init then
      Some match mem with
      | Some (VEnum j p) =>
          match nth_error (user_variants e) j with
          | None => ANoRead (Abort UB, same, [])
          | Some (variant, t) =>
              match run_same variant (match t with Some _ => true | None => false end) element_i (ge_same g) with
              | None => ANoRead (Abort ill_typed, same, [])
              | Some (inl _) =>
                  match t, p with
                  | None, _ => ANoRead (Ok tt, same, [])
                  | Some t, Some f =>
                      amap (fun '(r, l) =>
                              match r with
                              | Ok f' => (Ok tt, (true, Some (VEnum j (Some f'))), l)
                              | Err err => (Err err, same, l)
                              | Abort x => (Abort x, same, l)
                              end) (g_update t f i)
                  | Some _, None => ANoRead (Abort UB, same, [])
                  end
              | Some (inr expected_i) =>
                  match element_i with
                  | Some _ =>
                      match nth_error (ge_elements g) expected_i with
                      | Some n => ANoRead (Err (unexpected_element name n), same, [])
                      | None => ANoRead (Abort (Panic "index out of bounds"), same, [])
                      end
                  | None => ANoRead (Ok tt, same, [])
                  end
              end
          end
      | _ => ANoRead (Abort UB, same, [])
      end
    else
      match element_i with
      | None => None
      | Some j =>
          match run_new_arm j (ge_new g) with
          | None => None
          | Some (v, payload) =>
              let write (x : value) (l : list value) :=
                match mem with
                | None => (Ok tt, (true, Some x), l)
                | Some _ => (Abort overwritten, same, l)
                end in
              Some match variant_index v (user_variants e), payload with
              | Some (n, None), false => ANoRead (write (VEnum n None) [])
              | Some (n, Some t), true =>
                  amap (fun '(r, l) =>
                          match r with
                          | Ok f => write (VEnum n (Some f)) l
                          | Err err => (Err err, same, l)
                          | Abort x => (Abort x, same, l)
                          end) (g_init t i)
              | _, _ => ANoRead (Abort ill_typed, same, [])
              end
          end
      end.

  (** ** [element] and [attribute] of a struct *)

  Definition gmem := list (string * option value).
  Definition gself := list (string * gfield).

  (** de/mod.rs 893-910 [delegate_element]. [None]: the child is handed back. *)
  Fixpoint g_delegate_element (mem : gmem) (self : gself) (vs : list string) (i : einfo)
    : option (action gstate (res verr unit * (gmem * gself) * list value)) :=
    match vs with
    | [] => None
    | v :: vs' =>
        match get v self with
        | Some (GFVisitor f) =>
            match enum_code (gf_enum f), get (gf_field f) mem with
            | Some (e, g), Some m =>
                match g_enum_element e g (gf_init f) m i with
                | Some act =>
                    Some (amap (fun '(r, (init, m'), l) =>
                            (r, (set (gf_field f) m' mem,
                                 set v (GFVisitor (GFlat (gf_enum f) (gf_field f) init)) self), l)) act)
                | None => g_delegate_element mem self vs' i
                end
            | _, _ => Some (ANoRead (Abort ill_typed, (mem, self), []))
            end
        | _ => Some (ANoRead (Abort ill_typed, (mem, self), []))
        end
    end.

  (** de/mod.rs 912-946 [delegate_attribute] and [delegate_characters]: an enum's visitor has only the
      default methods, which pass everything back (784-791, 813-819). *)
  Fixpoint g_delegate {E A} (self : gself) (vs : list string) (a : A) : res E (option A) :=
    match vs with
    | [] => Ok (Some a)
    | v :: vs' =>
        match get v self with
        | Some (GFVisitor _) => g_delegate self vs' a
        | _ => Abort ill_typed
        end
    end.

  (** The first arm that matches. *)
  Fixpoint find_arm (self : gself) (i : option nat) (arms : list garm) : res verr (option garm) :=
    match arms with
    | [] => Ok None
    | a :: arms' =>
        match i with
        | Some i =>
            if Nat.eqb i (ga_index a) then
              match ga_guard a with
              | None => Ok (Some a)
              | Some x =>
                  match get x self with
                  | Some (GFFlag true) => Ok (Some a)
                  | Some (GFFlag false) => find_arm self (Some i) arms'
                  | _ => Abort ill_typed
                  end
              end
            else find_arm self (Some i) arms'
        | None => Ok None
        end
    end.

  Definition set_flag (x : string) (self : gself) : option gself :=
    match get x self with
    | Some (GFFlag _) => Some (set x (GFFlag true) self)
    | _ => None
    end.

  (** Statements after the child has been moved. *)
  Fixpoint run_moved (l : list gstmt) (tail : gtail) (mem : gmem) (self : gself)
    : res verr bool * (gmem * gself) :=
    match l with
    | [] => match tail with GOkNone => (Ok false, (mem, self)) | _ => (Abort ill_typed, (mem, self)) end
    | GSetTrue x :: l' =>
        match set_flag x self with
        | Some self' => run_moved l' tail mem self'
        | None => (Abort ill_typed, (mem, self))
        end
    | _ :: _ => (Abort ill_typed, (mem, self))
    end.

  Definition after {A} (f : A -> res verr bool * (gmem * gself)) (mem : gmem) (self : gself)
    (x : res verr A * list value) : res verr bool * (gmem * gself) * list value :=
    match x with
    | (Ok a, l) => (f a, l)
    | (Err e, l) => (Err e, (mem, self), l)
    | (Abort y, l) => (Abort y, (mem, self), l)
    end.

  (** The body of an arm of [element]. *)
  Fixpoint run_body (s : estruct) (l : list gstmt) (tail : gtail) (mem : gmem) (self : gself) (i : einfo)
    : action gstate (res verr bool * (gmem * gself) * list value) :=
    let stop := ANoRead (Abort ill_typed, (mem, self), []) in
    match l with
    | [] =>
        match tail with
        | GOkNone => ANoRead (Ok false, (mem, self), [])
        | GOkSome => ANoRead (Ok true, (mem, self), [])
        | GDuplicate => stop
        | GDelegate vs =>
            match g_delegate_element mem self vs i with
            | Some act => amap (fun '(r, ms, l) => (map_ok (fun _ => false) r, ms, l)) act
            | None => ANoRead (Ok true, (mem, self), [])
            end
        end
    | GUpdate f :: l' =>
        match get f mem, get f (user_fields s) with
        | Some (Some old), Some t =>
            amap (after (fun v => run_moved l' tail (set f (Some v) mem) self) mem self) (g_update t old i)
        | Some None, Some _ => ANoRead (Abort UB, (mem, self), [])
        | _, _ => stop
        end
    | GWriteElement f :: l' =>
        match get f mem, get f (user_fields s) with
        | Some m, Some t =>
            amap (fun '(r, l) => after (fun m' => run_moved l' tail (set f m' mem) self) mem self (bind r (write_mem m), l))
              (g_init t i)
        | _, _ => stop
        end
    | GWriteAttribute _ :: _ => stop
    | GSetTrue x :: l' =>
        match set_flag x self with
        | Some self' => run_body s l' tail mem self' i
        | None => stop
        end
    end.

  (** The body of an arm of [attribute]; [v]: the attribute's value, unless it was moved. *)
  Fixpoint run_attr (s : estruct) (n : xname) (l : list gstmt) (tail : gtail) (mem : gmem) (self : gself) (v : option string)
    : res verr (option string) * (gmem * gself) :=
    let stop := (Abort ill_typed, (mem, self)) in
    match l with
    | [] =>
        match tail, v with
        | GOkNone, _ => (Ok None, (mem, self))
        | GOkSome, Some v => (Ok (Some v), (mem, self))
        | GDuplicate, _ => (Err (duplicate_attribute n), (mem, self))
        | GDelegate vs, Some v => (g_delegate self vs v, (mem, self))
        | _, None => stop
        end
    | GWriteAttribute f :: l' =>
        match get f mem, get f (user_fields s), v with
        | Some m, Some (k, EText t), Some v =>
            let wrap := match k with
                        | KOne => Some (fun x => VText x)
                        | KOpt => Some (fun x => VSome (VText x))
                        | KVec => None
                        end in
            match wrap with
            | None => stop
            | Some w =>
                match bind (map_ok w (attr_init (parse_text o t) v)) (write_mem m) with
                | Ok m' => run_attr s n l' tail (set f m' mem) self None
                | Err e => (Err e, (mem, self))
                | Abort x => (Abort x, (mem, self))
                end
            end
        | _, _, _ => stop
        end
    | GUpdate _ :: _ | GWriteElement _ :: _ => stop
    | GSetTrue x :: l' =>
        match set_flag x self with
        | Some self' => run_attr s n l' tail mem self' v
        | None => stop
        end
    end.

  (** [match find(..) { .. }]. *)
  Definition selected (self : gself) (m : gmatch) (i : option nat) : res verr (list gstmt * gtail) :=
    match find_arm self i (gm_arms m) with
    | Ok (Some a) => Ok (ga_body a, ga_tail a)
    | Ok None => Ok ([], gm_else m)
    | Err e => Err e
    | Abort x => Abort x
    end.

  Definition g_struct_element (s : estruct) (g : gstruct) (mem : gmem) (self : gself) (i : einfo)
    : action gstate (res verr bool * (gmem * gself) * list value) :=
    match selected self (gs_element g) (find alg (from_xml_name (ei_name i)) (gs_elements g)) with
    | Ok (body, tail) => run_body s body tail mem self i
    | Err e => ANoRead (Err e, (mem, self), [])
    | Abort x => ANoRead (Abort x, (mem, self), [])
    end.

  Definition g_struct_attribute (s : estruct) (g : gstruct) (mem : gmem) (self : gself) (n : xname) (v : string)
    : res verr (option string) * (gmem * gself) :=
    match selected self (gs_attribute g) (find alg n (gs_attributes g)) with
    | Ok (body, tail) => run_attr s n body tail mem self (Some v)
    | Err e => (Err e, (mem, self))
    | Abort x => (Abort x, (mem, self))
    end.

  (** All generated visitors of the program. *)
  Definition generated : visitors gstate := {|
    v_attribute := fun st n v =>
      match gs_kind st with
      | GKStruct id mem self =>
          match struct_code id with
          | Some (s, g) =>
              let '(r, (mem', self')) := g_struct_attribute s g mem self n v in
              (r, GState (GKStruct id mem' self') (gs_leaked st))
          | None => (Abort ill_typed, st)
          end
      | GKEnum _ _ _ => (Ok (Some v), st)
      end;
    v_characters := fun st str _ =>
      match gs_kind st with
      | GKStruct id mem self =>
          match struct_code id with
          | Some (_, g) =>
              (match gs_characters g with Some vs => g_delegate self vs str | None => Ok (Some str) end, st)
          | None => (Abort ill_typed, st)
          end
      | GKEnum _ _ _ => (Ok (Some str), st)
      end;
    v_element := fun st i =>
      match gs_kind st with
      | GKStruct id mem self =>
          match struct_code id with
          | Some (s, g) =>
              amap (fun '(r, (mem', self'), l) => (r, GState (GKStruct id mem' self') (l ++ gs_leaked st)))
                (g_struct_element s g mem self i)
          | None => ANoRead (Abort ill_typed, st)
          end
      | GKEnum id init mem =>
          match enum_code id with
          | Some (e, g) =>
              match g_enum_element e g init mem i with
              | Some act =>
                  amap (fun '(r, (init', mem'), l) =>
                          (map_ok (fun _ => false) r, GState (GKEnum id init' mem') (l ++ gs_leaked st))) act
              | None => ANoRead (Ok true, st)
              end
          | None => ANoRead (Abort ill_typed, st)
          end
      end;
  |}.

  (** [static_xml::de::read::<T>]. *)
  Definition read_generated (dbg : bool) (t : ety) (src : list (xevent * position)) (fin : final)
    : res error value :=
    read dbg generated (fun i => amap fst (g_deserialize t i)) (reader_new src fin).
End Program.
