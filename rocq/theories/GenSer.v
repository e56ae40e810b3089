(** What the code generated by [#[derive(Serialize)]], [#[derive(ParseText)]] and [#[derive(ToText)]]
    (GenCode.v) does when it runs.  Fields and variants are found by name, as in GenRun.v; the functions of
    the library that the code calls are those of DeriveSer.v and Text.v. *)
From Verif Require Import Base Normalize Text Find Types Ser DeriveSer DeriveAttr GenCode GenRun.

(** ** Serialize *)

(** [&self.#f] and what is done with it, [us]: the struct's fields. *)
Definition a_pick (f : string) (w : rty -> value -> aprog) :=
  fix pick (vs : list value) (us : list (string * rty)) {struct vs} : aprog :=
    match vs, us with
    | v :: vs', (x, t) :: us' => if same_ident x f then w t v else pick vs' us'
    | _, _ => APanic ill_typed
    end.

Definition w_pick {d} (f : string) (w : rty -> value -> (option serr -> wprog d) -> wprog d) :=
  fix pick (vs : list value) (us : list (string * rty)) (k : option serr -> wprog d) {struct vs} : wprog d :=
    match vs, us with
    | v :: vs', (x, t) :: us' => if same_ident x f then w t v k else pick vs' us' k
    | _, _ => WPanic ill_typed
    end.

Section SerProgram.
  Context (o : oracles) (decls : nat -> option edesc).

  (** A struct or enum as the user wrote it, and the code generated for it. *)
  Inductive gtype :=
  | GTStruct (us : list (string * rty)) (attrs kids : list gser) (root : xname)
  | GTEnum (us : list (string * option rty)) (attrs : list gser) (arms : list gsarm) (root : xname).

  Definition ser_code (id : nat) : option gtype :=
    match decls id with
    | Some (EDStruct s) =>
        match ser_struct s with
        | GSerStruct attrs kids root => Some (GTStruct (user_fields s) attrs kids root)
        | GSerEnum _ _ _ => None
        end
    | Some (EDEnum e) =>
        match ser_enum e with
        | GSerEnum attrs arms root => Some (GTEnum (user_variants e) attrs arms root)
        | GSerStruct _ _ _ => None
        end
    | None => None
    end.

  (** [SerializeAttr::write(&self.#f, &mut builder, #n)] for a field of this type. *)
  Definition g_write_attr (n : xname) (t : rty) (v : value) : aprog :=
    match t with
    | (KOne, EText t) => write_attr o n false t v
    | (KOpt, EText t) => write_attr o n true t v
    | _ => APanic ill_typed
    end.

  Fixpoint g_attrs (v : value) (t : ety) {struct v} : aprog :=
    match t with
    | EText _ => ARet None
    | ERef id =>
        match ser_code id, v with
        | Some (GTStruct us attrs _ _), VStruct vs =>
            (fix run (l : list gser) : aprog :=
               match l with
               | [] => ARet None
               | GNamespace p u :: l' => ANs p u (run l')
               | GAttr f n :: l' => a_then (a_pick f (g_write_attr n) vs us) (run l')
               | GFlatAttrs f :: l' => a_then (a_pick f (fun t v => g_attrs v (snd t)) vs us) (run l')
               | GElem _ _ :: _ | GFlatKids _ :: _ => APanic ill_typed
               end) attrs
        | Some (GTEnum _ attrs _ _), VEnum _ _ | Some (GTEnum _ attrs _ _), VSkipped =>
            (fix run (l : list gser) : aprog :=
               match l with
               | [] => ARet None
               | GNamespace p u :: l' => ANs p u (run l')
               | _ :: _ => APanic ill_typed
               end) attrs
        | _, _ => APanic ill_typed
        end
    end.

  Fixpoint g_kids (v : value) (t : ety) {d : nat} (k : option serr -> wprog d) {struct v} : wprog d :=
    match t with
    | EText t =>
        match v with
        | VText x => match to_text o t x with
                     | Some s => WText s k
                     | None => match text_error o t x with
                               | Some m => k (Some (SMsg m))
                               | None => WPanic ill_typed
                               end
                     end
        | _ => WPanic ill_typed
        end
    | ERef id =>
        match ser_code id, v with
        | Some (GTStruct us _ kids _), VStruct vs =>
            (fix run (l : list gser) : wprog d :=
               match l with
               | [] => k None
               | GElem f n :: l' =>
                   w_pick f (fun t v k =>
                     write_field (fun v k => write_one n (g_attrs v (snd t)) (fun k' => g_kids v (snd t) k') k)
                       (fst t) v k) vs us (on_ok k (run l'))
               | GFlatKids f :: l' =>
                   w_pick f (fun t v k => g_kids v (snd t) k) vs us (on_ok k (run l'))
               | GNamespace _ _ :: _ | GAttr _ _ :: _ | GFlatAttrs _ :: _ => WPanic ill_typed
               end) kids
        | Some (GTEnum us _ arms _), VEnum i p =>
            match nth_error us i with
            | None => WPanic ill_typed
            | Some (x, t) =>
                (fix run (l : list gsarm) : wprog d :=
                   match l with
                   | [] => WPanic ill_typed
                   | GUnit y n :: l' =>
                       if same_ident x y then
                         match t, p with
                         | None, None => WElem n (BStart (WFinish k) (fun e => k (Some e)))
                         | _, _ => WPanic ill_typed
                         end
                       else run l'
                   | GPayload y n :: l' =>
                       if same_ident x y then
                         match t, p with
                         | Some (kd, t), Some v =>
                             write_field (fun v k => write_one n (g_attrs v t) (fun k' => g_kids v t k') k) kd v k
                         | _, _ => WPanic ill_typed
                         end
                       else run l'
                   | GIgnore :: _ => k None
                   end) arms
            end
        | Some (GTEnum us _ arms _), VSkipped =>
            (fix run (l : list gsarm) : wprog d :=
               match l with
               | [] => WPanic ill_typed
               | GIgnore :: _ => k None
               | _ :: l' => run l'
               end) arms
        | _, _ => WPanic ill_typed
        end
    end.

  Definition g_root (id : nat) : option xname :=
    match ser_code id with
    | Some (GTStruct _ _ _ root) | Some (GTEnum _ _ _ root) => Some root
    | None => None
    end.

  (** ser/mod.rs 729-759. *)
  Definition g_serialize_with_name (dbg : bool) (w : io) (t : ety) (v : value) (name : xname)
    : (option serr * sink) + abort :=
    to dbg w name (Ser (g_attrs v t) (g_kids v t WRet)).

  Definition g_serialize (dbg : bool) (w : io) (id : nat) (v : value) : (option serr * sink) + abort :=
    match g_root id with
    | Some name => g_serialize_with_name dbg w (ERef id) v name
    | None => inr (Panic ill_typed)
    end.

  (** The values of the types, as rustc knows them. *)
  Inductive shaped : ety -> value -> Prop :=
  | sh_text : forall t x, shaped (EText t) (VText x)
  | sh_struct : forall id s vs, decls id = Some (EDStruct s) ->
      Forall2 (fun f v => shaped_field (fty f) v) (es_fields s) vs -> shaped (ERef id) (VStruct vs)
  | sh_unit : forall id e i w, decls id = Some (EDEnum e) ->
      nth_error (sorted_evariants (ee_variants e)) i = Some w -> ev_ty w = None -> shaped (ERef id) (VEnum i None)
  | sh_payload : forall id e i w t v, decls id = Some (EDEnum e) ->
      nth_error (sorted_evariants (ee_variants e)) i = Some w -> ev_ty w = Some t -> shaped_field t v ->
      shaped (ERef id) (VEnum i (Some v))
  | sh_skipped : forall id e, decls id = Some (EDEnum e) -> ee_skipped e = true -> shaped (ERef id) VSkipped
  with shaped_field : rty -> value -> Prop :=
  | sf_one : forall t v, shaped t v -> shaped_field (KOne, t) v
  | sf_none : forall t, shaped_field (KOpt, t) VNone
  | sf_some : forall t v, shaped t v -> shaped_field (KOpt, t) (VSome v)
  | sf_vec : forall t l, Forall (shaped t) l -> shaped_field (KVec, t) (VVec l).
End SerProgram.

(** ** ParseText and ToText *)

(** A value of a text enum: the variant by name. *)
Section TextProgram.
  Context (o : oracles).

  Definition run_norm (w : option whitespace) (s : string) : res string string :=
    match w with Some w => gen_normalize w s | None => Ok s end.

  (** The result of the generated [parse]: a variant, by name, and what it holds. *)
  Inductive gtval := GTUnit (v : string) | GTText (v s : string) | GTHolds (v : string) (x : tval) | GTStd (n : N).

  (** [match text.as_str() { #text => Ok(Self::#ident), .. }]. *)
  Fixpoint run_known (text : string) (arms : list (string * string)) : option string :=
    match arms with
    | [] => None
    | (t, v) :: arms' => if String.eqb t text then Some v else run_known text arms'
    end.

  (** The attempts of a union and then [union_error]. *)
  Fixpoint run_attempts (ident text : string) (errors : list string) (l : list (tty * string)) : res string gtval :=
    match l with
    | [] => Err (union_error ident errors)
    | (t, v) :: l' =>
        match parse_text o t text with
        | Ok r => Ok (GTHolds v r)
        | Err e => run_attempts ident text (errors ++ [e]) l'
        | Abort x => Abort x
        end
    end.

  (** [std]: the [FromStr] of the type. *)
  Definition run_parse (std : nat) (g : gparse) (text : string) : res string gtval :=
    match g with
    | GParseUnion w ident attempts => bind (run_norm w text) (fun text => run_attempts ident text [] attempts)
    | GParseRestr w ident arms unknown =>
        bind (run_norm w text) (fun text =>
          match run_known text arms, unknown with
          | Some v, _ => Ok (GTUnit v)
          | None, Some v => Ok (GTText v text)
          | None, None => Err (no_such_variant o ident text)
          end)
    | GParseStd w => bind (run_norm w text) (fun text => map_ok GTStd (o_std_parse o std text))
    end.

  (** The generated [to_text]; [None]: rustc rejects the code or the value. [ts]: the types the variants
      hold, by name. *)
  Fixpoint run_show_restr (x : gtval) (arms : list (string * option string)) : option string :=
    match arms with
    | [] => None
    | (v, t) :: arms' =>
        match x, t with
        | GTUnit w, Some text => if same_ident v w then Some text else run_show_restr x arms'
        | GTText w s, None => if same_ident v w then Some s else run_show_restr x arms'
        | _, _ => run_show_restr x arms'
        end
    end.

  (** [inr]: an error with this message ([text_error]). *)
  Definition run_totext (std : nat) (ts : list (string * tty)) (g : gtotext) (x : gtval) : option (string + string) :=
    match g, x with
    | GShowUnion arms, GTHolds v y =>
        if named v arms then
          match get v ts with
          | Some t => match to_text o t y, text_error o t y with
                      | Some s, _ => Some (inl s)
                      | None, Some m => Some (inr m)
                      | None, None => None
                      end
          | None => None
          end
        else None
    | GShowRestr arms, _ => option_map inl (run_show_restr x arms)
    | GShowStd, GTStd n => Some (inl (o_std_show o std n))
    | _, _ => None
    end.
End TextProgram.
