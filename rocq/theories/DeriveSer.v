(** Model of derived serialization: static-xml-derive/src/serialize.rs, and the parts of
    static-xml/src/ser/mod.rs it calls: [SerializeField] (513-570), [Serialize] for [T: ToText]
    (622-626), [SerializeAttr] (628-662) and the entry points (665-759).

    The generated code is a program for the serialization API of [Ser.v].  A value that is not of the
    type (which rustc rules out) gives a program that panics with the message [ill_typed]. *)
From Verif Require Import Base Normalize Text Find Types Ser.

Definition ill_typed : string := "value is not of its type".

(** [a?; b]: run [a] on the same builder, and [b] if it returned [Ok]. *)
Fixpoint a_then (a b : aprog) : aprog :=
  match a with
  | ARet None => b
  | ARet (Some e) => ARet (Some e)
  | ANs p u a' => ANs p u (a_then a' b)
  | AAttr n v f => AAttr n v (fun r => a_then (f r) b)
  | APanic m => APanic m
  end.

Section Derive.
  Context (o : oracles) (env : tenv).

  (** serialize.rs 12-22: [write_namespaces]; a [BTreeMap] iterates in the order of its keys. *)
  Fixpoint write_namespaces (nss : bmap string) (a : aprog) : aprog :=
    match nss with
    | [] => a
    | (p, u) :: nss' => ANs p u (write_namespaces nss' a)
    end.

  (** ser/mod.rs 640-662: [SerializeAttr::write] for [T] ([opt = false]) and [Option<T>], followed by
      [?] (serialize.rs 34). *)
  Definition write_attr (n : xname) (opt : bool) (t : tty) (v : value) : aprog :=
    let one x :=
      match to_text o t x with
      | Some s => AAttr n s ARet
      | None => match text_error o t x with
                | Some m => ARet (Some (SMsg m))
                | None => APanic ill_typed
                end
      end in
    match opt, v with
    | false, VText x => one x
    | true, VNone => ARet None
    | true, VSome (VText x) => one x
    | _, _ => APanic ill_typed
    end.

  (** The statements generated for the fields selected by [sel], in declaration order, for attributes. *)
  Definition a_each (sel : field -> bool) (w : field -> value -> aprog) :=
    fix each (vs : list value) (fs : list field) {struct vs} : aprog :=
      match vs, fs with
      | [], [] => ARet None
      | v :: vs', f :: fs' => if sel f then a_then (w f v) (each vs' fs') else each vs' fs'
      | _, _ => APanic ill_typed
      end.

  (** [write_attributes]: serialize.rs 95-99 (struct; namespaces, attribute fields 26-36, then
      flattened fields 37-46) and 135-139 (enum; only namespaces); ser/mod.rs 495-497 (default:
      nothing, used for text types). *)
  Fixpoint ser_attrs (v : value) (t : ety) {struct v} : aprog :=
    match t with
    | EText _ => ARet None
    | ERef id =>
        match env id, v with
        | Some (TDStruct _ _ nss fs), VStruct vs =>
            write_namespaces nss
              (a_then (a_each is_attribute
                         (fun f v => match f_mode f with
                                     | MAttribute opt t => write_attr (expanded (f_name f)) opt t v
                                     | _ => APanic ill_typed
                                     end) vs fs)
                      (a_each is_flatten
                         (fun f v => match f_mode f with
                                     | MFlatten id => ser_attrs v (ERef id)
                                     | _ => APanic ill_typed
                                     end) vs fs))
        | Some (TDEnum _ _ nss _ _), VEnum _ _ => write_namespaces nss (ARet None)
        | Some (TDEnum _ _ nss _ _), VSkipped => write_namespaces nss (ARet None)
        | _, _ => APanic ill_typed
        end
    end.

  (** [a?; p]: what [a] continues with. *)
  Definition on_ok {d} (k : option serr -> wprog d) (p : wprog d) : option serr -> wprog d :=
    fun r => match r with Some e => k (Some e) | None => p end.

  (** ser/mod.rs 533-544: [SerializeField::write] for [T: Serialize], given the value's
      [write_attributes] and [write_children].  An early return drops the builder or writer. *)
  Definition write_one {d} (n : xname) (attrs : aprog)
    (kids : (option serr -> wprog (S d)) -> wprog (S d)) (k : option serr -> wprog d) : wprog d :=
    WElem n (embed attrs (fun r =>
      match r with
      | Some e => BDrop (k (Some e))
      | None =>
          BStart (kids (fun r => match r with
                                 | Some e => WDrop (k (Some e))
                                 | None => WFinish k
                                 end))
                 (fun e => k (Some e))
      end)).

  (** ser/mod.rs 559-570: the loop of [SerializeField::write] for [Vec<T>]. *)
  Definition for_each {d} (one : value -> (option serr -> wprog d) -> wprog d) :=
    fix for_each (l : list value) (k : option serr -> wprog d) {struct l} : wprog d :=
      match l with
      | [] => k None
      | v :: l' => one v (on_ok k (for_each l' k))
      end.

  (** ser/mod.rs 532-570: [SerializeField::write] for [T], [Option<T>] and [Vec<T>]. *)
  Definition write_field {d} (one : value -> (option serr -> wprog d) -> wprog d)
    (kd : fkind) (v : value) (k : option serr -> wprog d) : wprog d :=
    match kd with
    | KOne => one v k
    | KOpt => match v with
              | VNone => k None
              | VSome v => one v k
              | _ => WPanic ill_typed
              end
    | KVec => match v with VVec l => for_each one l k | _ => WPanic ill_typed end
    end.

  (** The statements generated for the fields selected by [sel], in declaration order, for children. *)
  Definition w_each {d} (sel : field -> bool)
    (w : field -> value -> (option serr -> wprog d) -> wprog d) :=
    fix each (vs : list value) (fs : list field) (k : option serr -> wprog d) {struct vs} : wprog d :=
      match vs, fs with
      | [], [] => k None
      | v :: vs', f :: fs' =>
          if sel f then w f v (on_ok k (each vs' fs' k)) else each vs' fs' k
      | _, _ => WPanic ill_typed
      end.

  (** [write_children], with the rest of the program as a continuation.  [d]: the number of writers
      the program owns.  Structs, serialize.rs 50-73 and 101-104: element fields in declaration order,
      then flattened fields; text fields are not written.  Enums, 110-150.  Text, ser/mod.rs
      622-626. *)
  Fixpoint ser_kids (v : value) (t : ety) {d : nat} (k : option serr -> wprog d) {struct v} : wprog d :=
    match t with
    | EText t =>
        match v with
        | VText x => match to_text o t x with
                     | Some s => WText s k
                     | None => match text_error o t x with
                               | Some m => k (Some (SMsg m))
                               | None => WPanic ill_typed
                               end
                     end
        | _ => WPanic ill_typed
        end
    | ERef id =>
        match env id, v with
        | Some (TDStruct _ _ _ fs), VStruct vs =>
            w_each is_element
              (fun f v k =>
                 match f_mode f with
                 | MElement kd t =>
                     write_field (fun v k => write_one (expanded (f_name f)) (ser_attrs v t)
                                               (fun k' => ser_kids v t k') k) kd v k
                 | _ => WPanic ill_typed
                 end) vs fs
              (on_ok k
                 (w_each is_flatten
                    (fun f v k =>
                       match f_mode f with
                       | MFlatten id => ser_kids v (ERef id) k
                       | _ => WPanic ill_typed
                       end) vs fs k))
        | Some (TDEnum _ _ _ variants _), VEnum i p =>
            match nth_error (sorted_variants variants) i with
            | Some w =>
                match v_ty w, p with
                | None, None =>
                    (* [writer.element(name).start()?.finish()?] *)
                    WElem (expanded (v_name w)) (BStart (WFinish k) (fun e => k (Some e)))
                | Some (kd, t), Some x =>
                    write_field (fun v k => write_one (expanded (v_name w)) (ser_attrs v t)
                                              (fun k' => ser_kids v t k') k) kd x k
                | _, _ => WPanic ill_typed
                end
            | None => WPanic ill_typed
            end
        | Some (TDEnum _ _ _ _ skipped), VSkipped =>
            if skipped then k None              (* [_ => {}], serialize.rs 130-134 *)
            else WPanic ill_typed
        | _, _ => WPanic ill_typed
        end
    end.

  Definition ser_value (t : ety) (v : value) : serialize := Ser (ser_attrs v t) (ser_kids v t WRet).

  (** serialize.rs 75-85: [SerializeRoot::root]. *)
  Definition root_name (id : nat) : option xname :=
    match env id with
    | Some (TDStruct _ root _ _) | Some (TDEnum _ root _ _ _) => Some (expanded root)
    | None => None
    end.

  (** ser/mod.rs 743-759: [serialize_with_name(v, name).to(writer)]. *)
  Definition serialize_with_name (dbg : bool) (w : io) (t : ety) (v : value) (name : xname)
    : (option serr * sink) + abort :=
    to dbg w name (ser_value t v).

  (** ser/mod.rs 729-741: [serialize(v).to(writer)] for a derived type. *)
  Definition serialize_root (dbg : bool) (w : io) (id : nat) (v : value) : (option serr * sink) + abort :=
    match root_name id with
    | Some name => serialize_with_name dbg w (ERef id) v name
    | None => inr (Panic ill_typed)
    end.
End Derive.
