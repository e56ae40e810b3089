(** Derived types whose fields have hand-written [Serialize] implementations (ser/mod.rs 473-502).

    Hand-written code is an arbitrary program for the API of Ser.v, for each value.  It may of course
    serialize other types: what it then does is part of its program. *)
From Verif Require Import Base Normalize Text Find Types Ser DeriveSer.

(** ** Calling [write_children] of a hand-written type on a borrowed writer

    [p]: the program called, which owns [e] writers; [k]: what the caller does with its result, owning
    [d] writers. *)
Fixpoint graft {e} (p : wprog e) {d} (k : option serr -> wprog d) : wprog (e + d) :=
  match p in wprog e return wprog (e + d) with
  | WRet r => k r
  | WText s f => WText s (fun r => graft (f r) k)
  | WElem n b => WElem n (graft_b b k)
  | WFinish f => WFinish (fun r => graft (f r) k)
  | WDrop p' => WDrop (graft p' k)
  | WPanic m => WPanic m
  end
with graft_b {e} (q : bprog e) {d} (k : option serr -> wprog d) : bprog (e + d) :=
  match q in bprog e return bprog (e + d) with
  | BNs p u q' => BNs p u (graft_b q' k)
  | BAttr n v f => BAttr n v (fun r => graft_b (f r) k)
  | BDrop p => BDrop (graft p k)
  | BStart p pe => BStart (graft p k) (fun x => graft (pe x) k)
  | BPanic m => BPanic m
  end.

Section Mixed.
  (** [hand id]: the hand-written implementation of type [id], if [id] is not derived. *)
  Context (o : oracles) (env : tenv) (hand : nat -> option (value -> serialize)).

  (** The definitions of DeriveSer.v (and its citations) with one more case. *)
  Fixpoint mser_attrs (v : value) (t : ety) {struct v} : aprog :=
    match t with
    | EText _ => ARet None
    | ERef id =>
        match env id with
        | Some (TDStruct _ _ nss fs) =>
            match v with
            | VStruct vs =>
                write_namespaces nss
                  (a_then (a_each is_attribute
                             (fun f v => match f_mode f with
                                         | MAttribute opt t => write_attr o (expanded (f_name f)) opt t v
                                         | _ => APanic ill_typed
                                         end) vs fs)
                          (a_each is_flatten
                             (fun f v => match f_mode f with
                                         | MFlatten id => mser_attrs v (ERef id)
                                         | _ => APanic ill_typed
                                         end) vs fs))
            | _ => APanic ill_typed
            end
        | Some (TDEnum _ _ nss _ _) =>
            match v with
            | VEnum _ _ => write_namespaces nss (ARet None)
            | VSkipped => write_namespaces nss (ARet None)
            | _ => APanic ill_typed
            end
        | None => match hand id with Some h => s_attrs (h v) | None => APanic ill_typed end
        end
    end.

  Fixpoint mser_kids (v : value) (t : ety) {d : nat} (k : option serr -> wprog d) {struct v} : wprog d :=
    match t with
    | EText t =>
        match v with
        | VText x => match to_text o t x with
                     | Some s => WText s k
                     | None => match text_error o t x with
                               | Some m => k (Some (SMsg m))
                               | None => WPanic ill_typed
                               end
                     end
        | _ => WPanic ill_typed
        end
    | ERef id =>
        match env id with
        | Some (TDStruct _ _ _ fs) =>
            match v with
            | VStruct vs =>
                w_each is_element
                  (fun f v k =>
                     match f_mode f with
                     | MElement kd t =>
                         write_field (fun v k => write_one (expanded (f_name f)) (mser_attrs v t)
                                                   (fun k' => mser_kids v t k') k) kd v k
                     | _ => WPanic ill_typed
                     end) vs fs
                  (on_ok k
                     (w_each is_flatten
                        (fun f v k =>
                           match f_mode f with
                           | MFlatten id => mser_kids v (ERef id) k
                           | _ => WPanic ill_typed
                           end) vs fs k))
            | _ => WPanic ill_typed
            end
        | Some (TDEnum _ _ _ variants skipped) =>
            match v with
            | VEnum i p =>
                match nth_error (sorted_variants variants) i with
                | Some w =>
                    match v_ty w, p with
                    | None, None => WElem (expanded (v_name w)) (BStart (WFinish k) (fun e => k (Some e)))
                    | Some (kd, t), Some x =>
                        write_field (fun v k => write_one (expanded (v_name w)) (mser_attrs v t)
                                                  (fun k' => mser_kids v t k') k) kd x k
                    | _, _ => WPanic ill_typed
                    end
                | None => WPanic ill_typed
                end
            | VSkipped => if skipped then k None else WPanic ill_typed
            | _ => WPanic ill_typed
            end
        | None => match hand id with Some h => graft (s_kids (h v)) k | None => WPanic ill_typed end
        end
    end.

  Definition mser_value (t : ety) (v : value) : serialize := Ser (mser_attrs v t) (mser_kids v t WRet).
End Mixed.

(** Without hand-written types this is DeriveSer.v. *)
Lemma no_hand_written o env t v : mser_value o env (fun _ => None) t v = ser_value o env t v.
Proof. reflexivity. Qed.
