(** What structs whose flattened fields have hand-written visitors leak when they cannot be read.

    [deserialize] in DeriveFlat.v once more, with the values that are leaked.  Hand-written visitors are code of safe Rust
    that writes to the [out] of a flattened field; what is there is dropped only as part of the struct, that is, if
    reading it succeeds (de/mod.rs 743-755). *)
From Verif Require Import Base Normalize Text Find Types Reader DeriveDe DeriveMixed DeriveFlat MixedLeak.

(** About a hand-written visitor (de/mod.rs 709-720): [lo_held], what it has put into its [out]; [lo_failed], what is there after its
    [finalize] failed; [lo_gone], what was leaked below it (C66), which stays leaked. *)
Record losses (St : Type) := Losses {
  lo_held : St -> list value;
  lo_failed : St -> list value;
  lo_gone : St -> list value;
}.
Arguments Losses {St} _ _ _.
Arguments lo_held {St} _.
Arguments lo_failed {St} _.
Arguments lo_gone {St} _.

Section FlatLeak.
  Context {St : Type} (o : oracles) (alg : bs_alg) (P : fuser St) (L : losses St).

  (** The visitor of a struct is dropped: its fields in declaration order (deserialize.rs 32-54). *)
  Fixpoint dropped (fs : list field) (ss : list slot) (fl : list St) : list value :=
    match fs with
    | [] => []
    | f :: fs' =>
        if is_flatten f then
          match fl with s :: fl' => lo_held L s ++ dropped fs' ss fl' | [] => [] end
        else
          match ss with s :: ss' => opt_list (slot_mem s) ++ dropped fs' ss' fl | [] => [] end
    end.

  (** Its [finalize] (deserialize.rs 320-330, [flat_finalize]) fails at some field: those before it were finalized. *)
  Fixpoint unfinished (fs : list field) (ss : list slot) (fl : list St) : list value :=
    match fs with
    | [] => []
    | f :: fs' =>
        if is_flatten f then
          match fl with
          | s :: fl' =>
              match fu_finalize P s with
              | Ok v => v :: unfinished fs' ss fl'
              | _ => lo_failed L s ++ dropped fs' ss fl'
              end
          | [] => []
          end
        else
          match ss with
          | s :: ss' =>
              match finalize_slot f s with
              | Ok s' => opt_list (slot_mem s') ++ unfinished fs' ss' fl
              | _ => dropped fs ss fl
              end
          | [] => []
          end
    end.

  (** de/mod.rs 743-755 *)
  Definition lflat_deserialize (fs : list field) (i : einfo) : action (fstate St) (res verr value * list value) :=
    match new_flats P fs with
    | None => ANoRead (Abort ill_typed, [])
    | Some fl =>
        AReadTo (FStruct (own fs) (map (fun _ => SField false None) (own fs)) [] fl) (fun x s =>
          match x, s with
          | inr e, FStruct _ ss l fl' => (Err e, dropped fs ss fl' ++ l ++ flat_map (lo_gone L) fl')
          | inl _, FStruct _ ss l fl' =>
              let r := flat_finalize P fs ss fl' in
              (map_ok VStruct r,
               match r with Ok _ => [] | _ => unfinished fs ss fl' end ++ l ++ flat_map (lo_gone L) fl')
          | inr e, FOther _ => (Err e, [])
          | inl _, FOther _ => (Abort ill_typed, [])
          end)
    end.

  (** The values leaked while reading the struct from a stream. *)
  Definition leaked_flat (dbg : bool) (fs : list field) (src : list (xevent * position)) (fin : final) : list value :=
    leaked dbg (flat_visitors o alg P) (lflat_deserialize fs) src fin.
End FlatLeak.
