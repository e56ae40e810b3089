(** C80: the pointers that generated visitors keep into the value being built, under the two aliasing models of Rust. *)
From Verif Require Import Base Alias AliasSpec AliasProofs.

(** Under Tree Borrows nothing that generated visitors do with their pointers is undefined behaviour, whatever the
    order of the fields in the document, provided that no [new] of a flattened field's visitor writes to the field. *)
Theorem C80_tree : forall f evs fin, quiet f -> Forall (event_of f) evs -> tb_fine f (visitor_ops f evs fin).
Proof. exact visitor_tree_fine. Qed.
Print Assumptions C80_tree.

(** Under Stacked Borrows it is undefined behaviour to use any field of a struct with flattened fields, except the
    flattened field declared last; and nothing else is. *)
Theorem C80_stacked : forall f evs fin, Forall (event_of f) evs ->
  (sb_fine f (visitor_ops f evs fin) <-> Forall (fun '(Event l _) => reachable f l) evs).
Proof. exact visitor_stack_iff. Qed.
Print Assumptions C80_stacked.

(** In particular, with references for two flattened fields it is undefined behaviour to move the visitor out of [new] (if
    moving a visitor reborrows the references inside it, as it does in Miri by default), whatever the document. *)
Theorem C80_moved : forall fs p q g h lp lq evs fin, p <> q -> nth_error fs p = Some g -> nth_error fs q = Some h ->
  is_ref g lp -> is_ref h lq -> Forall (event_of (Struct fs)) evs -> all_used (Struct fs) evs ->
  ~ sb_fine (Struct fs) (visitor_ops (Struct fs) evs fin).
Proof. exact moved_stack. Qed.
Print Assumptions C80_moved.

(** Visitors that call [as_mut_ptr] only once would be fine under both, without any condition. *)
Theorem C80_once : forall f evs fin, Forall (event_of f) evs -> tb_fine f (once_ops f evs fin) /\ sb_fine f (once_ops f evs fin).
Proof. exact (fun f evs fin H => conj (once_tree_fine f evs fin H) (once_stack_fine f evs fin H)). Qed.
Print Assumptions C80_once.

(** *** Cases *)

(** [ptr::write(addr_of_mut!(( *self.out ).a), …)] *)
Definition write_field : usage := UReborrow false true (UAccess true UDone) UDone.

(** [struct { a: String, #[static_xml(flatten)] b: Inner, c: u32 }] where
    [struct Inner { d: bool, #[static_xml(flatten)] choice: Choice }] *)
Definition inner_struct : shape := Struct [Own; Leaf UDone [false; false]].
Definition outer_struct : shape := Struct [Own; inner_struct; Own].
Definition all_fields : list event := [Event [2] write_field; Event [1; 0] write_field; Event [0] write_field; Event [1; 1] write_field].

Example outer_quiet : quiet outer_struct.
Proof. repeat constructor. Qed.
Example outer_events : Forall (event_of outer_struct) all_fields.
Proof. repeat constructor; discriminate. Qed.
(** Only the choice can be used under Stacked Borrows. *)
Example choice_reachable : reachable outer_struct [1; 1].
Proof.
  assert (L : last_flattened [Own; inner_struct; Own] 1).
  { split; [exists inner_struct; split; [reflexivity|discriminate]|]. intros [|[|[|q]]] (f & E & N); cbn in E; try (repeat constructor).
    - injection E as <-. now destruct N.
    - destruct q; discriminate. }
  right. split; [exact L|]. intros g [= <-]. right. split.
  - split; [exists (Leaf UDone [false; false]); split; [reflexivity|discriminate]|]. intros [|[|q]] (f & E & N); cbn in E; try (repeat constructor).
    destruct q; discriminate.
  - intros g [= <-]. exact I.
Qed.
(** A struct without flattened fields, and an enum: everything can. *)
Example plain_reachable : reachable (Struct [Own; Own]) [0].
Proof. left. intros [|[|[|q]]] (f & E & N); cbn in E; try discriminate; injection E as <-; now apply N. Qed.
Example enum_reachable : reachable (Leaf UDone [false; false]) [] /\ event_of (Leaf UDone [false; false]) (Event [] write_field).
Proof. repeat split. discriminate. Qed.

(** Two flattened enums; the visitor is returned by [new], moved into [finalize], and the choices are written there, the second
    one first.  (A reference that is moved is reborrowed, and the rest of what happens is done with the reborrow.) *)
Definition two_enums : shape := Struct [Leaf UDone [false; false]; Leaf UDone [false; false]].
Definition and_finalized : usage := UReborrow false false (UReborrow false true write_field UDone) UDone.
Example moves_used : Forall (event_of two_enums) [Event [1] and_finalized; Event [0] and_finalized] /\
  all_used two_enums [Event [1] and_finalized; Event [0] and_finalized] /\ quiet two_enums.
Proof.
  split; [repeat constructor; discriminate|]. split; [|repeat constructor].
  intros [|[|[|p]] [|q l]] H; cbn in H; try contradiction; [exists and_finalized; cbn; auto..|destruct p; contradiction|destruct p; contradiction].
Qed.

(** Reading a struct with an own field and a flattened one is undefined behaviour under Stacked Borrows. *)
Theorem C80_flatten_refuted : exists f evs fin,
  Forall (event_of f) evs /\ quiet f /\ tb_fine f (visitor_ops f evs fin) /\ ~ sb_fine f (visitor_ops f evs fin).
Proof.
  exists inner_struct, [Event [0] write_field; Event [1] write_field], true.
  assert (E : Forall (event_of inner_struct) [Event [0] write_field; Event [1] write_field]) by (repeat constructor; discriminate).
  assert (Q : quiet inner_struct) by repeat constructor.
  split; [exact E|]. split; [exact Q|]. split; [now apply visitor_tree_fine|].
  intros H. apply (H [0]); [exact I|reflexivity].
Qed.
Print Assumptions C80_flatten_refuted.

(** Under Tree Borrows too, if a [new] writes to its field and another flattened field follows. *)
Theorem C80_writing_new_refuted : exists f evs fin, Forall (event_of f) evs /\ ~ tb_fine f (visitor_ops f evs fin).
Proof.
  exists (Struct [Leaf (UAccess true UDone) []; Leaf UDone [false; false]]), [Event [0] (UAccess true UDone)], true.
  split; [repeat constructor; discriminate|]. intros H. apply (H [0]); [exact I|reflexivity].
Qed.
Print Assumptions C80_writing_new_refuted.

(** *** The aliasing models, on programs whose status is known *)

(** [let x = &mut v; let y = &mut v; *y = 1; *x = 2]: undefined behaviour. *)
Definition ops_stale : list mop := [Retag [] 0 false []; Retag [] 1 false []; Access [(1, false)] true []; Access [(0, false)] true []].
Example stale_sb : run_ops (sb_step []) ops_stale sb_start = None.
Proof. reflexivity. Qed.
Example stale_tb : run_ops (tb_step []) ops_stale tb_start = None.
Proof. reflexivity. Qed.

(** [let x = &mut v; let y = &mut *x; *y = 1; *x = 2]: fine. *)
Definition ops_nested : list mop :=
  [Retag [] 0 false []; Retag [(0, false)] 0 false []; Access [(0, false); (0, false)] true []; Access [(0, false)] true []].
Example nested_sb : run_ops (sb_step []) ops_nested sb_start <> None.
Proof. discriminate. Qed.
Example nested_tb : run_ops (tb_step []) ops_nested tb_start <> None.
Proof. discriminate. Qed.

(** [let x = &mut v; let p = x as *mut _; let q = x as *mut _; *p = 1; *q = 2; *p = 3]: fine. *)
Definition ops_raws : list mop :=
  [Retag [] 0 false []; Retag [(0, false)] 0 true []; Retag [(0, false)] 1 true [];
   Access [(0, true); (0, false)] true []; Access [(1, true); (0, false)] true []; Access [(0, true); (0, false)] true []].
Example raws_sb : run_ops (sb_step []) ops_raws sb_start <> None.
Proof. discriminate. Qed.
Example raws_tb : run_ops (tb_step []) ops_raws tb_start <> None.
Proof. discriminate. Qed.

(** [let x = &mut v; let p = x as *mut _; *x = 1; *p = 2]: fine only under Tree Borrows. *)
Definition ops_parent : list mop :=
  [Retag [] 0 false []; Retag [(0, false)] 0 true []; Access [(0, false)] true []; Access [(0, true); (0, false)] true []].
Example parent_sb : run_ops (sb_step []) ops_parent sb_start = None.
Proof. reflexivity. Qed.
Example parent_tb : run_ops (tb_step []) ops_parent tb_start <> None.
Proof. discriminate. Qed.

(** [let y = &mut v; *y = 1; let _ = v;]: then [y] can be read under Tree Borrows, but not written; neither under Stacked
    Borrows. *)
Definition ops_read (w : bool) : list mop :=
  [Retag [] 0 false []; Access [(0, false)] true []; Access [] false []; Access [(0, false)] w []].
Example read_tb : run_ops (tb_step []) (ops_read false) tb_start <> None.
Proof. discriminate. Qed.
Example write_tb : run_ops (tb_step []) (ops_read true) tb_start = None.
Proof. reflexivity. Qed.
Example read_sb : run_ops (sb_step []) (ops_read false) sb_start = None.
Proof. reflexivity. Qed.

(** The argument of a call must not be written behind its back while the call runs, even if it is not used again. *)
Definition ops_call (k : mop) : list mop := [Retag [] 0 true []; Retag [(0, true)] 0 false []; Enter [(0, false); (0, true)] []; k].
Example protected_sb : run_ops (sb_step []) (ops_call (Access [(0, true)] true [])) sb_start = None.
Proof. reflexivity. Qed.
Example protected_tb : run_ops (tb_step []) (ops_call (Access [(0, true)] true [])) tb_start = None.
Proof. reflexivity. Qed.
(** Nor may what it has written be read. *)
Example protected_write_tb :
  run_ops (tb_step []) (ops_call (Access [(0, false); (0, true)] true []) ++ [Access [(0, true)] false []]) tb_start = None.
Proof. reflexivity. Qed.
