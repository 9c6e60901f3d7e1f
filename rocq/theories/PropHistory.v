(** PropHistory.v -- properties of sequences of modifications of grids: C94-C96, C112, C113. *)

From Coq Require Import ZArith List Bool Lia.
From Verif Require Import Rust BoundedInt Dir PosT Pos Grid Gridbool Spec SpecHistory Lib Deque BoundedIntProofs PosTProofs PosTProofs2 PropPosProofs GridProofs GridRotProofs GridProofs2 PropGridProofs GridboolProofs GridboolRotProofs PropGridboolProofs.
From Verif Require Import PropHistoryProofs.
Import ListNotations.
Open Scope Z_scope.

(** C94: any sequence of modifications of a Grid does what the same sequence does
    to a function from positions to values. *)
Theorem C94_grid_history : forall (T : Type) X Y (v : T) es, u16_dims X Y -> Forall (edit_ok X Y) es ->
  let P := Pos X Y in
  exists g, grid_edits X Y (grid_repeat (cells P) v) es = Ret g /\
    Z.of_nat (length (grid_iter g)) = cells P /\
    (forall p, valid P p -> grid_get P g p = Ret (drawing X Y (fun _ => v) es p)) /\
    grid_iter g = map (drawing X Y (fun _ => v) es) (all_rows P).
Proof. exact C94_grid_history_proof. Qed.
Print Assumptions C94_grid_history.

Example C94_example :
  grid_edits 2 2 (grid_repeat 9 0) [Put (0, 0) 1; Put (1, 0) 2; TurnCW; PutAll [(0, 1); (2, 2)] 3; FlipV; FlipH; TurnCC] =
    Ret [0; 3; 0; 0; 0; 0; 3; 2; 1].
Proof. vm_compute. reflexivity. Qed.

(** C95: a Gridbool (with an odd number of columns, if it is rotated: see C69)
    cannot be told from a Grid of booleans: after any sequence of modifications
    both have the same contents. *)
Theorem C95_gridbool_history_partial : forall X Y WORDS v es, u16_dims X Y -> in_ity usize WORDS = true ->
  let P := Pos X Y in
  cells P <= 32 * WORDS <= cells P + 32 -> Forall (edit_ok X Y) es ->
  (In TurnCW es \/ In TurnCC es -> X mod 2 = 0) ->
  exists g b, grid_edits X Y (grid_repeat (cells P) v) es = Ret g /\
    bind (gb_repeat P WORDS v) (fun b0 => gb_edits X Y b0 es) = Ret b /\
    (forall p, valid P p -> gb_get P b p = grid_get P g p) /\
    gb_iter P b = Ret (grid_iter g) /\ gb_iter_pos P b = grid_iter_pos P g /\
    exists t f, gb_iter_t P b = Ret t /\ gb_iter_f P b = Ret f /\
      t = filter (drawing X Y (fun _ => v) es) (all_rows P) /\
      f = filter (fun p => negb (drawing X Y (fun _ => v) es p)) (all_rows P).
Proof. exact C95_gridbool_history_partial_proof. Qed.
Print Assumptions C95_gridbool_history_partial.

(** With rotations of squares with an even number of columns it is false. *)
Theorem C95_gridbool_history_refuted : exists X Y WORDS v es p, u16_dims X Y /\ cells (Pos X Y) <= 32 * WORDS <= cells (Pos X Y) + 32 /\
  Forall (edit_ok X Y) es /\ valid (Pos X Y) p /\
  exists g b, grid_edits X Y (grid_repeat (cells (Pos X Y)) v) es = Ret g /\
    bind (gb_repeat (Pos X Y) WORDS v) (fun b0 => gb_edits X Y b0 es) = Ret b /\
    grid_get (Pos X Y) g p = Ret true /\ gb_get (Pos X Y) b p = Ret false.
Proof. exact C95_gridbool_history_refuted_proof. Qed.
Print Assumptions C95_gridbool_history_refuted.

Example C95_example :
  let es := [Put (0, 0) true; TurnCW; PutAll [(1, 1); (0, 2)] true; FlipH; Put (1, 1) false; TurnCC; TurnCC] in
  Forall (edit_ok 2 2) es /\
  grid_edits 2 2 (grid_repeat 9 false) es = Ret [true; false; false; false; false; false; false; false; true] /\
  bind (bind (gb_repeat (Pos 2 2) 1 false) (fun b => gb_edits 2 2 b es)) (gb_iter (Pos 2 2)) =
    Ret [true; false; false; false; false; false; false; false; true].
Proof. split; [repeat constructor; vm_compute; discriminate | vm_compute; auto]. Qed.

(** C96: flips and rotations of a Grid compose like those of the plane. *)
Theorem C96_grid_flip_flip : forall (T : Type) X Y (g : list T), u16_dims X Y -> proper (Pos X Y) g ->
  let P := Pos X Y in
  exists r, bind (grid_flip_h P g) (grid_flip_v P) = Ret r /\ bind (grid_flip_v P g) (grid_flip_h P) = Ret r /\
    forall x y, valid P (x, y) -> grid_get P r (X - x, Y - y) = grid_get P g (x, y).
Proof. exact C96_grid_flip_flip_proof. Qed.
Print Assumptions C96_grid_flip_flip.

Theorem C96_grid_dihedral : forall (T : Type) W (g : list T), u16_dims W W -> proper (Pos W W) g ->
  let P := Pos W W in
  exists half trans anti,
    bind (grid_rotate_cw W g) (grid_rotate_cw W) = Ret half /\ bind (grid_rotate_cc W g) (grid_rotate_cc W) = Ret half /\
    bind (grid_flip_h P g) (grid_flip_v P) = Ret half /\
    bind (grid_rotate_cw W g) (grid_flip_h P) = Ret trans /\ bind (grid_flip_h P g) (grid_rotate_cc W) = Ret trans /\
    bind (grid_flip_v P g) (grid_rotate_cw W) = Ret trans /\ bind (grid_rotate_cc W g) (grid_flip_v P) = Ret trans /\
    bind (grid_rotate_cw W g) (grid_flip_v P) = Ret anti /\ bind (grid_flip_v P g) (grid_rotate_cc W) = Ret anti /\
    bind (grid_flip_h P g) (grid_rotate_cw W) = Ret anti /\ bind (grid_rotate_cc W g) (grid_flip_h P) = Ret anti /\
    (forall x y, valid P (x, y) -> grid_get P trans (y, x) = grid_get P g (x, y)) /\
    (forall x y, valid P (x, y) -> grid_get P anti (W - y, W - x) = grid_get P g (x, y)).
Proof. exact C96_grid_dihedral_proof. Qed.
Print Assumptions C96_grid_dihedral.

Example C96_example :
  bind (grid_rotate_cw 2 [1; 2; 3; 4; 5; 6; 7; 8; 9]) (grid_flip_h (Pos 2 2)) = Ret [1; 4; 7; 2; 5; 8; 3; 6; 9] /\
  bind (grid_flip_h (Pos 2 2) [1; 2; 3; 4; 5; 6; 7; 8; 9]) (grid_rotate_cw 2) = Ret [9; 6; 3; 8; 5; 2; 7; 4; 1].
Proof. vm_compute. auto. Qed.

(** C112: what any sequence of modifications does to a Gridbool, exactly, whatever
    its dimensions and its spare bits. *)
Theorem C112_gridbool_history_exact : forall X Y g f es, u16_dims X Y -> roomy (Pos X Y) g -> Forall (edit_ok X Y) es ->
  let P := Pos X Y in
  (forall p, valid P p -> gb_get P g p = Ret (f p)) ->
  exists g', gb_edits X Y g es = Ret g' /\ roomy P g' /\ length g' = length g /\
    (forall p, valid P p -> gb_get P g' p = Ret (gb_drawing X Y f es p)) /\
    (forall i, cells P <= i < 32 * Z.of_nat (length g) -> bit_at g' i = bit_at g i).
Proof. exact C112_gridbool_history_exact_proof. Qed.
Print Assumptions C112_gridbool_history_exact.

(** Gridbools that come from the same Gridbool by any modifications are equal iff
    they have the same contents. *)
Theorem C112_gridbool_history_eq : forall X Y g f es es', u16_dims X Y -> roomy (Pos X Y) g -> Forall (edit_ok X Y) es -> Forall (edit_ok X Y) es' ->
  let P := Pos X Y in
  (forall p, valid P p -> gb_get P g p = Ret (f p)) ->
  exists a b, gb_edits X Y g es = Ret a /\ gb_edits X Y g es' = Ret b /\
    (gb_eqb a b = true <-> forall p, valid P p -> gb_drawing X Y f es p = gb_drawing X Y f es' p) /\
    (gb_eqb a b = true <-> forall p, valid P p -> gb_get P a p = gb_get P b p) /\
    (gb_eqb a b = true <-> a = b).
Proof. exact C112_gridbool_history_eq_proof. Qed.
Print Assumptions C112_gridbool_history_eq.

Example C112_example :
  let es := [Put (0, 0) true; Put (1, 1) true; TurnCW; FlipH; PutAll [(3, 3); (2, 1)] true; TurnCC] in
  let es' := [Put (0, 3) true; PutAll [(3, 0); (2, 1)] true] in
  Forall (edit_ok 3 3) es /\ roomy (Pos 3 3) [65535] /\
  gb_edits 3 3 [65535] es = Ret [302579711] /\
  map (gb_drawing 3 3 (fun _ => false) es) (all_rows (Pos 3 3)) =
    [false; false; false; true; false; false; true; false; false; false; false; false; true; false; false; false] /\
  gb_edits 3 3 [65535] es' = Ret [302579711].
Proof. cbv zeta. split; [repeat constructor; vm_compute; discriminate |]. split; [split; [repeat constructor; lia | cbn; lia] |]. vm_compute. auto. Qed.

(** C113 is false: in squares with an even number of columns, the laws that relate
    flips and rotations fail. *)
Theorem C113_gridbool_dihedral_refuted : exists W g, u16_dims W W /\ roomy (Pos W W) g /\
  exists a b, bind (gb_rotate_cw W g) (gb_flip_h (Pos W W)) = Ret a /\ bind (gb_flip_v (Pos W W) g) (gb_rotate_cw W) = Ret b /\
    gb_eqb a b = false.
Proof. exact C113_gridbool_dihedral_refuted_proof. Qed.
Print Assumptions C113_gridbool_dihedral_refuted.

(** What holds of C113: squares with an odd number of columns.  Missing: squares
    with an even number of columns, where only the following laws between
    rotations alone hold. *)
Theorem C113_gridbool_dihedral_partial : forall W g, u16_dims W W -> W mod 2 = 0 -> roomy (Pos W W) g ->
  let P := Pos W W in
  exists half trans anti,
    bind (gb_rotate_cw W g) (gb_rotate_cw W) = Ret half /\ bind (gb_rotate_cc W g) (gb_rotate_cc W) = Ret half /\
    bind (gb_flip_h P g) (gb_flip_v P) = Ret half /\
    bind (gb_rotate_cw W g) (gb_flip_h P) = Ret trans /\ bind (gb_flip_h P g) (gb_rotate_cc W) = Ret trans /\
    bind (gb_flip_v P g) (gb_rotate_cw W) = Ret trans /\ bind (gb_rotate_cc W g) (gb_flip_v P) = Ret trans /\
    bind (gb_rotate_cw W g) (gb_flip_v P) = Ret anti /\ bind (gb_flip_v P g) (gb_rotate_cc W) = Ret anti /\
    bind (gb_flip_h P g) (gb_rotate_cw W) = Ret anti /\ bind (gb_rotate_cc W g) (gb_flip_h P) = Ret anti /\
    (forall x y, valid P (x, y) -> gb_get P half (W - x, W - y) = gb_get P g (x, y)) /\
    (forall x y, valid P (x, y) -> gb_get P trans (y, x) = gb_get P g (x, y)) /\
    (forall x y, valid P (x, y) -> gb_get P anti (W - y, W - x) = gb_get P g (x, y)).
Proof. exact C113_gridbool_dihedral_partial_proof. Qed.
Print Assumptions C113_gridbool_dihedral_partial.

(** In every square, two quarter turns in one direction are two in the other, and
    four are none. *)
Theorem C113_gridbool_turns : forall W g, u16_dims W W -> roomy (Pos W W) g ->
  exists half, bind (gb_rotate_cw W g) (gb_rotate_cw W) = Ret half /\ bind (gb_rotate_cc W g) (gb_rotate_cc W) = Ret half /\
    bind (gb_rotate_cw W half) (gb_rotate_cw W) = Ret g /\ bind (gb_rotate_cc W half) (gb_rotate_cc W) = Ret g.
Proof. exact C113_gridbool_turns_proof. Qed.
Print Assumptions C113_gridbool_turns.

Example C113_example :
  bind (gb_rotate_cw 2 [2952790016]) (gb_flip_h (Pos 2 2)) = Ret [3254779904] /\
  bind (gb_flip_v (Pos 2 2) [2952790016]) (gb_rotate_cw 2) = Ret [3254779904] /\
  bind (gb_rotate_cw 1 [2147483648]) (gb_rotate_cw 1) = Ret [2147483648].
Proof. vm_compute. auto. Qed.
