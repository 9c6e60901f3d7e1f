(** PropGrid.v -- properties of Grid: C29-C36, C66, C67. *)

From Coq Require Import ZArith List Bool Lia Permutation.
From Verif Require Import Rust BoundedInt Dir PosT Pos Grid Spec Lib Deque BoundedIntProofs PosTProofs PosTProofs2 GridProofs GridRotProofs GridProofs2.
From Verif Require Import PropGridProofs.
Import ListNotations.
Open Scope Z_scope.

(** C29: reading and writing.  [UB] (undefined behaviour) is the outcome of an
    unchecked access outside the array; it never happens here. *)
Theorem C29_grid_get_set : forall (T : Type) P (g : list T) p v, grid_type P -> proper P g -> valid P p ->
  (exists w, grid_get P g p = Ret w /\ nth_error g (Z.to_nat (index_of P p)) = Some w) /\
  exists g', grid_set P g p v = Ret g' /\ proper P g' /\
    grid_get P g' p = Ret v /\
    (forall q, valid P q -> q <> p -> grid_get P g' q = grid_get P g q).
Proof. exact C29_grid_get_set_proof. Qed.
Print Assumptions C29_grid_get_set.

(** Fresh grids hold the given value everywhere. *)
Theorem C29_grid_fresh : forall (T : Type) P (v : T) p, grid_type P -> valid P p ->
  proper P (grid_repeat (cells P) v) /\ grid_get P (grid_repeat (cells P) v) p = Ret v /\
  proper P (grid_default (cells P) v) /\ grid_get P (grid_default (cells P) v) p = Ret v.
Proof. exact C29_grid_fresh_proof. Qed.
Print Assumptions C29_grid_fresh.

(** Equality of grids is equality at every position. *)
Theorem C29_grid_equality : forall (T : Type) P (g h : list T), grid_type P -> proper P g -> proper P h ->
  (g = h <-> forall p, valid P p -> grid_get P g p = grid_get P h p).
Proof. exact C29_grid_equality_proof. Qed.
Print Assumptions C29_grid_equality.

Example C29_example : grid_type (Pos 2 1) /\ proper (Pos 2 1) [10; 11; 12; 13; 14; 15] /\
  valid (Pos 2 1) (1, 1) /\ grid_get (Pos 2 1) [10; 11; 12; 13; 14; 15] (1, 1) = Ret 14 /\
  grid_set (Pos 2 1) [10; 11; 12; 13; 14; 15] (1, 1) 99 = Ret [10; 11; 12; 13; 99; 15].
Proof. split; [apply Pos_grid_type; unfold u16_dims; lia | vm_compute; intuition discriminate]. Qed.

(** C30 is false: nothing forces the size assertion, and reading a 2x2-position
    grid with SIZE = 1 at its last position is undefined behaviour. *)
Theorem C30_grid_size_refuted : exists P SIZE p, grid_type P /\ valid P p /\
  grid_asserts P SIZE = Ret false /\ grid_get P (grid_repeat SIZE 7) p = UB /\
  grid_set P (grid_repeat SIZE 7) p 8 = UB.
Proof. exact C30_grid_size_refuted_proof. Qed.
Print Assumptions C30_grid_size_refuted.

(** C66: with any SIZE whatsoever, an access is undefined behaviour exactly when
    the index of the position is not below SIZE. *)
Theorem C66_grid_size_exact : forall (T : Type) P (g : list T) p v, grid_type P -> valid P p ->
  (index_of P p < Z.of_nat (length g) ->
     (exists w, grid_get P g p = Ret w) /\ (exists g', grid_set P g p v = Ret g' /\ length g' = length g)) /\
  (Z.of_nat (length g) <= index_of P p -> grid_get P g p = UB /\ grid_set P g p v = UB).
Proof. exact C66_grid_size_exact_proof. Qed.
Print Assumptions C66_grid_size_exact.

Example C66_example : grid_get (Pos 3 3) [1; 2; 3] (2, 0) = Ret 3 /\ grid_get (Pos 3 3) [1; 2; 3] (3, 0) = UB.
Proof. split; reflexivity. Qed.

(** C31: flips. *)
Theorem C31_grid_flips : forall (T : Type) P (g : list T), grid_type P -> proper P g ->
  exists gh gv, grid_flip_h P g = Ret gh /\ grid_flip_v P g = Ret gv /\
    proper P gh /\ proper P gv /\ Permutation g gh /\ Permutation g gv /\
    (forall x y, valid P (x, y) -> pos_flip_h P (x, y) = Ret (XM P - x, y) /\
       grid_get P gh (XM P - x, y) = grid_get P g (x, y)) /\
    (forall x y, valid P (x, y) -> pos_flip_v P (x, y) = Ret (x, YM P - y) /\
       grid_get P gv (x, YM P - y) = grid_get P g (x, y)) /\
    grid_flip_h P gh = Ret g /\ grid_flip_v P gv = Ret g.
Proof. exact C31_grid_flips_proof. Qed.
Print Assumptions C31_grid_flips.

Example C31_example : proper (Pos 2 1) [1; 2; 3; 4; 5; 6] /\
  grid_flip_h (Pos 2 1) [1; 2; 3; 4; 5; 6] = Ret [3; 2; 1; 6; 5; 4] /\
  grid_flip_v (Pos 2 1) [1; 2; 3; 4; 5; 6] = Ret [4; 5; 6; 1; 2; 3].
Proof. vm_compute. auto. Qed.

(** C32: rotations of a square grid. *)
Theorem C32_grid_rotations : forall (T : Type) W (g : list T), u16_dims W W -> proper (Pos W W) g ->
  let P := Pos W W in
  exists gw gc, grid_rotate_cw W g = Ret gw /\ grid_rotate_cc W g = Ret gc /\
    proper P gw /\ proper P gc /\ Permutation g gw /\ Permutation g gc /\
    (forall x y, valid P (x, y) -> pos_rotate_cw P (x, y) = Ret (W - y, x) /\
       grid_get P gw (W - y, x) = grid_get P g (x, y)) /\
    (forall x y, valid P (x, y) -> pos_rotate_cc P (x, y) = Ret (y, W - x) /\
       grid_get P gc (y, W - x) = grid_get P g (x, y)) /\
    grid_rotate_cc W gw = Ret g /\ grid_rotate_cw W gc = Ret g.
Proof. exact C32_grid_rotations_proof. Qed.
Print Assumptions C32_grid_rotations.

(** Four quarter turns restore the grid, two in each sense agree. *)
Theorem C32_grid_four_turns : forall (T : Type) W (g : list T), u16_dims W W -> proper (Pos W W) g ->
  exists g1 g2 g3, grid_rotate_cw W g = Ret g1 /\ grid_rotate_cw W g1 = Ret g2 /\
    grid_rotate_cw W g2 = Ret g3 /\ grid_rotate_cw W g3 = Ret g /\
    bind (grid_rotate_cc W g) (grid_rotate_cc W) = Ret g2.
Proof. exact C32_grid_four_turns_proof. Qed.
Print Assumptions C32_grid_four_turns.

Example C32_example : u16_dims 2 2 /\ proper (Pos 2 2) [1; 2; 3; 4; 5; 6; 7; 8; 9] /\
  grid_rotate_cw 2 [1; 2; 3; 4; 5; 6; 7; 8; 9] = Ret [7; 4; 1; 8; 5; 2; 9; 6; 3].
Proof. vm_compute. intuition discriminate. Qed.

(** C33: collecting. *)
Theorem C33_grid_collect : forall (T : Type) P (d : T) it, grid_type P ->
  (Z.of_nat (length it) = cells P ->
     exists g, grid_from_iter (cells P) d it = Ret g /\ proper P g /\ grid_iter g = it /\
       forall p v, valid P p ->
         (grid_get P g p = Ret v <-> nth_error it (Z.to_nat (index_of P p)) = Some v)) /\
  (Z.of_nat (length it) <> cells P -> grid_from_iter (cells P) d it = Panic).
Proof. exact C33_grid_collect_proof. Qed.
Print Assumptions C33_grid_collect.

Theorem C33_grid_iterators : forall (T : Type) P (d : T) (neg : T -> T) (g : list T),
  grid_type P -> proper P g ->
  grid_from_iter (cells P) d (grid_iter g) = Ret g /\
  (exists l, grid_iter_pos P g = Ret l /\ map fst l = all_rows P /\ map snd l = grid_iter g /\
     forall p v, In (p, v) l <-> valid P p /\ grid_get P g p = Ret v) /\
  (exists n, grid_neg (cells P) d neg g = Ret n /\ proper P n /\
     forall p v, valid P p -> grid_get P g p = Ret v -> grid_get P n p = Ret (neg v)).
Proof. exact C33_grid_iterators_proof. Qed.
Print Assumptions C33_grid_iterators.

Example C33_example : grid_from_iter (cells (Pos 1 1)) 0 [1; 2; 3; 4] = Ret [1; 2; 3; 4] /\
  grid_from_iter (cells (Pos 1 1)) 0 [1; 2; 3] = Panic /\
  grid_from_iter (cells (Pos 1 1)) 0 [1; 2; 3; 4; 5] = Panic /\
  grid_iter_pos (Pos 1 1) [1; 2; 3; 4] = Ret [((0, 0), 1); ((1, 0), 2); ((0, 1), 3); ((1, 1), 4)] /\
  grid_neg (cells (Pos 1 1)) 0 Z.opp [1; 2; 3; 4] = Ret [-1; -2; -3; -4].
Proof. vm_compute. auto. Qed.

(** C34: building from nested vectors. *)
Theorem C34_grid_try_from_vecvec : forall (T : Type) P (d : T) (v : list (list T)), grid_type P ->
  let fits := Z.of_nat (length v) <= rows P /\ (forall row, In row v -> Z.of_nat (length row) <= cols P) in
  (fits -> exists g, grid_try_from_vecvec P (cells P) d v = Ret (Ok g) /\ proper P g /\
     forall p, valid P p -> grid_get P g p = Ret (match cell_at v p with Some c => c | None => d end)) /\
  (~ fits -> grid_try_from_vecvec P (cells P) d v = Ret (Err OutOfBounds)).
Proof. exact C34_grid_try_from_vecvec_proof. Qed.
Print Assumptions C34_grid_try_from_vecvec.

Example C34_example : grid_try_from_vecvec (Pos 2 1) (cells (Pos 2 1)) 0 [[1; 2]; [3; 4; 5]] = Ret (Ok [1; 2; 0; 3; 4; 5]) /\
  grid_try_from_vecvec (Pos 2 1) (cells (Pos 2 1)) 0 [[1; 2]; [3; 4; 5; 6]] = Ret (Err OutOfBounds).
Proof. split; reflexivity. Qed.

(** C35 is false: row 65536 is taken for row 0. *)
Theorem C35_extend_from_vecvec_refuted : exists P (v : list (list Z)) p c g', grid_type P /\
  cell_at v p = Some c /\ ~ valid P p /\
  extend_from_vecvec P (grid_repeat (cells P) 0) v = Ret (g', Ok tt) /\ g' <> grid_repeat (cells P) 0.
Proof. exact C35_extend_from_vecvec_refuted_proof. Qed.
Print Assumptions C35_extend_from_vecvec_refuted.

(** C35, the part that holds: at most 65536 rows of at most 65536 cells each.
    Missing: longer vectors, where coordinates wrap around. *)
Theorem C35_extend_from_vecvec_partial : forall (T : Type) P (g : list T) (v : list (list T)),
  grid_type P -> proper P g ->
  Z.of_nat (length v) <= 65536 -> (forall row, In row v -> Z.of_nat (length row) <= 65536) ->
  let inside := forall p c, 0 <= fst p -> 0 <= snd p -> cell_at v p = Some c -> valid P p in
  (inside -> exists g', extend_from_vecvec P g v = Ret (g', Ok tt) /\ proper P g' /\
     forall p, valid P p -> grid_get P g' p = match cell_at v p with Some c => Ret c | None => grid_get P g p end) /\
  (~ inside -> exists g', extend_from_vecvec P g v = Ret (g', Err OutOfBounds) /\ proper P g').
Proof. exact C35_extend_from_vecvec_partial_proof. Qed.
Print Assumptions C35_extend_from_vecvec_partial.

Example C35_example : proper (Pos 2 1) [1; 2; 3; 4; 5; 6] /\
  extend_from_vecvec (Pos 2 1) [1; 2; 3; 4; 5; 6] [[7]; [8; 9]] = Ret ([7; 2; 3; 8; 9; 6], Ok tt) /\
  extend_from_vecvec (Pos 2 1) [1; 2; 3; 4; 5; 6] [[7]; [8; 9; 10; 11]] = Ret ([7; 2; 3; 8; 9; 10], Err OutOfBounds).
Proof. vm_compute. auto. Qed.

(** C67: exact behaviour for all inputs: the cells are taken row by row with
    coordinates reduced modulo 65536; they are written up to the first one
    outside the grid, which stops the call with OutOfBounds. *)
Theorem C67_extend_from_vecvec_exact : forall (T : Type) P (g : list T) (v : list (list T)),
  grid_type P -> proper P g ->
  exists pre rest g' r,
    map (fun c => ((fst (fst c) mod 65536, snd (fst c) mod 65536), snd c)) (vecvec_cells 0 v) = pre ++ rest /\
    extend_from_vecvec P g v = Ret (g', r) /\ proper P g' /\
    (forall p, valid P p -> grid_get P g' p =
       match last_given pre p with Some c => Ret c | None => grid_get P g p end) /\
    Forall (fun c => valid P (fst c)) pre /\
    match rest with [] => r = Ok tt | c :: _ => r = Err OutOfBounds /\ ~ valid P (fst c) end.
Proof. exact C67_extend_from_vecvec_exact_proof. Qed.
Print Assumptions C67_extend_from_vecvec_exact.

Example C67_example : vecvec_cells 0 [[7; 8]; []; [9]] = [((0, 0), 7); ((1, 0), 8); ((0, 2), 9)].
Proof. reflexivity. Qed.

(** C36: lines. *)
Theorem C36_grid_lines : forall (T : Type) P (g : list T) y, grid_type P -> proper P g -> 0 <= y <= YM P ->
  (exists l, grid_line P g y = Ret l /\ Z.of_nat (length l) = cols P /\
     forall x, 0 <= x <= XM P -> exists v, nth_error l (Z.to_nat x) = Some v /\ grid_get P g (x, y) = Ret v) /\
  (forall l, Z.of_nat (length l) = cols P ->
     exists g', grid_line_write P g y l = Ret g' /\ proper P g' /\
       (forall x, 0 <= x <= XM P -> exists v, nth_error l (Z.to_nat x) = Some v /\ grid_get P g' (x, y) = Ret v) /\
       (forall p, valid P p -> snd p <> y -> grid_get P g' p = grid_get P g p)).
Proof. exact C36_grid_lines_proof. Qed.
Print Assumptions C36_grid_lines.

(** C36: extend. *)
Theorem C36_grid_extend : forall (T : Type) P (g : list T) items, grid_type P -> proper P g ->
  (forall p v, In (p, v) items -> valid P p) ->
  exists g', grid_extend P g items = Ret g' /\ proper P g' /\
    forall p, valid P p -> grid_get P g' p =
      match last_given items p with Some v => Ret v | None => grid_get P g p end.
Proof. exact C36_grid_extend_proof. Qed.
Print Assumptions C36_grid_extend.

Example C36_example : grid_line (Pos 2 1) [1; 2; 3; 4; 5; 6] 1 = Ret [4; 5; 6] /\
  grid_line_write (Pos 2 1) [1; 2; 3; 4; 5; 6] 0 [7; 8; 9] = Ret [7; 8; 9; 4; 5; 6] /\
  grid_extend (Pos 2 1) [1; 2; 3; 4; 5; 6] [((0, 0), 9); ((1, 1), 8); ((0, 0), 7)] = Ret [7; 2; 3; 4; 8; 6].
Proof. vm_compute. auto. Qed.
