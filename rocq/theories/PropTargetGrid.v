(** PropTargetGrid.v -- positions and grids on targets with another usize: C136, C137. *)

From Coq Require Import ZArith List Bool Lia.
From Verif Require Import Rust BoundedInt Dir PosT Pos Grid Gridbool Display SetMap CameFrom Bf Astar Ucs Target TargetGrid Spec SpecSearch SpecTarget Lib BoundedIntProofs PosTProofs PosTProofs2 GridProofs GridProofs2 GridboolProofs PropGridboolProofs SetMapProofs Sim CameFromProofs AstarProofs PropTargetProofs.
From Verif Require Import PropTargetGridProofs.
Import ListNotations.
Open Scope Z_scope.

(** ** The same results where the number of positions fits *)

(** Sizes, indices, distances, size hints and rotations of positions are the same on
    every target whose usize can count the positions. *)
Theorem C136_positions : forall t P, grid_type P -> cells P <= usize_MAX t ->
  t_width t P = width P /\ t_height t P = height P /\ t_dimensions t P = dimensions P /\
  (forall it, t_piter_size_hint t P it = piter_size_hint P it) /\
  (forall it, t_prange_size_hint t P it = prange_size_hint P it) /\
  (forall st, t_in_x_size_hint t P st = in_x_size_hint P st) /\
  (forall st, t_in_y_size_hint t P st = in_y_size_hint P st) /\
  (forall i, t_tryfrom_usize t P i = tryfrom_usize P i) /\
  forall p, valid P p ->
    t_to_usize t P p = to_usize P p /\ t_rotate_cw t P p = pos_rotate_cw P p /\ t_rotate_cc t P p = pos_rotate_cc P p /\
    forall q, valid P q -> t_manhattan t P p q = manhattan P p q.
Proof. exact C136_positions_proof. Qed.
Print Assumptions C136_positions.

(** A grid of 256 x 255 positions on a 16-bit target: 65280 positions. *)
Example C136_positions_example :
  let P := Pos 255 254 in let t := Target W16 false in
  cells P = 65280 /\ t_dimensions t P = Ret 65280 /\ t_to_usize t P (255, 254) = Ret 65279 /\ t_tryfrom_usize t P 65279 = Ret (Ok (255, 254)) /\
  t_manhattan t P (0, 0) (255, 254) = Ret 509.
Proof. vm_compute. repeat split. Qed.

(** Grids do the same on every target whose usize can count the positions. *)
Theorem C136_grids : forall t T P, grid_type P -> cells P <= usize_MAX t ->
  (forall (g : grid T) p, valid P p -> t_grid_get t P g p = grid_get P g p /\ forall v, t_grid_set t P g p v = grid_set P g p v) /\
  (forall (g : grid T) y, 0 <= y <= YM P -> t_grid_line t P g y = grid_line P g y /\ forall l, t_grid_line_write t P g y l = grid_line_write P g y l) /\
  (forall g : grid T,
    t_grid_iter_pos t P g = grid_iter_pos P g /\ t_grid_flip_h t P g = grid_flip_h P g /\ t_grid_flip_v t P g = grid_flip_v P g /\
    (forall v, t_extend_from_vecvec t P g v = extend_from_vecvec P g v) /\
    forall items, Forall (fun it => valid P (fst it)) items -> t_grid_extend t P g items = grid_extend P g items) /\
  (forall SIZE (d : T) vec, t_grid_try_from_vecvec t P SIZE d vec = grid_try_from_vecvec P SIZE d vec) /\
  forall pad fmt (g : grid T), t_grid_display t pad P fmt g = grid_display pad P fmt g.
Proof. exact C136_grids_proof. Qed.
Print Assumptions C136_grids.

(** The same for the rotations of square grids. *)
Theorem C136_rotations : forall t T XYMAX (g : grid T), u16_dims XYMAX XYMAX -> cells (Pos XYMAX XYMAX) <= usize_MAX t ->
  t_grid_rotate_cw t XYMAX g = grid_rotate_cw XYMAX g /\ t_grid_rotate_cc t XYMAX g = grid_rotate_cc XYMAX g.
Proof. exact C136_rotations_proof. Qed.
Print Assumptions C136_rotations.

(** Gridbools do the same on every target whose usize can count the positions. *)
Theorem C136_gridbools : forall t P, grid_type P -> cells P <= usize_MAX t ->
  (forall g p, valid P p -> t_gb_get t P g p = gb_get P g p /\ t_gb_set_t t P g p = gb_set_t P g p /\ t_gb_set_f t P g p = gb_set_f P g p /\
    forall v, t_gb_set t P g p v = gb_set P g p v) /\
  (forall g ps, Forall (valid P) ps -> t_gb_set_iter_t t P g ps = gb_set_iter_t P g ps /\ t_gb_set_iter_f t P g ps = gb_set_iter_f P g ps) /\
  forall g, t_gb_iter t P g = gb_iter P g /\ t_gb_iter_pos t P g = gb_iter_pos P g /\ t_gb_iter_t t P g = gb_iter_t P g /\ t_gb_iter_f t P g = gb_iter_f P g /\
    t_gb_flip_h t P g = gb_flip_h P g /\ t_gb_flip_v t P g = gb_flip_v P g /\ forall pad, t_gb_display t pad P g = gb_display pad P g.
Proof. exact C136_gridbools_proof. Qed.
Print Assumptions C136_gridbools.

(** The same for making and collecting a Gridbool, if the bits of its words can be
    counted. *)
Theorem C136_new_gridbools : forall t XMAX YMAX WORDS, u16_dims XMAX YMAX -> cells (Pos XMAX YMAX) <= usize_MAX t -> 0 <= 32 * WORDS <= usize_MAX t ->
  let P := Pos XMAX YMAX in
  t_gb_ALL_TRUE t P WORDS = gb_ALL_TRUE P WORDS /\ t_gb_ALL_FALSE t P WORDS = gb_ALL_FALSE P WORDS /\ t_gb_default t P WORDS = gb_default P WORDS /\
  (forall ps, Forall (valid P) ps -> t_gb_from_positions t P WORDS ps = gb_from_positions P WORDS ps) /\
  forall bs, t_gb_from_bools t P WORDS bs = gb_from_bools P WORDS bs.
Proof. exact C136_new_gridbools_proof. Qed.
Print Assumptions C136_new_gridbools.

(** The same for the rotations of square Gridbools. *)
Theorem C136_gridbool_rotations : forall t XYMAX g, u16_dims XYMAX XYMAX -> cells (Pos XYMAX XYMAX) <= usize_MAX t ->
  t_gb_rotate_cw t XYMAX g = gb_rotate_cw XYMAX g /\ t_gb_rotate_cc t XYMAX g = gb_rotate_cc XYMAX g.
Proof. exact C136_gridbool_rotations_proof. Qed.
Print Assumptions C136_gridbool_rotations.

(** A Gridbool of 256 x 255 positions on a 16-bit target. *)
Example C136_gridbools_example :
  let P := Pos 255 254 in let t := Target W16 true in
  cells P <= usize_MAX t /\ 32 * 2040 <= usize_MAX t /\
  (g <- t_gb_from_positions t P 2040 [(255, 254); (3, 1)] ;; a <- t_gb_get t P g (255, 254) ;; b <- t_gb_get t P g (254, 254) ;; Ret (a, b)) = Ret (true, false) /\
  (g <- t_gb_rotate_cw t 1 [2147483648] ;; Ret g) = gb_rotate_cw 1 [2147483648].
Proof. vm_compute. repeat split; discriminate. Qed.

(** The macros compute the same sizes, if these and the numbers on the way fit. *)
Theorem C136_sizes : forall t XMAX YMAX, u16_dims XMAX YMAX -> cells (Pos XMAX YMAX) + 31 <= usize_MAX t ->
  t_grid_create_SIZE t XMAX YMAX = grid_create_SIZE XMAX YMAX /\ t_gridbool_create_WORDS t XMAX YMAX = gridbool_create_WORDS XMAX YMAX /\
  t_sqrid_create_SIZE t XMAX YMAX = sqrid_create_SIZE XMAX YMAX /\ t_sqrid_create_WORDS t XMAX YMAX = sqrid_create_WORDS XMAX YMAX /\
  t_Pos_SIZE t XMAX YMAX = Pos_SIZE XMAX YMAX.
Proof. exact C136_sizes_proof. Qed.
Print Assumptions C136_sizes.

Example C136_sizes_example :
  let t := Target W16 true in
  cells (Pos 255 254) + 31 <= usize_MAX t /\ t_grid_create_SIZE t 255 254 = Ret 65280 /\ t_gridbool_create_WORDS t 255 254 = Ret 2040 /\
  t_sqrid_create_WORDS t 255 254 = Ret 2041 /\ t_grid_create_SIZE t 255 255 = Panic.
Proof. vm_compute. repeat split; discriminate. Qed.

(** Going back along a map of directions, whatever the map holds: the same path or
    the same error, if the square of the width plus 1 fits too. *)
Theorem C136_camefrom : forall t M M' P (mo : mapops (option dir) M) (mo' : mapops (option dir) M') m m' f fuel orig dest,
  grid_type P -> valid P orig -> valid P dest ->
  (forall p, valid P p -> mp_get mo m p = Ret (f p)) -> (forall p, valid P p -> mp_get mo' m' p = Ret (f p)) ->
  cols P * cols P + 1 <= usize_MAX t -> 2 * (2 * (cols P + rows P - 2)) <= usize_MAX t ->
  t_camefrom_into_path t P mo fuel m orig dest = camefrom_into_path P mo' fuel m' orig dest.
Proof. exact C136_camefrom_proof. Qed.
Print Assumptions C136_camefrom.

Example C136_camefrom_example :
  let P := Pos 2 2 in let t := Target W16 false in let g := [None; None; None; None; Some dN; None; None; None; Some dNW] in
  cols P * cols P + 1 <= usize_MAX t /\
  t_camefrom_into_path t P (t_map_grid t P 9) 20 g (1, 0) (2, 2) = Ret (Ok [dS; dSE]) /\
  t_camefrom_into_path t P (t_map_grid t P 9) 20 g (0, 0) (2, 2) = Ret (Err InvalidMovement) /\
  t_camefrom_into_path t P (t_map_grid t P 9) 20 g (0, 0) (2, 1) = Ret (Err DestinationUnreachable).
Proof. vm_compute. repeat split; discriminate. Qed.

(** ** Exact values for any position type, with and without overflow checks *)

(** Without overflow checks, sizes and indices are the true values modulo 2 to the
    number of bits of usize. *)
Theorem C137_unchecked : forall t P, t_checks t = false -> 0 <= XM P <= usize_MAX t -> 0 <= YM P <= usize_MAX t ->
  let n := usize_MAX t + 1 in
  t_width t P = Ret (cols P mod n) /\ t_height t P = Ret (rows P mod n) /\ t_dimensions t P = Ret (cells P mod n) /\
  (forall it, t_piter_size_hint t P it = Ret (cells P mod n, Some (cells P mod n))) /\
  (forall it, t_prange_size_hint t P it = Ret (cells P mod n, Some (cells P mod n))) /\
  (forall st, t_in_x_size_hint t P st = Ret (rows P mod n, Some (rows P mod n))) /\
  (forall st, t_in_y_size_hint t P st = Ret (cols P mod n, Some (cols P mod n))) /\
  forall p, 0 <= fst p <= XM P -> 0 <= snd p <= YM P -> t_to_usize t P p = Ret (index_of P p mod n).
Proof. exact C137_unchecked_proof. Qed.
Print Assumptions C137_unchecked.

(** Tuples of u32 in an unchecked 64-bit build: the iterator over all positions
    announces that there are none.  Tuples of u64: all positions of a column share
    their index. *)
Example C137_unchecked_example :
  let t := Target W64 false in let P := IntTuple u32 in let Q := IntTuple u64 in
  t_piter_size_hint t P (piter_new P) = Ret (0, Some 0) /\ fst (piter_next P true (piter_new P)) = Some (0, 0) /\
  t_to_usize t P (7, 4294967295) = Ret 18446744069414584327 /\
  t_to_usize t Q (7, 0) = Ret 7 /\ t_to_usize t Q (7, 1) = Ret 7 /\ t_tryfrom_usize t Q 7 = Panic.
Proof. vm_compute. repeat split. Qed.

(** With overflow checks they are the true values, or a panic when these do not fit;
    an index also panics when the width does not fit. *)
Theorem C137_checked : forall t P, t_checks t = true -> 0 <= XM P <= usize_MAX t -> 0 <= YM P <= usize_MAX t ->
  let fit v := if v <=? usize_MAX t then Ret v else Panic in
  let hint v := if v <=? usize_MAX t then Ret (v, Some v) else Panic in
  t_width t P = fit (cols P) /\ t_height t P = fit (rows P) /\ t_dimensions t P = fit (cells P) /\
  (forall it, t_piter_size_hint t P it = hint (cells P)) /\ (forall it, t_prange_size_hint t P it = hint (cells P)) /\
  (forall st, t_in_x_size_hint t P st = hint (rows P)) /\ (forall st, t_in_y_size_hint t P st = hint (cols P)) /\
  forall p, 0 <= fst p <= XM P -> 0 <= snd p <= YM P ->
    t_to_usize t P p = if (cols P <=? usize_MAX t) && (index_of P p <=? usize_MAX t) then Ret (index_of P p) else Panic.
Proof. exact C137_checked_proof. Qed.
Print Assumptions C137_checked.

Example C137_checked_example :
  let t := Target W64 true in let P := IntTuple u32 in let Q := IntTuple u64 in
  t_piter_size_hint t P (piter_new P) = Panic /\ t_to_usize t P (7, 4294967295) = Ret 18446744069414584327 /\ t_to_usize t Q (7, 0) = Panic /\
  t_dimensions (Target W32 true) (IntTuple u16) = Panic /\ t_dimensions (Target W32 false) (IntTuple u16) = Ret 0.
Proof. vm_compute. repeat split. Qed.

(** A greatest coordinate that is no usize value is a panic in every build, and so is
    the index of a position with a coordinate that is none. *)
Theorem C137_out_of_range : forall t P,
  (usize_MAX t < XM P \/ XM P < 0 -> t_width t P = Panic /\ t_dimensions t P = Panic /\ (forall i, t_tryfrom_usize t P i = Panic) /\ (forall p, t_to_usize t P p = Panic)) /\
  (usize_MAX t < YM P \/ YM P < 0 -> t_height t P = Panic /\ t_dimensions t P = Panic) /\
  forall p, usize_MAX t < fst p \/ fst p < 0 \/ usize_MAX t < snd p \/ snd p < 0 -> t_to_usize t P p = Panic.
Proof. exact C137_out_of_range_proof. Qed.
Print Assumptions C137_out_of_range.

Example C137_out_of_range_example :
  usize_MAX (Target W64 false) < XM (IntTuple u128) /\ t_width (Target W64 false) (IntTuple u128) = Panic /\
  t_to_usize (Target W64 false) (IntTuple i32) (3, -1) = Panic /\ t_to_usize (Target W64 false) (IntTuple i32) (3, 1) = Ret 2147483651.
Proof. vm_compute. repeat split. Qed.

(** An index is turned back into its position in every build, for every type whose
    coordinates include 0 and whose width is a usize value; if the width is one more
    than usize::MAX, the conversion panics in every build: an overflow, or a division
    by zero. *)
Theorem C137_from_index : forall t P i, post_wf P -> b_min (pt_x P) <= 0 <= XM P -> b_min (pt_y P) <= 0 <= YM P -> 0 <= i <= usize_MAX t ->
  (cols P <= usize_MAX t ->
    t_tryfrom_usize t P i = Ret (if i <? cells P then Ok (i mod cols P, i / cols P) else Err OutOfBounds) /\
    forall p, 0 <= fst p <= XM P -> 0 <= snd p <= YM P -> t_tryfrom_usize t P i = Ret (Ok p) <-> index_of P p = i) /\
  (cols P = usize_MAX t + 1 -> t_tryfrom_usize t P i = Panic).
Proof. exact C137_from_index_proof. Qed.
Print Assumptions C137_from_index.

Example C137_from_index_example :
  let t := Target W64 false in
  t_tryfrom_usize t (IntTuple u32) 18446744069414584327 = Ret (Ok (7, 4294967295)) /\ t_tryfrom_usize t (IntTuple i32) 2147483651 = Ret (Ok (3, 1)) /\
  t_tryfrom_usize t (IntTuple u8) 65536 = Ret (Err OutOfBounds) /\
  cols (IntTuple u64) = usize_MAX t + 1 /\ t_tryfrom_usize t (IntTuple u64) 5 = Panic /\ t_tryfrom_usize (Target W64 true) (IntTuple u64) 5 = Panic.
Proof. vm_compute. repeat split. Qed.

(** Rotations of integer tuples.  With overflow checks they are those of the 64-bit
    build for every position type.  Without, a rotation never panics: it mirrors
    negative coordinates among the negative ones, the two rotations undo each other and
    four of them are none. *)
Theorem C137_rotations : forall t,
  (t_checks t = true -> forall P p, t_rotate_cw t P p = pos_rotate_cw P p /\ t_rotate_cc t P p = pos_rotate_cc P p) /\
  (t_checks t = false -> forall ty, In ty int_tuple_types -> forall p, let P := IntTuple ty in valid P p ->
    let mirrored v := if v <? 0 then imin ty - v - 1 else imax ty - v in
    t_rotate_cw t P p = Ret (mirrored (snd p), fst p) /\ t_rotate_cc t P p = Ret (snd p, mirrored (fst p)) /\
    (q <- t_rotate_cw t P p ;; t_rotate_cc t P q) = Ret p /\ (q <- t_rotate_cc t P p ;; t_rotate_cw t P q) = Ret p /\
    (q <- t_rotate_cw t P p ;; q <- t_rotate_cw t P q ;; q <- t_rotate_cw t P q ;; t_rotate_cw t P q) = Ret p).
Proof. exact C137_rotations_proof. Qed.
Print Assumptions C137_rotations.

Example C137_rotations_example :
  let P := IntTuple i8 in valid P (3, -5) /\
  t_rotate_cw (Target W64 false) P (3, -5) = Ret (-124, 3) /\ t_rotate_cc (Target W64 false) P (-124, 3) = Ret (3, -5) /\
  t_rotate_cw (Target W64 true) P (3, -5) = Panic /\ t_rotate_cw (Target W64 true) P (3, 5) = Ret (122, 3).
Proof. vm_compute. repeat split; discriminate. Qed.
