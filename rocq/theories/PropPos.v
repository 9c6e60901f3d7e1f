(** PropPos.v -- properties of positions: C05-C20, C27, C28, C60-C63. *)

From Coq Require Import ZArith List Bool Lia.
From Verif Require Import Rust BoundedInt Dir PosT Pos Spec Lib Deque BoundedIntProofs PosTProofs PosTProofs2.
From Verif Require Import PropPosProofs.
Import ListNotations.
Open Scope Z_scope.

(** Every [Pos<XMAX, YMAX>] is a grid-like type, so the theorems below that
    quantify over [grid_type P] apply to it; so do they to (u8, u8) and
    (u16, u16). *)
Theorem C05_pos_is_grid_type :
  (forall X Y, u16_dims X Y -> grid_type (Pos X Y)) /\
  grid_type (IntTuple u8) /\ grid_type (IntTuple u16).
Proof. exact C05_pos_is_grid_type_proof. Qed.
Print Assumptions C05_pos_is_grid_type.

(** C05: a position is created exactly when both coordinates are in the grid. *)
Theorem C05_pos_construction : forall X Y x y s t, u16_dims X Y ->
  (0 <= x <= X /\ 0 <= y <= Y ->
     Pos_new X Y x y = Ok (x, y) /\
     Pos_try_from_u16 X Y (x, y) = Ok (x, y) /\
     pos_new (Pos X Y) (FromInt s) (FromInt t) x y = Ok (x, y) /\
     Pos_new_unwrap X Y x y = Ret (x, y) /\ Pos_new_static X Y x y = Ret (x, y) /\
     Pos_x (x, y) = x /\ Pos_y (x, y) = y /\ Pos_tuple (x, y) = (x, y)) /\
  (~ (0 <= x <= X /\ 0 <= y <= Y) ->
     Pos_new X Y x y = Err OutOfBounds /\
     Pos_try_from_u16 X Y (x, y) = Err OutOfBounds /\
     pos_new (Pos X Y) (FromInt s) (FromInt t) x y = Err OutOfBounds /\
     Pos_new_unwrap X Y x y = Panic /\ Pos_new_static X Y x y = Panic).
Proof. exact C05_pos_construction_proof. Qed.
Print Assumptions C05_pos_construction.

Example C05_example :
  u16_dims 639 479 /\ Pos_new 639 479 639 400 = Ok (639, 400) /\
  Pos_new 639 479 640 400 = Err OutOfBounds.
Proof. vm_compute. intuition discriminate. Qed.

(** C06 is false: the conversion truncates to 16 bits before the range check,
    so (65536, -65535) is accepted as (0, 1). *)
Theorem C06_i32_conversion_refuted :
  exists X Y x y p, u16_dims X Y /\ imin i32 <= x <= imax i32 /\ imin i32 <= y <= imax i32 /\
    Pos_try_from_i32 X Y (x, y) = Ok p /\ x > X /\ y < 0 /\ Pos_to_i32 p <> (x, y).
Proof. exact C06_i32_conversion_refuted_proof. Qed.
Print Assumptions C06_i32_conversion_refuted.

(** C06, the part that holds: coordinates inside the grid are accepted and
    preserved in both directions; coordinates that fit in 16 bits but are
    outside the grid are rejected.  Missing: rejection of the other values. *)
Theorem C06_i32_conversion_partial : forall X Y x y, u16_dims X Y ->
  (0 <= x <= X -> 0 <= y <= Y ->
     Pos_try_from_i32 X Y (x, y) = Ok (x, y) /\ Pos_to_i32 (x, y) = (x, y)) /\
  (0 <= x <= 65535 -> 0 <= y <= 65535 -> X < x \/ Y < y ->
     Pos_try_from_i32 X Y (x, y) = Err OutOfBounds).
Proof. exact C06_i32_conversion_partial_proof. Qed.
Print Assumptions C06_i32_conversion_partial.

Example C06_example : u16_dims 9 9 /\ Pos_try_from_i32 9 9 (9, 0) = Ok (9, 0) /\
  Pos_try_from_i32 9 9 (10, 0) = Err OutOfBounds /\ Pos_try_from_i32 9 9 (-1, 0) = Err OutOfBounds.
Proof. vm_compute. intuition discriminate. Qed.

(** C60: exactly what [try_from((i32, i32))] accepts. *)
Theorem C60_i32_conversion_exact : forall X Y x y, u16_dims X Y ->
  (x mod 65536 <= X /\ y mod 65536 <= Y ->
     Pos_try_from_i32 X Y (x, y) = Ok (x mod 65536, y mod 65536)) /\
  (X < x mod 65536 \/ Y < y mod 65536 -> Pos_try_from_i32 X Y (x, y) = Err OutOfBounds).
Proof. exact C60_i32_conversion_exact_proof. Qed.
Print Assumptions C60_i32_conversion_exact.

Example C60_example : Pos_try_from_i32 10 10 (-65530, 131072) = Ok (6, 0).
Proof. reflexivity. Qed.

(** C07: [to_usize] and [tryfrom_usize] are inverse bijections between the
    positions and 0..SIZE. *)
Theorem C07_index_bijection : forall P, grid_type P ->
  (forall p, valid P p ->
     to_usize P p = Ret (index_of P p) /\ 0 <= index_of P p < cells P /\
     tryfrom_usize P (index_of P p) = Ret (Ok p)) /\
  (forall i, 0 <= i < cells P ->
     exists p, valid P p /\ tryfrom_usize P i = Ret (Ok p) /\ to_usize P p = Ret i) /\
  (forall i, cells P <= i -> tryfrom_usize P i = Ret (Err OutOfBounds)).
Proof. exact C07_index_bijection_proof. Qed.
Print Assumptions C07_index_bijection.

Example C07_example :
  valid (Pos 4 3) (2, 3) /\ to_usize (Pos 4 3) (2, 3) = Ret 17 /\
  tryfrom_usize (Pos 4 3) 17 = Ret (Ok (2, 3)) /\ tryfrom_usize (Pos 4 3) 20 = Ret (Err OutOfBounds).
Proof. vm_compute. intuition discriminate. Qed.

(** The [Pos]-specific conversions from and to usize are those. *)
Theorem C07_pos_usize : forall X Y i p,
  Pos_try_from_usize X Y i = tryfrom_usize (Pos X Y) i /\ Pos_to_usize X Y p = to_usize (Pos X Y) p.
Proof. exact C07_pos_usize_proof. Qed.
Print Assumptions C07_pos_usize.

(** C08: [next] / [prev] move by one in row-major index order, [next_y] /
    [prev_y] in column-major order; each pair is mutually inverse. *)
Theorem C08_next_prev : forall P p, grid_type P -> valid P p ->
  ((index_of P p + 1 < cells P ->
      exists q, pos_next P p = Some q /\ valid P q /\ index_of P q = index_of P p + 1) /\
   (index_of P p + 1 = cells P -> pos_next P p = None)) /\
  ((0 < index_of P p ->
      exists q, pos_prev P p = Some q /\ valid P q /\ index_of P q = index_of P p - 1) /\
   (index_of P p = 0 -> pos_prev P p = None)) /\
  ((index_col P p + 1 < cells P ->
      exists q, pos_next_y P p = Some q /\ valid P q /\ index_col P q = index_col P p + 1) /\
   (index_col P p + 1 = cells P -> pos_next_y P p = None)) /\
  ((0 < index_col P p ->
      exists q, pos_prev_y P p = Some q /\ valid P q /\ index_col P q = index_col P p - 1) /\
   (index_col P p = 0 -> pos_prev_y P p = None)).
Proof. exact C08_next_prev_proof. Qed.
Print Assumptions C08_next_prev.

Theorem C08_next_prev_inverse : forall P p q, grid_type P -> valid P p -> valid P q ->
  (pos_next P p = Some q <-> pos_prev P q = Some p) /\
  (pos_next_y P p = Some q <-> pos_prev_y P q = Some p).
Proof. exact C08_next_prev_inverse_proof. Qed.
Print Assumptions C08_next_prev_inverse.

Example C08_example :
  pos_next (Pos 4 3) (4, 1) = Some (0, 2) /\ pos_prev (Pos 4 3) (0, 2) = Some (4, 1) /\
  pos_next_y (Pos 4 3) (2, 3) = Some (3, 0) /\ pos_next (Pos 4 3) (4, 3) = None.
Proof. vm_compute. auto. Qed.

(** C09: the iterators visit exactly the positions of the type, each once, in
    index order; also for integer tuples with negative coordinates. *)
Theorem C09_full_iteration : forall P, post_wf P ->
  exists hor ver,
    iter_list P true = Ret hor /\ iter_list P false = Ret ver /\
    iter_list_rev P true = Ret (rev hor) /\ iter_list_rev P false = Ret (rev ver) /\
    NoDup hor /\ (forall p, In p hor <-> valid P p) /\
    NoDup ver /\ (forall p, In p ver <-> valid P p) /\
    hor = flat_map (fun y => map (fun x => (x, y)) (interval (b_min (pt_x P)) (XM P)))
            (interval (b_min (pt_y P)) (YM P)) /\
    ver = flat_map (fun x => map (fun y => (x, y)) (interval (b_min (pt_y P)) (YM P)))
            (interval (b_min (pt_x P)) (XM P)).
Proof. exact C09_full_iteration_proof. Qed.
Print Assumptions C09_full_iteration.

(** On grids the n-th item has index n. *)
Theorem C09_index_order : forall P, grid_type P ->
  exists hor ver, iter_list P true = Ret hor /\ iter_list P false = Ret ver /\
    Z.of_nat (length hor) = cells P /\ Z.of_nat (length ver) = cells P /\
    forall p, valid P p ->
      nth_error hor (Z.to_nat (index_of P p)) = Some p /\
      nth_error ver (Z.to_nat (index_col P p)) = Some p.
Proof. exact C09_index_order_proof. Qed.
Print Assumptions C09_index_order.

Example C09_example :
  post_wf (Pos 1 2) /\ iter_list (Pos 1 2) true = Ret [(0,0); (1,0); (0,1); (1,1); (0,2); (1,2)] /\
  iter_list (Pos 1 2) false = Ret [(0,0); (0,1); (0,2); (1,0); (1,1); (1,2)].
Proof. split; [apply grid_type_wf, Pos_grid_type; unfold u16_dims; lia | vm_compute; auto]. Qed.

(** The per-axis iterators. *)
Theorem C09_axis_iteration : forall P, post_wf P ->
  iter_x P = Ret (interval (b_min (pt_x P)) (XM P)) /\
  iter_y P = Ret (interval (b_min (pt_y P)) (YM P)).
Proof. exact C09_axis_iteration_proof. Qed.
Print Assumptions C09_axis_iteration.

(** C10: any mixture of [next] and [next_back] behaves like popping the two ends
    of the list of all positions. *)
Theorem C10_deque_iteration : forall P XFIRST cs, post_wf P ->
  run_calls (piter_next P XFIRST) (piter_next_back P XFIRST) cs (piter_new P) =
  run_calls pop_front pop_back cs (if XFIRST then all_rows P else all_cols P).
Proof. exact C10_deque_iteration_proof. Qed.
Print Assumptions C10_deque_iteration.

Example C10_example :
  run_calls (piter_next (Pos 1 1) true) (piter_next_back (Pos 1 1) true)
    [Back; Front; Back; Front; Front; Back] (piter_new (Pos 1 1)) =
  [Some (1,1); Some (0,0); Some (0,1); Some (1,0); None; None].
Proof. reflexivity. Qed.

(** C11 is false: after one call the hint of [PosTIter] still promises all the
    items; likewise for the other iterators. *)
Theorem C11_size_hint_refuted :
  exists P, grid_type P /\
    (let it := snd (piter_next P true (piter_new P)) in
     piter_size_hint P it = Ret (2, Some 2) /\
     drain (fun it => Ret (piter_next P true it)) (piter_fuel P) it = Ret [(1, 0)]) /\
    (let it := snd (in_y_next P (in_y_new P 0)) in
     in_y_size_hint P it = Ret (2, Some 2) /\
     drain (fun it => Ret (in_y_next P it)) (piter_fuel P) it = Ret [(1, 0)]) /\
    (let it := snd (in_x_next P (in_x_new P 0)) in
     in_x_size_hint P it = Ret (1, Some 1) /\
     drain (fun it => Ret (in_x_next P it)) (piter_fuel P) it = Ret []) /\
    (let it := prange_new (0, 0) (0, 0) in
     prange_size_hint P it = Ret (2, Some 2) /\
     drain (fun it => Ret (prange_next P it)) (piter_fuel P) it = Ret []) /\
    (let it := dir_iter in
     exists it', dir_iter_next false it = Ret (Some dN, it') /\
     dir_iter_size_hint false it' = (4, Some 4) /\
     drain (dir_iter_next false) 9 it' = Ret [dE; dS; dW]).
Proof. exact C11_size_hint_refuted_proof. Qed.
Print Assumptions C11_size_hint_refuted.

(** C11, the part that holds: the upper bound is always valid, and on a fresh
    iterator the lower bound too (except for [iter_range]).  Missing: the lower
    bound once items were consumed, where it is wrong. *)
Theorem C11_size_hint_partial : forall P, grid_type P ->
  (forall XFIRST cs, exists lo up l,
     let it := state_after (piter_next P XFIRST) (piter_next_back P XFIRST) cs (piter_new P) in
     piter_size_hint P it = Ret (lo, Some up) /\
     drain (fun it => Ret (piter_next P XFIRST it)) (piter_fuel P) it = Ret l /\
     Z.of_nat (length l) <= up /\ (cs = [] -> lo = Z.of_nat (length l))) /\
  (forall x n, exists lo up l,
     let it := Nat.iter n (fun s => snd (in_x_next P s)) (in_x_new P x) in
     in_x_size_hint P it = Ret (lo, Some up) /\
     drain (fun it => Ret (in_x_next P it)) (piter_fuel P) it = Ret l /\
     Z.of_nat (length l) <= up /\ (n = O -> lo = Z.of_nat (length l))) /\
  (forall y n, exists lo up l,
     let it := Nat.iter n (fun s => snd (in_y_next P s)) (in_y_new P y) in
     in_y_size_hint P it = Ret (lo, Some up) /\
     drain (fun it => Ret (in_y_next P it)) (piter_fuel P) it = Ret l /\
     Z.of_nat (length l) <= up /\ (n = O -> lo = Z.of_nat (length l))) /\
  (forall tl br n, valid P tl -> valid P br -> fst tl <= fst br -> snd tl <= snd br ->
     exists lo up l,
     let it := Nat.iter n (fun s => snd (prange_next P s)) (prange_new tl br) in
     prange_size_hint P it = Ret (lo, Some up) /\
     drain (fun it => Ret (prange_next P it)) (piter_fuel P) it = Ret l /\
     Z.of_nat (length l) <= up) /\
  (forall D n, exists lo up l it,
     calls_state (dir_iter_next D) n dir_iter = Ret it /\
     dir_iter_size_hint D it = (lo, Some up) /\
     drain (dir_iter_next D) 9 it = Ret l /\
     Z.of_nat (length l) <= up /\ (n = O -> lo = Z.of_nat (length l))).
Proof. exact C11_size_hint_partial_proof. Qed.
Print Assumptions C11_size_hint_partial.

Example C11_example : grid_type (Pos 6 4) /\ valid (Pos 6 4) (1, 1) /\ valid (Pos 6 4) (5, 4).
Proof. split; [apply Pos_grid_type; unfold u16_dims; lia | vm_compute; intuition discriminate]. Qed.

(** C61: the hint is always the total, whatever has been consumed, while the
    number of items still to come decreases by one per call. *)
Theorem C61_size_hint_exact : forall P, grid_type P ->
  (forall XFIRST cs,
     let it := state_after (piter_next P XFIRST) (piter_next_back P XFIRST) cs (piter_new P) in
     piter_size_hint P it = Ret (cells P, Some (cells P)) /\
     exists l, drain (fun it => Ret (piter_next P XFIRST it)) (piter_fuel P) it = Ret l /\
       Z.of_nat (length l) = Z.max 0 (cells P - Z.of_nat (length cs))) /\
  (forall tl br n, valid P tl -> valid P br -> fst tl <= fst br -> snd tl <= snd br ->
     let it := Nat.iter n (fun s => snd (prange_next P s)) (prange_new tl br) in
     prange_size_hint P it = Ret (cells P, Some (cells P)) /\
     exists l, prange_list P tl br = Ret l /\
       drain (fun it => Ret (prange_next P it)) (piter_fuel P) it = Ret (skipn n l)) /\
  (forall x n,
     let it := Nat.iter n (fun s => snd (in_x_next P s)) (in_x_new P x) in
     in_x_size_hint P it = Ret (rows P, Some (rows P)) /\
     exists l, drain (fun it => Ret (in_x_next P it)) (piter_fuel P) it = Ret l /\
       Z.of_nat (length l) = Z.max 0 (rows P - Z.of_nat n)) /\
  (forall y n,
     let it := Nat.iter n (fun s => snd (in_y_next P s)) (in_y_new P y) in
     in_y_size_hint P it = Ret (cols P, Some (cols P)) /\
     exists l, drain (fun it => Ret (in_y_next P it)) (piter_fuel P) it = Ret l /\
       Z.of_nat (length l) = Z.max 0 (cols P - Z.of_nat n)) /\
  (forall D n, exists it l, calls_state (dir_iter_next D) n dir_iter = Ret it /\
     dir_iter_size_hint D it = (if D then (8, Some 8) else (4, Some 4)) /\
     drain (dir_iter_next D) 9 it = Ret l /\ Z.of_nat (length l) = Z.max 0 ((if D then 8 else 4) - Z.of_nat n)).
Proof. exact C61_size_hint_exact_proof. Qed.
Print Assumptions C61_size_hint_exact.

Example C61_example : piter_size_hint (Pos 2 2) (None, None) = Ret (9, Some 9).
Proof. reflexivity. Qed.

(** C12 is false: iterating over (1,2)..(2,3) on a 4x4 grid never yields (2,3). *)
Theorem C12_iter_range_refuted :
  exists P tl br l, grid_type P /\ valid P tl /\ valid P br /\ fst tl <= fst br /\ snd tl <= snd br /\
    prange_list P tl br = Ret l /\ ~ In br l.
Proof. exact C12_iter_range_refuted_proof. Qed.
Print Assumptions C12_iter_range_refuted.

(** C12, the part that holds: rectangles that end above the last row or at the
    last column.  Missing: rectangles touching the last row but not the last
    column, where the corner is lost (C62). *)
Theorem C12_iter_range_partial : forall P tl br, post_wf P -> valid P tl -> valid P br ->
  fst tl <= fst br -> snd tl <= snd br -> (snd br < YM P \/ fst br = XM P) ->
  exists l, l = flat_map (fun y => map (fun x => (x, y)) (interval (fst tl) (fst br)))
                  (interval (snd tl) (snd br)) /\
  NoDup l /\
  (forall p, In p l <-> fst tl <= fst p <= fst br /\ snd tl <= snd p <= snd br) /\
  prange_list P tl br = Ret l /\
  forall n, next_calls (fun it => Ret (prange_next P it)) n (prange_new tl br) =
            Ret (items_then_none l n).
Proof. exact C12_iter_range_partial_proof. Qed.
Print Assumptions C12_iter_range_partial.

Example C12_example :
  prange_list (Pos 4 4) (1, 2) (2, 3) = Ret [(1,2); (2,2); (1,3); (2,3)].
Proof. reflexivity. Qed.

(** C62: when the rectangle touches the last row but not the last column, all
    its positions but the bottom-right corner are delivered, row by row. *)
Theorem C62_iter_range_exact : forall P tl br, post_wf P -> valid P tl -> valid P br ->
  fst tl <= fst br -> snd tl <= snd br -> snd br = YM P -> fst br < XM P ->
  exists l, flat_map (fun y => map (fun x => (x, y)) (interval (fst tl) (fst br)))
              (interval (snd tl) (snd br)) = l ++ [br] /\
  prange_list P tl br = Ret l /\
  forall n, next_calls (fun it => Ret (prange_next P it)) n (prange_new tl br) =
            Ret (items_then_none l n).
Proof. exact C62_iter_range_exact_proof. Qed.
Print Assumptions C62_iter_range_exact.

Example C62_example :
  prange_list (Pos 4 3) (1, 2) (2, 3) = Ret [(1,2); (2,2); (1,3)].
Proof. reflexivity. Qed.

(** C13: row and column iterators. *)
Theorem C13_row_column_iteration : forall P, grid_type P ->
  (forall x,
     in_x_list P x = Ret (map (fun y => (x, y)) (interval 0 (YM P))) /\
     forall n, next_calls (fun it => Ret (in_x_next P it)) n (in_x_new P x) =
               Ret (items_then_none (map (fun y => (x, y)) (interval 0 (YM P))) n)) /\
  (forall y,
     in_y_list P y = Ret (map (fun x => (x, y)) (interval 0 (XM P))) /\
     forall n, next_calls (fun it => Ret (in_y_next P it)) n (in_y_new P y) =
               Ret (items_then_none (map (fun x => (x, y)) (interval 0 (XM P))) n)).
Proof. exact C13_row_column_iteration_proof. Qed.
Print Assumptions C13_row_column_iteration.

Example C13_example :
  in_x_list (Pos 4 2) 3 = Ret [(3,0); (3,1); (3,2)] /\
  next_calls (fun it => Ret (in_y_next (Pos 1 2) it)) 4 (in_y_new (Pos 1 2) 2)
    = Ret [Some (0,2); Some (1,2); None; None].
Proof. split; reflexivity. Qed.

(** C14: [tlbr_of] is the tight bounding box. *)
Theorem C14_tlbr_of : forall l : list pos,
  (l = [] -> tlbr_of l = Err Empty) /\
  (l <> [] -> exists tl br, tlbr_of l = Ok (tl, br) /\
     (forall p, In p l -> fst tl <= fst p <= fst br /\ snd tl <= snd p <= snd br) /\
     (exists p, In p l /\ fst p = fst tl) /\ (exists p, In p l /\ snd p = snd tl) /\
     (exists p, In p l /\ fst p = fst br) /\ (exists p, In p l /\ snd p = snd br)).
Proof. exact C14_tlbr_of_proof. Qed.
Print Assumptions C14_tlbr_of.

Example C14_example : tlbr_of [(3, 4); (1, 9); (2, 0)] = Ok ((1, 0), (3, 9)).
Proof. reflexivity. Qed.

(** C15: [manhattan] is the L1 distance, never panics and is a metric. *)
Theorem C15_manhattan : forall P p q, grid_type P -> valid P p -> valid P q ->
  manhattan P p q = Ret (Z.abs (fst p - fst q) + Z.abs (snd p - snd q)).
Proof. exact C15_manhattan_proof. Qed.
Print Assumptions C15_manhattan.

Theorem C15_manhattan_metric : forall P p q r, grid_type P -> valid P p -> valid P q -> valid P r ->
  exists pq qp pr qr,
    manhattan P p q = Ret pq /\ manhattan P q p = Ret qp /\ manhattan P p r = Ret pr /\
    manhattan P q r = Ret qr /\
    pq = qp /\ (pq = 0 <-> p = q) /\ pr <= pq + qr /\ 0 <= pq.
Proof. exact C15_manhattan_metric_proof. Qed.
Print Assumptions C15_manhattan_metric.

Example C15_example : valid (Pos 20 20) (3, 20) /\ manhattan (Pos 20 20) (3, 20) (13, 5) = Ret 25.
Proof. vm_compute. intuition discriminate. Qed.

(** C16: [inside] takes any two opposite corners. *)
Theorem C16_inside : forall p a b,
  inside p a b = true <->
  Z.min (fst a) (fst b) <= fst p <= Z.max (fst a) (fst b) /\
  Z.min (snd a) (snd b) <= snd p <= Z.max (snd a) (snd b).
Proof. exact C16_inside_proof. Qed.
Print Assumptions C16_inside.

Example C16_example : inside (3, 3) (5, 1) (2, 8) = true /\ inside (3, 0) (5, 1) (2, 8) = false.
Proof. split; reflexivity. Qed.

(** C17: flips are mirror images (so involutions that commute); corners and
    sides are the border and are preserved. *)
Theorem C17_flips : forall P p, grid_type P -> valid P p ->
  pos_flip_h P p = Ret (XM P - fst p, snd p) /\ valid P (XM P - fst p, snd p) /\
  pos_flip_v P p = Ret (fst p, YM P - snd p) /\ valid P (fst p, YM P - snd p).
Proof. exact C17_flips_proof. Qed.
Print Assumptions C17_flips.

Theorem C17_flip_involutions : forall P p h v, grid_type P -> valid P p ->
  pos_flip_h P p = Ret h -> pos_flip_v P p = Ret v ->
  pos_flip_h P h = Ret p /\ pos_flip_v P v = Ret p /\
  pos_flip_v P h = pos_flip_h P v /\
  is_corner P h = is_corner P p /\ is_corner P v = is_corner P p /\
  is_side P h = is_side P p /\ is_side P v = is_side P p.
Proof. exact C17_flip_involutions_proof. Qed.
Print Assumptions C17_flip_involutions.

Theorem C17_corners_sides : forall P p, grid_type P ->
  (is_corner P p = true <-> (fst p = 0 \/ fst p = XM P) /\ (snd p = 0 \/ snd p = YM P)) /\
  (is_side P p = true <-> fst p = 0 \/ fst p = XM P \/ snd p = 0 \/ snd p = YM P).
Proof. exact C17_corners_sides_proof. Qed.
Print Assumptions C17_corners_sides.

Example C17_example : valid (Pos 4 3) (1, 3) /\ pos_flip_h (Pos 4 3) (1, 3) = Ret (3, 3) /\
  pos_flip_v (Pos 4 3) (1, 3) = Ret (1, 0) /\ is_side (Pos 4 3) (1, 3) = true.
Proof. vm_compute. intuition discriminate. Qed.

(** C18: rotation, on any grid: exact image when it is in the grid, panic
    otherwise (on a square grid it always is). *)
Theorem C18_rotation : forall P p, grid_type P -> valid P p ->
  (valid P (YM P - snd p, fst p) -> pos_rotate_cw P p = Ret (YM P - snd p, fst p)) /\
  (~ valid P (YM P - snd p, fst p) -> pos_rotate_cw P p = Panic) /\
  (valid P (snd p, XM P - fst p) -> pos_rotate_cc P p = Ret (snd p, XM P - fst p)) /\
  (~ valid P (snd p, XM P - fst p) -> pos_rotate_cc P p = Panic) /\
  (XM P = YM P -> valid P (YM P - snd p, fst p) /\ valid P (snd p, XM P - fst p)).
Proof. exact C18_rotation_proof. Qed.
Print Assumptions C18_rotation.

Theorem C18_rotation_group : forall P p, grid_type P -> valid P p -> XM P = YM P ->
  exists q1 q2 q3 c1,
    pos_rotate_cw P p = Ret q1 /\ pos_rotate_cw P q1 = Ret q2 /\ pos_rotate_cw P q2 = Ret q3 /\
    pos_rotate_cw P q3 = Ret p /\
    pos_rotate_cc P q1 = Ret p /\ pos_rotate_cc P p = Ret c1 /\ pos_rotate_cw P c1 = Ret p /\
    pos_rotate_cc P c1 = Ret q2 /\
    is_corner P q1 = is_corner P p /\ is_side P q1 = is_side P p.
Proof. exact C18_rotation_group_proof. Qed.
Print Assumptions C18_rotation_group.

Example C18_example : valid (Pos 4 4) (1, 3) /\ pos_rotate_cw (Pos 4 4) (1, 3) = Ret (1, 1) /\
  pos_rotate_cc (Pos 4 4) (1, 3) = Ret (3, 3) /\ pos_rotate_cw (Pos 4 3) (4, 3) = Panic.
Proof. vm_compute. intuition discriminate. Qed.

(** C19: conversion of a position of type [Q] to type [P]. *)
Theorem C19_tryfrom_pos : forall P Q p, post_wf P -> post_wf Q -> valid Q p ->
  (valid P p -> tryfrom_pos P Q p = Ok p) /\ (~ valid P p -> tryfrom_pos P Q p = Err OutOfBounds).
Proof. exact C19_tryfrom_pos_proof. Qed.
Print Assumptions C19_tryfrom_pos.

Example C19_example : tryfrom_pos (Pos 3 3) (Pos 9 9) (3, 2) = Ok (3, 2) /\
  tryfrom_pos (Pos 3 3) (Pos 9 9) (4, 2) = Err OutOfBounds.
Proof. split; reflexivity. Qed.

(** C20 is false at the extreme: with XMAX = 65535 (a type that exists and can be
    iterated) the constant SIZE does not evaluate. *)
Theorem C20_named_positions_refuted :
  exists X Y, u16_dims X Y /\ dimensions (Pos X Y) = Ret 65536 /\ Pos_SIZE X Y = Panic /\ Pos_WIDTH X = Panic.
Proof. exact C20_named_positions_refuted_proof. Qed.
Print Assumptions C20_named_positions_refuted.

(** C20, the rest.  Missing: the constants WIDTH, HEIGHT, SIZE when XMAX or YMAX
    is 65535. *)
Theorem C20_named_positions_partial : forall X Y, u16_dims X Y ->
  width (Pos X Y) = Ret (X + 1) /\ height (Pos X Y) = Ret (Y + 1) /\
  dimensions (Pos X Y) = Ret ((X + 1) * (Y + 1)) /\
  FIRST X Y = Ret (0, 0) /\ TOP_LEFT X Y = Ret (0, 0) /\
  LAST X Y = Ret (X, Y) /\ BOTTOM_RIGHT X Y = Ret (X, Y) /\
  TOP_RIGHT X Y = Ret (X, 0) /\ BOTTOM_LEFT X Y = Ret (0, Y) /\
  pos_first (Pos X Y) = (0, 0) /\ pos_last (Pos X Y) = (X, Y) /\ Pos_default X Y = (0, 0) /\
  (exists cx cy, CENTER X Y = Ret (cx, cy) /\ valid (Pos X Y) (cx, cy) /\
     0 <= X - 2 * cx <= 1 /\ 0 <= Y - 2 * cy <= 1) /\
  (X < 65535 -> Y < 65535 ->
     Pos_WIDTH X = Ret (X + 1) /\ Pos_HEIGHT Y = Ret (Y + 1) /\ Pos_SIZE X Y = Ret ((X + 1) * (Y + 1))).
Proof. exact C20_named_positions_partial_proof. Qed.
Print Assumptions C20_named_positions_partial.

Example C20_example : u16_dims 10 7 /\ CENTER 10 7 = Ret (5, 3) /\ Pos_SIZE 10 7 = Ret 88.
Proof. vm_compute. intuition discriminate. Qed.

(** C28: the derived order is the order of [iter_vertical]. *)
Theorem C28_order : forall P, grid_type P ->
  exists ver, iter_list P false = Ret ver /\
  (forall i j p q, nth_error ver i = Some p -> nth_error ver j = Some q ->
     (pos_ltb p q = true <-> (i < j)%nat)).
Proof. exact C28_order_proof. Qed.
Print Assumptions C28_order.

Theorem C28_order_total : forall p q r : pos,
  pos_ltb p p = false /\
  (pos_ltb p q = true -> pos_ltb q r = true -> pos_ltb p r = true) /\
  (pos_ltb p q = true \/ p = q \/ pos_ltb q p = true) /\
  (pos_ltb p q = true -> pos_ltb q p = false) /\
  (pos_eqb p q = true <-> p = q).
Proof. exact C28_order_total_proof. Qed.
Print Assumptions C28_order_total.

Example C28_example : pos_ltb (1, 5) (2, 0) = true /\ pos_ltb (1, 5) (1, 6) = true.
Proof. split; reflexivity. Qed.

(** C27 is false: WIDTH is one less than width(); positions with negative
    coordinates have no index; rows start at 0 instead of the minimum;
    for 64-bit coordinates even width() panics. *)
Theorem C27_int_tuples_refuted :
  (exists t w, In t int_tuple_types /\ width (IntTuple t) = Ret w /\ pt_WIDTH (IntTuple t) <> w) /\
  (exists t p, In t int_tuple_types /\ valid (IntTuple t) p /\ to_usize (IntTuple t) p = Panic) /\
  (exists t l p, In t int_tuple_types /\ in_x_list (IntTuple t) 0 = Ret l /\ valid (IntTuple t) p /\
     fst p = 0 /\ ~ In p l) /\
  (exists t, In t int_tuple_types /\ width (IntTuple t) = Panic).
Proof. exact C27_int_tuples_refuted_proof. Qed.
Print Assumptions C27_int_tuples_refuted.

(** C27, the part that holds: on (u8,u8), (u16,u16) and (u32,u32) every
    position has its row-major index, and rows and columns are covered.
    Missing: the constants (all types), signed and 64/128-bit types. *)
Theorem C27_int_tuples_partial : forall t x y, In t [u8; u16; u32] -> valid (IntTuple t) (x, y) ->
  width (IntTuple t) = Ret (imax t - imin t + 1) /\ height (IntTuple t) = Ret (imax t - imin t + 1) /\
  to_usize (IntTuple t) (x, y) = Ret (y * (imax t - imin t + 1) + x) /\
  in_x_list (IntTuple t) x = Ret (map (fun y => (x, y)) (interval (imin t) (imax t))) /\
  in_y_list (IntTuple t) y = Ret (map (fun x => (x, y)) (interval (imin t) (imax t))).
Proof. exact C27_int_tuples_partial_proof. Qed.
Print Assumptions C27_int_tuples_partial.

Example C27_example : valid (IntTuple u32) (4294967295, 7) /\
  to_usize (IntTuple u32) (4294967295, 4294967295) = Ret 18446744073709551615.
Proof. vm_compute. intuition discriminate. Qed.

(** C63: exactly what the integer tuples do: width() is MAX + 1 (a panic when
    that overflows usize), WIDTH is MAX - MIN, indexing panics exactly for
    negative coordinates, and row / column iteration starts at 0. *)
Theorem C63_int_tuples_exact :
  (forall t, In t [u8; u16; u32; i8; i16; i32] ->
     width (IntTuple t) = Ret (imax t + 1) /\ height (IntTuple t) = Ret (imax t + 1) /\
     pt_WIDTH (IntTuple t) = imax t - imin t /\ pt_HEIGHT (IntTuple t) = imax t - imin t /\
     (forall x y, valid (IntTuple t) (x, y) -> 0 <= x -> 0 <= y ->
        to_usize (IntTuple t) (x, y) = Ret (y * (imax t + 1) + x)) /\
     (forall x y, valid (IntTuple t) (x, y) -> x < 0 \/ y < 0 -> to_usize (IntTuple t) (x, y) = Panic) /\
     (forall x, in_x_list (IntTuple t) x = Ret (map (fun y => (x, y)) (interval 0 (imax t)))) /\
     (forall y, in_y_list (IntTuple t) y = Ret (map (fun x => (x, y)) (interval 0 (imax t))))) /\
  (forall t, In t [u64; u128] ->
     width (IntTuple t) = Panic /\ height (IntTuple t) = Panic /\
     pt_WIDTH (IntTuple t) = 18446744073709551615 /\ pt_HEIGHT (IntTuple t) = 18446744073709551615 /\
     (forall p, to_usize (IntTuple t) p = Panic) /\
     (forall x, in_x_list (IntTuple t) x = Ret (map (fun y => (x, y)) (interval 0 (imax t)))) /\
     (forall y, in_y_list (IntTuple t) y = Ret (map (fun x => (x, y)) (interval 0 (imax t))))).
Proof. exact C63_int_tuples_exact_proof. Qed.
Print Assumptions C63_int_tuples_exact.

Example C63_example : width (IntTuple i8) = Ret 128 /\ pt_WIDTH (IntTuple i8) = 255.
Proof. split; reflexivity. Qed.
