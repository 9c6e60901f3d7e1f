(** TestSuite.v -- the unit tests of the crate (/repo/tests) and the examples of its
    documentation, run on the model.

    These are no proofs of properties: they check that the model computes what the
    tests require of the code.  Left out: what does not concern the model (hashing,
    printing without a check of the text, catching of panics by the caller), and
    tests of scale (bf_tests.rs:67-75, gridbool_tests.rs:159-172), which the theorems
    cover. *)

From Coq Require Import ZArith List Bool String Ascii.
From Verif Require Import Rust BoundedInt Dir PosT Pos Grid Gridbool Display Views SetMap CameFrom Bf Heap Astar Ucs Spec SpecSearch SpecMaze.
Import ListNotations.
Open Scope Z_scope.

(** [assert!(..)] on computations, and on every item of an iteration. *)
Definition holds (m : exec bool) : bool := match m with Ret b => b | _ => false end.
Definition each {A} (l : exec (list A)) (test : A -> exec bool) : bool :=
  match l with Ret l => forallb (fun x => holds (test x)) l | _ => false end.
Definition same (m n : exec pos) : exec bool := p <- m ;; q <- n ;; Ret (pos_eqb p q).

(** ** boundedint_tests.rs *)

(** boundedint_tests.rs:18-39. *)
Definition boundedint_basic (b : bty) : Prop :=
  b_try_from b (FromInt i32) 5 = Ok 5 /\ b_to_usize 5 = Ok 5 /\
  b_checked_add b 5 5 = Some 10 /\ b_try_from b (FromInt i32) 10 = Ok 10 /\
  b_checked_sub b 5 5 = Some 0 /\ b_try_from b (FromInt i32) 0 = Ok 0 /\
  b_inc b 5 = Some 6 /\ b_dec b 5 = Some 4 /\
  bounded_display 5 = [53] /\ bounded_debug 5 = [53].

Example test_basic_uints : Forall (fun t => boundedint_basic (Builtin t) /\ b_dec (Builtin t) (b_default (Builtin t)) = None) [u8; u16; u32; u64; u128].
Proof. repeat constructor. Qed.

Example test_basic_iints : Forall (fun t => boundedint_basic (Builtin t)) [i8; i16; i32; i64; i128].
Proof. repeat constructor. Qed.

Example test_basic_bounded_uint : Forall (fun t => boundedint_basic (Bounded t 0 20) /\ b_dec (Bounded t 0 20) (b_default (Bounded t 0 20)) = None) [u8; u16; u32; u64; u128].
Proof. repeat constructor. Qed.

Example test_basic_bounded_iint : Forall (fun t => boundedint_basic (Bounded t 0 20)) [i8; i16; i32; i64; i128].
Proof. repeat constructor. Qed.

Definition BI8 := Bounded i8 (-2) 5.

Example test_bounded_type_construction :
  bounded_new_static (-2) 5 2 = Ret 2 /\ b_into_inner 2 = 2 /\
  bounded_new (-2) 5 2 = Ok 2 /\ bounded_new_unwrap (-2) 5 2 = Ret 2 /\
  bounded_new (-2) 5 (-3) = Err OutOfBounds /\ b_try_from BI8 (FromInt i8) 6 = Err OutOfBounds /\
  bounded_new_unwrap (-2) 5 6 = Panic /\
  b_try_from BI8 (FromInt i32) 2 = Ok 2 /\ b_try_from BI8 (FromInt u64) 2 = Ok 2 /\
  b_try_from BI8 (FromInt i32) 6 = Err OutOfBounds /\ b_to_usize 2 = Ok 2.
Proof. vm_compute. auto 20. Qed.

Example test_bounded_type_iter :
  (let '(a, it) := biter_next BI8 (b_iter BI8) in
   let '(b, it) := biter_next BI8 it in
   let '(c, it) := biter_next_back BI8 it in
   let '(d, it) := biter_next_back BI8 it in
   (a, b, c, d)) = (Some (-2), Some (-1), Some 5, Some 4) /\
  b_iter_list BI8 = Ret (zrange (-2) 6) /\
  drain (fun it => Ret (biter_next_back BI8 it)) 9 (b_iter BI8) = Ret (rev (zrange (-2) 6)) /\
  foldM (fun '(v, it) i =>
    let '(o, it) := if i mod 2 =? 0 then biter_next BI8 it else biter_next_back BI8 it in
    x <- unwrap_opt o ;; Ret (v ++ [x], it)) (zrange 0 8) ([], b_iter BI8) =
    Ret ([-2; 5; -1; 4; 0; 3; 1; 2], (None, None)).
Proof. vm_compute. auto. Qed.

(** ** dir_tests.rs *)

Example test_eq_default : dir_default = dN.
Proof. reflexivity. Qed.

Example test_conversions : dir_to_tuple dN = (0, -1) /\ dir_try_from_tuple (-1, 0) = Ok dW.
Proof. auto. Qed.

Example test_errors : dir_try_from_tuple (2, 0) = Err InvalidDirection.
Proof. reflexivity. Qed.

Example test_conversion_coverage : map (fun d => dir_try_from_tuple (dir_to_tuple d)) ALL8 = map Ok ALL8.
Proof. reflexivity. Qed.

Example test_dir_iter :
  dir_iter_list true = Ret [dN; dNE; dE; dSE; dS; dSW; dW; dNW] /\ dir_iter_list false = Ret [dN; dE; dS; dW] /\
  map dir_index ALL8 = zrange 0 8 /\ map (fun d => dir_index d / 2) ALL4 = zrange 0 4 /\
  (forall st, dir_iter_size_hint true st = (8, Some 8)) /\ (forall st, dir_iter_size_hint false st = (4, Some 4)) /\
  dir_iter_next true None = Ret (None, None) /\ dir_iter_next false None = Ret (None, None).
Proof. vm_compute. auto 10. Qed.

Example test_names :
  map name_cardinal [dN; dNE; dSE] = [Ret (lit "N"); Ret (lit "NE"); Ret (lit "SE")] /\
  name_utf8_char dE = Ret 8594 /\ name_utf8 dS = Ret [8595] /\
  forallb (fun d => holds (
    a <- name_ascii_char d ;; s <- name_ascii d ;; u <- name_utf8_char d ;; t <- name_utf8 d ;;
    Ret (forallb (fun r => match r with Ok e => dir_index e =? dir_index d | Err _ => false end)
      [dir_try_from_char a; dir_from_str s; dir_try_from_char u; dir_from_str t]))) ALL8 = true /\
  forallb (fun d => holds (
    s <- name_cardinal d ;; c <- array_get s 0 ;;
    Ret (forallb (fun r => match r with Ok e => dir_index e =? dir_index d | Err _ => false end)
      [dir_try_from_char c; dir_from_str s]))) ALL4 = true.
Proof. vm_compute. auto. Qed.

Example test_is_diagonal : map is_diagonal ALL8 = [false; true; false; true; false; true; false; true].
Proof. reflexivity. Qed.

Example test_neg : map dir_neg ALL8 = map Ret [dS; dSW; dW; dNW; dN; dNE; dE; dSE].
Proof. reflexivity. Qed.

Example test_add : map (dir_add dS) ALL8 = map Ret [dS; dSW; dW; dNW; dN; dNE; dE; dSE].
Proof. reflexivity. Qed.

Example test_addassign :
  foldM (fun '(d, l) o => d' <- dir_add d o ;; Ret (d', l ++ [d'])) [dNE; dNE; dW; dNW; dSE; dSE; dSE] (dN, []) =
  Ret (dN, [dNE; dE; dN; dNW; dE; dSW; dN]).
Proof. reflexivity. Qed.

Example test_add_dir : Forall (fun t => map (tuple_dir_add (Builtin t) (Builtin t) (0, 0)) ALL8 = map (fun d => Ok (dir_to_tuple d)) ALL8) [isize; i8; i16; i32; i64; i128].
Proof. repeat constructor. Qed.

Example test_cycle : Forall (fun t => fold_left (fun r d => res_bind r (fun p => tuple_dir_add (Builtin t) (Builtin t) p d)) ALL8 (Ok (0, 2)) = Ok (0, 2)) all_ity.
Proof. repeat constructor. Qed.

(** ** pos_tests.rs *)

Definition Pos56 := Pos 5 6.
Definition Pos2 := Pos 1 1.
Definition Pos5 := Pos 4 4.

Example test_pos_basic :
  Pos_try_from_u16 5 6 (2, 3) = Ok (2, 3) /\ Pos_tuple (2, 3) = (2, 3) /\
  Pos_try_from_u16 5 6 (3, 4) = Ok (3, 4) /\ Pos_try_from_u16 5 6 (5, 6) = Ok (5, 6) /\
  Pos_new_unwrap 5 6 5 4 = Ret (5, 4) /\ Pos_new_static 5 6 4 3 = Ret (4, 3).
Proof. vm_compute. auto 10. Qed.

Example test_usize : FIRST 5 6 = Ret (0, 0) /\ Pos_try_from_usize 5 6 0 = Ret (Ok (0, 0)) /\
  (l <- LAST 5 6 ;; Pos_to_usize 5 6 l) = Ret 41 /\ Pos_SIZE 5 6 = Ret 42.
Proof. vm_compute. auto. Qed.

Example test_pos_tuple : FIRST 1 1 = Ret (0, 0) /\ pos_first Pos2 = (0, 0) /\ Pos_tuple (0, 0) = (0, 0).
Proof. vm_compute. auto. Qed.

Example test_tryfrom_pos :
  tryfrom_pos Pos56 Pos2 (pos_first Pos2) = Ok (0, 0) /\ tryfrom_pos Pos56 Pos5 (pos_first Pos5) = Ok (0, 0) /\
  tryfrom_pos Pos56 Pos2 (pos_last Pos2) = Ok (1, 1) /\ tryfrom_pos Pos56 Pos5 (pos_last Pos5) = Ok (4, 4) /\
  tryfrom_pos Pos2 Pos56 (pos_last Pos56) = Err OutOfBounds.
Proof. vm_compute. auto 10. Qed.

Example test_out_of_bounds : Pos_try_from_u16 5 6 (6, 3) = Err OutOfBounds /\ Pos_try_from_u16 5 6 (0, 7) = Err OutOfBounds /\
  (s <- Pos_SIZE 5 6 ;; Pos_try_from_usize 5 6 s) = Ret (Err OutOfBounds).
Proof. vm_compute. auto. Qed.

Example test_iter : (v <- iter_list Pos56 true ;; Ret (Z.of_nat (List.length v))) = Ret 42 /\
  piter_size_hint Pos56 (piter_new Pos56) = Ret (42, Some 42).
Proof. vm_compute. auto. Qed.

Example test_iter_in_xy :
  map (in_x_list Pos56) (zrange 0 6) = map (fun x => Ret (map (fun y => (x, y)) (zrange 0 7))) (zrange 0 6) /\
  map (in_y_list Pos56) (zrange 0 7) = map (fun y => Ret (map (fun x => (x, y)) (zrange 0 6))) (zrange 0 7).
Proof. vm_compute. auto. Qed.

Example test_max : let M := 32767 in
  Pos_SIZE M M = Ret ((M + 1) * (M + 1)) /\ LAST M M = Ret (M, M) /\ Pos_to_usize M M (M, M) = Ret ((M + 1) * (M + 1) - 1) /\
  Pos_new M M M M = Ok (M, M) /\ Pos_try_from_i32 M M (M, M) = Ok (M, M) /\
  (i <- Pos_to_usize M M (M, M) ;; Pos_try_from_usize M M i) = Ret (Ok (M, M)) /\
  pos_next (Pos M M) (M - 1, M) = Some (M, M).
Proof. vm_compute. auto 10. Qed.

Example test_corner_side :
  mapM (fun m => m) [TOP_LEFT 5 6; TOP_RIGHT 5 6; BOTTOM_LEFT 5 6; BOTTOM_RIGHT 5 6] = (ps <- iter_list Pos56 true ;; Ret (filter (is_corner Pos56) ps)) /\
  (ps <- iter_list Pos56 true ;; Ret (List.length (filter (is_side Pos56) ps))) = Ret 22%nat.
Proof. vm_compute. auto. Qed.

Example test_manhattan : (a <- TOP_LEFT 1 1 ;; b <- BOTTOM_RIGHT 1 1 ;; manhattan Pos2 a b) = Ret 2 /\
  (a <- TOP_LEFT 1 1 ;; b <- BOTTOM_RIGHT 1 1 ;; manhattan Pos2 b a) = Ret 2.
Proof. vm_compute. auto. Qed.

Example test_inside :
  each (iter_list Pos56 true) (fun p => a <- TOP_LEFT 5 6 ;; b <- BOTTOM_RIGHT 5 6 ;; Ret (inside p a b && inside p p p)) = true /\
  (a <- TOP_LEFT 5 6 ;; b <- BOTTOM_RIGHT 5 6 ;; c <- CENTER 5 6 ;; Ret (inside b a c)) = Ret false.
Proof. vm_compute. auto. Qed.

Example test_flips :
  (p <- TOP_LEFT 5 6 ;; pos_flip_v Pos56 p) = BOTTOM_LEFT 5 6 /\ (p <- TOP_RIGHT 5 6 ;; pos_flip_v Pos56 p) = BOTTOM_RIGHT 5 6 /\
  (p <- TOP_LEFT 5 6 ;; pos_flip_h Pos56 p) = TOP_RIGHT 5 6 /\ (p <- BOTTOM_LEFT 5 6 ;; pos_flip_h Pos56 p) = BOTTOM_RIGHT 5 6 /\
  pos_flip_h Pos56 (2, 3) = Ret (3, 3) /\ pos_flip_v Pos56 (2, 3) = Ret (2, 3) /\
  each (iter_list Pos56 true) (fun p =>
    h <- pos_flip_h Pos56 p ;; v <- pos_flip_v Pos56 p ;; hh <- pos_flip_h Pos56 h ;; vv <- pos_flip_v Pos56 v ;;
    Ret (pos_eqb hh p && pos_eqb vv p &&
      Bool.eqb (is_corner Pos56 v) (is_corner Pos56 p) && Bool.eqb (is_corner Pos56 h) (is_corner Pos56 p) &&
      Bool.eqb (is_side Pos56 v) (is_side Pos56 p) && Bool.eqb (is_side Pos56 h) (is_side Pos56 p))) = true.
Proof. vm_compute. auto 10. Qed.

Example test_rotate_cw :
  (p <- TOP_LEFT 4 4 ;; pos_rotate_cw Pos5 p) = TOP_RIGHT 4 4 /\ (p <- TOP_RIGHT 4 4 ;; pos_rotate_cw Pos5 p) = BOTTOM_RIGHT 4 4 /\
  (p <- BOTTOM_RIGHT 4 4 ;; pos_rotate_cw Pos5 p) = BOTTOM_LEFT 4 4 /\ (p <- BOTTOM_LEFT 4 4 ;; pos_rotate_cw Pos5 p) = TOP_LEFT 4 4 /\
  each (iter_list Pos5 true) (fun p =>
    a <- pos_rotate_cw Pos5 p ;; b <- pos_rotate_cw Pos5 a ;; c <- pos_rotate_cw Pos5 b ;; d <- pos_rotate_cw Pos5 c ;;
    e <- pos_rotate_cc Pos5 p ;; f <- pos_rotate_cc Pos5 e ;;
    Ret (pos_eqb d p && Bool.eqb (is_corner Pos5 a) (is_corner Pos5 p) && pos_eqb b f)) = true.
Proof. vm_compute. auto 10. Qed.

Example test_rotate_cc :
  (p <- TOP_LEFT 4 4 ;; pos_rotate_cc Pos5 p) = BOTTOM_LEFT 4 4 /\ (p <- BOTTOM_LEFT 4 4 ;; pos_rotate_cc Pos5 p) = BOTTOM_RIGHT 4 4 /\
  (p <- BOTTOM_RIGHT 4 4 ;; pos_rotate_cc Pos5 p) = TOP_RIGHT 4 4 /\ (p <- TOP_RIGHT 4 4 ;; pos_rotate_cc Pos5 p) = TOP_LEFT 4 4 /\
  each (iter_list Pos5 true) (fun p =>
    a <- pos_rotate_cc Pos5 p ;; b <- pos_rotate_cc Pos5 a ;; c <- pos_rotate_cc Pos5 b ;; d <- pos_rotate_cc Pos5 c ;;
    e <- pos_rotate_cw Pos5 p ;; f <- pos_rotate_cw Pos5 e ;;
    Ret (pos_eqb d p && Bool.eqb (is_side Pos5 a) (is_side Pos5 p) && pos_eqb b f)) = true.
Proof. vm_compute. auto 10. Qed.

Example test_iter_vertical : iter_list Pos2 false = Ret [(0, 0); (0, 1); (1, 0); (1, 1)].
Proof. reflexivity. Qed.

Example test_iter_prev : map (pos_prev Pos2) [(0, 0); (1, 0); (0, 1); (1, 1)] = [None; Some (0, 0); Some (1, 0); Some (0, 1)].
Proof. reflexivity. Qed.

Example test_iter_prev_y : map (pos_prev_y Pos2) [(0, 0); (0, 1); (1, 0); (1, 1)] = [None; Some (0, 0); Some (0, 1); Some (1, 0)].
Proof. reflexivity. Qed.

(** A mixture of [next] (true) and [next_back] (false). *)
Definition takes (XFIRST : bool) (calls : list bool) : list (option pos) :=
  snd (fold_left (fun '(it, l) (front : bool) =>
    let '(o, it) := if front then piter_next Pos2 XFIRST it else piter_next_back Pos2 XFIRST it in (it, l ++ [o]))
    calls (piter_new Pos2, [])).

Example test_iter_back : takes true [true; false; false; true; true; false] = [Some (0, 0); Some (1, 1); Some (0, 1); Some (1, 0); None; None].
Proof. reflexivity. Qed.

Example test_iter_back2 : iter_list_rev Pos56 true = (l <- iter_list Pos56 true ;; Ret (rev l)).
Proof. vm_compute. reflexivity. Qed.

(** pos_tests.rs:291-313. *)
Example test_iter_back_orientations : forallb (fun XFIRST => forallb (fun mask =>
  let l := takes XFIRST (map (fun i => Z.testbit mask i) (zrange 0 4) ++ [true]) in
  forallb (fun p => existsb (fun o => match o with Some q => pos_eqb p q | None => false end) l) [(0, 0); (1, 0); (0, 1); (1, 1)] &&
  match nth 4 l (Some (0, 0)) with None => true | Some _ => false end) (zrange 0 15)) [true; false] = true.
Proof. vm_compute. reflexivity. Qed.

Example test_iter_range : (a <- TOP_LEFT 5 6 ;; b <- BOTTOM_RIGHT 5 6 ;; prange_list Pos56 a b) = iter_list Pos56 true /\
  prange_list Pos56 (1, 1) (2, 2) = Ret [(1, 1); (2, 1); (1, 2); (2, 2)].
Proof. vm_compute. auto. Qed.

Example test_tlbr : (l <- iter_list Pos56 true ;; unwrap_res (tlbr_of l)) = Ret ((0, 0), (5, 6)) /\
  tlbr_of [(4, 3); (4, 4); (1, 4); (3, 4); (2, 4); (1, 5)] = Ok ((1, 3), (4, 5)).
Proof. vm_compute. auto. Qed.

(** ** mov_tests.rs *)

Example test_sum_none : map (pos_dir_add (Pos 0 0) (Pos_default 0 0)) ALL8 = repeat (Err OutOfBounds) 8.
Proof. reflexivity. Qed.

Example test_sum_some :
  map (pos_dir_add_ok (Pos 2 2) (1, 1)) ALL8 = map Some [(1, 0); (2, 0); (2, 1); (2, 2); (1, 2); (0, 2); (0, 1); (0, 0)] /\
  map (pos_dir_add_ok (Pos 2 2) (1, 1)) ALL4 = map Some [(1, 0); (2, 1); (1, 2); (0, 1)].
Proof. auto. Qed.

(** ** grid_tests.rs *)

Definition Pos42 := Pos 4 2.
Definition Pos3 := Pos 2 2.

Example test_grid_basic :
  let grid := zrange 0 15 in
  each (iter_list Pos42 true) (fun p => v <- grid_get Pos42 grid p ;; i <- to_usize Pos42 p ;; Ret (v =? i)) = true /\
  grid_from_iter 15 0 (grid_iter grid) = Ret grid.
Proof. vm_compute. auto. Qed.

Example test_grid_basic2 :
  (let g := grid_iter_mut (fun _ => 1) (grid_default 15 0) in
   g <- grid_set Pos42 g (1, 0) 5 ;; p <- unwrap_opt (pos_next Pos42 (1, 0)) ;; g <- grid_set Pos42 g p 6 ;; Ret (grid_into_inner g)) =
  Ret [1; 5; 6; 1; 1; 1; 1; 1; 1; 1; 1; 1; 1; 1; 1].
Proof. reflexivity. Qed.

Example test_into_iter : (g <- grid_from_iter 15 0 (zrange 0 15) ;; Ret (grid_iter g)) = Ret (zrange 0 15).
Proof. reflexivity. Qed.

Example test_from_iter : grid_from_iter 15 0 (zrange 0 15) = Ret [0; 1; 2; 3; 4; 5; 6; 7; 8; 9; 10; 11; 12; 13; 14] /\
  grid_from_iter 15 0 (zrange 0 14) = Panic /\ grid_from_iter 15 0 (zrange 0 16) = Panic.
Proof. vm_compute. auto. Qed.

Example test_into_from_iter_pos : (items <- grid_iter_pos Pos42 (zrange 0 15) ;; grid_extend Pos42 (grid_default 15 0) items) = Ret (zrange 0 15).
Proof. reflexivity. Qed.

Example test_from_vecvec :
  grid_try_from_vecvec Pos3 9 0 [[1; 2; 3]; [4; 5]; [6]] = Ret (Ok [1; 2; 3; 4; 5; 0; 6; 0; 0]) /\
  grid_try_from_vecvec Pos3 9 0 [[1; 2; 3]; [4; 5]; [6]; []] = Ret (Err OutOfBounds) /\
  grid_try_from_vecvec Pos3 9 0 [[1; 2; 3]; [4; 3; 2; 1]; [6]] = Ret (Err OutOfBounds) /\
  grid_try_from_vecvec Pos3 9 0 [[1]] = Ret (Ok [1; 0; 0; 0; 0; 0; 0; 0; 0]).
Proof. vm_compute. auto. Qed.

Example test_extend_from_vecvec : extend_from_vecvec Pos3 (grid_default 9 0) [[1; 2; 3]; [4; 5]; [6]] = Ret ([1; 2; 3; 4; 5; 0; 6; 0; 0], Ok tt).
Proof. reflexivity. Qed.

Example test_line_mut :
  (ps <- iter_list Pos42 true ;; g <- grid_extend Pos42 (grid_default 15 0) (map (fun p => (p, snd (Pos_to_i32 p))) ps) ;;
   a <- grid_line Pos42 g 1 ;; b <- grid_line Pos42 g 2 ;; g <- grid_write_slot g 0 7 ;; Ret (a, b, g)) =
  Ret ([1; 1; 1; 1; 1], [2; 2; 2; 2; 2], [7; 0; 0; 0; 0; 1; 1; 1; 1; 1; 2; 2; 2; 2; 2]).
Proof. reflexivity. Qed.

Example test_pos_iter_ref : grid_extend Pos42 (grid_default 15 0) [((1, 0), 5); ((2, 0), 7)] = Ret [0; 5; 7; 0; 0; 0; 0; 0; 0; 0; 0; 0; 0; 0; 0].
Proof. reflexivity. Qed.

Example test_grid_traits : (g1 <- grid_flip_h Pos3 (zrange 1 10) ;; Ret (grid_cmp Z.compare (zrange 1 10) g1, grid_cmp Z.compare g1 (zrange 1 10))) = Ret (Lt, Gt).
Proof. reflexivity. Qed.

Example test_flip_h : grid_flip_h Pos3 (zrange 1 10) = Ret [3; 2; 1; 6; 5; 4; 9; 8; 7].
Proof. reflexivity. Qed.

Example test_flip_v : grid_flip_v Pos3 (zrange 1 10) = Ret [7; 8; 9; 4; 5; 6; 1; 2; 3].
Proof. reflexivity. Qed.

Example test_grid_rotate_cw :
  grid_rotate_cw 2 (zrange 1 10) = Ret [7; 4; 1; 8; 5; 2; 9; 6; 3] /\
  grid_rotate_cw 4 (zrange 1 26) = Ret [21; 16; 11; 6; 1; 22; 17; 12; 7; 2; 23; 18; 13; 8; 3; 24; 19; 14; 9; 4; 25; 20; 15; 10; 5] /\
  (g <- grid_rotate_cw 4 (zrange 1 26) ;; g <- grid_rotate_cw 4 g ;; g <- grid_rotate_cw 4 g ;; grid_rotate_cw 4 g) = Ret (zrange 1 26).
Proof. vm_compute. auto. Qed.

Example test_grid_rotate_cc :
  grid_rotate_cc 2 (zrange 1 10) = Ret [3; 6; 9; 2; 5; 8; 1; 4; 7] /\
  grid_rotate_cc 4 (zrange 1 26) = Ret [5; 10; 15; 20; 25; 4; 9; 14; 19; 24; 3; 8; 13; 18; 23; 2; 7; 12; 17; 22; 1; 6; 11; 16; 21] /\
  (g <- grid_rotate_cc 4 (zrange 1 26) ;; g <- grid_rotate_cc 4 g ;; g <- grid_rotate_cc 4 g ;; grid_rotate_cc 4 g) = Ret (zrange 1 26).
Proof. vm_compute. auto. Qed.

(** ** gridbool_tests.rs *)

Definition Pos37 := Pos 3 7.
Definition Pos102 := Pos 10 2.

Example test_getset :
  gridbool_create_WORDS 3 7 = Ret 1 /\
  (gb <- gb_default Pos37 1 ;; a <- gb_get Pos37 gb (0, 0) ;; gb <- gb_set Pos37 gb (0, 0) true ;; b <- gb_get Pos37 gb (0, 0) ;;
   let i := gb_as_inner gb in c <- gb_get Pos37 gb (3, 7) ;; gb <- gb_set Pos37 gb (3, 7) true ;; gb <- gb_set Pos37 gb (0, 0) false ;;
   d <- gb_get Pos37 gb (0, 0) ;; e <- gb_get Pos37 gb (3, 7) ;; Ret ([a; b; c; d; e], i, gb_as_inner gb)) =
  Ret ([false; true; false; false; true], [2147483648], [1]) /\
  (gb <- gb_default Pos102 2 ;; gb_set Pos102 gb (10, 2) true) = Ret [0; 2147483648].
Proof. vm_compute. auto. Qed.

Example test_repeat_index :
  (gb <- gb_repeat Pos37 1 true ;; gb_iter Pos37 gb) = Ret (repeat true 32) /\ gb_repeat Pos37 1 true = Ret [4294967295] /\
  (gb <- gb_repeat Pos37 1 false ;; gb_iter Pos37 gb) = Ret (repeat false 32) /\ (gb <- gb_repeat Pos37 1 false ;; gb_write_word gb 0 1) = Ret [1].
Proof. vm_compute. auto. Qed.

Example test_iter1 :
  let v := [(0, 0); (3, 0); (0, 7); (3, 7)] in
  let contains p := existsb (pos_eqb p) v in
  (gb <- gb_default Pos37 1 ;; gb <- gb_set_iter_t Pos37 gb v ;;
   t <- gb_iter_t Pos37 gb ;; f <- gb_iter_f Pos37 gb ;; ps <- iter_list Pos37 true ;; bs <- gb_iter Pos37 gb ;;
   gs <- mapM (gb_get Pos37 gb) v ;; all_false <- gb_ALL_FALSE Pos37 1 ;; gb' <- gb_set_iter_f Pos37 gb v ;;
   Ret (forallb (fun b => b) gs && forallb contains t && forallb (fun p => negb (contains p)) f &&
        forallb (fun '(p, b) => Bool.eqb (contains p) b) (combine ps bs) && gb_eqb gb' all_false)) = Ret true.
Proof. vm_compute. reflexivity. Qed.

(** The Gridbool of the positions that satisfy [f], made by setting every position, and
    the check that a Gridbool is that. *)
Definition gb_where (P : post) (f : pos -> bool) : exec gridbool :=
  gb <- gb_default P 1 ;; ps <- iter_list P true ;; foldM (fun gb p => gb_set P gb p (f p)) ps gb.
Definition gb_is (P : post) (gb : gridbool) (f : pos -> bool) : bool := each (iter_list P true) (fun p => b <- gb_get P gb p ;; Ret (Bool.eqb b (f p))).

Example test_gridbool_flip_h :
  (gb <- gb_where Pos5 (fun p => (fst p <? 2) && (snd p >? 2)) ;; g1 <- gb_flip_h Pos5 gb ;; g2 <- gb_flip_h Pos5 g1 ;;
   Ret (gb_is Pos5 g1 (fun p => (fst p >? 2) && (snd p >? 2)) && gb_eqb g2 gb)) = Ret true.
Proof. vm_compute. reflexivity. Qed.

Example test_gridbool_flip_v :
  (gb <- gb_where Pos5 (fun p => (fst p <? 2) && (snd p <? 2)) ;; g1 <- gb_flip_v Pos5 gb ;; g2 <- gb_flip_v Pos5 g1 ;;
   Ret (gb_is Pos5 g1 (fun p => (fst p <? 2) && (snd p >? 2)) && gb_eqb g2 gb)) = Ret true.
Proof. vm_compute. reflexivity. Qed.

Example test_gridbool_rotate :
  (gb <- gb_where Pos5 (fun p => (fst p <? 2) && (snd p <? 2)) ;; g1 <- gb_rotate_cw 4 gb ;; g2 <- gb_rotate_cc 4 g1 ;;
   Ret (gb_is Pos5 g1 (fun p => (fst p >? 2) && (snd p <? 2)) && gb_eqb g2 gb)) = Ret true.
Proof. vm_compute. reflexivity. Qed.

Example test_gridbool_traits : (g0 <- gb_default Pos5 1 ;; g1 <- gb_repeat Pos5 1 true ;; Ret (gb_cmp g0 g1, gb_cmp g1 g0, gb_eqb g0 g0, gb_eqb g0 g1)) =
  Ret (Lt, Gt, true, false).
Proof. vm_compute. reflexivity. Qed.

(** ** bf_tests.rs *)

(** [Sqrid::bf_iter(go, &orig).flatten().map(|(pos, _)| pos).collect()]; the words are
    those of [sqrid_create!]. *)
Definition bf_flat (go : pos -> dir -> option pos) (orig : pos) : exec (list pos) :=
  it <- bf_iter_grid (Pos 2 2) false 1 go orig ;;
  vs <- drain (bf_next false (set_gridbool (Pos 2 2) 1) go) 20 it ;; Ret (map fst (List.concat vs)).

Example test_bf_basic : sqrid_create_WORDS 2 2 = Ret 1 /\
  bf_flat (pos_dir_add_ok (Pos 2 2)) (1, 1) = Ret [(1, 0); (2, 1); (1, 2); (0, 1); (2, 0); (0, 0); (2, 2); (0, 2)].
Proof. vm_compute. auto. Qed.

Example test_walls :
  bf_flat (fun p d => match pos_dir_add_ok (Pos 2 2) p d with
                      | Some q => if negb (pos_eqb q (0, 1)) && negb (pos_eqb q (2, 1)) then Some q else None
                      | None => None end) (1, 1) = Ret [(1, 0); (1, 2); (2, 0); (0, 0); (2, 2); (0, 2)].
Proof. vm_compute. reflexivity. Qed.

(** ** search_tests.rs *)

Definition P30 := Pos 29 14.

Example test_loop : sqrid_create_WORDS 29 14 = Ret 15 /\ sqrid_create_SIZE 29 14 = Ret 450 /\
  (g <- grid_set P30 (grid_repeat 450 (Some dN)) (0, 0) (Some dS) ;;
   camefrom_into_path P30 (map_grid P30 450) 1000 g (29, 14) (0, 0)) = Ret (Err Loop).
Proof. vm_compute. auto. Qed.

(** search_tests.rs:18-35: the walls, start and end of a drawing. *)
Definition char_at (rows : list string) (p : pos) : ascii :=
  match nth_error rows (Z.to_nat (snd p)) with
  | Some r => match String.get (Z.to_nat (fst p)) r with Some c => c | None => " "%char end
  | None => " "%char
  end.
Definition walls_from_str (rows : list string) : exec (gridbool * pos * pos) :=
  words <- gridbool_create_WORDS 29 14 ;;
  walls <- gb_default P30 words ;;
  ps <- iter_list P30 true ;;
  foldM (fun '(walls, start, end_) p =>
    let c := char_at rows p in
    walls <- gb_set P30 walls p (Ascii.eqb c "#") ;;
    Ret (walls, if Ascii.eqb c "T" then p else start, if Ascii.eqb c "C" then p else end_))
    ps (walls, (0, 0), (29, 14)).

(** search_tests.rs:37-56. *)
Definition calc_path (walls : gridbool) : pos -> dir -> option pos := maze_go P30 walls.
Definition calc_ucs_path (walls : gridbool) (p : pos) (d : dir) : option (pos * Z) :=
  match maze_go P30 walls p d with Some q => Some (q, 1) | None => None end.

(** search_tests.rs:62-70. *)
Fixpoint test_path (walls : gridbool) (p dest : pos) (path : list dir) : bool :=
  match path with
  | [] => pos_eqb p dest
  | d :: path' =>
      match pos_dir_add P30 p d with
      | Ok q => holds (w <- gb_get P30 walls q ;; Ret (negb w)) && test_path walls q dest path'
      | Err _ => false
      end
  end.

(** search_tests.rs:72-117, one turn of the loop. *)
Definition good_path (distance : Z) (walls : gridbool) (start end_ : pos) (r : exec (result (list dir))) : bool :=
  match r with
  | Ret (Ok path) => test_path walls start end_ path && (Z.of_nat (List.length path) =? distance)
  | _ => false
  end.
Definition path_of (r : exec (result (pos * list dir))) : exec (result (list dir)) :=
  r <- r ;; Ret (res_bind r (fun '(_, path) => Ok path)).
Definition FUEL : nat := Z.to_nat 4000.
Definition test_turn (distance : Z) (walls : gridbool) (p end_ : pos) : bool :=
  let goal q := pos_eqb q end_ in
  forallb (good_path distance walls p end_)
    [path_of (bfs_path P30 false 15 450 FUEL (calc_path walls) p goal);
     path_of (bfs_path_hash P30 false FUEL (calc_path walls) p goal);
     path_of (bfs_path_btree P30 false FUEL (calc_path walls) p goal);
     astar_path P30 false 450 FUEL (calc_path walls) p end_;
     astar_path_hash P30 false FUEL (calc_path walls) p end_;
     astar_path_btree P30 false FUEL (calc_path walls) p end_;
     ucs_path P30 false 450 FUEL (calc_ucs_path walls) p end_;
     ucs_path_hash P30 false FUEL (calc_ucs_path walls) p end_;
     ucs_path_btree P30 false FUEL (calc_ucs_path walls) p end_].

(** search_tests.rs:119-136, reduced: from the start only, and without the mirror
    images (DESIGN.md, section 7, reports on the rest). *)
Definition do_test (distance : Z) (rows : list string) : bool :=
  holds ('(w, s, e) <- walls_from_str rows ;; Ret (test_turn distance w s e)).

Definition test_unreachable_rows : list string :=
  ["##############################"; "#.............#..............#"; "#.C...........#..............#"; "#.............#..............#";
   "#.............#..............#"; "#.............#..............#"; "#.............#..............#"; "#.............#..............#";
   "#.............#..............#"; "#.............#..............#"; "#.............#..............#"; "#.............#..............#";
   "#.............#............T.#"; "#.............#..............#"; "##############################"]%string.

Example test_unreachable :
  ('(w, s, e) <- walls_from_str test_unreachable_rows ;; bfs_path P30 false 15 450 FUEL (calc_path w) s (fun p => pos_eqb p e)) = Ret (Err DestinationUnreachable) /\
  ('(w, s, e) <- walls_from_str test_unreachable_rows ;; astar_path P30 false 450 FUEL (calc_path w) s e) = Ret (Err DestinationUnreachable).
Proof. vm_compute. auto. Qed.

Definition test_bfs1_rows : list string :=
  ["##############################"; "##############################"; "#####################C.....T##"; "##############################";
   "##############################"; "##############################"; "##############################"; "##############################";
   "##############################"; "##############################"; "##############################"; "##############################";
   "##############################"; "##############################"; "##############################"]%string.

Example test_bfs1 : do_test 6 test_bfs1_rows = true.
Proof. vm_cast_no_check (eq_refl true). Qed.

Definition test_bfs4_rows : list string :=
  ["##############################"; "##.###########.###############"; "#...#.######.#......#......T##"; "###.#.######.#.######.########";
   "##...........#.######.########"; "###.#.######......###.########"; "#...#.###....#.##.###.########"; "#.############.##.....########";
   "#......##......###############"; "###.###############..........#"; "###.#####......####.########.#"; "###.......####............####";
   "##############.######.###.##.#"; "####C..........###....###....#"; "##############################"]%string.

Example test_bfs4 : do_test 68 test_bfs4_rows = true.
Proof. vm_cast_no_check (eq_refl true). Qed.

Definition test_bfs5_rows : list string :=
  ["##############################"; "####.....#..........T........#"; "##########.#################.#"; "####.......................#.#";
   "####.##########.##########.#.#"; "####.......................#.#"; "##########.#########.#######.#"; "##########...........#######.#";
   "##########.#########.#######.#"; "####.......................#.#"; "####.##########.##########.#.#"; "####.......................#.#";
   "##########.#########.#######.#"; "####.....#C###########.....#.#"; "##############################"]%string.

Example test_bfs5 : do_test 42 test_bfs5_rows = true.
Proof. vm_cast_no_check (eq_refl true). Qed.

Definition test_bfs6_rows : list string :=
  ["##############################"; "##.##....#.##.....##.###.....#"; "##....##......####.......###.#"; "#..##.##.#.##.####.##.##.###.#";
   "##.##.....#........##C.......#"; "#.....###...###......###.#####"; "###.#.###.#.....##..........##"; "#.........###.###.##........##";
   "###.###.#............###.##..#"; "###.....###.###.#........##.##"; "#.########...##.##.##.#.#...##"; "#.............###..#.#......##";
   "#.####.######.###.#######...##"; "###........T#.......##......##"; "##############################"]%string.

Example test_bfs6 : do_test 33 test_bfs6_rows = true.
Proof. vm_cast_no_check (eq_refl true). Qed.

Definition test_bfs7_rows : list string :=
  ["##############################"; "#............................#"; "#.#######################.#..#"; "#.....T.................#.#..#";
   "#.....#.................#.#..#"; "#.#######################.#..#"; "#.....##......##......#....###"; "#...####..##..##..##..#..#...#";
   "#.........##......##.....#...#"; "###########################.##"; "#......#......#..............#"; "#...C..#.....................#";
   "#...#..####################..#"; "#............................#"; "##############################"]%string.

Example test_bfs7 : do_test 70 test_bfs7_rows = true.
Proof. vm_cast_no_check (eq_refl true). Qed.

Definition test_bfs8_rows : list string :=
  ["##############################"; "#............................#"; "#..####################......#"; "#.....................#..C...#";
   "#............###..##..#..#...#"; "##.###########################"; "#...#.....##......##.........#"; "#...#..#..##..##..##..####...#";
   "###....#......##......##.....#"; "#..#.#######################.#"; "#..#.#................#......#"; "#..#.#................T......#";
   "#..#.#######################.#"; "#............................#"; "##############################"]%string.

Example test_bfs8 : do_test 71 test_bfs8_rows = true.
Proof. vm_cast_no_check (eq_refl true). Qed.

(** ** Examples of the documentation *)

(** lib.rs:50-58, pos.rs:40-73. *)
Example doc_pos :
  Pos_new 6 7 3 3 = Ok (3, 3) /\ Pos_new 4 4 3 3 = Ok (3, 3) /\ Pos_try_from_i32 4 4 (3, 3) = Ok (3, 3) /\ Pos_try_from_u16 4 4 (3, 3) = Ok (3, 3) /\
  Pos_new_unwrap 4 4 3 3 = Ret (3, 3) /\ Pos_new_static 4 4 3 3 = Ret (3, 3) /\ Pos_new_static 4 4 3 30 = Panic.
Proof. vm_compute. auto 10. Qed.

(** lib.rs:90-121. *)
Example doc_grid :
  (g <- grid_from_iter 9 0 (zrange 0 9) ;; Ret (grid_iter g)) = Ret [0; 1; 2; 3; 4; 5; 6; 7; 8] /\
  (g <- grid_from_iter 9 0 (zrange 0 9) ;; grid_iter_pos (Pos 2 2) (map (fun i => i * 10) (grid_iter g))) =
    Ret [((0, 0), 0); ((1, 0), 10); ((2, 0), 20); ((0, 1), 30); ((1, 1), 40); ((2, 1), 50); ((0, 2), 60); ((1, 2), 70); ((2, 2), 80)].
Proof. vm_compute. auto. Qed.

(** lib.rs:136-162. *)
Example doc_gridbool :
  (ps <- iter_list (Pos 3 3) false ;; g <- gb_from_positions (Pos 3 3) 1 (filter (is_corner (Pos 3 3)) ps) ;; gb_iter_t (Pos 3 3) g) =
    Ret [(0, 0); (3, 0); (0, 3); (3, 3)] /\
  (ps <- iter_list (Pos 3 3) false ;; g <- gb_from_positions (Pos 3 3) 1 (filter (is_corner (Pos 3 3)) ps) ;;
   g <- gb_set_iter_t (Pos 3 3) g (filter (is_side (Pos 3 3)) ps) ;; l <- gb_iter_t (Pos 3 3) g ;; Ret (forallb (is_side (Pos 3 3)) l && Nat.eqb (List.length l) 12)) = Ret true.
Proof. vm_compute. auto. Qed.

(** bf.rs:28-46: the vectors come with distance 1, 2, .. although [enumerate] counts
    from 0. *)
Example doc_bf_iter :
  (c <- CENTER 2 2 ;; bf_yields OnGrid (Pos 2 2) false 1 (pos_dir_add_ok (Pos 2 2)) c 3) =
    Ret [Some [((1, 0), dS); ((2, 1), dW); ((1, 2), dN); ((0, 1), dE)]; Some [((2, 0), dW); ((0, 0), dE); ((2, 2), dN); ((0, 2), dE)]; None].
Proof. vm_compute. auto. Qed.

(** lib.rs:218-279, bf.rs:65-76, astar.rs:36-45, ucs.rs:36-52. *)
Example doc_searches :
  (a <- TOP_LEFT 3 3 ;; z <- BOTTOM_RIGHT 3 3 ;; bfs_path (Pos 3 3) false 1 16 99 (pos_dir_add_ok (Pos 3 3)) a (fun p => pos_eqb p z)) =
    Ret (Ok ((3, 3), [dE; dE; dE; dS; dS; dS])) /\
  (a <- TOP_LEFT 3 3 ;; z <- BOTTOM_RIGHT 3 3 ;; astar_on OnGrid (Pos 3 3) false 99 (pos_dir_add_ok (Pos 3 3)) a z) =
    Ret (Ok [dE; dE; dE; dS; dS; dS]) /\
  (a <- TOP_LEFT 3 3 ;; z <- BOTTOM_RIGHT 3 3 ;;
   ucs_on OnGrid (Pos 3 3) false 99 (fun p d => match pos_dir_add_ok (Pos 3 3) p d with Some q => Some (q, 1) | None => None end) a z) =
    Ret (Ok [dE; dE; dE; dS; dS; dS]).
Proof. vm_compute. auto. Qed.
