(** TargetGrid.v -- positions, grids and their text on targets whose [usize] does
    not have 64 bits, and in builds with or without overflow checks.

    Target.v has what the searches need; this file repeats for any target every
    other function that computes with [usize] (or, in [rotate_cw], with the
    coordinate's own integer type).  Functions that compute with neither --
    [repeat], [Default], [from_iter], [Neg], the iterators over positions -- are
    the same on every target and are used as they are. *)

From Coq Require Import ZArith List Bool.
From Verif Require Import Rust BoundedInt Dir PosT Pos Grid Gridbool Display Target.
Import ListNotations.
Open Scope Z_scope.

(** The value of integer type [ty] a result wraps around to. *)
Definition int_wrap (ty : ity) (v : Z) : Z :=
  imin ty + (v - imin ty) mod (imax ty - imin ty + 1).

Section TargetGrid.
  Context (t : target).

  (** [usize] as the source of a conversion. *)
  Definition t_usize : ity := Ity 0 (t_MAX t).

  (** Plain [-] on an integer type of fixed size. *)
  Definition t_int (ty : ity) (v : Z) : exec Z :=
    if in_ity ty v then Ret v else if t_checks t then Panic else Ret (int_wrap ty v).

  (** postrait.rs:121-130: [height], [dimensions]. *)
  Definition t_height (P : post) : exec Z := m <- t_into_usize t (b_max (pt_y P)) ;; t_add t m 1.
  Definition t_dimensions (P : post) : exec Z :=
    w <- t_width t P ;; h <- t_height P ;; t_mul t w h.

  (** postrait.rs:225-231: [tryfrom_usize]; [%] and [/] panic when [width()]
      wrapped around to 0, in every build. *)
  Definition t_tryfrom_usize (P : post) (i : Z) : exec (result pos) :=
    w <- t_width t P ;;
    if w =? 0 then Panic
    else Ret (pos_new P (FromInt t_usize) (FromInt t_usize) (i mod w) (i / w)).

  (** postrait.rs:463-466, 530-533, 554-557, 577-580: [size_hint]. *)
  Definition t_piter_size_hint (P : post) (it : piter) : exec (Z * option Z) :=
    size <- t_dimensions P ;; Ret (size, Some size).
  Definition t_prange_size_hint (P : post) (it : prange) : exec (Z * option Z) :=
    w <- t_width t P ;; h <- t_height P ;; size <- t_mul t w h ;; Ret (size, Some size).
  Definition t_in_x_size_hint (P : post) (st : option pos) : exec (Z * option Z) :=
    size <- t_height P ;; Ret (size, Some size).
  Definition t_in_y_size_hint (P : post) (st : option pos) : exec (Z * option Z) :=
    size <- t_width t P ;; Ret (size, Some size).

  (** postrait.rs:384-421: [rotate_cw], [rotate_cc]. *)
  Definition t_rotate_cw (P : post) (p : pos) : exec pos :=
    x0 <- t_int (b_inner (pt_y P)) (b_into_inner (b_max (pt_y P)) - b_into_inner (snd p)) ;;
    x <- unwrap_res (b_try_from (pt_x P) (FromInt (b_inner (pt_y P))) x0) ;;
    y <- unwrap_res (b_try_from (pt_y P) (FromInt (b_inner (pt_x P))) (b_into_inner (fst p))) ;;
    Ret (x, y).
  Definition t_rotate_cc (P : post) (p : pos) : exec pos :=
    x <- unwrap_res (b_try_from (pt_x P) (FromInt (b_inner (pt_y P))) (b_into_inner (snd p))) ;;
    y0 <- t_int (b_inner (pt_x P)) (b_into_inner (b_max (pt_x P)) - b_into_inner (fst p)) ;;
    y <- unwrap_res (b_try_from (pt_y P) (FromInt (b_inner (pt_x P))) y0) ;;
    Ret (x, y).

  (** The sizes the macros compute, as constants: grid.rs:40-46, gridbool.rs:39-44,
      base.rs:43-62, pos.rs:98-103. *)
  Definition t_grid_create_SIZE (XMAX YMAX : Z) : exec Z :=
    w <- t_const t (XMAX + 1) ;; h <- t_const t (YMAX + 1) ;; t_const t (w * h).
  Definition t_gridbool_create_WORDS (XMAX YMAX : Z) : exec Z :=
    w <- t_const t (XMAX + 1) ;; h <- t_const t (YMAX + 1) ;; wh <- t_const t (w * h) ;; n <- t_const t (wh + 31) ;; Ret (n / 32).
  Definition t_sqrid_create_WORDS (XMAX YMAX : Z) : exec Z :=
    w <- t_const t (XMAX + 1) ;; h <- t_const t (YMAX + 1) ;; wh <- t_const t (w * h) ;; t_const t (wh / 32 + 1).
  Definition t_sqrid_create_SIZE (XMAX YMAX : Z) : exec Z :=
    w <- t_const t (XMAX + 1) ;; h <- t_const t (YMAX + 1) ;; t_const t (w * h).
  Definition t_Pos_SIZE (XMAX YMAX : Z) : exec Z :=
    w <- Pos_WIDTH XMAX ;; h <- Pos_HEIGHT YMAX ;; t_const t (w * h).

  Section Grid.
    Context {T : Type} (P : post).

    (** grid.rs:134-145: [get], and a write through [get_mut]; 292-320: indexing
        calls these. *)
    Definition t_grid_get (g : grid T) (p : pos) : exec T :=
      i <- t_to_usize t P p ;; array_get_unchecked g i.
    Definition t_grid_set (g : grid T) (p : pos) (v : T) : exec (grid T) :=
      i <- t_to_usize t P p ;; array_set_unchecked g i v.

    (** grid.rs:105-113: [line]; slicing panics out of bounds. *)
    Definition t_grid_line (g : grid T) (lineno : Z) : exec (list T) :=
      w <- t_width t P ;;
      n <- t_into_usize t lineno ;;
      start <- t_mul t n w ;;
      end_ <- t_add t start w ;;
      if end_ <=? Z.of_nat (length g)
      then Ret (firstn (Z.to_nat (end_ - start)) (skipn (Z.to_nat start) g))
      else Panic.

    (** grid.rs:119-127: [line_mut], followed by overwriting the returned slice
        with [l] ([copy_from_slice], which panics on a length mismatch). *)
    Definition t_grid_line_write (g : grid T) (lineno : Z) (l : list T) : exec (grid T) :=
      w <- t_width t P ;;
      n <- t_into_usize t lineno ;;
      start <- t_mul t n w ;;
      end_ <- t_add t start w ;;
      if end_ <=? Z.of_nat (length g)
      then if Z.of_nat (length l) =? end_ - start
           then Ret (firstn (Z.to_nat start) g ++ l ++ skipn (Z.to_nat end_) g)
           else Panic
      else Panic.

    (** grid.rs:161-166: [iter_pos]. *)
    Definition t_grid_iter_pos (g : grid T) : exec (list (pos * T)) :=
      ps <- iter_list P true ;;
      mapM (fun p => v <- t_grid_get g p ;; Ret (p, v)) ps.

    (** grid.rs:169-177: [flip_h]; [P::new(x: usize, y: Ytype)]. *)
    Definition t_grid_flip_h (g : grid T) : exec (grid T) :=
      ys <- iter_y P ;;
      foldM (fun g y =>
        w <- t_width t P ;;
        foldM (fun g x =>
          pos1 <- unwrap_res (pos_new P (FromInt t_usize) FromSelf x y) ;;
          pos2 <- pos_flip_h P pos1 ;;
          i1 <- t_to_usize t P pos1 ;;
          i2 <- t_to_usize t P pos2 ;;
          array_swap g i1 i2) (zrange 0 (w / 2)) g) ys g.

    (** grid.rs:180-188: [flip_v]. *)
    Definition t_grid_flip_v (g : grid T) : exec (grid T) :=
      h <- t_height P ;;
      foldM (fun g y =>
        xs <- iter_x P ;;
        foldM (fun g x =>
          pos1 <- unwrap_res (pos_new P FromSelf (FromInt t_usize) x y) ;;
          pos2 <- pos_flip_v P pos1 ;;
          i1 <- t_to_usize t P pos1 ;;
          i2 <- t_to_usize t P pos2 ;;
          array_swap g i1 i2) xs g) (zrange 0 (h / 2)) g.

    (** grid.rs:191-199: [extend_from_vecvec].  The result carries the grid as it
        is when the function returns, also on [Err]. *)
    Fixpoint t_extend_row (g : grid T) (x y : Z) (line : list T) : exec (grid T * result unit) :=
      match line with
      | [] => Ret (g, Ok tt)
      | c :: rest =>
          match pos_new P (FromInt u16) (FromInt u16) (as_u16 x) (as_u16 y) with
          | Err e => Ret (g, Err e)
          | Ok p => g' <- t_grid_set g p c ;; t_extend_row g' (x + 1) y rest
          end
      end.
    Fixpoint t_extend_rows (g : grid T) (y : Z) (v : list (list T)) : exec (grid T * result unit) :=
      match v with
      | [] => Ret (g, Ok tt)
      | line :: rest =>
          '(g', r) <- t_extend_row g 0 y line ;;
          match r with
          | Err e => Ret (g', Err e)
          | Ok _ => t_extend_rows g' (y + 1) rest
          end
      end.
    Definition t_extend_from_vecvec (g : grid T) (v : list (list T)) : exec (grid T * result unit) :=
      t_extend_rows g 0 v.

    (** grid.rs:263-288: [TryFrom<Vec<Vec<T>>>]. *)
    Definition t_try_from_vecvec_cell (d : T) (vec : list (list T)) (i : Z)
      : exec (T * list (list T)) :=
      r <- t_tryfrom_usize P i ;;
      p <- unwrap_res r ;;
      match int_try_from t_usize (fst p) with
      | Err _ => Ret (d, vec)
      | Ok x =>
          match int_try_from t_usize (snd p) with
          | Err _ => Ret (d, vec)
          | Ok y =>
              if y <? Z.of_nat (length vec) then
                row <- array_get vec y ;;
                if x <? Z.of_nat (length row) then
                  v <- array_get row x ;; Ret (v, vecvec_take d vec x y)
                else Ret (d, vec)
              else Ret (d, vec)
          end
      end.
    Fixpoint t_try_from_vecvec_cells (d : T) (vec : list (list T)) (is : list Z) : exec (list T) :=
      match is with
      | [] => Ret []
      | i :: rest =>
          '(v, vec') <- t_try_from_vecvec_cell d vec i ;;
          l <- t_try_from_vecvec_cells d vec' rest ;;
          Ret (v :: l)
      end.
    Definition t_grid_try_from_vecvec (SIZE : Z) (d : T) (vec : list (list T))
      : exec (result (grid T)) :=
      h <- t_height P ;;
      w <- t_width t P ;;
      if (Z.of_nat (length vec) >? h) || existsb (fun v => Z.of_nat (length v) >? w) vec
      then Ret (Err OutOfBounds)
      else l <- t_try_from_vecvec_cells d vec (zrange 0 SIZE) ;; Ret (Ok l).

    (** grid.rs:421-458: [Extend<(P, T)>] (the three impls differ only in
        references). *)
    Definition t_grid_extend (g : grid T) (items : list (pos * T)) : exec (grid T) :=
      foldM (fun g '(p, member) => t_grid_set g p member) items g.
  End Grid.

  (** grid.rs:205-219: [rotate_cw] on [Grid<T, Pos<W, W>, SIZE>]. *)
  Definition t_grid_rotate_cw {T} (W : Z) (g : grid T) : exec (grid T) :=
    let P := Pos W W in
    h <- t_height P ;;
    foldM (fun g y =>
      h1 <- t_sub t h 1 ;;
      hi <- t_sub t h1 y ;;
      foldM (fun g x =>
        y' <- unwrap_res (int_try_from u16 y) ;;
        x' <- unwrap_res (int_try_from u16 x) ;;
        pos1 <- unwrap_res (Pos_new W W x' y') ;;
        pos2 <- t_rotate_cw P pos1 ;;
        pos3 <- t_rotate_cw P pos2 ;;
        pos4 <- t_rotate_cw P pos3 ;;
        i1 <- t_to_usize t P pos1 ;;
        i2 <- t_to_usize t P pos2 ;;
        i3 <- t_to_usize t P pos3 ;;
        i4 <- t_to_usize t P pos4 ;;
        g <- array_swap g i1 i2 ;;
        g <- array_swap g i1 i3 ;;
        array_swap g i1 i4) (zrange y hi) g) (zrange 0 (h / 2)) g.

  (** grid.rs:221-235: [rotate_cc]. *)
  Definition t_grid_rotate_cc {T} (W : Z) (g : grid T) : exec (grid T) :=
    let P := Pos W W in
    h <- t_height P ;;
    foldM (fun g y =>
      h1 <- t_sub t h 1 ;;
      hi <- t_sub t h1 y ;;
      foldM (fun g x =>
        y' <- unwrap_res (int_try_from u16 y) ;;
        x' <- unwrap_res (int_try_from u16 x) ;;
        pos1 <- unwrap_res (Pos_new W W x' y') ;;
        pos2 <- t_rotate_cw P pos1 ;;
        pos3 <- t_rotate_cw P pos2 ;;
        pos4 <- t_rotate_cw P pos3 ;;
        i1 <- t_to_usize t P pos1 ;;
        i2 <- t_to_usize t P pos2 ;;
        i3 <- t_to_usize t P pos3 ;;
        i4 <- t_to_usize t P pos4 ;;
        g <- array_swap g i1 i4 ;;
        g <- array_swap g i1 i3 ;;
        array_swap g i1 i2) (zrange y hi) g) (zrange 0 (h / 2)) g.

  Section Gridbool.
    Context (P : post).

    (** gridbool.rs:83-91: [repeat]; it evaluates [_ASSERTS], so a type that
        fails the assertion does not compile: modelled as [Panic].
        77-79, 265-269: ALL_TRUE, ALL_FALSE. *)
    Definition t_gb_repeat (WORDS : Z) (value : bool) : exec gridbool :=
      ok <- t_asserts t P WORDS ;;
      if ok then
        let v := if value then WORD_TRUE else WORD_FALSE in
        Ret (repeat v (Z.to_nat WORDS))
      else Panic.
    Definition t_gb_ALL_TRUE (WORDS : Z) : exec gridbool := t_gb_repeat WORDS true.
    Definition t_gb_ALL_FALSE (WORDS : Z) : exec gridbool := t_gb_repeat WORDS false.

    (** gridbool.rs:116-122: [set]. *)
    Definition t_gb_set (g : gridbool) (p : pos) (value : bool) : exec gridbool :=
      if value then t_gb_set_t t P g p else t_gb_set_f t P g p.

    (** gridbool.rs:151-153: [iter]; 157-162: [iter_pos]. *)
    Definition t_gb_iter (g : gridbool) : exec (list bool) :=
      ps <- iter_list P true ;; mapM (t_gb_get t P g) ps.
    Definition t_gb_iter_pos (g : gridbool) : exec (list (pos * bool)) :=
      ps <- iter_list P true ;;
      mapM (fun p => v <- t_gb_get t P g p ;; Ret (p, v)) ps.

    (** gridbool.rs:166-174: [iter_t], [iter_f]. *)
    Definition t_gb_iter_t (g : gridbool) : exec (list pos) :=
      ps <- iter_list P true ;; filterM (t_gb_get t P g) ps.
    Definition t_gb_iter_f (g : gridbool) : exec (list pos) :=
      ps <- iter_list P true ;; filterM (fun p => b <- t_gb_get t P g p ;; Ret (negb b)) ps.

    (** gridbool.rs:178-190: [set_iter_t], [set_iter_f]. *)
    Definition t_gb_set_iter_t (g : gridbool) (ps : list pos) : exec gridbool :=
      foldM (t_gb_set_t t P) ps g.
    Definition t_gb_set_iter_f (g : gridbool) (ps : list pos) : exec gridbool :=
      foldM (t_gb_set_f t P) ps g.

    (** gridbool.rs:193-203: [flip_h]. *)
    Definition t_gb_flip_h (g : gridbool) : exec gridbool :=
      ys <- iter_y P ;;
      foldM (fun g y =>
        w <- t_width t P ;;
        foldM (fun g x =>
          pos1 <- unwrap_res (pos_new P (FromInt t_usize) FromSelf x y) ;;
          pos2 <- pos_flip_h P pos1 ;;
          tmp <- t_gb_get t P g pos1 ;;
          v2 <- t_gb_get t P g pos2 ;;
          g <- t_gb_set g pos1 v2 ;;
          t_gb_set g pos2 tmp) (zrange 0 (w / 2)) g) ys g.

    (** gridbool.rs:206-216: [flip_v]. *)
    Definition t_gb_flip_v (g : gridbool) : exec gridbool :=
      h <- t_height P ;;
      foldM (fun g y =>
        xs <- iter_x P ;;
        foldM (fun g x =>
          pos1 <- unwrap_res (pos_new P FromSelf (FromInt t_usize) x y) ;;
          pos2 <- pos_flip_v P pos1 ;;
          tmp <- t_gb_get t P g pos1 ;;
          v2 <- t_gb_get t P g pos2 ;;
          g <- t_gb_set g pos1 v2 ;;
          t_gb_set g pos2 tmp) xs g) (zrange 0 (h / 2)) g.

    (** gridbool.rs:303-313: [FromIterator<P>]. *)
    Definition t_gb_from_positions (WORDS : Z) (ps : list pos) : exec gridbool :=
      gb <- t_gb_ALL_FALSE WORDS ;; t_gb_set_iter_t gb ps.

    (** gridbool.rs:315-333: [FromIterator<bool>]. *)
    Fixpoint t_gb_fill (gb : gridbool) (ps : list pos) (it : list bool) : exec (gridbool * list bool) :=
      match ps with
      | [] => Ret (gb, it)
      | p :: ps' =>
          match it with
          | value :: it' => gb' <- t_gb_set gb p value ;; t_gb_fill gb' ps' it'
          | [] => Panic
          end
      end.
    Definition t_gb_from_bools (WORDS : Z) (it : list bool) : exec gridbool :=
      gb <- t_gb_ALL_FALSE WORDS ;;
      ps <- iter_list P true ;;
      '(gb', rest) <- t_gb_fill gb ps it ;;
      match rest with
      | [] => Ret gb'
      | _ :: _ => Panic
      end.
  End Gridbool.

  (** gridbool.rs:222-241: [rotate_cw] on [Gridbool<Pos<XYMAX, XYMAX>, WORDS>];
      the loop bounds are u16 expressions. *)
  Definition t_gb_rotate_cw (XYMAX : Z) (g : gridbool) : exec gridbool :=
    let P := Pos XYMAX XYMAX in
    foldM (fun g y =>
      hi <- t_int u16 (XYMAX - y) ;;
      foldM (fun g x =>
        pos0 <- unwrap_res (Pos_try_from_u16 XYMAX XYMAX (x, y)) ;;
        pos1 <- t_rotate_cw P pos0 ;;
        pos2 <- t_rotate_cw P pos1 ;;
        pos3 <- t_rotate_cw P pos2 ;;
        v0 <- t_gb_get t P g pos0 ;;
        v1 <- t_gb_get t P g pos1 ;;
        v2 <- t_gb_get t P g pos2 ;;
        v3 <- t_gb_get t P g pos3 ;;
        g <- t_gb_set P g pos0 v3 ;;
        g <- t_gb_set P g pos1 v0 ;;
        g <- t_gb_set P g pos2 v1 ;;
        t_gb_set P g pos3 v2) (zrange y hi) g) (zrange 0 (XYMAX / 2)) g.

  (** gridbool.rs:243-262: [rotate_cc]. *)
  Definition t_gb_rotate_cc (XYMAX : Z) (g : gridbool) : exec gridbool :=
    let P := Pos XYMAX XYMAX in
    foldM (fun g y =>
      hi <- t_int u16 (XYMAX - y) ;;
      foldM (fun g x =>
        pos0 <- unwrap_res (Pos_try_from_u16 XYMAX XYMAX (x, y)) ;;
        pos1 <- t_rotate_cw P pos0 ;;
        pos2 <- t_rotate_cw P pos1 ;;
        pos3 <- t_rotate_cw P pos2 ;;
        v0 <- t_gb_get t P g pos0 ;;
        v1 <- t_gb_get t P g pos1 ;;
        v2 <- t_gb_get t P g pos2 ;;
        v3 <- t_gb_get t P g pos3 ;;
        g <- t_gb_set P g pos0 v1 ;;
        g <- t_gb_set P g pos1 v2 ;;
        g <- t_gb_set P g pos2 v3 ;;
        t_gb_set P g pos3 v0) (zrange y hi) g) (zrange 0 (XYMAX / 2)) g.

  Section Display.
    Context (pad : str -> str).

    (** grid.rs:465-517. *)
    Definition t_display_fmt_helper (w h : Z) (it : list str) : exec str :=
      w1 <- t_sub t w 1 ;;
      let ndigits_x := length (fmt_dec w1) in
      h1 <- t_sub t h 1 ;;
      let ndigits_y := length (fmt_dec h1) in
      let str_x := map (fun i => fmt_dec_width i ndigits_x) (zrange 0 w) in
      head <- headerfooter pad ndigits_x ndigits_y str_x ;;
      '(out, _, _) <- foldM (fun st y => foldM (display_cell pad ndigits_y y) (zrange 0 w) st)
               (zrange 0 h) (head, h, it) ;;
      foot <- headerfooter pad ndigits_x ndigits_y str_x ;;
      Ret (out ++ [NEWLINE] ++ foot).

    (** grid.rs:525-534: [Display for Grid]; [fmt] is the element's Display. *)
    Definition t_grid_display {T} (P : post) (fmt : T -> str) (g : grid T) : exec str :=
      w <- t_width t P ;; h <- t_height P ;;
      t_display_fmt_helper w h (map fmt (grid_iter g)).

    (** gridbool.rs:337-346 ('#' = 35, '.' = 46). *)
    Definition t_gb_display (P : post) (g : gridbool) : exec str :=
      w <- t_width t P ;; h <- t_height P ;;
      bs <- t_gb_iter P g ;;
      t_display_fmt_helper w h (map (fun b : bool => if b then [35] else [46]) bs).
  End Display.
End TargetGrid.
