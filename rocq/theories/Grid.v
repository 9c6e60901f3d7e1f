(** Grid.v -- model of src/sqrid/grid.rs (except Display, see Display.v).

    A [Grid<T, P, SIZE>] is the list of its array elements; SIZE is the length
    of the list.  References and [&mut] access become reads and functional
    updates. *)

From Coq Require Import ZArith List Bool.
From Verif Require Import Rust BoundedInt Dir PosT Pos.
Import ListNotations.
Open Scope Z_scope.

(** grid.rs:62. *)
Definition grid (T : Type) := list T.

(** grid.rs:40-46: SIZE computed by [grid_create!] (a compile-time usize
    expression). *)
Definition grid_create_SIZE (XMAX YMAX : Z) : exec Z :=
  w <- uadd XMAX 1 ;; h <- uadd YMAX 1 ;; umul w h.

Section Grid.
  Context {T : Type} (P : post).

  (** grid.rs:68: the associated constant [_ASSERTS].  It is declared but no
      function of grid.rs refers to it, so it is never evaluated; nothing below
      uses this definition. *)
  Definition grid_asserts (SIZE : Z) : exec bool :=
    s <- umul (pt_WIDTH P) (pt_HEIGHT P) ;; Ret (s =? SIZE).

  (** grid.rs:78-83: [repeat]. *)
  Definition grid_repeat (SIZE : Z) (item : T) : grid T := repeat item (Z.to_nat SIZE).

  (** grid.rs:240-247: [Default]; [d] is [T::default()]. *)
  Definition grid_default (SIZE : Z) (d : T) : grid T :=
    map (fun _ => d) (zrange 0 SIZE).

  (** grid.rs:134-145: [get], and a write through [get_mut]; 292-320: indexing
      calls these. *)
  Definition grid_get (g : grid T) (p : pos) : exec T :=
    i <- to_usize P p ;; array_get_unchecked g i.
  Definition grid_set (g : grid T) (p : pos) (v : T) : exec (grid T) :=
    i <- to_usize P p ;; array_set_unchecked g i v.

  (** grid.rs:105-113: [line]; slicing panics out of bounds. *)
  Definition grid_line (g : grid T) (lineno : Z) : exec (list T) :=
    w <- width P ;;
    n <- b_into_usize lineno ;;
    start <- umul n w ;;
    end_ <- uadd start w ;;
    if end_ <=? Z.of_nat (length g)
    then Ret (firstn (Z.to_nat (end_ - start)) (skipn (Z.to_nat start) g))
    else Panic.

  (** grid.rs:119-127: [line_mut], followed by overwriting the returned slice
      with [l] ([copy_from_slice], which panics on a length mismatch). *)
  Definition grid_line_write (g : grid T) (lineno : Z) (l : list T) : exec (grid T) :=
    w <- width P ;;
    n <- b_into_usize lineno ;;
    start <- umul n w ;;
    end_ <- uadd start w ;;
    if end_ <=? Z.of_nat (length g)
    then if Z.of_nat (length l) =? end_ - start
         then Ret (firstn (Z.to_nat start) g ++ l ++ skipn (Z.to_nat end_) g)
         else Panic
    else Panic.

  (** grid.rs:149-151, 340-365: [iter] / [into_iter]. *)
  Definition grid_iter (g : grid T) : list T := g.

  (** grid.rs:161-166: [iter_pos]. *)
  Definition grid_iter_pos (g : grid T) : exec (list (pos * T)) :=
    ps <- iter_list P true ;;
    mapM (fun p => v <- grid_get g p ;; Ret (p, v)) ps.

  (** grid.rs:169-177: [flip_h]; [P::new(x: usize, y: Ytype)]. *)
  Definition grid_flip_h (g : grid T) : exec (grid T) :=
    ys <- iter_y P ;;
    foldM (fun g y =>
      w <- width P ;;
      foldM (fun g x =>
        pos1 <- unwrap_res (pos_new P (FromInt usize) FromSelf x y) ;;
        pos2 <- pos_flip_h P pos1 ;;
        i1 <- to_usize P pos1 ;;
        i2 <- to_usize P pos2 ;;
        array_swap g i1 i2) (zrange 0 (w / 2)) g) ys g.

  (** grid.rs:180-188: [flip_v]. *)
  Definition grid_flip_v (g : grid T) : exec (grid T) :=
    h <- height P ;;
    foldM (fun g y =>
      xs <- iter_x P ;;
      foldM (fun g x =>
        pos1 <- unwrap_res (pos_new P FromSelf (FromInt usize) x y) ;;
        pos2 <- pos_flip_v P pos1 ;;
        i1 <- to_usize P pos1 ;;
        i2 <- to_usize P pos2 ;;
        array_swap g i1 i2) xs g) (zrange 0 (h / 2)) g.

  (** grid.rs:191-199: [extend_from_vecvec].  The result carries the grid as it
      is when the function returns, also on [Err]. *)
  Fixpoint extend_row (g : grid T) (x y : Z) (line : list T) : exec (grid T * result unit) :=
    match line with
    | [] => Ret (g, Ok tt)
    | c :: rest =>
        match pos_new P (FromInt u16) (FromInt u16) (as_u16 x) (as_u16 y) with
        | Err e => Ret (g, Err e)
        | Ok p => g' <- grid_set g p c ;; extend_row g' (x + 1) y rest
        end
    end.
  Fixpoint extend_rows (g : grid T) (y : Z) (v : list (list T)) : exec (grid T * result unit) :=
    match v with
    | [] => Ret (g, Ok tt)
    | line :: rest =>
        '(g', r) <- extend_row g 0 y line ;;
        match r with
        | Err e => Ret (g', Err e)
        | Ok _ => extend_rows g' (y + 1) rest
        end
    end.
  Definition extend_from_vecvec (g : grid T) (v : list (list T)) : exec (grid T * result unit) :=
    extend_rows g 0 v.

  (** grid.rs:399-417 (373-393 is the same with references): [FromIterator];
      the iterator is the list of its items, [d] is [T::default()]. *)
  Fixpoint from_iter_fill (g : grid T) (it : list T) : exec (grid T * list T) :=
    match g with
    | [] => Ret ([], it)
    | _ :: g' =>
        match it with
        | [] => Panic
        | fromiter :: it' =>
            '(r, rest) <- from_iter_fill g' it' ;; Ret (fromiter :: r, rest)
        end
    end.
  Definition grid_from_iter (SIZE : Z) (d : T) (it : list T) : exec (grid T) :=
    '(g, rest) <- from_iter_fill (grid_default SIZE d) it ;;
    match rest with
    | [] => Ret g
    | _ :: _ => Panic
    end.

  (** grid.rs:251-259: [Neg]; [neg] is [T]'s negation. *)
  Definition grid_neg (SIZE : Z) (d : T) (neg : T -> T) (g : grid T) : exec (grid T) :=
    grid_from_iter SIZE d (map neg (grid_iter g)).

  (** grid.rs:263-288: [TryFrom<Vec<Vec<T>>>].  [std::mem::take] leaves the
      default value behind; [vec] is threaded through [array::from_fn]. *)
  Definition vecvec_take (d : T) (vec : list (list T)) (x y : Z) : list (list T) :=
    match nth_error vec (Z.to_nat y) with
    | Some row => list_set vec (Z.to_nat y) (list_set row (Z.to_nat x) d)
    | None => vec
    end.
  Definition try_from_vecvec_cell (d : T) (vec : list (list T)) (i : Z)
    : exec (T * list (list T)) :=
    r <- tryfrom_usize P i ;;
    p <- unwrap_res r ;;
    match b_to_usize (fst p) with
    | Err _ => Ret (d, vec)
    | Ok x =>
        match b_to_usize (snd p) with
        | Err _ => Ret (d, vec)
        | Ok y =>
            if y <? Z.of_nat (length vec) then
              row <- array_get vec y ;;
              if x <? Z.of_nat (length row) then
                v <- array_get row x ;; Ret (v, vecvec_take d vec x y)
              else Ret (d, vec)
            else Ret (d, vec)
        end
    end.
  Fixpoint try_from_vecvec_cells (d : T) (vec : list (list T)) (is : list Z) : exec (list T) :=
    match is with
    | [] => Ret []
    | i :: rest =>
        '(v, vec') <- try_from_vecvec_cell d vec i ;;
        l <- try_from_vecvec_cells d vec' rest ;;
        Ret (v :: l)
    end.
  Definition grid_try_from_vecvec (SIZE : Z) (d : T) (vec : list (list T))
    : exec (result (grid T)) :=
    h <- height P ;;
    w <- width P ;;
    if (Z.of_nat (length vec) >? h) || existsb (fun v => Z.of_nat (length v) >? w) vec
    then Ret (Err OutOfBounds)
    else l <- try_from_vecvec_cells d vec (zrange 0 SIZE) ;; Ret (Ok l).

  (** grid.rs:421-458: [Extend<(P, T)>] (the three impls differ only in
      references). *)
  Definition grid_extend (g : grid T) (items : list (pos * T)) : exec (grid T) :=
    foldM (fun g '(p, member) => grid_set g p member) items g.
End Grid.

(** grid.rs:205-219: [rotate_cw] on [Grid<T, Pos<W, W>, SIZE>]. *)
Definition grid_rotate_cw {T} (W : Z) (g : grid T) : exec (grid T) :=
  let P := Pos W W in
  h <- height P ;;
  foldM (fun g y =>
    h1 <- usub h 1 ;;
    hi <- usub h1 y ;;
    foldM (fun g x =>
      y' <- unwrap_res (int_try_from u16 y) ;;
      x' <- unwrap_res (int_try_from u16 x) ;;
      pos1 <- unwrap_res (Pos_new W W x' y') ;;
      pos2 <- pos_rotate_cw P pos1 ;;
      pos3 <- pos_rotate_cw P pos2 ;;
      pos4 <- pos_rotate_cw P pos3 ;;
      i1 <- to_usize P pos1 ;;
      i2 <- to_usize P pos2 ;;
      i3 <- to_usize P pos3 ;;
      i4 <- to_usize P pos4 ;;
      g <- array_swap g i1 i2 ;;
      g <- array_swap g i1 i3 ;;
      array_swap g i1 i4) (zrange y hi) g) (zrange 0 (h / 2)) g.

(** grid.rs:221-235: [rotate_cc]. *)
Definition grid_rotate_cc {T} (W : Z) (g : grid T) : exec (grid T) :=
  let P := Pos W W in
  h <- height P ;;
  foldM (fun g y =>
    h1 <- usub h 1 ;;
    hi <- usub h1 y ;;
    foldM (fun g x =>
      y' <- unwrap_res (int_try_from u16 y) ;;
      x' <- unwrap_res (int_try_from u16 x) ;;
      pos1 <- unwrap_res (Pos_new W W x' y') ;;
      pos2 <- pos_rotate_cw P pos1 ;;
      pos3 <- pos_rotate_cw P pos2 ;;
      pos4 <- pos_rotate_cw P pos3 ;;
      i1 <- to_usize P pos1 ;;
      i2 <- to_usize P pos2 ;;
      i3 <- to_usize P pos3 ;;
      i4 <- to_usize P pos4 ;;
      g <- array_swap g i1 i4 ;;
      g <- array_swap g i1 i3 ;;
      array_swap g i1 i2) (zrange y hi) g) (zrange 0 (h / 2)) g.
