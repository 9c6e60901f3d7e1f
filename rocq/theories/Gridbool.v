(** Gridbool.v -- model of src/sqrid/gridbool.rs and of the size computation in
    src/sqrid/base.rs.

    A [Gridbool<P, WORDS>] is the list of its u32 words. *)

From Coq Require Import ZArith List Bool.
From Verif Require Import Rust BoundedInt Dir PosT Pos.
Import ListNotations.
Open Scope Z_scope.

(** gridbool.rs:58. *)
Definition gridbool := list Z.

(** gridbool.rs:39-44: WORDS computed by [gridbool_create!]. *)
Definition gridbool_create_WORDS (XMAX YMAX : Z) : exec Z :=
  w <- uadd XMAX 1 ;; h <- uadd YMAX 1 ;; wh <- umul w h ;; n <- uadd wh 31 ;; Ret (n / 32).

(** base.rs:43-62: WORDS and SIZE computed by [sqrid_create!] (both arms). *)
Definition sqrid_create_WORDS (XMAX YMAX : Z) : exec Z :=
  w <- uadd XMAX 1 ;; h <- uadd YMAX 1 ;; wh <- umul w h ;; uadd (wh / 32) 1.
Definition sqrid_create_SIZE (XMAX YMAX : Z) : exec Z :=
  w <- uadd XMAX 1 ;; h <- uadd YMAX 1 ;; umul w h.

(** gridbool.rs:70-71. *)
Definition WORD_FALSE : Z := 0.
Definition WORD_TRUE : Z := 4294967295.

(** gridbool.rs:94-98: [byte_bit]. *)
Definition byte_bit (i : Z) : Z * Z :=
  (i / 32, Z.shiftr 2147483648 (i mod 32)).

(** [!bit] on u32. *)
Definition u32_not (b : Z) : Z := Z.lxor 4294967295 b.

Section Gridbool.
  Context (P : post).

  (** gridbool.rs:64-68: [_ASSERTS], a compile-time usize computation; [&&]
      short-circuits. *)
  Definition gridbool_asserts (WORDS : Z) : exec bool :=
    wh <- umul (pt_WIDTH P) (pt_HEIGHT P) ;;
    w32 <- umul WORDS 32 ;;
    if wh <=? w32 then
      wh2 <- umul (pt_WIDTH P) (pt_HEIGHT P) ;;
      w32' <- umul WORDS 32 ;;
      lo <- usub w32' 32 ;;
      Ret (wh2 >=? lo)
    else Ret false.

  (** gridbool.rs:83-91: [repeat]; it evaluates [_ASSERTS], so a type that
      fails the assertion does not compile: modelled as [Panic].
      77-79, 265-269: ALL_TRUE, ALL_FALSE, [Default]. *)
  Definition gb_repeat (WORDS : Z) (value : bool) : exec gridbool :=
    ok <- gridbool_asserts WORDS ;;
    if ok then
      let v := if value then WORD_TRUE else WORD_FALSE in
      Ret (repeat v (Z.to_nat WORDS))
    else Panic.
  Definition gb_ALL_TRUE (WORDS : Z) : exec gridbool := gb_repeat WORDS true.
  Definition gb_ALL_FALSE (WORDS : Z) : exec gridbool := gb_repeat WORDS false.
  Definition gb_default (WORDS : Z) : exec gridbool := gb_ALL_FALSE WORDS.

  (** gridbool.rs:102-105: [set_t]. *)
  Definition gb_set_t (g : gridbool) (p : pos) : exec gridbool :=
    i <- to_usize P p ;;
    let '(byte, bit) := byte_bit i in
    w <- array_get g byte ;;
    array_set g byte (Z.lor w bit).

  (** gridbool.rs:109-112: [set_f]. *)
  Definition gb_set_f (g : gridbool) (p : pos) : exec gridbool :=
    i <- to_usize P p ;;
    let '(byte, bit) := byte_bit i in
    w <- array_get g byte ;;
    array_set g byte (Z.land w (u32_not bit)).

  (** gridbool.rs:116-122: [set]. *)
  Definition gb_set (g : gridbool) (p : pos) (value : bool) : exec gridbool :=
    if value then gb_set_t g p else gb_set_f g p.

  (** gridbool.rs:126-129: [get]; 273-299: indexing returns the same value. *)
  Definition gb_get (g : gridbool) (p : pos) : exec bool :=
    i <- to_usize P p ;;
    let '(byte, bit) := byte_bit i in
    w <- array_get g byte ;;
    Ret (negb (Z.land w bit =? 0)).

  (** gridbool.rs:151-153: [iter]; 157-162: [iter_pos]. *)
  Definition gb_iter (g : gridbool) : exec (list bool) :=
    ps <- iter_list P true ;; mapM (gb_get g) ps.
  Definition gb_iter_pos (g : gridbool) : exec (list (pos * bool)) :=
    ps <- iter_list P true ;;
    mapM (fun p => v <- gb_get g p ;; Ret (p, v)) ps.

  (** gridbool.rs:166-174: [iter_t], [iter_f]. *)
  Fixpoint filterM {A} (f : A -> exec bool) (l : list A) : exec (list A) :=
    match l with
    | [] => Ret []
    | x :: l' =>
        b <- f x ;; r <- filterM f l' ;; Ret (if b then x :: r else r)
    end.
  Definition gb_iter_t (g : gridbool) : exec (list pos) :=
    ps <- iter_list P true ;; filterM (gb_get g) ps.
  Definition gb_iter_f (g : gridbool) : exec (list pos) :=
    ps <- iter_list P true ;; filterM (fun p => b <- gb_get g p ;; Ret (negb b)) ps.

  (** gridbool.rs:178-190: [set_iter_t], [set_iter_f]. *)
  Definition gb_set_iter_t (g : gridbool) (ps : list pos) : exec gridbool :=
    foldM gb_set_t ps g.
  Definition gb_set_iter_f (g : gridbool) (ps : list pos) : exec gridbool :=
    foldM gb_set_f ps g.

  (** gridbool.rs:193-203: [flip_h]. *)
  Definition gb_flip_h (g : gridbool) : exec gridbool :=
    ys <- iter_y P ;;
    foldM (fun g y =>
      w <- width P ;;
      foldM (fun g x =>
        pos1 <- unwrap_res (pos_new P (FromInt usize) FromSelf x y) ;;
        pos2 <- pos_flip_h P pos1 ;;
        tmp <- gb_get g pos1 ;;
        v2 <- gb_get g pos2 ;;
        g <- gb_set g pos1 v2 ;;
        gb_set g pos2 tmp) (zrange 0 (w / 2)) g) ys g.

  (** gridbool.rs:206-216: [flip_v]. *)
  Definition gb_flip_v (g : gridbool) : exec gridbool :=
    h <- height P ;;
    foldM (fun g y =>
      xs <- iter_x P ;;
      foldM (fun g x =>
        pos1 <- unwrap_res (pos_new P FromSelf (FromInt usize) x y) ;;
        pos2 <- pos_flip_v P pos1 ;;
        tmp <- gb_get g pos1 ;;
        v2 <- gb_get g pos2 ;;
        g <- gb_set g pos1 v2 ;;
        gb_set g pos2 tmp) xs g) (zrange 0 (h / 2)) g.

  (** gridbool.rs:303-313: [FromIterator<P>]. *)
  Definition gb_from_positions (WORDS : Z) (ps : list pos) : exec gridbool :=
    gb <- gb_ALL_FALSE WORDS ;; gb_set_iter_t gb ps.

  (** gridbool.rs:315-333: [FromIterator<bool>]. *)
  Fixpoint gb_fill (gb : gridbool) (ps : list pos) (it : list bool) : exec (gridbool * list bool) :=
    match ps with
    | [] => Ret (gb, it)
    | p :: ps' =>
        match it with
        | value :: it' => gb' <- gb_set gb p value ;; gb_fill gb' ps' it'
        | [] => Panic
        end
    end.
  Definition gb_from_bools (WORDS : Z) (it : list bool) : exec gridbool :=
    gb <- gb_ALL_FALSE WORDS ;;
    ps <- iter_list P true ;;
    '(gb', rest) <- gb_fill gb ps it ;;
    match rest with
    | [] => Ret gb'
    | _ :: _ => Panic
    end.
End Gridbool.

(** Derived [PartialEq] (gridbool.rs:57): compares the word arrays. *)
Fixpoint gb_eqb (a b : gridbool) : bool :=
  match a, b with
  | [], [] => true
  | x :: a', y :: b' => (x =? y) && gb_eqb a' b'
  | _, _ => false
  end.

(** gridbool.rs:222-241: [rotate_cw] on [Gridbool<Pos<XYMAX, XYMAX>, WORDS>];
    the loop bounds are u16 expressions. *)
Definition gb_rotate_cw (XYMAX : Z) (g : gridbool) : exec gridbool :=
  let P := Pos XYMAX XYMAX in
  foldM (fun g y =>
    hi <- arith u16 (XYMAX - y) ;;
    foldM (fun g x =>
      pos0 <- unwrap_res (Pos_try_from_u16 XYMAX XYMAX (x, y)) ;;
      pos1 <- pos_rotate_cw P pos0 ;;
      pos2 <- pos_rotate_cw P pos1 ;;
      pos3 <- pos_rotate_cw P pos2 ;;
      v0 <- gb_get P g pos0 ;;
      v1 <- gb_get P g pos1 ;;
      v2 <- gb_get P g pos2 ;;
      v3 <- gb_get P g pos3 ;;
      g <- gb_set P g pos0 v3 ;;
      g <- gb_set P g pos1 v0 ;;
      g <- gb_set P g pos2 v1 ;;
      gb_set P g pos3 v2) (zrange y hi) g) (zrange 0 (XYMAX / 2)) g.

(** gridbool.rs:243-262: [rotate_cc]. *)
Definition gb_rotate_cc (XYMAX : Z) (g : gridbool) : exec gridbool :=
  let P := Pos XYMAX XYMAX in
  foldM (fun g y =>
    hi <- arith u16 (XYMAX - y) ;;
    foldM (fun g x =>
      pos0 <- unwrap_res (Pos_try_from_u16 XYMAX XYMAX (x, y)) ;;
      pos1 <- pos_rotate_cw P pos0 ;;
      pos2 <- pos_rotate_cw P pos1 ;;
      pos3 <- pos_rotate_cw P pos2 ;;
      v0 <- gb_get P g pos0 ;;
      v1 <- gb_get P g pos1 ;;
      v2 <- gb_get P g pos2 ;;
      v3 <- gb_get P g pos3 ;;
      g <- gb_set P g pos0 v1 ;;
      g <- gb_set P g pos1 v2 ;;
      g <- gb_set P g pos2 v3 ;;
      gb_set P g pos3 v0) (zrange y hi) g) (zrange 0 (XYMAX / 2)) g.
