(** Pos.v -- model of src/sqrid/pos.rs and src/sqrid/posdir.rs. *)

From Coq Require Import ZArith List Bool.
From Verif Require Import Rust BoundedInt Dir PosT.
Import ListNotations.
Open Scope Z_scope.

(** pos.rs:75 and 302-322: [Pos<XMAX, YMAX>] as an implementation of [PosT]. *)
Definition Pos (XMAX YMAX : Z) : post :=
  Post (Bounded u16 0 XMAX) (Bounded u16 0 YMAX) (XMAX + 1) (YMAX + 1).

Section Pos.
  Context (XMAX YMAX : Z).

  (** pos.rs:98-103: the inherent constants WIDTH and HEIGHT are u16, so
      evaluating them overflows when XMAX (YMAX) is 65535. *)
  Definition Pos_WIDTH : exec Z := arith u16 (XMAX + 1).
  Definition Pos_HEIGHT : exec Z := arith u16 (YMAX + 1).
  Definition Pos_SIZE : exec Z := w <- Pos_WIDTH ;; h <- Pos_HEIGHT ;; umul w h.

  (** pos.rs:166-171: [new_static] (evaluated at compile time). *)
  Definition Pos_new_static (x y : Z) : exec pos :=
    x' <- bounded_new_static 0 XMAX x ;;
    y' <- bounded_new_static 0 YMAX y ;;
    Ret (x', y').

  (** pos.rs:153-157: [new_unwrap]. *)
  Definition Pos_new_unwrap (x y : Z) : exec pos :=
    x' <- bounded_new_unwrap 0 XMAX x ;;
    y' <- bounded_new_unwrap 0 YMAX y ;;
    Ret (x', y').

  (** pos.rs:107-137: the named positions. *)
  Definition FIRST : exec pos := Pos_new_static 0 0.
  Definition LAST : exec pos := Pos_new_static XMAX YMAX.
  Definition CENTER : exec pos := Pos_new_unwrap (XMAX / 2) (YMAX / 2).
  Definition TOP_LEFT : exec pos := FIRST.
  Definition TOP_RIGHT : exec pos := Pos_new_static XMAX 0.
  Definition BOTTOM_LEFT : exec pos := Pos_new_static 0 YMAX.
  Definition BOTTOM_RIGHT : exec pos := LAST.

  (** pos.rs:141-149: inherent [new]. *)
  Definition Pos_new (x y : Z) : result pos :=
    match bounded_new 0 XMAX x with
    | Ok x' =>
        match bounded_new 0 YMAX y with
        | Ok y' => Ok (x', y')
        | Err _ => Err OutOfBounds
        end
    | Err _ => Err OutOfBounds
    end.

  (** pos.rs:175-189: [x], [y], [tuple]; 248-260: into (u16, u16). *)
  Definition Pos_x (p : pos) : Z := b_into_inner (fst p).
  Definition Pos_y (p : pos) : Z := b_into_inner (snd p).
  Definition Pos_tuple (p : pos) : Z * Z := (Pos_x p, Pos_y p).

  (** pos.rs:216-230: [TryFrom<(u16, u16)>]. *)
  Definition Pos_try_from_u16 (xy : Z * Z) : result pos := Pos_new (fst xy) (snd xy).

  (** pos.rs:232-246: [TryFrom<(i32, i32)>]: truncating casts. *)
  Definition Pos_try_from_i32 (xy : Z * Z) : result pos :=
    Pos_new (as_u16 (fst xy)) (as_u16 (snd xy)).

  (** pos.rs:262-274: into (i32, i32); u16 fits in i32. *)
  Definition Pos_to_i32 (p : pos) : Z * Z := (Pos_x p, Pos_y p).

  (** pos.rs:278-284: [TryFrom<usize>]; 286-298: into usize. *)
  Definition Pos_try_from_usize (i : Z) : exec (result pos) := tryfrom_usize (Pos XMAX YMAX) i.
  Definition Pos_to_usize (p : pos) : exec Z := to_usize (Pos XMAX YMAX) p.

  (** Derived [Default] (pos.rs:74). *)
  Definition Pos_default : pos := (b_default (Bounded u16 0 XMAX), b_default (Bounded u16 0 YMAX)).
End Pos.

(** posdir.rs:19-61 and dir.rs:369-396: [P + Dir] for [Pos] and for tuples;
    [Pos]'s implementation only unwraps and rewraps the tuple. *)
Definition pos_dir_add (P : post) (p : pos) (d : dir) : result pos :=
  res_bind (tuple_dir_add (pt_x P) (pt_y P) p d) (fun t => Ok t).

(** posdir.rs:74-79: [pos_dir_add_ok]. *)
Definition pos_dir_add_ok (P : post) (p : pos) (d : dir) : option pos :=
  res_ok (pos_dir_add P p d).

(** posdir.rs:85-111: [direction_to::<P, D>]. *)
Definition direction_to (D : bool) (src dst : pos) : option dir :=
  if D then
    match (fst src ?= fst dst), (snd src ?= snd dst) with
    | Eq, Eq => None
    | Eq, Gt => Some dN
    | Lt, Gt => Some dNE
    | Lt, Eq => Some dE
    | Lt, Lt => Some dSE
    | Eq, Lt => Some dS
    | Gt, Lt => Some dSW
    | Gt, Eq => Some dW
    | Gt, Gt => Some dNW
    end
  else
    match (fst src ?= fst dst), (snd src ?= snd dst) with
    | Eq, Eq => None
    | _, Gt => Some dN
    | Lt, _ => Some dE
    | _, Lt => Some dS
    | Gt, _ => Some dW
    end.
