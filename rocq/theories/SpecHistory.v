(** SpecHistory.v -- vocabulary to state what sequences of modifications do to
    grids. *)

From Coq Require Import ZArith List Bool.
From Verif Require Import Rust BoundedInt Dir PosT Pos Grid Gridbool Spec.
Import ListNotations.
Open Scope Z_scope.

(** Ways to modify a [Grid<T, Pos<X, Y>, _>] or a [Gridbool<Pos<X, Y>, _>] through
    the API. *)
Inductive edit (T : Type) :=
| Put (p : pos) (v : T)
| PutAll (ps : list pos) (v : T)
| FlipH
| FlipV
| TurnCW
| TurnCC.
Arguments Put {T}.
Arguments PutAll {T}.
Arguments FlipH {T}.
Arguments FlipV {T}.
Arguments TurnCW {T}.
Arguments TurnCC {T}.

(** The calls: [set], [extend] with the same value at all given positions,
    [flip_h], [flip_v], [rotate_cw], [rotate_cc]. *)
Definition grid_edit {T} (X Y : Z) (g : grid T) (e : edit T) : exec (grid T) :=
  match e with
  | Put p v => grid_set (Pos X Y) g p v
  | PutAll ps v => grid_extend (Pos X Y) g (map (fun p => (p, v)) ps)
  | FlipH => grid_flip_h (Pos X Y) g
  | FlipV => grid_flip_v (Pos X Y) g
  | TurnCW => grid_rotate_cw X g
  | TurnCC => grid_rotate_cc X g
  end.

(** The same for [Gridbool], with [set_iter_t] and [set_iter_f] instead of [extend]. *)
Definition gb_edit (X Y : Z) (g : gridbool) (e : edit bool) : exec gridbool :=
  match e with
  | Put p v => gb_set (Pos X Y) g p v
  | PutAll ps true => gb_set_iter_t (Pos X Y) g ps
  | PutAll ps false => gb_set_iter_f (Pos X Y) g ps
  | FlipH => gb_flip_h (Pos X Y) g
  | FlipV => gb_flip_v (Pos X Y) g
  | TurnCW => gb_rotate_cw X g
  | TurnCC => gb_rotate_cc X g
  end.

(** One after the other. *)
Definition grid_edits {T} (X Y : Z) (g : grid T) (es : list (edit T)) : exec (grid T) := foldM (grid_edit X Y) es g.
Definition gb_edits (X Y : Z) (g : gridbool) (es : list (edit bool)) : exec gridbool := foldM (gb_edit X Y) es g.

(** The calls compile and get valid positions: rotations exist for squares only. *)
Definition edit_ok {T} (X Y : Z) (e : edit T) : Prop :=
  match e with
  | Put p _ => valid (Pos X Y) p
  | PutAll ps _ => Forall (valid (Pos X Y)) ps
  | FlipH | FlipV => True
  | TurnCW | TurnCC => X = Y
  end.

(** What they do to a picture, a function from positions to values. *)
Definition same (p q : pos) : bool := (fst p =? fst q) && (snd p =? snd q).
Definition draw {T} (X Y : Z) (f : pos -> T) (e : edit T) (p : pos) : T :=
  let '(x, y) := p in
  match e with
  | Put q v => if same q p then v else f p
  | PutAll qs v => if existsb (same p) qs then v else f p
  | FlipH => f (X - x, y)
  | FlipV => f (x, Y - y)
  | TurnCW => f (y, X - x)
  | TurnCC => f (X - y, x)
  end.
Definition drawing {T} (X Y : Z) (f : pos -> T) (es : list (edit T)) : pos -> T := fold_left (draw X Y) es f.

(** What modifications do to a Gridbool: like the above, but the four positions in
    the middle of a square with an even number of columns do not move in turns. *)
Definition middle_of (X : Z) (p : pos) : bool :=
  (X mod 2 =? 1) && (X / 2 <=? fst p) && (fst p <=? X / 2 + 1) && (X / 2 <=? snd p) && (snd p <=? X / 2 + 1).
Definition gb_draw (X Y : Z) (f : pos -> bool) (e : edit bool) (p : pos) : bool :=
  match e with
  | TurnCW | TurnCC => if middle_of X p then f p else draw X Y f e p
  | _ => draw X Y f e p
  end.
Definition gb_drawing (X Y : Z) (f : pos -> bool) (es : list (edit bool)) : pos -> bool := fold_left (gb_draw X Y) es f.
