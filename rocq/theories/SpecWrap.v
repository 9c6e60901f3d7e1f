(** SpecWrap.v -- vocabulary for searches in builds without overflow checks, on any
    position type and any target. *)

From Coq Require Import ZArith List Bool.
From Verif Require Import Rust BoundedInt Dir PosT Pos Target Spec SpecSearch SpecTarget.
Import ListNotations.
Open Scope Z_scope.

(** The number of positions that may be met when going back from the destination:
    the square of the width plus one, wrapped around. *)
Definition wrapped_limit (t : target) (P : post) : Z := (cols P * cols P + 1) mod (usize_MAX t + 1).

(** Going back from [dest] to [orig] can begin: the distances between their
    coordinates are values of the coordinate types and of usize, twice their sum,
    wrapped around, is an isize, and the last column is a usize. *)
Definition wrapped_retraceable (t : target) (P : post) (orig dest : pos) : Prop :=
  measurable P orig dest /\
  Z.abs (fst orig - fst dest) <= usize_MAX t /\ Z.abs (snd orig - snd dest) <= usize_MAX t /\
  2 * ((2 * (Z.abs (fst orig - fst dest) + Z.abs (snd orig - snd dest))) mod (usize_MAX t + 1)) <= usize_MAX t /\
  0 <= XM P <= usize_MAX t.
