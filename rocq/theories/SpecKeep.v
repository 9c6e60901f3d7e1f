(** SpecKeep.v -- which of the shortest paths A* search can find. *)

From Coq Require Import ZArith List Bool.
From Verif Require Import Rust BoundedInt Dir PosT Pos Spec SpecSearch SpecSettle.
Import ListNotations.
Open Scope Z_scope.

(** A shortest path without diagonals that avoids what is looked at late: wherever
    another walk of the same length joins two positions [p] and [q] of the path,
    every position [x] of the path between them comes before some position [y] of
    the other walk between them.  Positions are looked at in the order of the moves
    made plus the columns and rows left to the destination. *)
Definition foremost (go : pos -> dir -> option pos) (orig dest : pos) (path : list dir) : Prop :=
  let left q := Z.abs (fst q - fst dest) + Z.abs (snd q - snd dest) in
  Forall (allowed false) path /\ follow go orig path = Some dest /\ at_distance false go orig (length path) dest /\
  forall l0 l1 l2 m p q u1 u2 x, path = l0 ++ l1 ++ l2 -> follow go orig l0 = Some p -> follow go p l1 = Some q ->
    Forall (allowed false) m -> length m = length l1 -> follow go p m = Some q ->
    l1 = u1 ++ u2 -> u1 <> [] -> u2 <> [] -> follow go p u1 = Some x ->
    exists v1 v2 y, m = v1 ++ v2 /\ v1 <> [] /\ v2 <> [] /\ follow go p v1 = Some y /\
      ahead (Z.of_nat (length u1) + left x, x) (Z.of_nat (length v1) + left y, y).
