(** SpecKeepBy.v -- which shortest path A* returns when positions have an order of
    their own. *)

From Coq Require Import ZArith List.
From Verif Require Import Rust Dir PosT Spec SpecSearch.
Import ListNotations.
Open Scope Z_scope.

(** As [foremost] of SpecKeep.v, with any order of priorities with positions: [path] is a
    shortest path; and whenever a part of it can be replaced by as many other moves, each
    position inside that part comes before some position inside the replacement, by
    moves so far plus distance left, then by the position. *)
Definition foremost_by (before : Z * pos -> Z * pos -> Prop) (go : pos -> dir -> option pos) (orig dest : pos) (path : list dir) : Prop :=
  let left q := Z.abs (fst q - fst dest) + Z.abs (snd q - snd dest) in
  Forall (allowed false) path /\ follow go orig path = Some dest /\ at_distance false go orig (length path) dest /\
  forall l0 l1 l2 m p q u1 u2 x, path = l0 ++ l1 ++ l2 -> follow go orig l0 = Some p -> follow go p l1 = Some q ->
    Forall (allowed false) m -> length m = length l1 -> follow go p m = Some q ->
    l1 = u1 ++ u2 -> u1 <> [] -> u2 <> [] -> follow go p u1 = Some x ->
    exists v1 v2 y, m = v1 ++ v2 /\ v1 <> [] /\ v2 <> [] /\ follow go p v1 = Some y /\
      before (Z.of_nat (length u1) + left x, x) (Z.of_nat (length v1) + left y, y).
