(** SpecSettle.v -- the order in which uniform-cost search settles positions, and
    the path it returns. *)

From Coq Require Import ZArith List Bool.
From Verif Require Import Rust BoundedInt Dir PosT Pos Spec SpecSearch.
Import ListNotations.
Open Scope Z_scope.

(** The cost [fst a] of the position [snd a] is lower than that of [b] or, at equal
    costs, the position is the same or a later one (in a later column or, in the
    same column, in a later row). *)
Definition ahead (a b : Z * pos) : Prop :=
  fst a < fst b \/
  fst a = fst b /\
    (fst (snd b) < fst (snd a) \/ fst (snd b) = fst (snd a) /\ snd (snd b) <= snd (snd a)).

(** Of the moves into [q] that are found, from a position of lowest cost, no later
    than the destination is settled (at its lowest cost [k]), that in direction
    [d] is the one from the position [p] that is settled first; [before] tells which of
    two positions, with their costs, is settled first. *)
Definition settled_move_by (before : Z * pos -> Z * pos -> Prop) (D : bool) (go : pos -> dir -> option (pos * Z)) (orig dest p : pos) (d : dir) (q : pos) : Prop :=
  exists k c w, lowest_cost D go orig k dest /\ lowest_cost D go orig c p /\ go p d = Some (q, w) /\
    before (c + w, q) (k, dest) /\
    forall p' d' w' c', lowest_cost D go orig c' p' -> allowed D d' -> go p' d' = Some (q, w') ->
      before (c' + w', q) (k, dest) -> before (c, p) (c', p').

(** A path from [orig] to [dest], not through [orig] again, of such moves. *)
Definition settled_path_by (before : Z * pos -> Z * pos -> Prop) (D : bool) (go : pos -> dir -> option (pos * Z)) (orig dest : pos) (path : list dir) : Prop :=
  Forall (allowed D) path /\ follow (move_of go) orig path = Some dest /\
  forall l1 d l2 p, path = l1 ++ d :: l2 -> follow (move_of go) orig l1 = Some p ->
    exists q, move_of go p d = Some q /\ q <> orig /\ settled_move_by before D go orig dest p d q.

(** Those with sqrid's own position types. *)
Definition settled_path := settled_path_by ahead.
