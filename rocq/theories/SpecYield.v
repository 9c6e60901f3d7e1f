(** SpecYield.v -- what the iterator of uniform-cost search yields. *)

From Coq Require Import ZArith List Bool.
From Verif Require Import Rust BoundedInt Dir PosT Pos Heap Spec SpecSearch.
Import ListNotations.
Open Scope Z_scope.

(** [x] is [(k, (q, d))].  It stands for the origin, or for a move into [q] from a
    position [p] of lowest cost [c]: [k] is the cost of going to [q] that way, and [d]
    the direction back to [p].  No position that is settled before [p] gives as low a
    cost; [before] tells which of two positions, with their costs, is settled first. *)
Definition improving (before : Z * pos -> Z * pos -> Prop) (D : bool) (go : pos -> dir -> option (pos * Z)) (orig : pos) (x : Z * (pos * dir)) : Prop :=
  x = (0, (orig, dN)) \/
  let '(k, (q, d)) := x in
  exists p e w c, q <> orig /\ lowest_cost D go orig c p /\ allowed D e /\ go p e = Some (q, w) /\
    k = c + w /\ heading d = (heading e + 4) mod 8 /\
    forall p' e' w' c', lowest_cost D go orig c' p' -> allowed D e' -> go p' e' = Some (q, w') ->
      c' + w' <= k -> before (c, p) (c', p').
