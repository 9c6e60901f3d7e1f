(** PropPrice.v -- how far from the lowest cost uniform-cost search can be. *)

From Coq Require Import ZArith List Bool Lia.
From Verif Require Import Rust BoundedInt Dir PosT Pos Grid Gridbool SetMap CameFrom Bf Heap Astar Ucs Spec SpecSearch SpecPrice Lib Deque BoundedIntProofs PosTProofs PosTProofs2 PropDirProofs SetMapProofs Sim CameFromProofs PropSetMapProofs BfProofs PropBfProofs BestFirst SearchProofs UcsProofs PropUcsProofs.
From Verif Require Import PropPriceProofs.
Import ListNotations.
Open Scope Z_scope.

(** C106: the cost of the returned path is at most the lowest cost times the
    greatest ratio between two costs of entering the same position. *)
Theorem C106_ucs_near_lowest : forall b P D W go orig dest path lo hi,
  usable b P W -> valid P orig -> valid P dest -> go_inside P (move_of go) -> one_step P (move_of go) -> affordable D P go orig ->
  0 < lo <= hi -> entering_within D P go lo hi ->
  returns (fun fuel => ucs_on b P D fuel go orig dest) (Ok path) ->
  exists c k, follow_cost go orig path = Some (dest, c) /\ lowest_cost D go orig k dest /\ lo * c <= hi * k.
Proof. exact C106_ucs_near_lowest_proof. Qed.
Print Assumptions C106_ucs_near_lowest.

Example C106_example :
  let go := octile (Pos 5 5) (fun q => pos_eqb q (2, 1) || pos_eqb q (3, 1)) in
  ucs_on OnGrid (Pos 5 5) true 100 go (3, 0) (0, 5) = Ret (Ok [dSE; dSW; dSW; dSW; dSW]) /\
  follow_cost go (3, 0) [dSE; dSW; dSW; dSW; dSW] = Some ((0, 5), 70) /\
  follow_cost go (3, 0) [dW; dSW; dS; dS; dS; dSW] = Some ((0, 5), 68).
Proof. vm_compute. auto. Qed.

(** C107 is false: with moves of cost 10 and diagonal moves of cost 14, the usual
    integer approximation of Euclidean lengths, two walls on a 6x6 grid are
    enough for a path that is not a cheapest one. *)
Theorem C107_ucs_octile_refuted : exists b P W walls orig dest path c k,
  usable b P W /\ rows P = cols P /\ valid P orig /\ valid P dest /\
  returns (fun fuel => ucs_on b P true fuel (octile P walls) orig dest) (Ok path) /\
  follow_cost (octile P walls) orig path = Some (dest, c) /\ cost_walk true (octile P walls) orig k dest /\ k < c.
Proof. exact C107_ucs_octile_refuted_proof. Qed.
Print Assumptions C107_ucs_octile_refuted.

(** The part that holds: the path costs at most 7/5 of the lowest cost.  Missing:
    that it has the lowest cost, which is false. *)
Theorem C107_ucs_octile_partial : forall b P D W walls orig dest path,
  usable b P W -> valid P orig -> valid P dest ->
  returns (fun fuel => ucs_on b P D fuel (octile P walls) orig dest) (Ok path) ->
  exists c k, follow_cost (octile P walls) orig path = Some (dest, c) /\ lowest_cost D (octile P walls) orig k dest /\ 5 * c <= 7 * k.
Proof. exact C107_ucs_octile_partial_proof. Qed.
Print Assumptions C107_ucs_octile_partial.
