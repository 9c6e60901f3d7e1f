(** PropEffort.v -- how much work the searches do. *)

From Coq Require Import ZArith List Bool Lia Permutation.
From Verif Require Import Rust BoundedInt Dir PosT Pos Grid Gridbool SetMap CameFrom Bf Heap Astar Ucs Spec SpecSearch Lib Deque BoundedIntProofs PosTProofs PosTProofs2 PropDirProofs SetMapProofs Sim CameFromProofs PropSetMapProofs BfProofs PropBfProofs Fair FairSearch BestFirst SearchProofs UcsProofs PropUcsProofs AstarProofs PropAstarProofs BeelineProofs.
From Verif Require Import PropEffortProofs.
Import ListNotations.
Open Scope Z_scope.

(** C110: with affordable costs, the uniform-cost iterator yields every position
    as often as the search improves its cost; this takes at most one item per
    direction and reachable position, and one for the origin.  The search takes
    no more turns. *)
Theorem C110_ucs_effort : forall b P (D : bool) W go orig rs,
  usable b P W -> valid P orig -> go_inside P (move_of go) -> affordable D P go orig ->
  (forall p, reachable D (move_of go) orig p -> In p rs) ->
  (exists items : list (pos * dir), (length items <= 1 + (if D then 8 else 4) * length rs)%nat /\
     forall n, ucs_yields b P D go orig n = Ret (items_then_none items n)) /\
  (forall dest, valid P dest -> exists r, forall fuel,
     (1 + (if D then 8 else 4) * length rs < fuel)%nat -> cols P * cols P < Z.of_nat fuel -> ucs_on b P D fuel go orig dest = Ret r).
Proof. exact C110_ucs_effort_proof. Qed.
Print Assumptions C110_ucs_effort.

Example C110_ucs_example :
  let go p d := match pos_dir_add_ok (Pos 1 1) p d with Some q => Some (q, if pos_eqb p (0, 0) && pos_eqb q (1, 0) then 10 else 1) | None => None end in
  ucs_yields OnGrid (Pos 1 1) false go (0, 0) 6 =
    Ret [Some ((0, 0), dN); Some ((0, 1), dN); Some ((1, 1), dW); Some ((1, 0), dS); Some ((1, 0), dW); None] /\
  length (all_rows (Pos 1 1)) = 4%nat /\ cols (Pos 1 1) = 2 /\
  ucs_on OnGrid (Pos 1 1) false 18 go (0, 0) (1, 0) = Ret (Ok [dS; dE; dN]).
Proof. vm_compute. auto. Qed.

(** C111: the A* iterator yields at most one item per direction and reachable
    position, and one for the origin; with diagonals, where costs may be improved
    again after a position was visited, at most the square of the number of
    reachable positions.  The search takes no more turns. *)
Theorem C111_astar_effort : forall b P (D : bool) W go orig dest rs,
  usable b P W -> valid P orig -> valid P dest -> go_inside P go -> one_step P go ->
  (forall p, reachable D go orig p -> In p rs) ->
  (exists items : list (pos * dir), (length items <= if D then length rs * length rs else 1 + 4 * length rs)%nat /\
     forall n, astar_yields b P D go orig dest n = Ret (items_then_none items n)) /\
  (exists r, forall fuel, ((if D then length rs * length rs else 1 + 4 * length rs) < fuel)%nat -> cols P * cols P < Z.of_nat fuel ->
     astar_on b P D fuel go orig dest = Ret r).
Proof. exact C111_astar_effort_proof. Qed.
Print Assumptions C111_astar_effort.

Example C111_astar_example :
  astar_yields OnGrid (Pos 1 1) false (pos_dir_add_ok (Pos 1 1)) (0, 0) (1, 1) 6 =
    Ret [Some ((0, 0), dN); Some ((1, 0), dW); Some ((1, 1), dN); Some ((0, 1), dN); None; None] /\
  length (all_rows (Pos 1 1)) = 4%nat /\ cols (Pos 1 1) = 2 /\
  astar_on OnGrid (Pos 1 1) false 18 (pos_dir_add_ok (Pos 1 1)) (0, 0) (1, 1) = Ret (Ok [dE; dS]) /\
  astar_on OnGrid (Pos 1 1) true 17 (pos_dir_add_ok (Pos 1 1)) (0, 0) (1, 1) = Ret (Ok [dSE]).
Proof. vm_compute. auto. Qed.
