(** PropSettle.v -- which path uniform-cost search and A* return. *)

From Coq Require Import ZArith List Bool Lia.
From Verif Require Import Rust BoundedInt Dir PosT Pos Grid Gridbool SetMap CameFrom Bf Heap Astar Ucs Spec SpecSearch SpecMaze SpecPrice SpecQueue SpecSettle Lib Deque BoundedIntProofs PosTProofs PosTProofs2 PropDirProofs PropPosProofs GridProofs GridProofs2 PropGridProofs GridboolProofs PropGridboolProofs SetMapProofs Sim CameFromProofs PropSetMapProofs BfProofs PropBfProofs Fair FairSearch BestFirst Ordered SearchProofs UcsProofs PropUcsProofs AstarProofs PropAstarProofs PropAgreeProofs PropQueueProofs PropMazeProofs PropPathProofs.
From Verif Require Import PropSettleProofs.
Import ListNotations.
Open Scope Z_scope.

(** C126: every move of a path that uniform-cost search returns comes from a
    position with the lowest cost among those from which the next position can be
    entered for less than the lowest cost of the destination. *)
Theorem C126_ucs_moves : forall b P D W go orig dest path l1 d l2 p,
  usable b P W -> valid P orig -> valid P dest -> go_inside P (move_of go) -> one_step P (move_of go) -> affordable D P go orig ->
  returns (fun fuel => ucs_on b P D fuel go orig dest) (Ok path) ->
  path = l1 ++ d :: l2 -> follow (move_of go) orig l1 = Some p ->
  exists k c q w, lowest_cost D go orig k dest /\ lowest_cost D go orig c p /\ go p d = Some (q, w) /\ c + w <= k /\
    forall p' d' w' c', lowest_cost D go orig c' p' -> allowed D d' -> go p' d' = Some (q, w') -> c' + w' < k -> c <= c'.
Proof. exact C126_ucs_moves_proof. Qed.
Print Assumptions C126_ucs_moves.

(** C126: with positive costs this, with ties broken by the order of positions,
    is exactly the path that is returned (if it is not longer than the limit of
    width*width moves); there is only one such path. *)
Theorem C126_ucs_exact : forall b P D W go orig dest path,
  usable b P W -> valid P orig -> valid P dest -> go_inside P (move_of go) -> one_step P (move_of go) -> affordable D P go orig ->
  (forall p d q w, valid P p -> go p d = Some (q, w) -> 0 < w) ->
  (returns (fun fuel => ucs_on b P D fuel go orig dest) (Ok path) <->
   settled_path D go orig dest path /\ Z.of_nat (length path) <= cols P * cols P) /\
  forall path', settled_path D go orig dest path -> settled_path D go orig dest path' -> path' = path.
Proof. exact C126_ucs_exact_proof. Qed.
Print Assumptions C126_ucs_exact.

(** C126: every move of a path that A* returns (without diagonals) comes from a
    position of which the estimate (distance from the origin plus Manhattan
    distance to the destination) is the lowest among those from which the next
    position can be entered with an estimate below the distance of the
    destination. *)
Theorem C126_astar_moves : forall b P W go orig dest path l1 d l2 p,
  usable b P W -> valid P orig -> valid P dest -> go_inside P go -> one_step P go ->
  returns (fun fuel => astar_on b P false fuel go orig dest) (Ok path) ->
  path = l1 ++ d :: l2 -> follow go orig l1 = Some p ->
  let left q := Z.abs (fst q - fst dest) + Z.abs (snd q - snd dest) in
  exists n m q, at_distance false go orig n dest /\ at_distance false go orig m p /\ go p d = Some q /\
    Z.of_nat m + 1 + left q <= Z.of_nat n /\
    forall p' d' m', at_distance false go orig m' p' -> allowed false d' -> go p' d' = Some q ->
      Z.of_nat m' + 1 + left q < Z.of_nat n -> Z.of_nat m + left p <= Z.of_nat m' + left p'.
Proof. exact C126_astar_moves_proof. Qed.
Print Assumptions C126_astar_moves.

Example C126_example :
  let go := octile (Pos 5 5) (fun q => pos_eqb q (2, 1) || pos_eqb q (3, 1)) in
  ucs_on OnGrid (Pos 5 5) true 100 go (3, 0) (0, 5) = Ret (Ok [dSE; dSW; dSW; dSW; dSW]) /\
  follow_cost go (3, 0) [dSE; dSW; dSW] = Some ((2, 3), 42) /\ go (2, 3) dSW = Some ((1, 4), 14) /\
  follow_cost go (3, 0) [dW; dSW; dS; dS] = Some ((1, 3), 44) /\ go (1, 3) dS = Some ((1, 4), 10) /\
  follow_cost go (3, 0) [dW; dSW; dS; dS; dS; dSW] = Some ((0, 5), 68) /\
  ahead (42 + 14, (1, 4)) (68, (0, 5)) /\ ahead (42, (2, 3)) (44, (1, 3)).
Proof.
  vm_compute. split; [reflexivity |]. split; [reflexivity |]. split; [reflexivity |]. split; [reflexivity |]. split; [reflexivity |]. split; [reflexivity |].
  split; left; reflexivity.
Qed.
