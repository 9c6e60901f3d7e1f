(** PropStray.v -- how far A* strays when diagonal moves are allowed. *)

From Coq Require Import ZArith List Bool Lia.
From Verif Require Import Rust BoundedInt Dir PosT Pos Grid Gridbool SetMap CameFrom Bf Heap Astar Ucs Spec SpecSearch SpecMaze Lib Deque BoundedIntProofs PosTProofs PosTProofs2 PropDirProofs PropPosProofs GridProofs GridProofs2 PropGridProofs GridboolProofs PropGridboolProofs SetMapProofs Sim CameFromProofs PropSetMapProofs BfProofs PropBfProofs BestFirst SearchProofs UcsProofs PropUcsProofs AstarProofs PropAstarProofs PropAgreeProofs PropMazeProofs PropPathProofs.
From Verif Require Import PropStrayProofs.
Import ListNotations.
Open Scope Z_scope.

(** C125: with diagonals, every position that the A* iterator yields until it
    yields the destination is one for which the length of the shortest walk to it
    plus its Manhattan distance to the destination is less than twice the length of
    the shortest walk to the destination. *)
Theorem C125_astar_diagonal_yields : forall b P W go orig dest n l p d k m,
  usable b P W -> valid P orig -> valid P dest -> go_inside P go -> one_step P go ->
  astar_yields b P true go orig dest n = Ret (map Some l ++ [Some (p, d)]) -> ~ In dest (map fst l) -> p <> orig ->
  at_distance true go orig k dest -> at_distance true go orig m p ->
  Z.of_nat m + (Z.abs (fst p - fst dest) + Z.abs (snd p - snd dest)) < 2 * Z.of_nat k.
Proof. exact C125_astar_diagonal_yields_proof. Qed.
Print Assumptions C125_astar_diagonal_yields.

(** C125: with diagonals, a path that A* returns stays on these positions, and it
    is not longer than the number of them. *)
Theorem C125_astar_diagonal_detour : forall b P W go orig dest path,
  usable b P W -> valid P orig -> valid P dest -> go_inside P go -> one_step P go ->
  returns (fun fuel => astar_on b P true fuel go orig dest) (Ok path) ->
  exists k, at_distance true go orig k dest /\
    (forall p, In p (places orig path) -> exists m, at_distance true go orig m p /\
       Z.of_nat m + (Z.abs (fst p - fst dest) + Z.abs (snd p - snd dest)) < 2 * Z.of_nat k) /\
    (forall ps, (forall p m, at_distance true go orig m p ->
         Z.of_nat m + (Z.abs (fst p - fst dest) + Z.abs (snd p - snd dest)) < 2 * Z.of_nat k -> In p ps) ->
       (length path <= length ps)%nat).
Proof. exact C125_astar_diagonal_detour_proof. Qed.
Print Assumptions C125_astar_diagonal_detour.

Example C125_example :
  let go p d := match pos_dir_add_ok (Pos 3 2) p d with Some q => if pos_eqb q (2,1) then None else Some q | None => None end in
  astar_on OnGrid (Pos 3 2) true 100 go (3, 0) (0, 2) = Ret (Ok [dS; dSW; dW; dW]) /\
  follow go (3, 0) [dW; dSW; dSW] = Some (0, 2) /\
  map (fun p => Z.abs (fst p - 0) + Z.abs (snd p - 2)) (places (3, 0) [dS; dSW; dW; dW]) = [4; 2; 1; 0].
Proof. vm_compute. auto. Qed.
