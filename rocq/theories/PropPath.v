(** PropPath.v -- the shape of the paths returned by the searches. *)

From Coq Require Import ZArith List Bool Lia.
From Verif Require Import Rust BoundedInt Dir PosT Pos Grid Gridbool SetMap CameFrom Bf Heap Astar Ucs Spec SpecSearch SpecMaze Lib Deque BoundedIntProofs PosTProofs PosTProofs2 PropDirProofs PropPosProofs GridProofs GridProofs2 PropGridProofs GridboolProofs PropGridboolProofs SetMapProofs Sim CameFromProofs PropSetMapProofs BfProofs PropBfProofs BestFirst SearchProofs UcsProofs PropUcsProofs AstarProofs PropAstarProofs PropAgreeProofs PropMazeProofs.
From Verif Require Import PropPathProofs.
Import ListNotations.
Open Scope Z_scope.

(** * Simple paths *)

(** C118: path reconstruction, on any map and any position type, never returns a
    path that visits a position twice. *)
Theorem C118_camefrom_simple : forall M P (mo : mapops (option dir) M) m fuel orig dest path,
  post_wf P -> valid P dest -> camefrom_into_path P mo fuel m orig dest = Ret (Ok path) ->
  NoDup (orig :: places orig path) /\ last (places orig path) orig = dest.
Proof. exact C118_camefrom_simple_proof. Qed.
Print Assumptions C118_camefrom_simple.

Example C118_example :
  let go p d := match pos_dir_add_ok (Pos 3 5) p d with Some q => if existsb (pos_eqb q) [(2,1);(3,2);(1,5)] then None else Some q | None => None end in
  astar_on OnGrid (Pos 3 5) false 100 go (0, 4) (3, 1) = Ret (Ok [dE; dE; dN; dN; dW; dN; dN; dE; dE; dS]) /\
  places (0, 4) [dE; dE; dN; dN; dW; dN; dN; dE; dE; dS] = [(1, 4); (2, 4); (2, 3); (2, 2); (1, 2); (1, 1); (1, 0); (2, 0); (3, 0); (3, 1)].
Proof. vm_compute. auto. Qed.

(** So no search does, whatever the closure. *)
Theorem C118_ucs_simple : forall b P D fuel go orig dest path,
  post_wf P -> valid P dest -> ucs_on b P D fuel go orig dest = Ret (Ok path) ->
  NoDup (orig :: places orig path) /\ last (places orig path) orig = dest.
Proof. exact C118_ucs_simple_proof. Qed.
Print Assumptions C118_ucs_simple.

Theorem C118_astar_simple : forall b P D fuel go orig dest path,
  post_wf P -> valid P dest -> astar_on b P D fuel go orig dest = Ret (Ok path) ->
  NoDup (orig :: places orig path) /\ last (places orig path) orig = dest.
Proof. exact C118_astar_simple_proof. Qed.
Print Assumptions C118_astar_simple.

Theorem C118_bfs_simple : forall b P D W go orig found dest path,
  usable b P W -> valid P orig -> go_inside P go -> one_step P go ->
  returns (fun fuel => bfs_on b P D W fuel go orig found) (Ok (dest, path)) ->
  NoDup (orig :: places orig path) /\ last (places orig path) orig = dest.
Proof. exact C118_bfs_simple_proof. Qed.
Print Assumptions C118_bfs_simple.

(** * How far A* strays *)

(** C119: along a path that A* returns (without diagonals), the length of the
    shortest walk to a position plus its Manhattan distance to the destination
    never decreases. *)
Theorem C119_astar_estimates : forall b P W go orig dest path,
  usable b P W -> valid P orig -> valid P dest -> go_inside P go -> one_step P go ->
  returns (fun fuel => astar_on b P false fuel go orig dest) (Ok path) ->
  forall i j p q m n, (i <= j)%nat ->
    nth_error (orig :: places orig path) i = Some p -> nth_error (orig :: places orig path) j = Some q ->
    at_distance false go orig m p -> at_distance false go orig n q ->
    Z.of_nat m + (Z.abs (fst p - fst dest) + Z.abs (snd p - snd dest)) <= Z.of_nat n + (Z.abs (fst q - fst dest) + Z.abs (snd q - snd dest)).
Proof. exact C119_astar_estimates_proof. Qed.
Print Assumptions C119_astar_estimates.

(** So the path stays among the positions for which that sum is at most the length
    of the shortest walk to the destination; it is longer than the shortest walk by
    an even number, and shorter than the number of these positions. *)
Theorem C119_astar_detour : forall b P W go orig dest path,
  usable b P W -> valid P orig -> valid P dest -> go_inside P go -> one_step P go ->
  returns (fun fuel => astar_on b P false fuel go orig dest) (Ok path) ->
  exists n, at_distance false go orig n dest /\ (exists j, length path = (n + 2 * j)%nat) /\
    (forall p, In p (orig :: places orig path) -> exists m, at_distance false go orig m p /\
       Z.of_nat m + (Z.abs (fst p - fst dest) + Z.abs (snd p - snd dest)) <= Z.of_nat n) /\
    (forall ps, (forall p m, at_distance false go orig m p ->
         Z.of_nat m + (Z.abs (fst p - fst dest) + Z.abs (snd p - snd dest)) <= Z.of_nat n -> In p ps) ->
       (length path < length ps)%nat).
Proof. exact C119_astar_detour_proof. Qed.
Print Assumptions C119_astar_detour.

Example C119_example :
  let go p d := match pos_dir_add_ok (Pos 3 5) p d with Some q => if existsb (pos_eqb q) [(2,1);(3,2);(1,5)] then None else Some q | None => None end in
  astar_on OnGrid (Pos 3 5) false 100 go (0, 4) (3, 1) = Ret (Ok [dE; dE; dN; dN; dW; dN; dN; dE; dE; dS]) /\
  follow go (0, 4) [dN; dN; dN; dN; dE; dE; dE; dS] = Some (3, 1) /\
  map (fun p => Z.abs (fst p - 3) + Z.abs (snd p - 1)) ((0, 4) :: places (0, 4) [dE; dE; dN; dN; dW; dN; dN; dE; dE; dS])
    = [6; 5; 4; 3; 2; 3; 2; 3; 2; 1; 0].
Proof. vm_compute. auto. Qed.

(** * Mazes *)

(** C120: uniform-cost search, with moves that all cost the same, solves a maze
    kept in a Gridbool as breadth-first search does. *)
Theorem C120_maze_ucs : forall b P D W walls k orig dest,
  usable b P W -> roomy P walls -> valid P orig -> valid P dest -> 0 < k -> k * cells P <= 18446744073709551615 ->
  exists r, returns (fun fuel => ucs_on b P D fuel (priced k (maze_go P walls)) orig dest) r /\
    (r = Err DestinationUnreachable <-> ~ exists l, route D P walls orig l dest) /\
    (forall path, r = Ok path -> route D P walls orig (places orig path) dest /\
       forall l, route D P walls orig l dest -> (length path <= length l)%nat) /\
    (r = Err Loop <-> (exists l, route D P walls orig l dest) /\ forall l, route D P walls orig l dest -> cols P * cols P < Z.of_nat (length l)) /\
    ((exists l, route D P walls orig l dest /\ Z.of_nat (length l) <= cols P * cols P) -> exists path, r = Ok path).
Proof. exact C120_maze_ucs_proof. Qed.
Print Assumptions C120_maze_ucs.

(** A* without diagonals finds a way exactly if there is one (on grids with at least
    as many columns as rows), and it is a route that visits no place twice. *)
Theorem C120_maze_astar : forall b P W walls orig dest,
  usable b P W -> roomy P walls -> valid P orig -> valid P dest ->
  exists r, returns (fun fuel => astar_on b P false fuel (maze_go P walls) orig dest) r /\
    (r = Err DestinationUnreachable <-> ~ exists l, route false P walls orig l dest) /\
    (forall path, r = Ok path -> route false P walls orig (places orig path) dest /\ NoDup (orig :: places orig path)) /\
    (forall path l, r = Ok path -> route false P walls orig l dest ->
       Z.of_nat (length l) = Z.abs (fst orig - fst dest) + Z.abs (snd orig - snd dest) -> length path = length l) /\
    (rows P <= cols P -> (exists l, route false P walls orig l dest) -> exists path, r = Ok path).
Proof. exact C120_maze_astar_proof. Qed.
Print Assumptions C120_maze_astar.

Example C120_example : let walls := [1157627904] in let P := Pos 3 2 in
  gb_iter_t P walls = Ret [(1, 0); (1, 1); (3, 1)] /\
  ucs_on OnHash P false 60 (priced 3 (maze_go P walls)) (0, 0) (3, 0) = Ret (Ok [dS; dS; dE; dE; dN; dN; dE]) /\
  ucs_on OnHash P false 60 (priced 3 (maze_go P walls)) (0, 0) (1, 1) = Ret (Err DestinationUnreachable) /\
  astar_on OnGrid P false 60 (maze_go P walls) (0, 0) (3, 0) = Ret (Ok [dS; dS; dE; dE; dN; dN; dE]) /\
  astar_on OnGrid P false 60 (maze_go P walls) (0, 0) (3, 1) = Ret (Err DestinationUnreachable).
Proof. vm_compute. auto. Qed.
