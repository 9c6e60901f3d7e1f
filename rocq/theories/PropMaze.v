(** PropMaze.v -- programs that combine the parts: mazes in Gridbools, flood fill,
    distance maps. *)

From Coq Require Import ZArith List Bool Lia.
From Verif Require Import Rust BoundedInt Dir PosT Pos Grid Gridbool SetMap CameFrom Bf Heap Astar Ucs Spec SpecSearch SpecMaze Lib Deque BoundedIntProofs PosTProofs PosTProofs2 PropDirProofs PropPosProofs GridProofs GridProofs2 PropGridProofs GridboolProofs PropGridboolProofs SetMapProofs Sim CameFromProofs PropSetMapProofs BfProofs PropBfProofs.
From Verif Require Import PropMazeProofs.
Import ListNotations.
Open Scope Z_scope.

(** C114: searching a maze whose walls are in a Gridbool.  [bfs_path] finds a path
    exactly if there is a route around the walls; the places it visits are a route;
    there is none with fewer places.  (Err(Loop) is the tall-grid fault of C49.) *)
Theorem C114_maze_bfs : forall b P D W walls orig dest,
  usable b P W -> roomy P walls -> valid P orig -> dest <> orig ->
  exists r, returns (fun fuel => bfs_on b P D W fuel (maze_go P walls) orig (fun p => pos_eqb p dest)) r /\
    (r = Err DestinationUnreachable <-> ~ exists l, route D P walls orig l dest) /\
    (forall q path, r = Ok (q, path) -> q = dest /\ route D P walls orig (places orig path) dest /\
       forall l, route D P walls orig l dest -> (length path <= length l)%nat) /\
    (r = Err Loop <-> (exists l, route D P walls orig l dest) /\ forall l, route D P walls orig l dest -> cols P * cols P < Z.of_nat (length l)) /\
    ((exists l, route D P walls orig l dest /\ Z.of_nat (length l) <= cols P * cols P) -> exists path, r = Ok (dest, path)).
Proof. exact C114_maze_bfs_proof. Qed.
Print Assumptions C114_maze_bfs.

Example C114_example : exists walls, gb_from_positions (Pos 3 2) 1 [(1, 0); (1, 1); (3, 1)] = Ret walls /\ roomy (Pos 3 2) walls /\
  bfs_on OnGrid (Pos 3 2) false 1 30 (maze_go (Pos 3 2) walls) (0, 0) (fun p => pos_eqb p (3, 0)) = Ret (Ok ((3, 0), [dS; dS; dE; dE; dN; dN; dE])) /\
  places (0, 0) [dS; dS; dE; dE; dN; dN; dE] = [(0, 1); (0, 2); (1, 2); (2, 2); (2, 1); (2, 0); (3, 0)] /\
  bfs_on OnGrid (Pos 3 2) false 1 30 (maze_go (Pos 3 2) walls) (0, 0) (fun p => pos_eqb p (1, 1)) = Ret (Err DestinationUnreachable).
Proof.
  exists [1157627904]. split; [vm_compute; reflexivity |]. split; [split; [constructor; [lia | constructor] | vm_compute; discriminate] |].
  vm_compute. auto.
Qed.

(** C115: flood fill.  Collecting the positions of all the vectors that [bf_iter]
    yields into a Gridbool marks exactly the places other than the origin that have a
    route from it. *)
Theorem C115_flood_fill : forall b X Y D W WORDS walls orig, u16_dims X Y -> in_ity usize WORDS = true ->
  let P := Pos X Y in
  usable b P W -> cells P <= 32 * WORDS <= cells P + 32 -> roomy P walls -> valid P orig ->
  exists vectors filled,
    (forall n, bf_yields b P D W (maze_go P walls) orig n = Ret (items_then_none vectors n)) /\
    gb_from_positions P WORDS (map fst (concat vectors)) = Ret filled /\ roomy P filled /\
    forall p, valid P p ->
      (gb_get P filled p = Ret true <-> p <> orig /\ exists l, route D P walls orig l p) /\
      (gb_get P filled p = Ret false <-> ~ (p <> orig /\ exists l, route D P walls orig l p)).
Proof. exact C115_flood_fill_proof. Qed.
Print Assumptions C115_flood_fill.

Example C115_example : let walls := [1157627904] in let P := Pos 3 2 in
  gb_iter_t P walls = Ret [(1, 0); (1, 1); (3, 1)] /\
  exists vectors filled, bf_yields OnHash P false 0 (maze_go P walls) (2, 1) 6 = Ret (map Some vectors ++ [None]) /\
    gb_from_positions P 1 (map fst (concat vectors)) = Ret filled /\
    gb_iter_f P filled = Ret [(1, 0); (1, 1); (2, 1); (3, 1)].
Proof.
  split; [vm_compute; reflexivity |].
  exists [[((2, 0), dS); ((2, 2), dN)]; [((3, 0), dW); ((3, 2), dW); ((1, 2), dE)]; [((0, 2), dE)]; [((0, 1), dS)]; [((0, 0), dS)]], [3102736384].
  vm_compute. auto.
Qed.

(** C116: distance map.  Numbering the vectors that [bf_iter] yields and storing the
    numbers in a grid (with [extend]) gives, at each place with a route from the
    origin, the length of the shortest one; elsewhere the grid keeps its value. *)
Theorem C116_distance_map : forall b P D W walls orig (g : list Z),
  usable b P W -> roomy P walls -> valid P orig -> proper P g ->
  exists vectors g',
    (forall n, bf_yields b P D W (maze_go P walls) orig n = Ret (items_then_none vectors n)) /\
    grid_extend P g (numbered 0 vectors) = Ret g' /\ proper P g' /\
    forall p, valid P p ->
      (forall l, p <> orig -> route D P walls orig l p -> (forall l', route D P walls orig l' p -> (length l <= length l')%nat) ->
         grid_get P g' p = Ret (Z.of_nat (length l))) /\
      (p = orig \/ (forall l, ~ route D P walls orig l p) -> grid_get P g' p = grid_get P g p).
Proof. exact C116_distance_map_proof. Qed.
Print Assumptions C116_distance_map.

Example C116_example : let walls := [1157627904] in let P := Pos 3 2 in
  exists vectors, bf_yields OnHash P false 0 (maze_go P walls) (2, 1) 6 = Ret (map Some vectors ++ [None]) /\
    grid_extend P (repeat (-1) 12) (numbered 0 vectors) = Ret [5; -1; 1; 2;  4; -1; -1; -1;  3; 2; 1; 2].
Proof.
  exists [[((2, 0), dS); ((2, 2), dN)]; [((3, 0), dW); ((3, 2), dW); ((1, 2), dE)]; [((0, 2), dE)]; [((0, 1), dS)]; [((0, 0), dS)]].
  vm_compute. auto.
Qed.

(** C117: reversing the inner array of a Grid ([as_mut().reverse()], as in the README)
    turns it half round: the same as flipping it both ways. *)
Theorem C117_grid_reverse : forall (T : Type) P (g : list T), grid_type P -> proper P g ->
  proper P (rev g) /\
  (forall x y, valid P (x, y) -> grid_get P (rev g) (XM P - x, YM P - y) = grid_get P g (x, y)) /\
  bind (grid_flip_h P g) (fun h => grid_flip_v P h) = Ret (rev g) /\
  bind (grid_flip_v P g) (fun h => grid_flip_h P h) = Ret (rev g).
Proof. exact C117_grid_reverse_proof. Qed.
Print Assumptions C117_grid_reverse.

Example C117_example : proper (Pos 2 1) [1; 2; 3; 4; 5; 6] /\ grid_type (Pos 2 1) /\
  bind (grid_flip_h (Pos 2 1) [1; 2; 3; 4; 5; 6]) (fun h => grid_flip_v (Pos 2 1) h) = Ret [6; 5; 4; 3; 2; 1].
Proof. split; [reflexivity |]. split; [apply Pos_grid_type; unfold u16_dims; lia | vm_compute; reflexivity]. Qed.
