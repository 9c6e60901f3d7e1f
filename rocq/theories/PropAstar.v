(** PropAstar.v -- properties of A* search: C54-C56, C75-C77, C86. *)

From Coq Require Import ZArith List Bool Lia.
From Verif Require Import Rust BoundedInt Dir PosT Pos Grid Gridbool SetMap CameFrom Heap Astar Ucs Spec SpecSearch Lib Deque BoundedIntProofs PosTProofs PosTProofs2 PropDirProofs SetMapProofs Sim CameFromProofs PropSetMapProofs BfProofs PropBfProofs BestFirst SearchProofs UcsProofs PropUcsProofs AstarProofs BeelineProofs.
From Verif Require Import PropAstarProofs.
Import ListNotations.
Open Scope Z_scope.

(** C75: what A* search returns, exactly but for the choice of the path. *)
Theorem C75_astar_exact : forall b P D W go orig dest,
  usable b P W -> valid P orig -> valid P dest -> go_inside P go -> one_step P go ->
  exists r, returns (fun fuel => astar_on b P D fuel go orig dest) r /\
    (r = Err DestinationUnreachable <-> ~ reachable D go orig dest) /\
    (r = Err DestinationUnreachable \/ (r = Err Loop /\ (D = false -> cols P < rows P)) \/
     exists path, r = Ok path /\ Forall (allowed D) path /\ follow go orig path = Some dest /\
       Z.of_nat (length path) <= cols P * cols P) /\
    (orig = dest -> r = Ok []) /\
    (r = Err Loop -> D = false -> forall rs, (forall p, reachable D go orig p -> In p rs) -> cols P * cols P < Z.of_nat (length rs)).
Proof. exact C75_astar_exact_proof. Qed.
Print Assumptions C75_astar_exact.

Example C75_example :
  let go p d := match pos_dir_add_ok (Pos 4 4) p d with Some q => if (fst q =? 2) && negb (snd q =? 4) then None else Some q | None => None end in
  astar_on OnGrid (Pos 4 4) false 60 go (1, 3) (3, 2) = Ret (Ok [dS; dE; dE; dN; dN]) /\
  astar_on OnGrid (Pos 4 4) true 60 go (1, 3) (3, 2) = Ret (Ok [dSE; dNE; dN]) /\
  astar_on OnGrid (Pos 4 4) true 60 (fun p d => if fst p =? 2 then None else go p d) (1, 3) (3, 2) = Ret (Err DestinationUnreachable) /\
  astar_on OnHash (Pos 1 8) false 60 (pos_dir_add_ok (Pos 1 8)) (0, 0) (1, 4) = Ret (Err Loop).
Proof. vm_compute. auto. Qed.

(** C54: a returned path is a real path. *)
Theorem C54_astar_valid : forall b P D W go orig dest fuel path,
  usable b P W -> valid P orig -> valid P dest -> go_inside P go -> one_step P go ->
  astar_on b P D fuel go orig dest = Ret (Ok path) ->
  Forall (allowed D) path /\ follow go orig path = Some dest.
Proof. exact C54_astar_valid_proof. Qed.
Print Assumptions C54_astar_valid.

Example C54_example :
  let go p d := match pos_dir_add_ok (Pos 4 4) p d with Some q => if (fst q =? 2) && negb (snd q =? 4) then None else Some q | None => None end in
  astar_on OnBTree (Pos 4 4) true 60 go (0, 0) (4, 0) = Ret (Ok [dSE; dS; dS; dSE; dNE; dNE; dN; dN]) /\
  follow go (0, 0) [dSE; dS; dS; dSE; dNE; dNE; dN; dN] = Some (4, 0).
Proof. vm_compute. auto. Qed.

(** C56 is false on grids with more rows than columns. *)
Theorem C56_astar_tall_grid_refuted : exists b P W go orig dest,
  usable b P W /\ valid P orig /\ valid P dest /\ go_inside P go /\ one_step P go /\
  reachable false go orig dest /\ returns (fun fuel => astar_on b P false fuel go orig dest) (Err Loop).
Proof. exact C56_astar_tall_grid_refuted_proof. Qed.
Print Assumptions C56_astar_tall_grid_refuted.

(** With diagonals, it is also false on grids with more columns than rows: the
    recorded directions can form a cycle. *)
Theorem C56_astar_diagonals_refuted : exists b P W go orig dest,
  usable b P W /\ rows P <= cols P /\ valid P orig /\ valid P dest /\ go_inside P go /\ one_step P go /\
  reachable true go orig dest /\ returns (fun fuel => astar_on b P true fuel go orig dest) (Err Loop).
Proof. exact C56_astar_diagonals_refuted_proof. Qed.
Print Assumptions C56_astar_diagonals_refuted.

(** The part that holds: without diagonals, on grids with at least as many columns
    as rows.  Missing: the cases above; C75 is the statement for all grids. *)
Theorem C56_astar_complete_partial : forall b P W go orig dest,
  usable b P W -> rows P <= cols P -> valid P orig -> valid P dest -> go_inside P go -> one_step P go ->
  exists r, returns (fun fuel => astar_on b P false fuel go orig dest) r /\
    (r = Err DestinationUnreachable <-> ~ reachable false go orig dest) /\
    (r <> Err DestinationUnreachable -> exists path, r = Ok path).
Proof. exact C56_astar_complete_partial_proof. Qed.
Print Assumptions C56_astar_complete_partial.

Example C56_example :
  let go p d := match pos_dir_add_ok (Pos 4 2) p d with Some q => if fst q =? 2 then None else Some q | None => None end in
  astar_on OnHash (Pos 4 2) false 60 go (0, 0) (3, 0) = Ret (Err DestinationUnreachable) /\
  astar_on OnHash (Pos 4 2) false 60 go (0, 0) (1, 2) = Ret (Ok [dE; dS; dS]).
Proof. vm_compute. auto. Qed.

(** C55 is false without diagonals: an entry left behind in the queue by a longer
    way overwrites the direction recorded for a position. *)
Theorem C55_astar_shortest_refuted : exists b P W go orig dest path n,
  usable b P W /\ valid P orig /\ valid P dest /\ go_inside P go /\ one_step P go /\
  returns (fun fuel => astar_on b P false fuel go orig dest) (Ok path) /\
  walk false go orig n dest /\ (n < length path)%nat.
Proof. exact C55_astar_shortest_refuted_proof. Qed.
Print Assumptions C55_astar_shortest_refuted.

(** It is also false with diagonals, where the Manhattan distance overestimates. *)
Theorem C55_astar_diagonals_refuted : exists b P W go orig dest path n,
  usable b P W /\ rows P <= cols P /\ valid P orig /\ valid P dest /\ go_inside P go /\ one_step P go /\
  returns (fun fuel => astar_on b P true fuel go orig dest) (Ok path) /\
  walk true go orig n dest /\ (n < length path)%nat.
Proof. exact C55_astar_diagonals_refuted_proof. Qed.
Print Assumptions C55_astar_diagonals_refuted.

(** The part that holds without diagonals: if some walk is as short as the
    Manhattan distance, the path returned is that short.  Missing: destinations
    that can only be reached by a detour, for which the claim is false in general. *)
Theorem C55_astar_shortest_partial : forall b P W go orig dest path n,
  usable b P W -> valid P orig -> valid P dest -> go_inside P go -> one_step P go ->
  returns (fun fuel => astar_on b P false fuel go orig dest) (Ok path) ->
  walk false go orig n dest -> Z.of_nat n = Z.abs (fst orig - fst dest) + Z.abs (snd orig - snd dest) ->
  length path = n.
Proof. exact C55_astar_shortest_partial_proof. Qed.
Print Assumptions C55_astar_shortest_partial.

Example C55_example :
  let go p d := match pos_dir_add_ok (Pos 4 4) p d with Some q => if (fst q =? 2) && negb (snd q =? 3) then None else Some q | None => None end in
  astar_on OnGrid (Pos 4 4) false 60 go (0, 1) (4, 4) = Ret (Ok [dE; dS; dS; dE; dE; dE; dS]) /\
  Z.of_nat 7 = Z.abs (0 - 4) + Z.abs (1 - 4).
Proof. vm_compute. auto. Qed.

(** C76: with diagonals, if the line that heads straight for the destination
    (diagonally first) is open, it is returned, and nothing is shorter. *)
Theorem C76_astar_beeline : forall b P W go orig dest path,
  usable b P W -> valid P orig -> valid P dest -> go_inside P go -> one_step P go ->
  beeline go dest orig path ->
  returns (fun fuel => astar_on b P true fuel go orig dest)
    (if Z.of_nat (length path) <=? cols P * cols P then Ok path else Err Loop) /\
  at_distance true go orig (length path) dest.
Proof. exact C76_astar_beeline_proof. Qed.
Print Assumptions C76_astar_beeline.

Example C76_example :
  let go p d := match pos_dir_add_ok (Pos 4 4) p d with Some q => if (fst q =? 2) && negb (snd q =? 3) then None else Some q | None => None end in
  beeline go (4, 3) (0, 1) [dSE; dSE; dE; dE] /\
  astar_on OnGrid (Pos 4 4) true 60 go (0, 1) (4, 3) = Ret (Ok [dSE; dSE; dE; dE]).
Proof. vm_compute. repeat split; congruence. Qed.

(** C77: the iterator yields exactly the reachable positions, recording the cost
    of some walk for each; without diagonals, that of a shortest one, as soon as
    the position is yielded, and in the order of the length of the shortest walk
    plus the Manhattan distance to the destination. *)
Theorem C77_astar_iterator : forall b P D W go orig dest,
  usable b P W -> valid P orig -> valid P dest -> go_inside P go -> one_step P go ->
  exists items : list (pos * dir),
    (forall n, astar_yields b P D go orig dest n = Ret (items_then_none items n)) /\
    (forall p, In p (map fst items) <-> reachable D go orig p) /\
    (forall n p d, nth_error items n = Some (p, d) ->
       exists k, walk D go orig k p /\ astar_records b P D go orig dest (S n) p = Ret (Z.of_nat k) /\
         (D = false -> at_distance D go orig k p)) /\
    (forall i j p d q e k k', D = false -> (i < j)%nat -> nth_error items i = Some (p, d) -> nth_error items j = Some (q, e) ->
       ~ In q (map fst (firstn j items)) -> at_distance D go orig k p -> at_distance D go orig k' q ->
       Z.of_nat k + (Z.abs (fst p - fst dest) + Z.abs (snd p - snd dest)) <=
       Z.of_nat k' + (Z.abs (fst q - fst dest) + Z.abs (snd q - snd dest))).
Proof. exact C77_astar_iterator_proof. Qed.
Print Assumptions C77_astar_iterator.

Example C77_example :
  let go p d := match pos_dir_add_ok (Pos 2 1) p d with Some q => if pos_eqb q (1, 0) then None else Some q | None => None end in
  astar_yields OnGrid (Pos 2 1) false go (0, 0) (2, 0) 7 =
    Ret [Some ((0, 0), dN); Some ((0, 1), dN); Some ((1, 1), dW); Some ((2, 1), dW); Some ((2, 0), dS); None; None] /\
  astar_records OnGrid (Pos 2 1) false go (0, 0) (2, 0) 5 (2, 0) = Ret 4.
Proof. vm_compute. auto. Qed.

(** C86: the same for A* without diagonals: the first yields form a tree of
    shortest walks. *)
Theorem C86_astar_first_yields : forall b P W go orig dest n l p d,
  usable b P W -> valid P orig -> valid P dest -> go_inside P go -> one_step P go ->
  astar_yields b P false go orig dest n = Ret (map Some l ++ [Some (p, d)]) -> ~ In p (map fst l) ->
  p = orig \/
  exists k, In (step p d) (map fst l) /\ (exists e, allowed false e /\ go (step p d) e = Some p /\ heading d = (heading e + 4) mod 8) /\
    at_distance false go orig k (step p d) /\ at_distance false go orig (S k) p.
Proof. exact C86_astar_first_yields_proof. Qed.
Print Assumptions C86_astar_first_yields.

Example C86_example :
  let go p d := match pos_dir_add_ok (Pos 2 1) p d with Some q => if pos_eqb q (1, 0) then None else Some q | None => None end in
  astar_yields OnGrid (Pos 2 1) false go (0, 0) (2, 0) 4 = Ret (map Some [((0, 0), dN); ((0, 1), dN); ((1, 1), dW)] ++ [Some ((2, 1), dW)]) /\
  ~ In (2, 1) (map fst [((0, 0), dN); ((0, 1), dN); ((1, 1), dW)]).
Proof. vm_compute. intuition congruence. Qed.
