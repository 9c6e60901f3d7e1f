(** PropReplan.v -- paths that stay the same when planned again: C133, C134. *)

From Coq Require Import ZArith List Bool Lia Sorted.
From Verif Require Import Rust BoundedInt Dir PosT Pos Grid Gridbool SetMap CameFrom Bf Heap Astar Ucs Spec SpecSearch SpecSettle SpecMaze Lib Deque BoundedIntProofs PosTProofs PosTProofs2 PropDirProofs SetMapProofs Sim CameFromProofs PropSetMapProofs BfProofs PropBfProofs PropFirstProofs BestFirst UcsProofs PropUcsProofs AstarProofs PropAstarProofs PropAgreeProofs PropPathProofs PropSettleProofs SpecFirst SpecReplan.
From Verif Require Import PropReplanProofs.
Import ListNotations.
Open Scope Z_scope.

(** * Breadth-first search *)

(** C133: exactly which path [bfs_path] returns: the first of the shortest walks to
    goals other than the origin, if it is not longer than the limit of width*width
    moves. *)
Theorem C133_bfs_path_exact : forall b P D W go orig found dest path,
  usable b P W -> valid P orig -> go_inside P go -> one_step P go ->
  (returns (fun fuel => bfs_on b P D W fuel go orig found) (Ok (dest, path)) <->
   first_shortest D go orig found dest path /\ Z.of_nat (length path) <= cols P * cols P) /\
  forall dest' path', first_shortest D go orig found dest path -> first_shortest D go orig found dest' path' -> dest' = dest /\ path' = path.
Proof. exact C133_bfs_path_exact_proof. Qed.
Print Assumptions C133_bfs_path_exact.

Example C133_example_exact :
  let go := pos_dir_add_ok (Pos 2 2) in
  bfs_on OnHash (Pos 2 2) false 0 30 go (2, 0) (fun p => pos_eqb p (1, 2)) = Ret (Ok ((1, 2), [dS; dS; dW])) /\
  first_shortest true go (2, 0) (fun p => fst p =? 1) (1, 1) [dSW] /\ bfs_on OnGrid (Pos 2 2) true 1 30 go (2, 0) (fun p => fst p =? 1) = Ret (Ok ((1, 1), [dSW])).
Proof.
  cbn zeta. split; [vm_compute; reflexivity |]. split; [|vm_compute; reflexivity].
  split; [repeat constructor |]. split; [reflexivity |]. split; [discriminate |]. split; [reflexivity |].
  intros q [|d [|e l]] Nq Fq A F; cbn in F; [congruence | | left; cbn; lia].
  right. split; [reflexivity |]. destruct d; vm_compute in F; inversion F; subst; cbn in *; try discriminate; intuition lia.
Qed.

(** C133: planning again on the way, at any position [p] of the path, gives the rest
    of the path. *)
Theorem C133_bfs_rest : forall b P D W go orig found dest path l1 l2 p,
  usable b P W -> valid P orig -> go_inside P go -> one_step P go -> found orig = false ->
  returns (fun fuel => bfs_on b P D W fuel go orig found) (Ok (dest, path)) ->
  path = l1 ++ l2 -> l2 <> [] -> follow go orig l1 = Some p ->
  returns (fun fuel => bfs_on b P D W fuel go p found) (Ok (dest, l2)).
Proof. exact C133_bfs_rest_proof. Qed.
Print Assumptions C133_bfs_rest.

(** C133: so asking again before every move makes no difference. *)
Theorem C133_bfs_replanned : forall b P D W go orig found dest path w,
  usable b P W -> valid P orig -> go_inside P go -> one_step P go -> found orig = false ->
  returns (fun fuel => bfs_on b P D W fuel go orig found) (Ok (dest, path)) ->
  (replanned (fun p l => exists d, returns (fun fuel => bfs_on b P D W fuel go p found) (Ok (d, l))) go dest orig w <-> w = path).
Proof. exact C133_bfs_replanned_proof. Qed.
Print Assumptions C133_bfs_replanned.

Example C133_example :
  let go := pos_dir_add_ok (Pos 2 2) in
  let found p := pos_eqb p (1, 2) in
  bfs_on OnGrid (Pos 2 2) false 1 30 go (2, 0) found = Ret (Ok ((1, 2), [dS; dS; dW])) /\
  bfs_on OnGrid (Pos 2 2) false 1 30 go (2, 1) found = Ret (Ok ((1, 2), [dS; dW])) /\
  bfs_on OnGrid (Pos 2 2) false 1 30 go (2, 2) found = Ret (Ok ((1, 2), [dW])) /\
  bfs_on OnGrid (Pos 2 2) false 1 30 go (2, 0) (fun p => pos_eqb p (2, 2)) = Ret (Ok ((2, 2), [dS; dS])).
Proof. vm_compute. auto. Qed.

(** C133: searching for a position of the path gives the path up to there. *)
Theorem C133_bfs_part : forall b P D W go orig found dest path l1 l2 q,
  usable b P W -> valid P orig -> go_inside P go -> one_step P go ->
  returns (fun fuel => bfs_on b P D W fuel go orig found) (Ok (dest, path)) ->
  path = l1 ++ l2 -> l1 <> [] -> follow go orig l1 = Some q ->
  returns (fun fuel => bfs_on b P D W fuel go orig (fun r => pos_eqb r q)) (Ok (q, l1)).
Proof. exact C133_bfs_part_proof. Qed.
Print Assumptions C133_bfs_part.

(** C133: taking away moves that the path does not use, and goals that it does not
    reach, does not change the path. *)
Theorem C133_bfs_unused : forall b P D W go go' orig found found' dest path,
  usable b P W -> valid P orig -> go_inside P go -> one_step P go ->
  returns (fun fuel => bfs_on b P D W fuel go orig found) (Ok (dest, path)) ->
  (forall p d q, go' p d = Some q -> go p d = Some q) -> (forall p, found' p = true -> found p = true) ->
  follow go' orig path = Some dest -> found' dest = true ->
  returns (fun fuel => bfs_on b P D W fuel go' orig found') (Ok (dest, path)).
Proof. exact C133_bfs_unused_proof. Qed.
Print Assumptions C133_bfs_unused.

Example C133_example_unused :
  let go := pos_dir_add_ok (Pos 2 2) in
  let go' p d := match go p d with Some q => if pos_eqb q (1, 1) then None else Some q | None => None end in
  bfs_on OnBTree (Pos 2 2) false 0 30 go (2, 0) (fun p => snd p =? 2) = Ret (Ok ((2, 2), [dS; dS])) /\
  follow go' (2, 0) [dS; dS] = Some (2, 2) /\ go' (2, 1) dW = None /\ go (2, 1) dW = Some (1, 1) /\
  bfs_on OnBTree (Pos 2 2) false 0 30 go' (2, 0) (fun p => pos_eqb p (2, 2)) = Ret (Ok ((2, 2), [dS; dS])).
Proof. vm_compute. auto 10. Qed.

(** * Uniform-cost search *)

(** C134: if the path that [ucs_path] returns has the lowest cost, planning again at
    any position [p] of it gives the rest of it.  Missing: paths that do not have
    the lowest cost, for which this is false. *)
Theorem C134_ucs_rest_partial : forall b P D W go orig dest path l1 l2 p c,
  usable b P W -> valid P orig -> valid P dest -> go_inside P (move_of go) -> one_step P (move_of go) ->
  affordable D P go orig -> affordable D P go p -> (forall p d q w, valid P p -> go p d = Some (q, w) -> 0 < w) ->
  returns (fun fuel => ucs_on b P D fuel go orig dest) (Ok path) ->
  follow_cost go orig path = Some (dest, c) -> lowest_cost D go orig c dest ->
  path = l1 ++ l2 -> follow (move_of go) orig l1 = Some p ->
  returns (fun fuel => ucs_on b P D fuel go p dest) (Ok l2).
Proof. exact C134_ucs_rest_partial_proof. Qed.
Print Assumptions C134_ucs_rest_partial.

(** C134: so asking again before every move makes no difference to it. *)
Theorem C134_ucs_replanned_partial : forall b P D W go orig dest path c w,
  usable b P W -> valid P orig -> valid P dest -> go_inside P (move_of go) -> one_step P (move_of go) ->
  (forall p, valid P p -> affordable D P go p) -> (forall p d q w, valid P p -> go p d = Some (q, w) -> 0 < w) ->
  returns (fun fuel => ucs_on b P D fuel go orig dest) (Ok path) ->
  follow_cost go orig path = Some (dest, c) -> lowest_cost D go orig c dest ->
  (replanned (fun p l => returns (fun fuel => ucs_on b P D fuel go p dest) (Ok l)) (move_of go) dest orig w <-> w = path).
Proof. exact C134_ucs_replanned_partial_proof. Qed.
Print Assumptions C134_ucs_replanned_partial.

(** C134: in particular when the cost of a move depends only on the position entered. *)
Theorem C134_ucs_entering_partial : forall b P D W go orig dest path w,
  usable b P W -> valid P orig -> valid P dest -> go_inside P (move_of go) -> one_step P (move_of go) ->
  (forall p, valid P p -> affordable D P go p) -> (forall p d q w, valid P p -> go p d = Some (q, w) -> 0 < w) -> cost_of_entering D P go ->
  returns (fun fuel => ucs_on b P D fuel go orig dest) (Ok path) ->
  (replanned (fun p l => returns (fun fuel => ucs_on b P D fuel go p dest) (Ok l)) (move_of go) dest orig w <-> w = path).
Proof. exact C134_ucs_entering_partial_proof. Qed.
Print Assumptions C134_ucs_entering_partial.

Example C134_example_ucs :
  let go p d := match pos_dir_add_ok (Pos 3 2) p d with Some q => Some (q, if fst q =? 1 then 10 - 4 * snd q else 1) | None => None end in
  ucs_on OnGrid (Pos 3 2) false 60 go (0, 0) (2, 0) = Ret (Ok [dS; dS; dE; dE; dN; dN]) /\
  ucs_on OnGrid (Pos 3 2) false 60 go (0, 1) (2, 0) = Ret (Ok [dS; dE; dE; dN; dN]) /\
  ucs_on OnGrid (Pos 3 2) false 60 go (0, 2) (2, 0) = Ret (Ok [dE; dE; dN; dN]) /\
  ucs_on OnGrid (Pos 3 2) false 60 go (1, 2) (2, 0) = Ret (Ok [dE; dN; dN]).
Proof. vm_compute. auto. Qed.

(** C134 is false in general: with a cost of 1 to 5 for each move, it happens that
    planning again before every move leads back and forth for ever. *)
Theorem C134_ucs_refuted : exists b P D W go orig dest path,
  usable b P W /\ rows P <= cols P /\ valid P orig /\ valid P dest /\ go_inside P (move_of go) /\ one_step P (move_of go) /\
  (forall p d q w, valid P p -> go p d = Some (q, w) -> 1 <= w <= 5) /\
  returns (fun fuel => ucs_on b P D fuel go orig dest) (Ok path) /\
  forall w, ~ replanned (fun p l => returns (fun fuel => ucs_on b P D fuel go p dest) (Ok l)) (move_of go) dest orig w.
Proof. exact C134_ucs_refuted_proof. Qed.
Print Assumptions C134_ucs_refuted.

(** * A-star search *)

(** C134: also false for [astar_path], with and without diagonals: in some mazes
    planning again before every move leads back and forth for ever. *)
Theorem C134_astar_refuted : forall D, exists b P W go orig dest path,
  usable b P W /\ rows P <= cols P /\ valid P orig /\ valid P dest /\ go_inside P go /\ one_step P go /\
  returns (fun fuel => astar_on b P D fuel go orig dest) (Ok path) /\
  forall w, ~ replanned (fun p l => returns (fun fuel => astar_on b P D fuel go p dest) (Ok l)) go dest orig w.
Proof. exact C134_astar_refuted_proof. Qed.
Print Assumptions C134_astar_refuted.

(** C134: even where planning again arrives, it can be worse than keeping to the
    plan, without diagonals too. *)
Theorem C134_astar_longer_refuted : exists b P W go orig dest path w,
  usable b P W /\ rows P <= cols P /\ valid P orig /\ valid P dest /\ go_inside P go /\ one_step P go /\
  returns (fun fuel => astar_on b P false fuel go orig dest) (Ok path) /\
  replanned (fun p l => returns (fun fuel => astar_on b P false fuel go p dest) (Ok l)) go dest orig w /\
  (length path < length w)%nat.
Proof. exact C134_astar_longer_refuted_proof. Qed.
Print Assumptions C134_astar_longer_refuted.

(** The part that holds without diagonals: if some walk is as short as the Manhattan
    distance, planning again before every move leads to the destination on such a
    walk.  Missing: destinations that can only be reached by a detour. *)
Theorem C134_astar_replanned_partial : forall b P W go orig dest n,
  usable b P W -> rows P <= cols P -> valid P orig -> valid P dest -> go_inside P go -> one_step P go ->
  walk false go orig n dest -> Z.of_nat n = Z.abs (fst orig - fst dest) + Z.abs (snd orig - snd dest) ->
  (exists w, replanned (fun p l => returns (fun fuel => astar_on b P false fuel go p dest) (Ok l)) go dest orig w) /\
  forall w, replanned (fun p l => returns (fun fuel => astar_on b P false fuel go p dest) (Ok l)) go dest orig w ->
    length w = n /\ Forall (allowed false) w /\ follow go orig w = Some dest.
Proof. exact C134_astar_replanned_partial_proof. Qed.
Print Assumptions C134_astar_replanned_partial.

(** C134: with diagonals, if nothing is in the way, planning again makes no difference. *)
Theorem C134_astar_beeline_partial : forall b P W go orig dest path w,
  usable b P W -> valid P orig -> valid P dest -> go_inside P go -> one_step P go ->
  beeline go dest orig path -> Z.of_nat (length path) <= cols P * cols P ->
  (replanned (fun p l => returns (fun fuel => astar_on b P true fuel go p dest) (Ok l)) go dest orig w <-> w = path).
Proof. exact C134_astar_beeline_partial_proof. Qed.
Print Assumptions C134_astar_beeline_partial.

Example C134_example_astar :
  let go p d := match pos_dir_add_ok (Pos 4 4) p d with Some q => if (fst q =? 2) && negb (snd q =? 3) then None else Some q | None => None end in
  astar_on OnGrid (Pos 4 4) false 60 go (0, 1) (4, 4) = Ret (Ok [dE; dS; dS; dE; dE; dE; dS]) /\
  Z.of_nat 7 = Z.abs (0 - 4) + Z.abs (1 - 4) /\
  astar_on OnGrid (Pos 4 4) true 60 go (0, 1) (4, 3) = Ret (Ok [dSE; dSE; dE; dE]) /\
  astar_on OnGrid (Pos 4 4) true 60 go (1, 2) (4, 3) = Ret (Ok [dSE; dE; dE]).
Proof. vm_compute. auto. Qed.
