(** PropBf.v -- properties of breadth-first iteration and search: C46-C49, C72,
    C73. *)

From Coq Require Import ZArith List Bool Lia.
From Verif Require Import Rust BoundedInt Dir PosT Pos Grid Gridbool SetMap CameFrom Bf Spec SpecSearch Lib Deque BoundedIntProofs PosTProofs PosTProofs2 PropDirProofs SetMapProofs Sim CameFromProofs PropSetMapProofs BfProofs.
From Verif Require Import PropBfProofs.
Import ListNotations.
Open Scope Z_scope.

(** C72: the exact contents of the vectors yielded by [bf_iter], for any movement
    function. *)
Theorem C72_bf_levels_exact : forall b P D W go orig,
  usable b P W -> valid P orig -> go_inside P go ->
  exists level : nat -> list (pos * dir),
    (forall n, bf_yields b P D W go orig n =
       Ret (map (fun k => match level k with [] => None | l => Some l end) (seq 1 n))) /\
    forall k, (1 <= k)%nat ->
      NoDup (map fst (level k)) /\
      (forall p, In p (map fst (level k)) <->
         at_distance D go orig k p \/ (k = 1%nat /\ p = orig /\ stays D go orig)) /\
      (forall p d, In (p, d) (level k) ->
         exists q e, at_distance D go orig (k - 1) q /\ allowed D e /\ go q e = Some p /\ heading d = (heading e + 4) mod 8).
Proof. exact C72_bf_levels_exact_proof. Qed.
Print Assumptions C72_bf_levels_exact.

Example C72_example :
  let clamp p d := match pos_dir_add_ok (Pos 2 1) p d with Some q => Some q | None => Some p end in
  stays false clamp (0, 0) /\
  bf_yields OnGrid (Pos 2 1) false 1 clamp (0, 0) 5 =
    Ret [Some [((0, 0), dS); ((1, 0), dW); ((0, 1), dN)]; Some [((2, 0), dW); ((1, 1), dN)]; Some [((2, 1), dN)]; None; None].
Proof. split; [exists dN; split; [right; left; reflexivity | reflexivity] | vm_compute; reflexivity]. Qed.

(** C46 is false for a movement function that may leave the origin where it is. *)
Theorem C46_bf_levels_refuted : exists b P D W go orig front,
  usable b P W /\ valid P orig /\ go_inside P go /\
  bf_yields b P D W go orig 1 = Ret [Some front] /\ In orig (map fst front).
Proof. exact C46_bf_levels_refuted_proof. Qed.
Print Assumptions C46_bf_levels_refuted.

(** The part that holds: exact distance levels when no move leaves the origin
    where it is (as for any function that moves one step).  Missing: movement
    functions with go(orig, d) = orig, see C72. *)
Theorem C46_bf_levels_partial : forall b P D W go orig,
  usable b P W -> valid P orig -> go_inside P go -> ~ stays D go orig ->
  exists level : nat -> list (pos * dir),
    (forall n, bf_yields b P D W go orig n =
       Ret (map (fun k => match level k with [] => None | l => Some l end) (seq 1 n))) /\
    forall k, (1 <= k)%nat ->
      NoDup (map fst (level k)) /\
      (forall p, In p (map fst (level k)) <-> at_distance D go orig k p) /\
      (forall p d, In (p, d) (level k) ->
         exists q e, at_distance D go orig (k - 1) q /\ allowed D e /\ go q e = Some p /\
           heading d = (heading e + 4) mod 8 /\ (one_step P go -> step p d = q)).
Proof. exact C46_bf_levels_partial_proof. Qed.
Print Assumptions C46_bf_levels_partial.

Example C46_example :
  let go p d := match pos_dir_add_ok (Pos 2 2) p d with Some q => if pos_eqb q (1, 1) then None else Some q | None => None end in
  bf_yields OnBTree (Pos 2 2) true 0 go (0, 0) 5 =
    Ret [Some [((1, 0), dW); ((0, 1), dN)]; Some [((2, 0), dW); ((2, 1), dNW); ((1, 2), dNW); ((0, 2), dN)]; Some [((2, 2), dN)]; None; None].
Proof. vm_compute. reflexivity. Qed.

(** C47: iteration ends, and yields every reachable position exactly once. *)
Theorem C47_bf_complete : forall b P D W go orig,
  usable b P W -> valid P orig -> go_inside P go ->
  exists vectors : list (list (pos * dir)),
    (forall n, bf_yields b P D W go orig n = Ret (items_then_none vectors n)) /\
    Z.of_nat (length vectors) <= cells P /\ ~ In [] vectors /\
    NoDup (map fst (concat vectors)) /\
    (forall p, p <> orig -> (In p (map fst (concat vectors)) <-> reachable D go orig p)) /\
    (In orig (map fst (concat vectors)) <-> stays D go orig).
Proof. exact C47_bf_complete_proof. Qed.
Print Assumptions C47_bf_complete.

Example C47_example :
  let go p d := match pos_dir_add_ok (Pos 3 2) p d with Some q => if pos_eqb q (1, 1) || (fst q =? 3) then None else Some q | None => None end in
  bf_yields OnHash (Pos 3 2) false 0 go (0, 1) 7 =
    Ret [Some [((0, 0), dS); ((0, 2), dN)]; Some [((1, 0), dW); ((1, 2), dW)]; Some [((2, 0), dW); ((2, 2), dW)]; Some [((2, 1), dN)]; None; None; None].
Proof. vm_compute. reflexivity. Qed.

(** C48: a returned path is real and shortest. *)
Theorem C48_bfs_shortest : forall b P D W go orig found dest path,
  usable b P W -> valid P orig -> go_inside P go -> one_step P go ->
  returns (fun fuel => bfs_on b P D W fuel go orig found) (Ok (dest, path)) ->
  found dest = true /\ Forall (allowed D) path /\ follow go orig path = Some dest /\
  forall q n, q <> orig -> found q = true -> walk D go orig n q -> (length path <= n)%nat.
Proof. exact C48_bfs_shortest_proof. Qed.
Print Assumptions C48_bfs_shortest.

Example C48_example :
  let go p d := match pos_dir_add_ok (Pos 3 3) p d with Some q => if (fst q =? 1) && (snd q <? 3) then None else Some q | None => None end in
  bfs_on OnGrid (Pos 3 3) false 1 30 go (0, 0) (fun p => fst p =? 2) = Ret (Ok ((2, 3), [dS; dS; dS; dE; dE])).
Proof. vm_compute. reflexivity. Qed.

(** C73: exactly when [bfs_path] succeeds: always total; the nearest goal other
    than the origin must be at most width * width steps away. *)
Theorem C73_bfs_exact : forall b P D W go orig found,
  usable b P W -> valid P orig -> go_inside P go -> one_step P go ->
  let limit := Z.to_nat (cols P * cols P) in
  exists r, returns (fun fuel => bfs_on b P D W fuel go orig found) r /\
    (r = Err DestinationUnreachable <-> forall q, q <> orig -> found q = true -> ~ reachable D go orig q) /\
    (forall n, (exists dest path, r = Ok (dest, path) /\ length path = n) <-> nearest_goal D go orig found n /\ (n <= limit)%nat) /\
    (r = Err Loop <-> exists n, nearest_goal D go orig found n /\ (limit < n)%nat).
Proof. exact C73_bfs_exact_proof. Qed.
Print Assumptions C73_bfs_exact.

Example C73_example :
  let go := pos_dir_add_ok (Pos 1 6) in
  bfs_on OnBTree (Pos 1 6) false 0 30 go (0, 0) (fun p => pos_eqb p (0, 4)) = Ret (Ok ((0, 4), [dS; dS; dS; dS])) /\
  bfs_on OnBTree (Pos 1 6) false 0 30 go (0, 0) (fun p => pos_eqb p (0, 5)) = Ret (Err Loop).
Proof. vm_compute. auto. Qed.

(** C49 is false, for two reasons.  On a grid with more rows than columns a
    reachable goal can give Err(Loop). *)
Theorem C49_bfs_tall_grid_refuted : exists b P D W go orig found q,
  usable b P W /\ valid P orig /\ go_inside P go /\ one_step P go /\
  q <> orig /\ found q = true /\ reachable D go orig q /\
  returns (fun fuel => bfs_on b P D W fuel go orig found) (Err Loop).
Proof. exact C49_bfs_tall_grid_refuted_proof. Qed.
Print Assumptions C49_bfs_tall_grid_refuted.

(** And a goal at the origin is not recognised, even though the origin can be
    reached (trivially, and also by leaving and coming back). *)
Theorem C49_bfs_origin_refuted : exists b P D W go orig found,
  usable b P W /\ valid P orig /\ go_inside P go /\ one_step P go /\
  found orig = true /\ walk D go orig 0 orig /\ walk D go orig 2 orig /\
  returns (fun fuel => bfs_on b P D W fuel go orig found) (Err DestinationUnreachable).
Proof. exact C49_bfs_origin_refuted_proof. Qed.
Print Assumptions C49_bfs_origin_refuted.

(** The part that holds: on grids with at least as many columns as rows, for
    goals other than the origin.  Missing: the two cases above; C73 is the exact
    statement for all grids. *)
Theorem C49_bfs_complete_partial : forall b P D W go orig found,
  usable b P W -> rows P <= cols P -> valid P orig -> go_inside P go -> one_step P go ->
  exists r, returns (fun fuel => bfs_on b P D W fuel go orig found) r /\
    (r = Err DestinationUnreachable <-> forall q, q <> orig -> found q = true -> ~ reachable D go orig q) /\
    (r <> Err DestinationUnreachable -> exists dest path, r = Ok (dest, path)).
Proof. exact C49_bfs_complete_partial_proof. Qed.
Print Assumptions C49_bfs_complete_partial.

Example C49_example :
  let go p d := match pos_dir_add_ok (Pos 4 2) p d with Some q => if fst q =? 2 then None else Some q | None => None end in
  bfs_on OnHash (Pos 4 2) true 0 30 go (0, 0) (fun p => fst p =? 3) = Ret (Err DestinationUnreachable) /\
  bfs_on OnHash (Pos 4 2) true 0 30 go (0, 0) (fun p => snd p =? 2) = Ret (Ok ((1, 2), [dSE; dS])).
Proof. vm_compute. auto. Qed.
