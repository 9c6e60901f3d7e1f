(** PropFirst.v -- exactly which shortest path breadth-first search returns: C121. *)

From Coq Require Import ZArith List Bool Lia Sorted.
From Verif Require Import Rust BoundedInt Dir PosT Pos Grid Gridbool SetMap CameFrom Bf Spec SpecSearch SpecFirst Lib Deque BoundedIntProofs PosTProofs PosTProofs2 PropDirProofs SetMapProofs Sim CameFromProofs PropSetMapProofs BfProofs PropBfProofs.
From Verif Require Import PropFirstProofs.
Import ListNotations.
Open Scope Z_scope.

(** C121: the path returned by breadth-first search is the first, in the
    clockwise order of directions, of all shortest paths to nearest goals. *)
Theorem C121_bfs_first_path : forall b P D W go orig found dest path,
  usable b P W -> valid P orig -> go_inside P go -> one_step P go ->
  returns (fun fuel => bfs_on b P D W fuel go orig found) (Ok (dest, path)) ->
  forall q other, q <> orig -> found q = true -> length other = length path -> Forall (allowed D) other ->
    follow go orig other = Some q -> other = path \/ before path other.
Proof. exact C121_bfs_first_path_proof. Qed.
Print Assumptions C121_bfs_first_path.

Example C121_example :
  let go := pos_dir_add_ok (Pos 2 2) in
  let found p := pos_eqb p (0, 1) || pos_eqb p (1, 2) in
  bfs_on OnHash (Pos 2 2) false 0 30 go (2, 0) found = Ret (Ok ((1, 2), [dS; dS; dW])) /\
  follow go (2, 0) [dS; dW; dW] = Some (0, 1) /\ follow go (2, 0) [dW; dS; dS] = Some (1, 2) /\
  before [dS; dS; dW] [dS; dW; dW] /\ before [dS; dS; dW] [dW; dS; dS].
Proof. cbn zeta. split; [vm_compute; reflexivity |]. split; [reflexivity |]. split; [reflexivity |]. cbn. intuition lia. Qed.

(** C121: the breadth-first iterator yields the positions of each level in the
    order of the first shortest walks to them, each with the direction back
    along that walk. *)
Theorem C121_bf_order : forall b P D W go orig,
  usable b P W -> valid P orig -> go_inside P go -> ~ stays D go orig ->
  exists level : nat -> list (pos * dir),
    (forall n, bf_yields b P D W go orig n =
       Ret (map (fun k => match level k with [] => None | l => Some l end) (seq 1 n))) /\
    forall k, (1 <= k)%nat ->
      (forall p, In p (map fst (level k)) <-> at_distance D go orig k p) /\
      exists words, StronglySorted before words /\
        Forall2 (fun x w => first_walk D go orig k (fst x) w /\
                   exists v e, w = v ++ [e] /\ heading (snd x) = (heading e + 4) mod 8) (level k) words.
Proof. exact C121_bf_order_proof. Qed.
Print Assumptions C121_bf_order.

Example C121_example_order :
  bf_yields OnBTree (Pos 2 2) false 0 (pos_dir_add_ok (Pos 2 2)) (1, 1) 2 =
  Ret [Some [((1, 0), dS); ((2, 1), dW); ((1, 2), dN); ((0, 1), dE)];
       Some [((2, 0), dW); ((0, 0), dE); ((2, 2), dN); ((0, 2), dE)]].
Proof. vm_compute. reflexivity. Qed.
