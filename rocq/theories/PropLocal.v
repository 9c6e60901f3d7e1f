(** PropLocal.v -- how far the searches look. *)

From Coq Require Import ZArith List Bool Lia.
From Verif Require Import Rust BoundedInt Dir PosT Pos Grid Gridbool SetMap CameFrom Bf Heap Astar Ucs Spec SpecSearch Lib Deque BoundedIntProofs PosTProofs PosTProofs2 PropDirProofs SetMapProofs Sim CameFromProofs PropSetMapProofs GridProofs BfProofs PropBfProofs BestFirst SearchProofs UcsProofs PropUcsProofs AstarProofs PropAstarProofs PropAgreeProofs PropReplanProofs PropStrayProofs.
From Verif Require Import PropLocalProofs.
Import ListNotations.
Open Scope Z_scope.

(** C146: uniform-cost search does not look beyond the cost of the destination. *)
Theorem C146_ucs_near : forall b P D W go go' orig dest k fuel,
  usable b P W -> valid P orig -> valid P dest -> go_inside P (move_of go) -> go_inside P (move_of go') -> affordable D P go orig ->
  lowest_cost D go orig k dest ->
  (forall p d c, lowest_cost D go orig c p -> c <= k -> allowed D d -> go' p d = go p d) ->
  ucs_on b P D fuel go' orig dest = ucs_on b P D fuel go orig dest.
Proof. exact C146_ucs_near_proof. Qed.
Print Assumptions C146_ucs_near.

(** C146: A* does not look at positions from which the destination is too far away:
    those at distance [m] from the origin and [m'] columns and rows from the
    destination with [m + m' > n], or [m + m' > 2 * n] with diagonals. *)
Theorem C146_astar_near : forall b P D W go go' orig dest n fuel,
  usable b P W -> valid P orig -> valid P dest -> go_inside P go -> go_inside P go' -> one_step P go ->
  at_distance D go orig n dest ->
  (forall p d m, at_distance D go orig m p ->
     Z.of_nat m + (Z.abs (fst p - fst dest) + Z.abs (snd p - snd dest)) <= (if D then 2 else 1) * Z.of_nat n ->
     allowed D d -> go' p d = go p d) ->
  astar_on b P D fuel go' orig dest = astar_on b P D fuel go orig dest.
Proof. exact C146_astar_near_proof. Qed.
Print Assumptions C146_astar_near.

(** C146: breadth-first search does not look beyond the nearest position wanted. *)
Theorem C146_bfs_near : forall b P D W go go' found found' orig n goal fuel,
  usable b P W -> valid P orig -> go_inside P go -> go_inside P go' ->
  at_distance D go orig n goal -> goal <> orig -> found goal = true ->
  (forall p d m, at_distance D go orig m p -> (m <= n)%nat -> allowed D d -> go' p d = go p d) ->
  (forall p m, at_distance D go orig m p -> (m <= n)%nat -> found' p = found p) ->
  bfs_on b P D W fuel go' orig found' = bfs_on b P D W fuel go orig found.
Proof. exact C146_bfs_near_proof. Qed.
Print Assumptions C146_bfs_near.

(** A closed far corner: on a 4 by 4 grid, the last column and row are closed or not. *)
Example C146_example :
  let go p d := pos_dir_add_ok (Pos 4 4) p d in
  let go' p d := if (3 <=? fst p) || (3 <=? snd p) then None else pos_dir_add_ok (Pos 4 4) p d in
  let cost p d := match go p d with Some q => Some (q, 1 + snd q) | None => None end in
  let cost' p d := if (3 <=? fst p) || (3 <=? snd p) then None else cost p d in
  go (3, 3) dN = Some (3, 2) /\ go' (3, 3) dN = None /\
  (forall p d m, at_distance false go (0, 0) m p ->
     Z.of_nat m + (Z.abs (fst p - fst (2, 1)) + Z.abs (snd p - snd (2, 1))) <= 1 * 3 -> allowed false d -> go' p d = go p d) /\
  astar_on OnGrid (Pos 4 4) false 60 go (0, 0) (2, 1) = Ret (Ok [dE; dE; dS]) /\
  astar_on OnGrid (Pos 4 4) false 60 go' (0, 0) (2, 1) = Ret (Ok [dE; dE; dS]) /\
  ucs_on OnBTree (Pos 4 4) false 60 cost (0, 0) (2, 0) = Ret (Ok [dE; dE]) /\
  ucs_on OnBTree (Pos 4 4) false 60 cost' (0, 0) (2, 0) = Ret (Ok [dE; dE]) /\
  bfs_on OnHash (Pos 4 4) false 1 60 go (0, 0) (fun p => pos_eqb p (1, 1)) = Ret (Ok ((1, 1), [dE; dS])) /\
  bfs_on OnHash (Pos 4 4) false 1 60 go' (0, 0) (fun p => pos_eqb p (1, 1)) = Ret (Ok ((1, 1), [dE; dS])).
Proof.
  cbv zeta. split; [reflexivity |]. split; [reflexivity |]. split; [|vm_compute; auto 10].
  intros [x y] d m (Wm & _) L _. cbn [fst snd] in *.
  assert (M : mdist (0, 0) (x, y) <= Z.of_nat m).
  { apply (walk_mdist (Pos 4 4) (fun p d => pos_dir_add_ok (Pos 4 4) p d)).
    - apply open_one_step, Pos_grid_type. unfold u16_dims. lia.
    - apply open_inside, Pos_grid_type. unfold u16_dims. lia.
    - unfold valid, in_bty. cbn. lia.
    - exact Wm. }
  unfold mdist in M. cbn [fst snd] in M. replace (3 <=? x) with false by lia. replace (3 <=? y) with false by lia. reflexivity.
Qed.
