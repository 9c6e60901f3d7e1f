(** PropFrame.v -- what the searches do not depend on. *)

From Coq Require Import ZArith List Bool Lia.
From Verif Require Import Rust BoundedInt Dir PosT Pos Grid Gridbool SetMap CameFrom Bf Heap Astar Ucs Spec SpecSearch Lib Deque BoundedIntProofs PosTProofs PosTProofs2 PropDirProofs SetMapProofs Sim CameFromProofs PropSetMapProofs BfProofs PropBfProofs BestFirst SearchProofs UcsProofs PropUcsProofs.
From Verif Require Import PropFrameProofs.
Import ListNotations.
Open Scope Z_scope.

(** C104: multiplying every cost by the same positive factor changes nothing. *)
Theorem C104_ucs_scaled : forall b P D W k go go' orig dest fuel,
  usable b P W -> valid P orig -> valid P dest -> go_inside P (move_of go) -> 0 < k ->
  (forall p d, valid P p -> go' p d = match go p d with Some (q, c) => Some (q, k * c) | None => None end) ->
  affordable D P go orig -> affordable D P go' orig ->
  ucs_on b P D fuel go' orig dest = ucs_on b P D fuel go orig dest.
Proof. exact C104_ucs_scaled_proof. Qed.
Print Assumptions C104_ucs_scaled.

Example C104_example :
  let go p d := match pos_dir_add_ok (Pos 2 2) p d with Some q => Some (q, if snd q =? 2 then 10 else 1) | None => None end in
  let go' p d := match pos_dir_add_ok (Pos 2 2) p d with Some q => Some (q, if snd q =? 2 then 70 else 7) | None => None end in
  ucs_on OnGrid (Pos 2 2) false 30 go (0, 2) (2, 2) = Ret (Ok [dN; dE; dE; dS]) /\
  ucs_on OnGrid (Pos 2 2) false 30 go' (0, 2) (2, 2) = Ret (Ok [dN; dE; dE; dS]).
Proof. vm_compute. auto. Qed.

(** ** Where the closures are consulted *)

(** C105: a search consults its closures only at reachable positions and in
    allowed directions. *)
Theorem C105_bfs_frame : forall b P D W go go' found found' orig fuel,
  (forall p d, reachable D go orig p -> allowed D d -> go' p d = go p d) ->
  (forall p, reachable D go orig p -> found' p = found p) ->
  bfs_on b P D W fuel go' orig found' = bfs_on b P D W fuel go orig found.
Proof. exact C105_bfs_frame_proof. Qed.
Print Assumptions C105_bfs_frame.

Theorem C105_ucs_frame : forall b P D go go' orig dest fuel,
  (forall p d, reachable D (move_of go) orig p -> allowed D d -> go' p d = go p d) ->
  ucs_on b P D fuel go' orig dest = ucs_on b P D fuel go orig dest.
Proof. exact C105_ucs_frame_proof. Qed.
Print Assumptions C105_ucs_frame.

Theorem C105_astar_frame : forall b P D go go' orig dest fuel,
  (forall p d, reachable D go orig p -> allowed D d -> go' p d = go p d) ->
  astar_on b P D fuel go' orig dest = astar_on b P D fuel go orig dest.
Proof. exact C105_astar_frame_proof. Qed.
Print Assumptions C105_astar_frame.

Example C105_example :
  let go p d := if (fst p =? 2) || is_diagonal d then Some (7, 7) else corridor p d in
  (forall p d, reachable false corridor (0, 0) p -> allowed false d -> go p d = corridor p d) /\
  go (2, 0) dS <> corridor (2, 0) dS /\ go (0, 0) dSE <> corridor (0, 0) dSE /\
  astar_on OnGrid (Pos 2 2) false 30 corridor (0, 0) (0, 2) = Ret (Ok [dS; dS]) /\
  astar_on OnGrid (Pos 2 2) false 30 go (0, 0) (0, 2) = Ret (Ok [dS; dS]).
Proof.
  cbv zeta. split; [|vm_compute; repeat split; congruence].
  intros p d R A. rewrite (corridor_reach p R). destruct A as [A | A]; [discriminate |].
  destruct d; cbn in A; try reflexivity; exfalso; lia.
Qed.
