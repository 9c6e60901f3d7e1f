(** PropRelease.v -- uniform-cost search in builds without overflow checks: C124. *)

From Coq Require Import ZArith List Bool Lia.
From Verif Require Import Rust BoundedInt Dir PosT Pos Grid Gridbool SetMap CameFrom Heap Bf Astar Ucs Release Spec SpecSearch SpecMaze SpecRelease Lib BoundedIntProofs PosTProofs PosTProofs2 SetMapProofs Sim CameFromProofs PropSetMapProofs BfProofs PropBfProofs BestFirst SearchProofs PropPathProofs PropAnyClosuresProofs.
From Verif Require Import PropReleaseProofs.
Import ListNotations.
Open Scope Z_scope.

(** ** Agreement with the debug build *)

(** C124: when the debug build returns, the release build returns the same. *)
Theorem C124_release_agrees : forall b P D fuel go orig dest r,
  ucs_on b P D fuel go orig dest = Ret r -> ucs_release_on b P D fuel go orig dest = Ret r.
Proof. exact C124_release_agrees_proof. Qed.
Print Assumptions C124_release_agrees.

(** ** Outcome with any costs *)

(** C124: with any costs of type usize the release build returns: a path along
    which one can move, Err(Loop), or DestinationUnreachable; the latter only if
    there is no path, unless the sum of the costs along some path wraps around to
    exactly usize::MAX. *)
Theorem C124_release_returns : forall b P D W go orig dest,
  usable b P W -> valid P orig -> valid P dest -> go_inside P (move_of go) -> one_step P (move_of go) ->
  exists N, forall fuel, (N <= fuel)%nat -> exists r, ucs_release_on b P D fuel go orig dest = Ret r /\
    match r with
    | Ok path => Forall (allowed D) path /\ follow (move_of go) orig path = Some dest
    | Err e => e = Loop \/ e = DestinationUnreachable /\
        ((forall c q, cost_walk D go orig c q -> c mod 18446744073709551616 <> 18446744073709551615) -> ~ reachable D (move_of go) orig dest)
    end.
Proof. exact C124_release_returns_proof. Qed.
Print Assumptions C124_release_returns.

Example C124_example :
  let go p d := option_map (fun q => (q, 9223372036854775807)) (pos_dir_add_ok (Pos 3 0) p d) in
  ucs_on OnHash (Pos 3 0) false 50 go (0, 0) (2, 0) = Panic /\
  ucs_release_on OnHash (Pos 3 0) false 50 go (0, 0) (2, 0) = Ret (Ok [dE; dE]) /\
  ucs_release_on OnHash (Pos 3 0) false 50 go (0, 0) (3, 0) = Ret (Ok [dE; dE; dE]).
Proof. vm_compute. auto. Qed.

(** C124: when costs overflow, the release build can return Err(Loop) although
    there is a path, and a path that is not one of lowest cost. *)
Theorem C124_release_overflow :
  (exists P go orig dest fuel, grid_type P /\ valid P orig /\ valid P dest /\ go_inside P (move_of go) /\ one_step P (move_of go) /\ usize_costs P go /\
    reachable false (move_of go) orig dest /\ ucs_release_on OnGrid P false fuel go orig dest = Ret (Err Loop)) /\
  (exists P go orig dest fuel path c c', grid_type P /\ valid P orig /\ valid P dest /\ go_inside P (move_of go) /\ one_step P (move_of go) /\ usize_costs P go /\
    ucs_release_on OnGrid P false fuel go orig dest = Ret (Ok path) /\ follow_cost go orig path = Some (dest, c) /\
    cost_walk false go orig c' dest /\ c' < c).
Proof. exact C124_release_overflow_proof. Qed.
Print Assumptions C124_release_overflow.
