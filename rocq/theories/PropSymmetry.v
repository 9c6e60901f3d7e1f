(** PropSymmetry.v -- searches on mirrored and turned maps: C103. *)

From Coq Require Import ZArith List Bool Lia.
From Verif Require Import Rust BoundedInt Dir PosT Pos Grid Gridbool SetMap CameFrom Bf Heap Astar Ucs Spec SpecSearch SpecSymmetry Lib Deque BoundedIntProofs PosTProofs PosTProofs2 PropDirProofs SetMapProofs Sim CameFromProofs PropSetMapProofs BfProofs PropBfProofs BestFirst SearchProofs UcsProofs PropUcsProofs.
From Verif Require Import PropSymmetryProofs.
Import ListNotations.
Open Scope Z_scope.

(** C103: [bfs_path] on the moved map finds a path of the same length, or fails
    in the same way. *)
Theorem C103_bfs_moved : forall b P D W m go go' orig found found',
  usable b P W -> fits P m -> valid P orig -> go_inside P go -> one_step P go -> moved_go P m go go' ->
  (forall p, valid P p -> found' (moved P m p) = found p) ->
  exists r r',
    returns (fun fuel => bfs_on b P D W fuel go orig found) r /\
    returns (fun fuel => bfs_on b P D W fuel go' (moved P m orig) found') r' /\
    match r, r' with
    | Ok (_, path), Ok (_, path') => length path = length path'
    | Err e, Err e' => e = e'
    | _, _ => False
    end.
Proof. exact C103_bfs_moved_proof. Qed.
Print Assumptions C103_bfs_moved.

Example C103_bfs_example :
  let go p d := match pos_dir_add_ok (Pos 3 3) p d with Some q => if (fst q =? 1) && (snd q <? 3) then None else Some q | None => None end in
  let go' p d := match pos_dir_add_ok (Pos 3 3) p d with Some q => if (snd q =? 1) && (0 <? fst q) then None else Some q | None => None end in
  fits (Pos 3 3) QuarterTurn /\
  (forallb (fun p => forallb (fun d => match go' (moved (Pos 3 3) QuarterTurn p) (moved_dir QuarterTurn d), go p d with
     | Some q', Some q => pos_eqb q' (moved (Pos 3 3) QuarterTurn q) | None, None => true | _, _ => false end) [dN; dNE; dE; dSE; dS; dSW; dW; dNW]) (all_rows (Pos 3 3)) = true) /\
  bfs_on OnGrid (Pos 3 3) false 1 40 go (0, 0) (fun p => pos_eqb p (2, 1)) = Ret (Ok ((2, 1), [dS; dS; dS; dE; dE; dN; dN])) /\
  bfs_on OnGrid (Pos 3 3) false 1 40 go' (3, 0) (fun p => pos_eqb p (2, 2)) = Ret (Ok ((2, 2), [dW; dW; dW; dS; dS; dE; dE])).
Proof. vm_compute. auto. Qed.

(** [ucs_path] on the moved map: same success, and same cost of the path found,
    on grids with at least as many columns as rows and when costs depend on the
    position entered (see C51 and C53 for these two conditions). *)
Theorem C103_ucs_moved : forall b P D W m go go' orig dest,
  usable b P W -> rows P <= cols P -> fits P m -> valid P orig -> valid P dest ->
  go_inside P (move_of go) -> one_step P (move_of go) -> affordable D P go orig -> cost_of_entering D P go -> moved_costs P m go go' ->
  exists r r',
    returns (fun fuel => ucs_on b P D fuel go orig dest) r /\
    returns (fun fuel => ucs_on b P D fuel go' (moved P m orig) (moved P m dest)) r' /\
    match r, r' with
    | Ok path, Ok path' => exists c, follow_cost go orig path = Some (dest, c) /\ follow_cost go' (moved P m orig) path' = Some (moved P m dest, c)
    | Err e, Err e' => e = DestinationUnreachable /\ e' = DestinationUnreachable
    | _, _ => False
    end.
Proof. exact C103_ucs_moved_proof. Qed.
Print Assumptions C103_ucs_moved.

Example C103_ucs_example :
  let go p d := match pos_dir_add_ok (Pos 3 2) p d with Some q => Some (q, if fst q =? 1 then 10 - 4 * snd q else 1) | None => None end in
  let go' p d := match pos_dir_add_ok (Pos 3 2) p d with Some q => Some (q, if fst q =? 2 then 10 - 4 * snd q else 1) | None => None end in
  (forallb (fun p => forallb (fun d => match go' (moved (Pos 3 2) MirrorX p) (moved_dir MirrorX d), go p d with
     | Some (q', c'), Some (q, c) => pos_eqb q' (moved (Pos 3 2) MirrorX q) && (c =? c') | None, None => true | _, _ => false end) [dN; dNE; dE; dSE; dS; dSW; dW; dNW]) (all_rows (Pos 3 2)) = true) /\
  ucs_on OnGrid (Pos 3 2) false 60 go (0, 0) (2, 0) = Ret (Ok [dS; dS; dE; dE; dN; dN]) /\
  ucs_on OnGrid (Pos 3 2) false 60 go' (3, 0) (1, 0) = Ret (Ok [dS; dS; dW; dW; dN; dN]).
Proof. vm_compute. auto. Qed.
