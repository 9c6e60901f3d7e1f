(** PropAgree.v -- the searches compared with each other, with the geometry of the
    open grid and with themselves on other inputs: C87-C90. *)

From Coq Require Import ZArith List Bool Lia.
From Verif Require Import Rust BoundedInt Dir PosT Pos Grid Gridbool SetMap CameFrom Bf Heap Astar Ucs Spec SpecSearch Lib Deque BoundedIntProofs PosTProofs PosTProofs2 PropDirProofs SetMapProofs Sim CameFromProofs PropSetMapProofs BfProofs PropBfProofs BestFirst SearchProofs UcsProofs PropUcsProofs AstarProofs BeelineProofs PropAstarProofs.
From Verif Require Import PropAgreeProofs.
Import ListNotations.
Open Scope Z_scope.

(** C87: with the same cost for every move, uniform-cost search finds shortest
    paths, and its outcome is determined by the distance. *)
Theorem C87_ucs_constant_cost : forall b P D W go k orig dest,
  usable b P W -> valid P orig -> valid P dest -> go_inside P go -> one_step P go ->
  0 < k -> k * cells P <= 18446744073709551615 ->
  let limit := Z.to_nat (cols P * cols P) in
  exists r, returns (fun fuel => ucs_on b P D fuel (priced k go) orig dest) r /\
    (r = Err DestinationUnreachable <-> ~ reachable D go orig dest) /\
    (forall n, (exists path, r = Ok path /\ length path = n) <-> at_distance D go orig n dest /\ (n <= limit)%nat) /\
    (r = Err Loop <-> exists n, at_distance D go orig n dest /\ (limit < n)%nat).
Proof. exact C87_ucs_constant_cost_proof. Qed.
Print Assumptions C87_ucs_constant_cost.

Example C87_constant_example :
  let go p d := match pos_dir_add_ok (Pos 3 3) p d with Some q => if (fst q =? 1) && (snd q <? 3) then None else Some q | None => None end in
  ucs_on OnGrid (Pos 3 3) false 40 (priced 5 go) (0, 0) (2, 1) = Ret (Ok [dS; dS; dS; dE; dE; dN; dN]).
Proof. vm_compute. reflexivity. Qed.

(** So breadth-first search for a single destination and uniform-cost search with
    constant costs agree: on whether there is a path, on its length, and on
    whether it is too long to be reconstructed. *)
Theorem C87_bfs_ucs_agree : forall b b' P D W W' go k orig dest,
  usable b P W -> usable b' P W' -> valid P orig -> valid P dest -> go_inside P go -> one_step P go ->
  0 < k -> k * cells P <= 18446744073709551615 -> orig <> dest ->
  exists rb ru,
    returns (fun fuel => bfs_on b P D W fuel go orig (fun p => pos_eqb p dest)) rb /\
    returns (fun fuel => ucs_on b' P D fuel (priced k go) orig dest) ru /\
    match rb with
    | Ok (q, path) => q = dest /\ same_length (Ok path) ru
    | Err e => ru = Err e
    end.
Proof. exact C87_bfs_ucs_agree_proof. Qed.
Print Assumptions C87_bfs_ucs_agree.

Example C87_agree_example :
  let go p d := match pos_dir_add_ok (Pos 3 3) p d with Some q => if (fst q =? 1) && (snd q <? 3) then None else Some q | None => None end in
  bfs_on OnHash (Pos 3 3) true 0 40 go (0, 0) (fun p => pos_eqb p (2, 1)) = Ret (Ok ((2, 1), [dS; dS; dSE; dNE; dN])) /\
  ucs_on OnGrid (Pos 3 3) true 40 (priced 7 go) (0, 0) (2, 1) = Ret (Ok [dS; dS; dSE; dNE; dN]).
Proof. vm_compute. auto. Qed.

(** A* search agrees with breadth-first search on whether there is a path, and
    never finds a shorter one; a path it finds exists for breadth-first search. *)
Theorem C87_bfs_astar : forall b b' P D W W' go orig dest,
  usable b P W -> usable b' P W' -> valid P orig -> valid P dest -> go_inside P go -> one_step P go -> orig <> dest ->
  exists rb ra,
    returns (fun fuel => bfs_on b P D W fuel go orig (fun p => pos_eqb p dest)) rb /\
    returns (fun fuel => astar_on b' P D fuel go orig dest) ra /\
    (rb = Err DestinationUnreachable <-> ra = Err DestinationUnreachable) /\
    (forall path', ra = Ok path' -> exists path, rb = Ok (dest, path) /\ (length path <= length path')%nat).
Proof. exact C87_bfs_astar_proof. Qed.
Print Assumptions C87_bfs_astar.

Example C87_astar_example :
  let go p d := match pos_dir_add_ok (Pos 3 5) p d with Some q => if existsb (pos_eqb q) [(2,1);(3,2);(1,5)] then None else Some q | None => None end in
  astar_on OnGrid (Pos 3 5) false 100 go (0, 4) (3, 1) = Ret (Ok [dE; dE; dN; dN; dW; dN; dN; dE; dE; dS]) /\
  bfs_on OnGrid (Pos 3 5) false 1 100 go (0, 4) (fun p => pos_eqb p (3, 1)) = Ret (Ok ((3, 1), [dN; dN; dN; dN; dE; dE; dE; dS])).
Proof. vm_compute. auto. Qed.

(** C88: if every move can be undone, breadth-first search finds paths of the same
    length in both directions, or fails in the same way. *)
Theorem C88_bfs_symmetric : forall b P D W go p q,
  usable b P W -> valid P p -> valid P q -> go_inside P go -> one_step P go -> reversible D P go -> p <> q ->
  exists r r',
    returns (fun fuel => bfs_on b P D W fuel go p (fun x => pos_eqb x q)) r /\
    returns (fun fuel => bfs_on b P D W fuel go q (fun x => pos_eqb x p)) r' /\
    same_length (match r with Ok (_, path) => Ok path | Err e => Err e end) (match r' with Ok (_, path) => Ok path | Err e => Err e end).
Proof. exact C88_bfs_symmetric_proof. Qed.
Print Assumptions C88_bfs_symmetric.

Example C88_symmetric_example :
  let go p d := match pos_dir_add_ok (Pos 3 3) p d with Some q => if (fst p =? 1) && (snd p <? 3) || (fst q =? 1) && (snd q <? 3) then None else Some q | None => None end in
  reversible true (Pos 3 3) go /\
  bfs_on OnGrid (Pos 3 3) true 1 40 go (0, 0) (fun p => pos_eqb p (2, 1)) = Ret (Ok ((2, 1), [dS; dS; dSE; dNE; dN])) /\
  bfs_on OnGrid (Pos 3 3) true 1 40 go (2, 1) (fun p => pos_eqb p (0, 0)) = Ret (Ok ((0, 0), [dS; dSW; dNW; dN; dN])).
Proof.
  split; [|vm_compute; auto]. intros [x y] d q ((H1 & H2) & (H3 & H4)) _ E. exists (opp d). split; [left; reflexivity |].
  assert (X : x = 0 \/ x = 1 \/ x = 2 \/ x = 3) by (cbn in *; lia). assert (Y : y = 0 \/ y = 1 \/ y = 2 \/ y = 3) by (cbn in *; lia). clear H1 H2 H3 H4.
  destruct X as [-> | [-> | [-> | ->]]], Y as [-> | [-> | [-> | ->]]], d; vm_compute in E; inv E; vm_compute; reflexivity.
Qed.

(** A detour over a third position is never shorter. *)
Theorem C88_bfs_triangle : forall b P D W go p q r path1 path2,
  usable b P W -> valid P p -> go_inside P go -> one_step P go -> p <> q -> q <> r -> p <> r ->
  returns (fun fuel => bfs_on b P D W fuel go p (fun x => pos_eqb x q)) (Ok (q, path1)) ->
  returns (fun fuel => bfs_on b P D W fuel go q (fun x => pos_eqb x r)) (Ok (r, path2)) ->
  returns (fun fuel => bfs_on b P D W fuel go p (fun x => pos_eqb x r)) (Err Loop) \/
  exists path, returns (fun fuel => bfs_on b P D W fuel go p (fun x => pos_eqb x r)) (Ok (r, path)) /\
    (length path <= length path1 + length path2)%nat.
Proof. exact C88_bfs_triangle_proof. Qed.
Print Assumptions C88_bfs_triangle.

Example C88_triangle_example :
  let go := pos_dir_add_ok (Pos 3 3) in
  bfs_on OnGrid (Pos 3 3) false 1 40 go (0, 0) (fun x => pos_eqb x (2, 0)) = Ret (Ok ((2, 0), [dE; dE])) /\
  bfs_on OnGrid (Pos 3 3) false 1 40 go (2, 0) (fun x => pos_eqb x (1, 1)) = Ret (Ok ((1, 1), [dS; dW])) /\
  bfs_on OnGrid (Pos 3 3) false 1 40 go (0, 0) (fun x => pos_eqb x (1, 1)) = Ret (Ok ((1, 1), [dE; dS])).
Proof. vm_compute. auto. Qed.

(** ** The open grid *)

(** C89: on a grid without obstacles the paths found by breadth-first search,
    uniform-cost search with constant costs and A* search have the length of the
    Manhattan distance without diagonals, and of the larger of the two coordinate
    distances with diagonals; if that is more than (max x + 1)^2 they fail. *)
Theorem C89_open_grid : forall b P (D : bool) W k p q,
  usable b P W -> valid P p -> valid P q -> p <> q -> 0 < k -> k * cells P <= 18446744073709551615 ->
  let dx := Z.abs (fst p - fst q) in let dy := Z.abs (snd p - snd q) in
  let n := if D then Z.max dx dy else dx + dy in
  exists rb ru ra,
    returns (fun fuel => bfs_on b P D W fuel (pos_dir_add_ok P) p (fun x => pos_eqb x q)) rb /\
    returns (fun fuel => ucs_on b P D fuel (priced k (pos_dir_add_ok P)) p q) ru /\
    returns (fun fuel => astar_on b P D fuel (pos_dir_add_ok P) p q) ra /\
    if n <=? cols P * cols P
    then exists pb pu pa, rb = Ok (q, pb) /\ ru = Ok pu /\ ra = Ok pa /\
           Z.of_nat (length pb) = n /\ Z.of_nat (length pu) = n /\ Z.of_nat (length pa) = n
    else rb = Err Loop /\ ru = Err Loop /\ ra = Err Loop.
Proof. exact C89_open_grid_proof. Qed.
Print Assumptions C89_open_grid.

Example C89_example :
  bfs_on OnGrid (Pos 4 3) true 1 40 (pos_dir_add_ok (Pos 4 3)) (0, 3) (fun x => pos_eqb x (4, 1)) = Ret (Ok ((4, 1), [dNE; dNE; dNE; dSE])) /\
  astar_on OnGrid (Pos 4 3) false 40 (pos_dir_add_ok (Pos 4 3)) (0, 3) (4, 1) = Ret (Ok [dE; dE; dE; dE; dN; dN]) /\
  ucs_on OnGrid (Pos 1 7) true 40 (priced 3 (pos_dir_add_ok (Pos 1 7))) (0, 0) (0, 4) = Ret (Ok [dSE; dS; dS; dSW]) /\
  ucs_on OnGrid (Pos 1 7) true 40 (priced 3 (pos_dir_add_ok (Pos 1 7))) (0, 0) (1, 5) = Ret (Err Loop).
Proof. vm_compute. auto. Qed.

(** C90: allowing more moves never makes the result of breadth-first search worse. *)
Theorem C90_bfs_more_moves : forall b P D W go go' orig dest path,
  usable b P W -> valid P orig -> go_inside P go -> one_step P go -> go_inside P go' -> one_step P go' -> orig <> dest ->
  (forall p d q, valid P p -> allowed D d -> go p d = Some q -> go' p d = Some q) ->
  returns (fun fuel => bfs_on b P D W fuel go orig (fun x => pos_eqb x dest)) (Ok (dest, path)) ->
  exists path', returns (fun fuel => bfs_on b P D W fuel go' orig (fun x => pos_eqb x dest)) (Ok (dest, path')) /\
    (length path' <= length path)%nat.
Proof. exact C90_bfs_more_moves_proof. Qed.
Print Assumptions C90_bfs_more_moves.

Example C90_example :
  let go p d := match pos_dir_add_ok (Pos 3 3) p d with Some q => if (fst q =? 1) && (snd q <? 3) then None else Some q | None => None end in
  bfs_on OnGrid (Pos 3 3) false 1 40 go (0, 0) (fun p => pos_eqb p (2, 1)) = Ret (Ok ((2, 1), [dS; dS; dS; dE; dE; dN; dN])) /\
  bfs_on OnGrid (Pos 3 3) false 1 40 (pos_dir_add_ok (Pos 3 3)) (0, 0) (fun p => pos_eqb p (2, 1)) = Ret (Ok ((2, 1), [dE; dE; dS])).
Proof. vm_compute. auto. Qed.
