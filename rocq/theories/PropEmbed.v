(** PropEmbed.v -- searches on a map placed in another grid: C128. *)

From Coq Require Import ZArith List Bool Lia.
From Verif Require Import Rust BoundedInt Dir PosT Pos Grid Gridbool SetMap CameFrom Heap Bf Astar Ucs Spec SpecSearch SpecEmbed Lib BoundedIntProofs PosTProofs PosTProofs2 GridProofs GridProofs2 GridboolProofs PropGridboolProofs SetMapProofs Sim CameFromProofs PropSetMapProofs BfProofs PropBfProofs BestFirst SearchProofs UcsProofs AstarProofs PropAstarProofs PropUcsProofs.
From Verif Require Import PropEmbedProofs.
Import ListNotations.
Open Scope Z_scope.

(** C128: a map placed anywhere in another grid, with any storage: the searches
    return the same path, unless that grid is so narrow that the path has more
    moves than the square of its width, and find the same destinations
    unreachable. *)
Theorem C128_bfs_placed : forall b b' P P' D W W' v fuel go go' orig found found',
  usable b P W -> usable b' P' W' -> placed P P' v ->
  go_inside P go -> go_inside P' go' -> placed_go P v go go' ->
  (forall p, valid P p -> found' (shift v p) = found p) -> valid P orig ->
  (forall dest path, bfs_on b P D W fuel go orig found = Ret (Ok (dest, path)) -> Z.of_nat (length path) <= cols P' * cols P' ->
     bfs_on b' P' D W' fuel go' (shift v orig) found' = Ret (Ok (shift v dest, path))) /\
  (bfs_on b P D W fuel go orig found = Ret (Err DestinationUnreachable) ->
   bfs_on b' P' D W' fuel go' (shift v orig) found' = Ret (Err DestinationUnreachable)).
Proof. exact C128_bfs_placed_proof. Qed.
Print Assumptions C128_bfs_placed.

Theorem C128_ucs_placed : forall b b' P P' D W W' v fuel go go' orig dest,
  usable b P W -> usable b' P' W' -> placed P P' v ->
  go_inside P (move_of go) -> go_inside P' (move_of go') -> placed_costs P v go go' -> valid P orig -> valid P dest ->
  (forall path, ucs_on b P D fuel go orig dest = Ret (Ok path) -> Z.of_nat (length path) <= cols P' * cols P' ->
     ucs_on b' P' D fuel go' (shift v orig) (shift v dest) = Ret (Ok path)) /\
  (ucs_on b P D fuel go orig dest = Ret (Err DestinationUnreachable) ->
   ucs_on b' P' D fuel go' (shift v orig) (shift v dest) = Ret (Err DestinationUnreachable)) /\
  (ucs_on b P D fuel go orig dest = Panic -> ucs_on b' P' D fuel go' (shift v orig) (shift v dest) = Panic).
Proof. exact C128_ucs_placed_proof. Qed.
Print Assumptions C128_ucs_placed.

Theorem C128_astar_placed : forall b b' P P' D W W' v fuel go go' orig dest,
  usable b P W -> usable b' P' W' -> placed P P' v ->
  go_inside P go -> go_inside P' go' -> placed_go P v go go' -> valid P orig -> valid P dest ->
  (forall path, astar_on b P D fuel go orig dest = Ret (Ok path) -> Z.of_nat (length path) <= cols P' * cols P' ->
     astar_on b' P' D fuel go' (shift v orig) (shift v dest) = Ret (Ok path)) /\
  (astar_on b P D fuel go orig dest = Ret (Err DestinationUnreachable) ->
   astar_on b' P' D fuel go' (shift v orig) (shift v dest) = Ret (Err DestinationUnreachable)).
Proof. exact C128_astar_placed_proof. Qed.
Print Assumptions C128_astar_placed.

Example C128_example :
  let P := Pos 2 2 in let P' := Pos 9 5 in let v := (4, 3) in
  let wall p := pos_eqb p (1, 1) || pos_eqb p (1, 0) in
  let go p d := match pos_dir_add_ok P p d with Some q => if wall q then None else Some q | None => None end in
  let go' p d := match go (shift (-4, -3) p) d with Some q => Some (shift v q) | None => None end in
  let cost g p d := option_map (fun q => (q, 7)) (g p d) in
  placed P P' v /\
  bfs_on OnGrid P false 1 30 go (0, 0) (fun p => pos_eqb p (2, 0)) = Ret (Ok ((2, 0), [dS; dS; dE; dE; dN; dN])) /\
  bfs_on OnHash P' false 0 30 go' (4, 3) (fun p => pos_eqb p (6, 3)) = Ret (Ok ((6, 3), [dS; dS; dE; dE; dN; dN])) /\
  ucs_on OnGrid P false 30 (cost go) (0, 0) (2, 0) = Ret (Ok [dS; dS; dE; dE; dN; dN]) /\
  ucs_on OnBTree P' false 30 (cost go') (4, 3) (6, 3) = Ret (Ok [dS; dS; dE; dE; dN; dN]) /\
  astar_on OnGrid P true 30 go (0, 0) (2, 0) = Ret (Ok [dS; dSE; dNE; dN]) /\
  astar_on OnGrid P' true 30 go' (4, 3) (6, 3) = Ret (Ok [dS; dSE; dNE; dN]).
Proof.
  split; [|vm_compute; repeat split; reflexivity].
  intros [x y] ((V1 & V2) & V3 & V4). unfold valid, in_bty, shift. change (b_max (pt_x (Pos 2 2))) with 2 in *. change (b_max (pt_y (Pos 2 2))) with 2 in *. change (b_min (pt_x (Pos 2 2))) with 0 in *. change (b_min (pt_y (Pos 2 2))) with 0 in *.
  change (b_max (pt_x (Pos 9 5))) with 9. change (b_max (pt_y (Pos 9 5))) with 5. change (b_min (pt_x (Pos 9 5))) with 0. change (b_min (pt_y (Pos 9 5))) with 0. cbn [fst snd] in *. lia.
Qed.
