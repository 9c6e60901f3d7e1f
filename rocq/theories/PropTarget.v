(** PropTarget.v -- the searches on targets with another usize: C127. *)

From Coq Require Import ZArith List Bool Lia.
From Verif Require Import Rust BoundedInt Dir PosT Pos Grid Gridbool SetMap CameFrom Heap Bf Astar Ucs Target Spec SpecSearch SpecTarget Lib BoundedIntProofs PosTProofs PosTProofs2 GridProofs GridProofs2 GridboolProofs PropGridboolProofs SetMapProofs Sim CameFromProofs PropSetMapProofs BfProofs PropBfProofs BestFirst SearchProofs UcsProofs AstarProofs PropAstarProofs PropUcsProofs.
From Verif Require Import PropTargetProofs.
Import ListNotations.
Open Scope Z_scope.

(** ** The same results where all numbers fit *)

(** C127: where the numbers computed from the dimensions of the grid fit into the
    target's usize, breadth-first search and A* give what they give on a 64-bit
    target, and so does uniform-cost search if the costs can be summed. *)
Theorem C127_same_bfs : forall t b P D W fuel go orig found,
  usable b P W -> fits_target t b P W -> cols P * cols P + 1 <= usize_MAX t ->
  valid P orig -> go_inside P go ->
  bfs_target_on t b P D W fuel go orig found = bfs_on b P D W fuel go orig found.
Proof. exact C127_same_bfs_proof. Qed.
Print Assumptions C127_same_bfs.

Theorem C127_same_ucs : forall t b P D W fuel go orig dest,
  usable b P W -> fits_target t b P W -> cols P * cols P + 1 <= usize_MAX t ->
  valid P orig -> valid P dest -> go_inside P (move_of go) -> affordable_on t D P go orig ->
  ucs_target_on t b P D fuel go orig dest = ucs_on b P D fuel go orig dest.
Proof. exact C127_same_ucs_proof. Qed.
Print Assumptions C127_same_ucs.

Theorem C127_same_astar : forall t b P D W fuel go orig dest,
  usable b P W -> fits_target t b P W -> cols P * cols P + 1 <= usize_MAX t ->
  valid P orig -> valid P dest -> go_inside P go ->
  astar_target_on t b P D fuel go orig dest = astar_on b P D fuel go orig dest.
Proof. exact C127_same_astar_proof. Qed.
Print Assumptions C127_same_astar.

Example C127_same_example :
  let P := Pos 254 1 in let go := pos_dir_add_ok P in let t := Target W16 false in
  usable OnGrid P 16 /\ fits_target t OnGrid P 16 /\ cols P * cols P + 1 <= usize_MAX t /\
  bfs_target_on t OnGrid P false 16 60 go (0, 0) (fun p => pos_eqb p (2, 1)) = Ret (Ok ((2, 1), [dE; dE; dS])) /\
  astar_target_on t OnGrid P true 60 go (0, 0) (2, 1) = Ret (Ok [dSE; dE]) /\
  ucs_target_on t OnGrid P false 60 (fun p d => option_map (fun q => (q, 100)) (go p d)) (0, 0) (2, 1) = Ret (Ok [dE; dE; dS]).
Proof.
  split; [exists 254, 1; unfold u16_dims; repeat split; vm_compute; intros X; discriminate X |].
  split; [split; [|split; [|intros _]]; vm_compute; intros X; discriminate X |].
  split; [vm_compute; discriminate |]. vm_compute. auto.
Qed.

(** ** Where the square of the width does not fit *)

(** C127: where only the square of the width does not fit -- 65536 columns on a
    32-bit target, 256 on a 16-bit one --, a search that finds a path on a 64-bit
    target panics if overflow is checked.  If not, the path is returned only if it
    is shorter than the square of the width plus one, wrapped around; else the
    search reports a loop.  A search that finds nothing still reports that. *)
Theorem C127_wide_bfs : forall t b P D W fuel go orig found,
  usable b P W -> fits_target t b P W -> usize_MAX t < cols P * cols P + 1 ->
  valid P orig -> go_inside P go ->
  (forall dest path, bfs_on b P D W fuel go orig found = Ret (Ok (dest, path)) ->
     bfs_target_on t b P D W fuel go orig found =
       if t_checks t then Panic
       else if Z.of_nat (length path) <? (cols P * cols P + 1) mod (usize_MAX t + 1) then Ret (Ok (dest, path))
       else Ret (Err Loop)) /\
  (bfs_on b P D W fuel go orig found = Ret (Err DestinationUnreachable) ->
   bfs_target_on t b P D W fuel go orig found = Ret (Err DestinationUnreachable)).
Proof. exact C127_wide_bfs_proof. Qed.
Print Assumptions C127_wide_bfs.

Theorem C127_wide_ucs : forall t b P D W fuel go orig dest,
  usable b P W -> fits_target t b P W -> usize_MAX t < cols P * cols P + 1 ->
  valid P orig -> valid P dest -> go_inside P (move_of go) -> affordable_on t D P go orig ->
  (forall path, ucs_on b P D fuel go orig dest = Ret (Ok path) ->
     ucs_target_on t b P D fuel go orig dest =
       if t_checks t then Panic
       else if Z.of_nat (length path) <? (cols P * cols P + 1) mod (usize_MAX t + 1) then Ret (Ok path)
       else Ret (Err Loop)) /\
  (ucs_on b P D fuel go orig dest = Ret (Err DestinationUnreachable) ->
   ucs_target_on t b P D fuel go orig dest = Ret (Err DestinationUnreachable)).
Proof. exact C127_wide_ucs_proof. Qed.
Print Assumptions C127_wide_ucs.

Theorem C127_wide_astar : forall t b P D W fuel go orig dest,
  usable b P W -> fits_target t b P W -> usize_MAX t < cols P * cols P + 1 ->
  valid P orig -> valid P dest -> go_inside P go ->
  (forall path, astar_on b P D fuel go orig dest = Ret (Ok path) ->
     astar_target_on t b P D fuel go orig dest =
       if t_checks t then Panic
       else if Z.of_nat (length path) <? (cols P * cols P + 1) mod (usize_MAX t + 1) then Ret (Ok path)
       else Ret (Err Loop)) /\
  (astar_on b P D fuel go orig dest = Ret (Err DestinationUnreachable) ->
   astar_target_on t b P D fuel go orig dest = Ret (Err DestinationUnreachable)).
Proof. exact C127_wide_astar_proof. Qed.
Print Assumptions C127_wide_astar.

(** Costs small enough for the target can be summed on it. *)
Theorem C127_small_costs_suffice : forall t D P go orig cmax,
  grid_type P -> valid P orig -> go_inside P (move_of go) ->
  (forall p d q c, valid P p -> go p d = Some (q, c) -> 0 <= c <= cmax) -> cmax * cells P <= usize_MAX t ->
  affordable_on t D P go orig.
Proof. exact C127_small_costs_suffice_proof. Qed.
Print Assumptions C127_small_costs_suffice.

Example C127_wide_example :
  let P := Pos 255 1 in let go := pos_dir_add_ok P in
  let cost p d := option_map (fun q => (q, 100)) (go p d) in
  usable OnGrid P 16 /\ fits_target (Target W16 false) OnGrid P 16 /\
  (cols P * cols P + 1) mod (usize_MAX (Target W16 false) + 1) = 1 /\
  bfs_on OnGrid P false 16 60 go (0, 0) (fun p => pos_eqb p (2, 1)) = Ret (Ok ((2, 1), [dE; dE; dS])) /\
  bfs_target_on (Target W16 true) OnGrid P false 16 60 go (0, 0) (fun p => pos_eqb p (2, 1)) = Panic /\
  bfs_target_on (Target W16 false) OnGrid P false 16 60 go (0, 0) (fun p => pos_eqb p (2, 1)) = Ret (Err Loop) /\
  bfs_target_on (Target W16 false) OnGrid P false 16 60 go (0, 0) (fun p => pos_eqb p (0, 0)) = bfs_on OnGrid P false 16 60 go (0, 0) (fun p => pos_eqb p (0, 0)) /\
  astar_target_on (Target W16 true) OnGrid P false 60 go (0, 0) (2, 1) = Panic /\
  astar_target_on (Target W16 false) OnGrid P false 60 go (0, 0) (2, 1) = Ret (Err Loop) /\
  ucs_target_on (Target W16 false) OnGrid P false 60 cost (0, 0) (2, 1) = Ret (Err Loop) /\
  ucs_target_on (Target W16 false) OnGrid P false 60 cost (0, 0) (0, 0) = Ret (Ok []).
Proof.
  split; [exists 255, 1; unfold u16_dims; repeat split; vm_compute; intros X; discriminate X |].
  split; [split; [|split; [|intros _]]; vm_compute; intros X; discriminate X |].
  vm_compute. repeat split; reflexivity.
Qed.

Example C127_wide32_example :
  let P := Pos 65535 0 in let go := pos_dir_add_ok P in
  usable OnHash P 0 /\ fits_target (Target W32 true) OnHash P 0 /\ usize_MAX (Target W32 true) < cols P * cols P + 1 /\
  bfs_on OnHash P false 0 60 go (7, 0) (fun p => pos_eqb p (9, 0)) = Ret (Ok ((9, 0), [dE; dE])) /\
  bfs_target_on (Target W32 true) OnHash P false 0 60 go (7, 0) (fun p => pos_eqb p (9, 0)) = Panic /\
  bfs_target_on (Target W32 false) OnHash P false 0 60 go (7, 0) (fun p => pos_eqb p (9, 0)) = Ret (Err Loop).
Proof.
  split; [apply Pos_grid_type; unfold u16_dims; lia |].
  split; [split; [|split; [|discriminate]]; vm_compute; intros X; discriminate X |].
  vm_compute. repeat split; reflexivity.
Qed.
