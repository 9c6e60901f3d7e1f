(** PropWrap.v -- searches in builds without overflow checks, on any position type:
    C135. *)

From Coq Require Import ZArith List Bool Lia.
From Verif Require Import Rust BoundedInt Dir PosT Pos Grid Gridbool SetMap CameFrom Heap Bf Astar Ucs Target Spec SpecSearch SpecTarget SpecWrap Lib BoundedIntProofs PosTProofs PosTProofs2 GridProofs GridProofs2 SetMapProofs Sim CameFromProofs PropSetMapProofs BfProofs PropBfProofs BestFirst SearchProofs UcsProofs AstarProofs PropAstarProofs PropUcsProofs PropTargetProofs.
From Verif Require Import PropWrapProofs.
Import ListNotations.
Open Scope Z_scope.

(** ** Checks only turn results into panics *)

(** C135: on every target, whatever a search returns in a build with overflow checks
    it also returns in a build without them. *)
Theorem C135_checks_only_panic : forall w b P D fuel,
  (forall W go orig found r, bfs_target_on (Target w true) b P D W fuel go orig found = Ret r ->
     bfs_target_on (Target w false) b P D W fuel go orig found = Ret r) /\
  (forall go orig dest r, ucs_target_on (Target w true) b P D fuel go orig dest = Ret r ->
     ucs_target_on (Target w false) b P D fuel go orig dest = Ret r) /\
  (forall go orig dest r, astar_target_on (Target w true) b P D fuel go orig dest = Ret r ->
     astar_target_on (Target w false) b P D fuel go orig dest = Ret r).
Proof. exact C135_checks_only_panic_proof. Qed.
Print Assumptions C135_checks_only_panic.

Example C135_checks_example :
  let go := pos_dir_add_ok (Pos 3 2) in
  bfs_target_on (Target W32 true) OnGrid (Pos 3 2) true 1 60 go (0, 0) (fun p => pos_eqb p (3, 1)) = Ret (Ok ((3, 1), [dE; dE; dSE])) /\
  ucs_target_on (Target W16 true) OnGrid (Pos 3 2) false 60 (fun p d => option_map (fun q => (q, 40000)) (go p d)) (0, 0) (2, 0) = Panic /\
  ucs_target_on (Target W16 false) OnGrid (Pos 3 2) false 60 (fun p d => option_map (fun q => (q, 40000)) (go p d)) (0, 0) (2, 0) = Ret (Ok [dE; dE]).
Proof. vm_compute. auto. Qed.

(** ** Any position type *)

(** C135: the exact outcome of breadth-first search without overflow checks, on
    every position type and target. *)
Theorem C135_bfs_any_type : forall t b P D W go orig found,
  t_checks t = false -> b = OnHash \/ b = OnBTree -> post_wf P -> valid P orig -> go_inside P go -> one_step P go ->
  exists r, settles (fun fuel => bfs_target_on t b P D W fuel go orig found) r /\
    (r = Ret (Err DestinationUnreachable) <-> forall q, q <> orig -> found q = true -> ~ reachable D go orig q) /\
    forall n, nearest_goal D go orig found n ->
      exists dest path, found dest = true /\ dest <> orig /\
        length path = n /\ Forall (allowed D) path /\ follow go orig path = Some dest /\
        (~ wrapped_retraceable t P orig dest -> r = Panic) /\
        (wrapped_retraceable t P orig dest ->
           r = if Z.of_nat n <? wrapped_limit t P then Ret (Ok (dest, path)) else Ret (Err Loop)).
Proof. exact C135_bfs_any_type_proof. Qed.
Print Assumptions C135_bfs_any_type.

(** Uniform-cost search; the cost is the lowest if it only depends on the position
    entered. *)
Theorem C135_ucs_any_type : forall t b P D go orig dest,
  t_checks t = false -> b = OnHash \/ b = OnBTree -> post_wf P -> valid P orig -> valid P dest ->
  go_inside P (move_of go) -> one_step P (move_of go) -> affordable_on t D P go orig ->
  exists r, settles (fun fuel => ucs_target_on t b P D fuel go orig dest) r /\
    (r = Ret (Err DestinationUnreachable) <-> ~ reachable D (move_of go) orig dest) /\
    (reachable D (move_of go) orig dest ->
      exists path, Forall (allowed D) path /\ follow (move_of go) orig path = Some dest /\
        (forall rs, (forall p, reachable D (move_of go) orig p -> In p rs) -> (length path < length rs)%nat) /\
        (cost_of_entering D P go -> exists c, follow_cost go orig path = Some (dest, c) /\ lowest_cost D go orig c dest) /\
        (~ wrapped_retraceable t P orig dest -> r = Panic) /\
        (wrapped_retraceable t P orig dest ->
           r = if Z.of_nat (length path) <? wrapped_limit t P then Ret (Ok path) else Ret (Err Loop))).
Proof. exact C135_ucs_any_type_proof. Qed.
Print Assumptions C135_ucs_any_type.

(** A* search, if the distances to the destination can be computed. *)
Theorem C135_astar_any_type : forall t b P D go orig dest rs,
  t_checks t = false -> b = OnHash \/ b = OnBTree -> post_wf P -> valid P orig -> valid P dest -> go_inside P go -> one_step P go ->
  (forall p, reachable D go orig p -> In p rs) ->
  (forall p, reachable D go orig p -> measurable P p dest /\
     Z.of_nat (length rs) + (Z.abs (fst p - fst dest) + Z.abs (snd p - snd dest)) <= usize_MAX t) ->
  exists r, settles (fun fuel => astar_target_on t b P D fuel go orig dest) r /\
    (r = Ret (Err DestinationUnreachable) <-> ~ reachable D go orig dest) /\
    (reachable D go orig dest ->
      (~ wrapped_retraceable t P orig dest -> r = Panic) /\
      (wrapped_retraceable t P orig dest ->
         r = Ret (Err Loop) \/
         exists path, r = Ret (Ok path) /\ Forall (allowed D) path /\ follow go orig path = Some dest /\
           Z.of_nat (length path) < wrapped_limit t P) /\
      (D = false -> exists path, Forall (allowed D) path /\ follow go orig path = Some dest /\ (length path < length rs)%nat /\
         (wrapped_retraceable t P orig dest ->
            r = if Z.of_nat (length path) <? wrapped_limit t P then Ret (Ok path) else Ret (Err Loop)))).
Proof. exact C135_astar_any_type_proof. Qed.
Print Assumptions C135_astar_any_type.

(** In particular, on tuples of u32 in a 64-bit build without overflow checks, every
    search that gets anywhere reports a loop. *)
Theorem C135_u32_bfs_loop : forall b D W go orig found,
  b = OnHash \/ b = OnBTree -> valid (IntTuple u32) orig -> go_inside (IntTuple u32) go -> one_step (IntTuple u32) go ->
  (exists q, q <> orig /\ found q = true /\ reachable D go orig q) ->
  settles (fun fuel => bfs_target_on (Target W64 false) b (IntTuple u32) D W fuel go orig found) (Ret (Err Loop)).
Proof. exact C135_u32_bfs_loop_proof. Qed.
Print Assumptions C135_u32_bfs_loop.

Theorem C135_u32_ucs_loop : forall b D go orig dest,
  b = OnHash \/ b = OnBTree -> valid (IntTuple u32) orig -> valid (IntTuple u32) dest -> dest <> orig ->
  go_inside (IntTuple u32) (move_of go) -> one_step (IntTuple u32) (move_of go) ->
  affordable_on (Target W64 false) D (IntTuple u32) go orig -> reachable D (move_of go) orig dest ->
  settles (fun fuel => ucs_target_on (Target W64 false) b (IntTuple u32) D fuel go orig dest) (Ret (Err Loop)).
Proof. exact C135_u32_ucs_loop_proof. Qed.
Print Assumptions C135_u32_ucs_loop.

Theorem C135_u32_astar_loop : forall b D go orig dest rs,
  b = OnHash \/ b = OnBTree -> valid (IntTuple u32) orig -> valid (IntTuple u32) dest -> dest <> orig ->
  go_inside (IntTuple u32) go -> one_step (IntTuple u32) go ->
  (forall p, reachable D go orig p -> In p rs) -> Z.of_nat (length rs) + 2 * 4294967295 <= 18446744073709551615 -> reachable D go orig dest ->
  settles (fun fuel => astar_target_on (Target W64 false) b (IntTuple u32) D fuel go orig dest) (Ret (Err Loop)).
Proof. exact C135_u32_astar_loop_proof. Qed.
Print Assumptions C135_u32_astar_loop.

Example C135_example :
  let near t p d := match pos_dir_add_ok (IntTuple t) p d with Some q => if (Z.abs (fst q - 100) <=? 4) && (Z.abs (snd q) <=? 1) then Some q else None | None => None end in
  let cost t p d := option_map (fun q => (q, 1)) (near t p d) in
  let rel := Target W64 false in
  bfs_target_on rel OnHash (IntTuple u32) true 0 60 (near u32) (100, 0) (pos_eqb (103, 1)) = Ret (Err Loop) /\
  bfs_target_on (Target W64 true) OnHash (IntTuple u32) true 0 60 (near u32) (100, 0) (pos_eqb (103, 1)) = Panic /\
  bfs_target_on rel OnHash (IntTuple u32) true 0 60 (near u32) (100, 0) (pos_eqb (103, 2)) = Ret (Err DestinationUnreachable) /\
  ucs_target_on rel OnBTree (IntTuple u32) false 60 (cost u32) (100, 0) (101, 0) = Ret (Err Loop) /\
  astar_target_on rel OnHash (IntTuple u32) false 60 (near u32) (100, 0) (101, 0) = Ret (Err Loop) /\
  astar_target_on rel OnHash (IntTuple u32) false 60 (near u32) (100, 0) (100, 0) = Ret (Ok []) /\
  astar_target_on rel OnHash (IntTuple i32) false 60 (near i32) (100, 0) (102, -1) = Ret (Ok [dE; dE; dN]) /\
  astar_target_on rel OnHash (IntTuple u64) false 60 (near u64) (100, 0) (102, 1) = Ret (Err Loop) /\
  astar_target_on rel OnHash (IntTuple u64) false 60 (near u64) (100, 0) (102, 1) = Ret (Err Loop) /\
  astar_target_on rel OnHash (IntTuple u128) false 60 (near u128) (100, 0) (102, 1) = Panic /\
  bfs_target_on (Target W32 false) OnBTree (IntTuple u16) true 0 60 (near u16) (100, 0) (pos_eqb (103, 1)) = Ret (Err Loop) /\
  bfs_target_on (Target W16 false) OnBTree (IntTuple u8) true 0 60 (near u8) (100, 0) (pos_eqb (103, 1)) = Ret (Err Loop).
Proof. vm_compute. repeat split. Qed.
