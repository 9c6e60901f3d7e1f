(** PropEntry.v -- the searches on storage of any size and on any position type:
    C80-C84. *)

From Coq Require Import ZArith List Bool Lia.
From Verif Require Import Rust BoundedInt Dir PosT Pos Grid Gridbool SetMap CameFrom Bf Heap Astar Ucs Spec SpecSearch Lib Deque BoundedIntProofs PosTProofs PosTProofs2 GridProofs GridProofs2 PropDirProofs SetMapProofs Sim CameFromProofs PropSetMapProofs BfProofs PropBfProofs BestFirst SearchProofs UcsProofs AstarProofs PropUcsProofs.
From Verif Require Import PropEntryProofs.
Import ListNotations.
Open Scope Z_scope.

(** C80 is false: the position type of the grid-backed searches is not tied to
    their storage, and nothing checks it. *)
Theorem C80_grid_storage_refuted : exists P D SIZE WORDS orig dest,
  grid_type P /\ valid P orig /\ valid P dest /\ 0 < SIZE /\
  (forall fuel, ucs_path P D SIZE (S fuel) (fun p d => match pos_dir_add_ok P p d with Some q => Some (q, 1) | None => None end) orig dest = UB) /\
  (forall fuel, astar_path P D SIZE (S fuel) (pos_dir_add_ok P) orig dest = UB) /\
  (forall fuel, bfs_path P D WORDS SIZE (S fuel) (pos_dir_add_ok P) orig (pos_eqb dest) = UB).
Proof. exact C80_grid_storage_refuted_proof. Qed.
Print Assumptions C80_grid_storage_refuted.

(** What holds: with at least as many cells as positions the result is that of the
    hash backend; and an origin outside of the storage is always undefined
    behaviour in the searches with costs.  Missing: storage smaller than the number
    of positions. *)
Theorem C80_grid_storage_partial : forall P D SIZE,
  grid_type P -> cells P <= SIZE -> forall fuel orig dest, valid P orig -> valid P dest ->
  (forall go, go_inside P (move_of go) -> ucs_path P D SIZE fuel go orig dest = ucs_path_hash P D fuel go orig dest) /\
  (forall go, go_inside P go -> astar_path P D SIZE fuel go orig dest = astar_path_hash P D fuel go orig dest) /\
  (forall WORDS go found, usable OnGrid P WORDS -> go_inside P go ->
     bfs_path P D WORDS SIZE fuel go orig found = bfs_path_hash P D fuel go orig found).
Proof. exact C80_grid_storage_partial_proof. Qed.
Print Assumptions C80_grid_storage_partial.

Theorem C80_origin_outside_ub : forall P D SIZE fuel orig dest,
  grid_type P -> valid P orig -> 0 <= SIZE <= index_of P orig ->
  (forall go, ucs_path P D SIZE fuel go orig dest = UB) /\ (forall go, astar_path P D SIZE fuel go orig dest = UB).
Proof. exact C80_origin_outside_ub_proof. Qed.
Print Assumptions C80_origin_outside_ub.

Example C80_example :
  let go := pos_dir_add_ok (Pos 2 1) in
  astar_path (Pos 2 1) false 10 20 go (0, 0) (2, 1) = Ret (Ok [dE; dE; dS]) /\
  astar_path (Pos 2 1) false 3 20 go (0, 1) (2, 1) = UB /\
  bfs_path (Pos 2 1) true 1 6 20 go (0, 0) (pos_eqb (2, 1)) = Ret (Ok ((2, 1), [dE; dSE])) /\
  bfs_path (Pos 2 1) true 1 5 20 go (0, 0) (pos_eqb (2, 1)) = UB.
Proof. vm_compute. auto. Qed.

(** C81: breadth-first iteration on the hash and B-tree backends, on every position
    type, including tuples of any integers. *)
Theorem C81_bf_any_type : forall b P D W go orig,
  b = OnHash \/ b = OnBTree -> post_wf P -> valid P orig -> go_inside P go ->
  exists vectors : list (list (pos * dir)),
    (forall n, bf_yields b P D W go orig n = Ret (items_then_none vectors n)) /\ ~ In [] vectors /\
    (forall k l, nth_error vectors k = Some l ->
       NoDup (map fst l) /\
       (forall p, In p (map fst l) <-> at_distance D go orig (S k) p \/ (k = 0%nat /\ p = orig /\ stays D go orig)) /\
       (forall p d, In (p, d) l ->
          exists q e, at_distance D go orig k q /\ allowed D e /\ go q e = Some p /\ heading d = (heading e + 4) mod 8)) /\
    (forall p, reachable D go orig p -> p = orig \/ In p (map fst (concat vectors))).
Proof. exact C81_bf_any_type_proof. Qed.
Print Assumptions C81_bf_any_type.

Example C81_example :
  let go p d := match pos_dir_add_ok (IntTuple i8) p d with Some q => if (Z.abs (fst q) <=? 1) && (Z.abs (snd q) <=? 1) then Some q else None | None => None end in
  bf_yields OnHash (IntTuple i8) false 0 go (-1, -1) 5 =
    Ret [Some [((0, -1), dW); ((-1, 0), dN)]; Some [((1, -1), dW); ((0, 0), dN); ((-1, 1), dN)]; Some [((1, 0), dN); ((0, 1), dN)]; Some [((1, 1), dN)]; None].
Proof. vm_compute. reflexivity. Qed.

(** C82: the exact outcome of [bfs_path_hash] and [bfs_path_btree] on every position
    type: unless the goal cannot be reached it depends on whether the sizes used to
    go back from the goal exist. *)
Theorem C82_bfs_any_type : forall b P D W go orig found,
  b = OnHash \/ b = OnBTree -> post_wf P -> valid P orig -> go_inside P go -> one_step P go ->
  let limit := Z.to_nat (cols P * cols P) in
  exists r, settles (fun fuel => bfs_on b P D W fuel go orig found) r /\
    (r = Ret (Err DestinationUnreachable) <-> forall q, q <> orig -> found q = true -> ~ reachable D go orig q) /\
    forall n, nearest_goal D go orig found n ->
      exists dest, found dest = true /\ dest <> orig /\ walk D go orig n dest /\
        (~ retraceable P orig dest -> r = Panic) /\
        (retraceable P orig dest -> (n <= limit)%nat -> exists path, r = Ret (Ok (dest, path)) /\
           length path = n /\ Forall (allowed D) path /\ follow go orig path = Some dest) /\
        (retraceable P orig dest -> (limit < n)%nat -> r = Ret (Err Loop)).
Proof. exact C82_bfs_any_type_proof. Qed.
Print Assumptions C82_bfs_any_type.

(** In particular on tuples of u32, u64 and u128 every successful search panics. *)
Theorem C82_bfs_wide_tuples_panic : forall b t D W go orig found,
  b = OnHash \/ b = OnBTree -> In t [u32; u64; u128] -> valid (IntTuple t) orig ->
  go_inside (IntTuple t) go -> one_step (IntTuple t) go ->
  (exists q, q <> orig /\ found q = true /\ reachable D go orig q) ->
  settles (fun fuel => bfs_on b (IntTuple t) D W fuel go orig found) Panic.
Proof. exact C82_bfs_wide_tuples_panic_proof. Qed.
Print Assumptions C82_bfs_wide_tuples_panic.

Example C82_example :
  let near t p d := match pos_dir_add_ok (IntTuple t) p d with Some q => if (Z.abs (fst q - 100) <=? 200) && (Z.abs (snd q) <=? 1) then Some q else None | None => None end in
  bfs_on OnHash (IntTuple i8) true 0 30 (near i8) (-1, -1) (pos_eqb (3, 1)) = Ret (Ok ((3, 1), [dE; dE; dSE; dSE])) /\
  bfs_on OnBTree (IntTuple i8) true 0 300 (near i8) (-90, 0) (pos_eqb (50, 0)) = Panic /\
  bfs_on OnHash (IntTuple u32) true 0 30 (near u32) (100, 0) (pos_eqb (103, 1)) = Panic.
Proof. vm_compute. auto. Qed.

(** C83: uniform-cost search on the hash and B-tree backends, on every position
    type. *)
Theorem C83_ucs_any_type : forall b P D go orig dest,
  b = OnHash \/ b = OnBTree -> post_wf P -> valid P orig -> valid P dest ->
  go_inside P (move_of go) -> one_step P (move_of go) -> affordable D P go orig ->
  exists r, settles (fun fuel => ucs_on b P D fuel go orig dest) r /\
    (r = Ret (Err DestinationUnreachable) <-> ~ reachable D (move_of go) orig dest) /\
    (r = Panic <-> reachable D (move_of go) orig dest /\ ~ retraceable P orig dest) /\
    (r = Ret (Err DestinationUnreachable) \/ r = Panic \/
     (r = Ret (Err Loop) /\ forall rs, (forall p, reachable D (move_of go) orig p -> In p rs) -> cols P * cols P < Z.of_nat (length rs)) \/
     exists path, r = Ret (Ok path) /\ Forall (allowed D) path /\ follow (move_of go) orig path = Some dest /\
       Z.of_nat (length path) <= cols P * cols P /\
       (cost_of_entering D P go -> exists c, follow_cost go orig path = Some (dest, c) /\ lowest_cost D go orig c dest)).
Proof. exact C83_ucs_any_type_proof. Qed.
Print Assumptions C83_ucs_any_type.

Example C83_example :
  let P := IntTuple i8 in
  let go p d := match pos_dir_add_ok P p d with Some q => if (Z.abs (fst q) <=? 2) && (Z.abs (snd q) <=? 1) then Some (q, if fst q =? 0 then 9 - 8 * snd q else 1) else None | None => None end in
  ucs_on OnBTree P false 60 go (-1, -1) (1, -1) = Ret (Ok [dS; dS; dE; dE; dN; dN]) /\
  ucs_on OnHash P false 60 go (-1, -1) (100, -1) = Ret (Err DestinationUnreachable) /\
  ucs_on OnHash (IntTuple u32) false 60 (fun p d => match pos_dir_add_ok (IntTuple u32) p d with Some q => if fst q + snd q <? 3 then Some (q, 1) else None | None => None end) (0, 0) (1, 1) = Panic.
Proof. vm_compute. auto. Qed.

(** C84: A* search on the hash and B-tree backends, on every position type, if the
    distances to the destination can be computed; [rs] are the positions that can be
    reached. *)
Theorem C84_astar_any_type : forall b P D go orig dest rs,
  b = OnHash \/ b = OnBTree -> post_wf P -> valid P orig -> valid P dest -> go_inside P go -> one_step P go ->
  (forall p, reachable D go orig p -> In p rs) ->
  (forall p, reachable D go orig p -> measurable P p dest /\
     Z.of_nat (length rs) + (Z.abs (fst p - fst dest) + Z.abs (snd p - snd dest)) <= 18446744073709551615) ->
  exists r, settles (fun fuel => astar_on b P D fuel go orig dest) r /\
    (r = Ret (Err DestinationUnreachable) <-> ~ reachable D go orig dest) /\
    (r = Panic <-> reachable D go orig dest /\ ~ retraceable P orig dest) /\
    (r = Ret (Err DestinationUnreachable) \/ r = Panic \/
     (r = Ret (Err Loop) /\ (D = false -> cols P * cols P < Z.of_nat (length rs))) \/
     exists path, r = Ret (Ok path) /\ Forall (allowed D) path /\ follow go orig path = Some dest /\
       Z.of_nat (length path) <= cols P * cols P).
Proof. exact C84_astar_any_type_proof. Qed.
Print Assumptions C84_astar_any_type.

(** Where some distances cannot be computed, the only other thing that can happen is
    a panic. *)
Theorem C84_astar_panics_only_far : forall b P D go orig dest rs,
  b = OnHash \/ b = OnBTree -> post_wf P -> valid P orig -> valid P dest -> go_inside P go -> one_step P go ->
  (forall p, reachable D go orig p -> In p rs) -> Z.of_nat (length rs) <= 18446744073709551615 ->
  exists r, settles (fun fuel => astar_on b P D fuel go orig dest) r /\
    (r = Ret (Err DestinationUnreachable) -> ~ reachable D go orig dest) /\
    (reachable D go orig dest -> ~ retraceable P orig dest -> r = Panic) /\
    (r = Panic -> (reachable D go orig dest /\ ~ retraceable P orig dest) \/
       exists p, reachable D go orig p /\ ~ (measurable P p dest /\
         Z.of_nat (length rs) + (Z.abs (fst p - fst dest) + Z.abs (snd p - snd dest)) <= 18446744073709551615)) /\
    (r = Ret (Err DestinationUnreachable) \/ r = Panic \/
     (r = Ret (Err Loop) /\ (D = false -> cols P * cols P < Z.of_nat (length rs))) \/
     exists path, r = Ret (Ok path) /\ Forall (allowed D) path /\ follow go orig path = Some dest /\
       Z.of_nat (length path) <= cols P * cols P).
Proof. exact C84_astar_panics_only_far_proof. Qed.
Print Assumptions C84_astar_panics_only_far.

Example C84_example :
  let P := IntTuple i8 in
  let go p d := match pos_dir_add_ok P p d with Some q => if (Z.abs (fst q) <=? 2) && (Z.abs (snd q) <=? 1) && negb (pos_eqb q (0, 0)) then Some q else None | None => None end in
  astar_on OnHash P false 60 go (-1, 0) (2, 0) = Ret (Ok [dS; dE; dE; dE; dN]) /\
  astar_on OnBTree P true 60 go (-1, 0) (9, 0) = Ret (Err DestinationUnreachable).
Proof. vm_compute. auto. Qed.

(** On tuples of i32, in a room of six positions. *)
Example C84_i32_example :
  let P := IntTuple i32 in
  let go p d := match pos_dir_add_ok P p d with Some q => if (Z.abs (fst q) <=? 1) && (0 <=? snd q) && (snd q <=? 1) && negb (pos_eqb q (0, 0)) then Some q else None | None => None end in
  let rs := [(-1, 0); (-1, 1); (0, 1); (1, 1); (1, 0)] in
  (forall p d q, In p rs -> go p d = Some q -> In q rs) /\
  (forall p, In p rs -> measurable P p (1, 0)) /\
  astar_on OnBTree P false 60 go (-1, 0) (1, 0) = Ret (Ok [dS; dE; dE; dN]).
Proof.
  cbn zeta. split; [|split; [|vm_compute; reflexivity]].
  - intros p d q [<- | [<- | [<- | [<- | [<- | []]]]]]; destruct d; vm_compute; intros E; inversion E; auto 8.
  - intros p [<- | [<- | [<- | [<- | [<- | []]]]]]; repeat split; cbn; lia.
Qed.

(** From some positions the distance to (98, 0) is not an i8: this does no harm as
    long as they are not looked at. *)
Example C84_far_example :
  let P := IntTuple i8 in
  let go wall p d := match pos_dir_add_ok P p d with Some q => if (snd q =? 0) && negb (fst q =? wall) then Some q else None | None => None end in
  ~ measurable P (-30, 0) (98, 0) /\ reachable false (go 127) (-27, 0) (-30, 0) /\
  astar_on OnHash P false 300 (go 127) (-27, 0) (98, 0) = Ret (Ok (repeat dE 125)) /\
  astar_on OnHash P false 300 (go 50) (-27, 0) (98, 0) = Panic.
Proof.
  split; [intros ((_ & X) & _); cbn in X; lia |]. split; [|vm_compute; auto].
  exists 3%nat, [dW; dW; dW]. split; [reflexivity |]. split; [|vm_compute; reflexivity]. repeat constructor; cbn; right; right; reflexivity.
Qed.

(** When the distance from a neighbour of the origin to the destination cannot be
    computed, A* search panics at once, on every backend of plain maps. *)
Theorem C84_astar_far_destination_panics : forall b P D go orig dest d q fuel,
  b = OnHash \/ b = OnBTree -> post_wf P -> valid P orig -> valid P dest -> go_inside P go ->
  allowed D d -> go orig d = Some q -> q <> orig -> ~ measurable P q dest ->
  astar_on b P D (S fuel) go orig dest = Panic.
Proof. exact C84_astar_far_destination_panics_proof. Qed.
Print Assumptions C84_astar_far_destination_panics.

Example C84_panic_example :
  astar_on OnHash (IntTuple i8) false 5 (pos_dir_add_ok (IntTuple i8)) (-100, 0) (100, 0) = Panic /\
  astar_on OnHash (IntTuple i16) false 5 (fun p d => if 3 <? fst p then None else pos_dir_add_ok (IntTuple i16) p d) (3, 0) (4, 0) = Ret (Ok [dE]).
Proof. vm_compute. auto. Qed.
