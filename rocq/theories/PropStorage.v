(** PropStorage.v -- searches with the storage of a user: C131. *)

From Coq Require Import ZArith List Bool Lia.
From Verif Require Import Rust BoundedInt Dir PosT Pos Grid Gridbool SetMap CameFrom Heap Bf Astar Ucs Spec SpecSearch SpecStorage Lib BoundedIntProofs PosTProofs PosTProofs2 SetMapProofs Sim CameFromProofs PropSetMapProofs BfProofs PropBfProofs BestFirst SearchProofs UcsProofs AstarProofs PropAstarProofs PropUcsProofs PropAgreeProofs.
From Verif Require Import PropStorageProofs.
Import ListNotations.
Open Scope Z_scope.

(** C131: with any storage that acts as a set and as maps, the generic searches return
    what they return with std's types, and the iterators yield the same. *)
Theorem C131_any_storage : forall S M MC P D W (so : setops S) (mo : mapops (option dir) M) (co : mapops Z MC) orig,
  acts_as_set P so -> acts_as_map P mo -> acts_as_map P co -> post_wf P -> valid P orig ->
  (forall go, go_inside P go ->
     (forall fuel found, bf_search_path P D so mo go fuel orig found = bfs_on OnHash P D W fuel go orig found) /\
     (forall n, bind (bf_iter D so go orig) (next_calls (bf_next D so go) n) = bf_yields OnHash P D W go orig n) /\
     forall dest, valid P dest ->
       (forall fuel, astar_search_path P D co mo go fuel orig dest = astar_on OnHash P D fuel go orig dest) /\
       (forall n, astar_yields_with co P D go orig dest n = astar_yields OnHash P D go orig dest n)) /\
  (forall go, go_inside P (move_of go) ->
     (forall n, ucs_yields_with co D go orig n = ucs_yields OnHash P D go orig n) /\
     forall dest fuel, valid P dest -> ucs_search_path P D co mo go fuel orig dest = ucs_on OnHash P D fuel go orig dest).
Proof. exact C131_any_storage_proof. Qed.
Print Assumptions C131_any_storage.

(** C131: path reconstruction, likewise, from a map filled by any calls of [set]. *)
Theorem C131_any_map : forall M P (mo : mapops (option dir) M) l fuel orig dest,
  acts_as_map P mo -> post_wf P -> Forall (fun pv => valid P (fst pv)) l -> valid P dest ->
  bind (filled mo None l) (fun m => camefrom_into_path P mo fuel m orig dest) =
  bind (filled map_hash None l) (fun m => camefrom_into_path P map_hash fuel m orig dest).
Proof. exact C131_any_map_proof. Qed.
Print Assumptions C131_any_map.

(** A set that is a list and panics at removals, maps that are closures. *)
Example C131_example :
  let P := Pos 3 2 in
  acts_as_set P set_list /\ acts_as_map P (@map_closure (option dir)) /\ acts_as_map P (@map_closure Z) /\ grid_type P /\ go_inside P (pos_dir_add_ok P) /\
  bf_search_path P true set_list map_closure (pos_dir_add_ok P) 100 (0, 0) (pos_eqb (3, 2)) = Ret (Ok ((3, 2), [dE; dSE; dSE])) /\
  astar_search_path P true map_closure map_closure (pos_dir_add_ok P) 100 (0, 0) (3, 2) = Ret (Ok [dSE; dSE; dE]) /\
  bind (filled map_closure None [((1, 0), Some dW); ((1, 1), Some dN)]) (fun m => camefrom_into_path P map_closure 9 m (0, 0) (1, 1)) = Ret (Ok [dE; dS]).
Proof.
  cbv zeta. split; [apply list_acts |]. split; [apply closure_acts |]. split; [apply closure_acts |]. split; [apply Pos_grid_type; unfold u16_dims; lia |]. split; [apply open_inside, Pos_grid_type; unfold u16_dims; lia |]. split; [vm_compute; reflexivity |]. split; vm_compute; reflexivity.
Qed.

(** The same with negative coordinates. *)
Example C131_i32_example :
  let P := IntTuple i32 in
  let go p d := match pos_dir_add_ok P p d with Some q => if (Z.abs (fst q) <=? 1) && (Z.abs (snd q) <=? 1) && negb (pos_eqb q (0, 0)) then Some q else None | None => None end in
  post_wf P /\ ~ grid_type P /\ go_inside P go /\ valid P (-1, -1) /\
  bf_search_path P false set_list map_closure go 100 (-1, -1) (pos_eqb (1, 0)) = Ret (Ok ((1, 0), [dE; dE; dS])) /\
  astar_search_path P false map_closure map_closure go 100 (-1, -1) (1, 0) = Ret (Ok [dE; dE; dS]).
Proof.
  cbv zeta. split; [repeat split; try (cbn; auto 20; fail); discriminate |]. split; [intros (_ & H & _); discriminate H |]. split; [|split; [repeat split; discriminate |]; split; vm_compute; reflexivity].
  intros p d q V H. destruct (pos_dir_add_ok (IntTuple i32) p d) as [r |]; [|discriminate H]. destruct (Z.abs_spec (fst r)), (Z.abs_spec (snd r)), (Z.leb_spec (Z.abs (fst r)) 1), (Z.leb_spec (Z.abs (snd r)) 1); try discriminate H; destruct (negb _); try discriminate H; injection H as <-; unfold valid, in_bty; change (imin i32) with (-2147483648); cbn; lia.
Qed.
