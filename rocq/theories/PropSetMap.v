(** PropSetMap.v -- properties of the storage backends and of path
    reconstruction: C43, C44, C45, C57, C71. *)

From Coq Require Import ZArith List Bool Lia.
From Verif Require Import Rust BoundedInt Dir PosT Pos Grid Gridbool SetMap CameFrom Bf Heap Astar Ucs Spec SpecSearch Lib Deque BoundedIntProofs PosTProofs PosTProofs2 PropGridboolProofs SetMapProofs Sim CameFromProofs.
From Verif Require Import PropSetMapProofs.
Import ListNotations.
Open Scope Z_scope.

(** C43: under every sequence of operations, each backend answers like a
    mathematical set (function) of positions. *)
Theorem C43_set_backends_gridbool : forall X Y WORDS ops, let P := Pos X Y in
  u16_dims X Y -> cells P <= 32 * WORDS <= cells P + 32 ->
  Forall (fun o => valid P (set_op_pos o)) ops ->
  bind (gb_default P WORDS) (fun s => run_set_ops (set_gridbool P WORDS) s ops) =
    Ret (set_answers (fun _ => false) ops).
Proof. exact C43_set_backends_gridbool_proof. Qed.
Print Assumptions C43_set_backends_gridbool.

Theorem C43_set_backends_std : forall P ops, Forall (fun o => valid P (set_op_pos o)) ops ->
  run_set_ops set_hash [] ops = Ret (set_answers (fun _ => false) ops) /\
  run_set_ops set_btree [] ops = Ret (set_answers (fun _ => false) ops).
Proof. exact C43_set_backends_std_proof. Qed.
Print Assumptions C43_set_backends_std.

Theorem C43_map_backends : forall Item P (dflt : Item) ops, grid_type P ->
  Forall (fun o => valid P (map_op_pos o)) ops ->
  let answers := map_answers (fun _ => dflt) ops in
  run_map_ops (map_grid P (cells P)) (mp_new (map_grid P (cells P)) dflt) ops = Ret answers /\
  run_map_ops (map_grid P (cells P)) (mp_default (map_grid P (cells P)) dflt) ops = Ret answers /\
  run_map_ops map_hash (mp_new map_hash dflt) ops = Ret answers /\
  run_map_ops map_hash (mp_default map_hash dflt) ops = Ret answers /\
  run_map_ops map_btree (mp_new map_btree dflt) ops = Ret answers /\
  run_map_ops map_btree (mp_default map_btree dflt) ops = Ret answers.
Proof. exact C43_map_backends_proof. Qed.
Print Assumptions C43_map_backends.

Example C43_example : exists s, gb_default (Pos 6 6) 2 = Ret s /\
  run_set_ops (set_gridbool (Pos 6 6) 2) s [OpInsert (3, 3); OpContains (3, 3); OpInsert (4, 6); OpSet (3, 3) false; OpContains (3, 3); OpContains (4, 6)]
    = Ret [true; false; true] /\
  run_map_ops map_btree (mp_new map_btree 5) [OpPut (1, 2) 7; OpPut (0, 3) 8; OpGet (1, 2); OpPut (1, 2) 9; OpGet (1, 2); OpGet (2, 2)] = Ret [7; 9; 5].
Proof. exists [0; 0]. vm_compute. auto. Qed.

(** C44: path reconstruction is total and sound, on any MapPos whose [get]
    returns for every position. *)
Theorem C44_camefrom_sound : forall M P (mo : mapops (option dir) M) m f orig dest,
  grid_type P -> valid P orig -> valid P dest ->
  (forall p, valid P p -> mp_get mo m p = Ret (f p)) ->
  exists r, returns (fun fuel => camefrom_into_path P mo fuel m orig dest) r /\
    (r = Err DestinationUnreachable <-> f dest = None) /\
    (forall path, r = Ok path -> walk_inside P orig path dest).
Proof. exact C44_camefrom_sound_proof. Qed.
Print Assumptions C44_camefrom_sound.

Example C44_example : exists g : grid (option dir), proper (Pos 2 2) g /\
  grid_get (Pos 2 2) g (2, 2) = Ret (Some dNW) /\ grid_get (Pos 2 2) g (1, 1) = Ret (Some dN) /\
  camefrom_into_path (Pos 2 2) (map_grid (Pos 2 2) 9) 20 g (1, 0) (2, 2) = Ret (Ok [dS; dSE]) /\
  camefrom_into_path (Pos 2 2) (map_grid (Pos 2 2) 9) 20 g (0, 0) (2, 2) = Ret (Err InvalidMovement) /\
  camefrom_into_path (Pos 2 2) (map_grid (Pos 2 2) 9) 20 g (0, 0) (2, 1) = Ret (Err DestinationUnreachable).
Proof.
  exists [None; None; None; None; Some dN; None; None; None; Some dNW]. vm_compute. repeat split.
Qed.

(** C71: exactly when it succeeds: the entries must lead back to the origin in
    at most width * width moves. *)
Theorem C71_camefrom_exact : forall M P (mo : mapops (option dir) M) m f orig dest,
  grid_type P -> valid P orig -> valid P dest ->
  (forall p, valid P p -> mp_get mo m p = Ret (f p)) -> f dest <> None ->
  let limit := Z.to_nat (cols P * cols P) in
  exists r, returns (fun fuel => camefrom_into_path P mo fuel m orig dest) r /\
    (forall n, (exists path, r = Ok path /\ length path = n) <-> (n <= limit)%nat /\ leads_back P f orig n dest) /\
    (r = Err Loop <-> goes_on P f orig (S limit) dest) /\
    (r = Err InvalidMovement <-> (~ exists n, (n <= limit)%nat /\ leads_back P f orig n dest) /\ ~ goes_on P f orig (S limit) dest).
Proof. exact C71_camefrom_exact_proof. Qed.
Print Assumptions C71_camefrom_exact.

Example C71_example : exists g : grid (option dir), proper (Pos 1 6) g /\
  camefrom_into_path (Pos 1 6) (map_grid (Pos 1 6) 14) 20 g (0, 0) (0, 4) = Ret (Ok [dS; dS; dS; dS]) /\
  camefrom_into_path (Pos 1 6) (map_grid (Pos 1 6) 14) 20 g (0, 0) (0, 5) = Ret (Err Loop).
Proof.
  exists (repeat (Some dN) 14). vm_compute. repeat split.
Qed.

(** C45 is false: on a grid with more rows than columns a good map can be
    reported as a loop. *)
Theorem C45_camefrom_loop_refuted : exists X Y (g : grid (option dir)) orig dest f,
  u16_dims X Y /\ let P := Pos X Y in
  proper P g /\ valid P orig /\ valid P dest /\ (forall p, valid P p -> grid_get P g p = Ret (f p)) /\
  leads_back P f orig 2 dest /\
  returns (fun fuel => camefrom_into_path P (map_grid P (cells P)) fuel g orig dest) (Err Loop).
Proof. exact C45_camefrom_loop_refuted_proof. Qed.
Print Assumptions C45_camefrom_loop_refuted.

(** The part that holds: with at least as many columns as rows, Loop means that
    the entries can be followed for ever without meeting the origin, and Ok that
    they lead back.  Missing: grids with more rows than columns. *)
Theorem C45_camefrom_loop_partial : forall M P (mo : mapops (option dir) M) m f orig dest,
  grid_type P -> rows P <= cols P -> valid P orig -> valid P dest ->
  (forall p, valid P p -> mp_get mo m p = Ret (f p)) -> f dest <> None ->
  exists r, returns (fun fuel => camefrom_into_path P mo fuel m orig dest) r /\
    (r = Err Loop <-> forall n, goes_on P f orig n dest) /\
    (forall n, (exists path, r = Ok path /\ length path = n) <-> leads_back P f orig n dest).
Proof. exact C45_camefrom_loop_partial_proof. Qed.
Print Assumptions C45_camefrom_loop_partial.

Example C45_example : exists g : grid (option dir), proper (Pos 2 2) g /\
  camefrom_into_path (Pos 2 2) (map_grid (Pos 2 2) 9) 20 g (1, 0) (1, 2) = Ret (Err Loop).
Proof.
  exists (repeat (Some dN) 4 ++ [Some dS] ++ repeat (Some dN) 4). vm_compute. repeat split.
Qed.

(** C57: the backends give identical results. *)
Theorem C57_backend_independence : forall b1 b2 P D W1 W2 fuel orig dest,
  usable b1 P W1 -> usable b2 P W2 -> valid P orig -> valid P dest ->
  (forall go found, go_inside P go ->
    bfs_on b1 P D W1 fuel go orig found = bfs_on b2 P D W2 fuel go orig found /\
    astar_on b1 P D fuel go orig dest = astar_on b2 P D fuel go orig dest) /\
  (forall go, go_inside P (move_of go) ->
    ucs_on b1 P D fuel go orig dest = ucs_on b2 P D fuel go orig dest).
Proof. exact C57_backend_independence_proof. Qed.
Print Assumptions C57_backend_independence.

Example C57_example : usable OnGrid (Pos 6 6) 2 /\ usable OnHash (Pos 6 6) 0 /\
  bfs_on OnGrid (Pos 6 6) false 2 99 (pos_dir_add_ok (Pos 6 6)) (1, 1) (fun p => pos_eqb p (2, 3)) = Ret (Ok ((2, 3), [dE; dS; dS])) /\
  astar_on OnHash (Pos 6 6) true 99 (pos_dir_add_ok (Pos 6 6)) (1, 1) (2, 3) = Ret (Ok [dSE; dS]).
Proof.
  split; [exists 6, 6; unfold u16_dims, cells, cols, rows; cbn; repeat split; lia |].
  split; [apply Pos_grid_type; unfold u16_dims; lia |]. split; vm_compute; reflexivity.
Qed.
