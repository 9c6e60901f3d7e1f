(** PropHash.v -- hashing, and searches on hash tables with any hasher: C129. *)

From Coq Require Import ZArith List Bool Lia Permutation.
From Verif Require Import Rust BoundedInt Dir PosT Pos Grid Gridbool SetMap CameFrom Heap Bf Astar Ucs Hash Spec SpecSearch SpecHash Lib BoundedIntProofs PosTProofs PosTProofs2 GridProofs GridProofs2 GridboolProofs PropGridboolProofs SetMapProofs Sim CameFromProofs PropSetMapProofs BfProofs PropBfProofs BestFirst SearchProofs UcsProofs AstarProofs PropAstarProofs PropUcsProofs PropAgreeProofs.
From Verif Require Import PropHashProofs.
Import ListNotations.
Open Scope Z_scope.

(** C129: what two values hand to a hasher is equal exactly if the values are
    equal -- so equal values have equal hashes, as HashMap requires, and different
    ones can be told apart. *)
Theorem C129_feeds :
  (forall b v w, b_feed b v = b_feed b w <-> v = w) /\
  (forall P p q, pos_feed P p = pos_feed P q <-> pos_eqb p q = true) /\
  (forall d e, dir_feed d = dir_feed e <-> d = e) /\
  (forall g h : gridbool, gb_feed g = gb_feed h <-> g = h) /\
  (forall Item (feed : Item -> list hcall), (forall a b, feed a = feed b <-> a = b) -> (forall a b, length (feed a) = length (feed b)) ->
     forall g h : grid Item, grid_feed feed g = grid_feed feed h <-> g = h).
Proof. exact C129_feeds_proof. Qed.
Print Assumptions C129_feeds.

(** C129: a HashSet and a HashMap of positions answer any history of operations
    like a set and a map, whatever the hash of a position is and in whatever order
    the slots of the table are probed -- collisions, tags that agree, deleted slots
    and growth included. *)
Theorem C129_tables : forall P hash probe, fair probe ->
  (forall ops, Forall (fun o => valid P (set_op_pos o)) ops -> run_set_ops (set_table hash probe) [] ops = Ret (set_answers (fun _ => false) ops)) /\
  (forall Item (dflt : Item) ops, Forall (fun o => valid P (map_op_pos o)) ops ->
     run_map_ops (map_table hash probe) (mp_new (map_table hash probe) dflt) ops = Ret (map_answers (fun _ => dflt) ops)).
Proof. exact C129_tables_proof. Qed.
Print Assumptions C129_tables.

(** C129: at most 7 of 8 slots are ever in use or deleted, and the number of slots is a
    power of two: every probing sequence meets an empty slot, so that a lookup that
    goes on until it meets one ends. *)
Theorem C129_room : forall V hash probe (ops : list (table_op V)), fair probe ->
  let s := run_table hash probe ops in
  s = [] \/
  (exists k, length s = (4 * 2 ^ k)%nat) /\ (8 * length (filter (fun x => negb (is_empty x)) s) <= 7 * length s)%nat /\
  forall p, exists i, In i (probe (length s) (hash p)) /\ nth_error s i = Some Empty.
Proof. exact C129_room_proof. Qed.
Print Assumptions C129_room.

(** Seven insertions and a removal with equal hashes: an eighth doubles the table. *)
Example C129_room_example :
  let put := map (fun i => TInsert (Z.of_nat i, 0) tt) in
  let s := run_table (fun _ => 5) linear (put (seq 0 7) ++ [TRemove (3, 0)]) in
  length s = 8%nat /\ in_use s = 7%nat /\ length (items s) = 6%nat /\
  length (table_insert (fun _ => 5) linear s (9, 9) tt) = 8%nat /\ length (run_table (fun _ => 5) linear (put (seq 0 8))) = 16%nat.
Proof. vm_compute. repeat split. Qed.

(** C129: the searches on hash tables return the same result for every hasher, every
    probing order and every seed. *)
Theorem C129_bfs_hashed : forall H probe P D W fuel go orig found, fair probe -> post_wf P -> valid P orig -> go_inside P go ->
  bfs_hashed H probe P D fuel go orig found = bfs_on OnHash P D W fuel go orig found.
Proof. exact C129_bfs_hashed_proof. Qed.
Print Assumptions C129_bfs_hashed.

Theorem C129_ucs_hashed : forall H probe P D fuel go orig dest, fair probe -> post_wf P -> valid P orig -> valid P dest -> go_inside P (move_of go) ->
  ucs_hashed H probe P D fuel go orig dest = ucs_on OnHash P D fuel go orig dest.
Proof. exact C129_ucs_hashed_proof. Qed.
Print Assumptions C129_ucs_hashed.

Theorem C129_astar_hashed : forall H probe P D fuel go orig dest, fair probe -> post_wf P -> valid P orig -> valid P dest -> go_inside P go ->
  astar_hashed H probe P D fuel go orig dest = astar_on OnHash P D fuel go orig dest.
Proof. exact C129_astar_hashed_proof. Qed.
Print Assumptions C129_astar_hashed.

(** A hasher that gives every position the same hash, and FNV-1a: the tables differ
    (four colliding keys one after the other; four keys with equal tags spread out),
    the answers and the paths do not. *)
Example C129_example :
  let P := Pos 3 2 in
  let table hash := fold_left (fun s p => table_insert hash linear s p tt) [(0, 0); (0, 1); (1, 0); (3, 2)] [] in
  let ops := [OpInsert (0, 0); OpInsert (1, 0); OpInsert (2, 0); OpInsert (3, 0); OpInsert (0, 1); OpRemove (1, 0); OpContains (0, 1); OpContains (1, 0)] in
  let cost p d := option_map (fun q => (q, 1 + fst p)) (pos_dir_add_ok P p d) in
  fair linear /\ grid_type P /\ Forall (fun o => valid P (set_op_pos o)) ops /\ go_inside P (pos_dir_add_ok P) /\
  pos_feed P (3, 2) = [HInt u16 3; HInt u16 2] /\
  table (fun p => hash_of clash (pos_feed P p)) = [Full 0 (0, 0) tt; Full 0 (0, 1) tt; Full 0 (1, 0) tt; Full 0 (3, 2) tt; Empty; Empty; Empty; Empty] /\
  table (fun p => hash_of fnv (pos_feed P p)) = [Full 4 (3, 2) tt; Empty; Full 4 (0, 1) tt; Empty; Full 4 (1, 0) tt; Full 4 (0, 0) tt; Empty; Empty] /\
  run_set_ops (set_table (fun p => hash_of clash (pos_feed P p)) linear) [] ops = Ret [true; false] /\
  run_set_ops (set_table (fun p => hash_of fnv (pos_feed P p)) linear) [] ops = Ret [true; false] /\
  bfs_hashed clash linear P true 100 (pos_dir_add_ok P) (0, 0) (pos_eqb (3, 2)) = Ret (Ok ((3, 2), [dE; dSE; dSE])) /\
  bfs_hashed fnv linear P true 100 (pos_dir_add_ok P) (0, 0) (pos_eqb (3, 2)) = Ret (Ok ((3, 2), [dE; dSE; dSE])) /\
  ucs_hashed clash linear P true 100 cost (0, 0) (3, 2) = Ret (Ok [dSE; dSE; dE]) /\
  ucs_hashed fnv linear P true 100 cost (0, 0) (3, 2) = Ret (Ok [dSE; dSE; dE]) /\
  astar_hashed fnv linear P true 100 (pos_dir_add_ok P) (0, 0) (3, 2) = Ret (Ok [dSE; dSE; dE]).
Proof.
  cbv zeta. split; [exact linear_fair |]. split; [apply Pos_grid_type; unfold u16_dims; lia |].
  split; [repeat apply Forall_cons; try apply Forall_nil; vm_compute; repeat split; discriminate |]. split; [apply open_inside, Pos_grid_type; unfold u16_dims; lia |].
  split; [vm_compute; reflexivity |]. split; [vm_compute; reflexivity |]. split; [vm_compute; reflexivity |]. split; [vm_compute; reflexivity |]. split; [vm_compute; reflexivity |]. split; [vm_compute; reflexivity |]. split; [vm_compute; reflexivity |]. split; [vm_compute; reflexivity |]. split; [vm_compute; reflexivity |]. vm_compute. reflexivity.
Qed.
