(** PropBtree.v -- searches on B-trees: C132. *)

From Coq Require Import ZArith List Bool Lia Sorted.
From Verif Require Import Rust BoundedInt Dir PosT Pos Grid Gridbool SetMap CameFrom Heap Bf Astar Ucs Spec SpecSearch SpecStorage Btree SpecBtree Lib BoundedIntProofs PosTProofs PosTProofs2 SetMapProofs Sim CameFromProofs PropSetMapProofs BfProofs PropBfProofs BestFirst SearchProofs UcsProofs AstarProofs PropAstarProofs PropUcsProofs PropAgreeProofs BtreeProofs.
From Verif Require Import PropBtreeProofs.
Import ListNotations.
Open Scope Z_scope.

(** C132: a BTreeSet and a BTreeMap of positions, as trees of nodes of 11 entries that
    split, merge and lend entries to each other, answer any history of operations like
    a set and a map, and never access what is not in a node. *)
Theorem C132_btrees : forall P,
  (forall ops, Forall (fun o => valid P (set_op_pos o)) ops -> run_set_ops set_tree tree_empty ops = Ret (set_answers (fun _ => false) ops)) /\
  (forall Item (dflt : Item) ops, Forall (fun o => valid P (map_op_pos o)) ops ->
     run_map_ops map_tree (mp_new map_tree dflt) ops = Ret (map_answers (fun _ => dflt) ops)).
Proof. exact C132_btrees_proof. Qed.
Print Assumptions C132_btrees.

(** C132: after any history the entries, in order, are those of the sorted list; all
    leaves are at the same depth, and this depth is at most logarithmic. *)
Theorem C132_balanced :
  (forall ops, exists t l, set_after set_tree tree_empty ops = Ret t /\ set_after set_btree [] ops = Ret l /\
     map fst (entries (snd t)) = l /\ balanced (fst t) (snd t) /\ (fst t = 0 \/ 2 * 6 ^ fst t <= S (length l))%nat) /\
  (forall Item (dflt : Item) ops, exists t l, map_after map_tree (mp_new map_tree dflt) ops = Ret (t, dflt) /\ map_after map_btree (mp_new map_btree dflt) ops = Ret (l, dflt) /\
     entries (snd t) = l /\ balanced (fst t) (snd t) /\ (fst t = 0 \/ 2 * 6 ^ fst t <= S (length l))%nat).
Proof. exact C132_balanced_proof. Qed.
Print Assumptions C132_balanced.

(** C132: the searches on B-trees return what they return on sorted lists. *)
Theorem C132_searches : forall P D W fuel orig, post_wf P -> valid P orig ->
  (forall go found, go_inside P go -> bfs_btrees P D fuel go orig found = bfs_on OnBTree P D W fuel go orig found) /\
  (forall go dest, go_inside P (move_of go) -> valid P dest -> ucs_btrees P D fuel go orig dest = ucs_on OnBTree P D fuel go orig dest) /\
  (forall go dest, go_inside P go -> valid P dest -> astar_btrees P D fuel go orig dest = astar_on OnBTree P D fuel go orig dest).
Proof. exact C132_searches_proof. Qed.
Print Assumptions C132_searches.

(** A hundred positions make a tree with three levels; removing most of them leaves
    two. *)
Example C132_example :
  let P := Pos 9 9 in
  let square := flat_map (fun x => map (fun y => (x, y)) (zrange 0 10)) (zrange 0 10) in
  let ops := map OpInsert square ++ map OpRemove (firstn 80 square) in
  let asks := ops ++ [OpContains (7, 9); OpContains (8, 0); OpInsert (7, 9); OpContains (7, 9)] in
  let cost p d := option_map (fun q => (q, 1 + fst p)) (pos_dir_add_ok P p d) in
  let shape t := (fst t, length (kvs (snd t)), map (fun c => length (kvs c)) (edges (snd t))) in
  grid_type P /\ Forall (fun o => valid P (set_op_pos o)) asks /\ go_inside P (pos_dir_add_ok P) /\
  bind (set_after set_tree tree_empty (map OpInsert square)) (fun t => Ret (shape t)) = Ret (2, 1, [6; 6])%nat /\
  bind (set_after set_tree tree_empty ops) (fun t => Ret (shape t)) = Ret (1, 1, [10; 9])%nat /\
  run_set_ops set_tree tree_empty asks = Ret [false; true; true] /\
  bfs_btrees P true 100 (pos_dir_add_ok P) (0, 0) (pos_eqb (3, 2)) = Ret (Ok ((3, 2), [dE; dSE; dSE])) /\
  ucs_btrees P true 999 cost (0, 0) (3, 2) = Ret (Ok [dSE; dSE; dE]) /\
  astar_btrees P true 100 (pos_dir_add_ok P) (0, 0) (3, 2) = Ret (Ok [dSE; dSE; dE]).
Proof.
  cbv zeta. split; [apply Pos_grid_type; unfold u16_dims; lia |]. split; [apply Forall_forall; intros o H; vm_compute in H; repeat (destruct H as [<- | H]; [vm_compute; repeat split; discriminate |]); contradiction |].
  split; [apply open_inside, Pos_grid_type; unfold u16_dims; lia |]. split; [vm_compute; reflexivity |]. split; [vm_compute; reflexivity |]. split; [vm_compute; reflexivity |]. split; [vm_compute; reflexivity |]. split; vm_compute; reflexivity.
Qed.
