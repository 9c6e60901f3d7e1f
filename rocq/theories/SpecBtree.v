(** SpecBtree.v -- B-trees seen from outside: their entries in order, and their height. *)

From Coq Require Import ZArith List Bool.
From Verif Require Import Rust BoundedInt Dir PosT Pos Grid Gridbool SetMap CameFrom Bf Astar Ucs Spec Btree.
Import ListNotations.
Open Scope nat_scope.

(** A comparison of positions that is an order: [Eq] for equal positions only, [Lt]
    and [Gt] exchanged with the operands, and transitive. *)
Record total_order (cmp : pos -> pos -> comparison) : Prop := {
  to_eq : forall p q, cmp p q = Eq <-> p = q;
  to_flip : forall p q, cmp q p = CompOpp (cmp p q);
  to_trans : forall p q r, cmp p q = Lt -> cmp q r = Lt -> cmp p r = Lt }.

(** What is below the edges of a node, and between them its entries. *)
Fixpoint weave {A} (ks : list A) (below : list (list A)) {struct below} : list A :=
  match below with
  | [] => ks
  | c :: below' => c ++ match ks with [] => [] | k :: ks' => k :: weave ks' below' end
  end.

(** The entries of a tree, in order. *)
Fixpoint entries {V} (t : node V) : list (pos * V) :=
  match t with Node ks cs => weave ks (map entries cs) end.

(** All leaves are at the same distance [h] from the root, inner nodes have an edge more
    than entries, no node has more than 11 entries and none but the root less than 5. *)
Inductive balanced {V} : nat -> node V -> Prop :=
| balanced_leaf : forall ks, length ks <= 11 -> balanced 0 (Node ks [])
| balanced_inner : forall h ks cs, 1 <= length ks <= 11 -> length cs = S (length ks) ->
    Forall (fun c => 5 <= length (kvs c) /\ balanced h c) cs -> balanced (S h) (Node ks cs).

(** The set or map that a sequence of operations leaves. *)
Fixpoint set_after {S} (so : setops S) (s : S) (ops : list set_op) : exec S :=
  match ops with
  | [] => Ret s
  | OpInsert p :: ops' => s' <- sp_insert so s p ;; set_after so s' ops'
  | OpRemove p :: ops' => s' <- sp_remove so s p ;; set_after so s' ops'
  | OpSet p b :: ops' => s' <- sp_set so s p b ;; set_after so s' ops'
  | OpContains p :: ops' => set_after so s ops'
  end.
Fixpoint map_after {Item M} (mo : mapops Item M) (m : M) (ops : list (map_op Item)) : exec M :=
  match ops with
  | [] => Ret m
  | OpPut p v :: ops' => m' <- mp_set mo m p v ;; map_after mo m' ops'
  | OpGet p :: ops' => map_after mo m ops'
  end.

(** [bfs_path_btree], [ucs_path_btree] and [astar_path_btree] on B-trees. *)
Definition bfs_btrees (P : post) (D : bool) (fuel : nat) (go : pos -> dir -> option pos) (orig : pos) (found : pos -> bool) :=
  bf_search_path P D set_tree map_tree go fuel orig found.
Definition ucs_btrees (P : post) (D : bool) (fuel : nat) (go : pos -> dir -> option (pos * Z)) (orig dest : pos) :=
  ucs_search_path P D map_tree map_tree go fuel orig dest.
Definition astar_btrees (P : post) (D : bool) (fuel : nat) (go : pos -> dir -> option pos) (orig dest : pos) :=
  astar_search_path P D map_tree map_tree go fuel orig dest.
