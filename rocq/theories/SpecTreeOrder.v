(** SpecTreeOrder.v -- B-trees and searches on position types with an order of their own. *)

From Coq Require Import ZArith List Bool.
From Verif Require Import Rust BoundedInt Dir PosT Pos Grid Gridbool SetMap CameFrom Bf Astar Ucs Heap Queue Order Spec SpecSearch SpecQueue SpecOrder Btree SpecBtree.
Import ListNotations.
Open Scope Z_scope.

(** A comparison that is an order of the values of a type, as [Ord] asks for. *)
Record order_of (P : post) (cmp : pos -> pos -> comparison) : Prop := {
  oo_eq : forall p q, valid P p -> valid P q -> (cmp p q = Eq <-> p = q);
  oo_flip : forall p q, valid P p -> valid P q -> cmp q p = CompOpp (cmp p q);
  oo_trans : forall p q r, valid P p -> valid P q -> valid P r -> cmp p q = Lt -> cmp q r = Lt -> cmp p r = Lt }.

(** [<=] of the pairs of a position and a direction, as the heap compares them. *)
Definition pair_le (cmp : pos -> pos -> comparison) (a b : pos * dir) : bool :=
  match cmp (fst a) (fst b) with
  | Lt => true
  | Eq => dir_index (snd a) <=? dir_index (snd b)
  | Gt => false
  end.

(** [bfs_path_btree], [ucs_path_btree] and [astar_path_btree] where [Ord::cmp] of the
    positions is [cmp]: it orders the keys of the B-trees and the elements of the heap. *)
Definition bfs_ordered (cmp : pos -> pos -> comparison) (P : post) (D : bool) (fuel : nat) (go : pos -> dir -> option pos) (orig : pos) (found : pos -> bool) :=
  bf_search_path P D (set_tree_by cmp) (map_tree_by cmp) go fuel orig found.
Definition ucs_ordered (cmp : pos -> pos -> comparison) (P : post) (D : bool) (fuel : nat) (go : pos -> dir -> option (pos * Z)) (orig dest : pos) :=
  ucsq_search_path (queue_ordered (pair_le cmp)) P D (map_tree_by cmp) (map_tree_by cmp) go fuel orig dest.
Definition astar_ordered (cmp : pos -> pos -> comparison) (P : post) (D : bool) (fuel : nat) (go : pos -> dir -> option pos) (orig dest : pos) :=
  astarq_search_path (queue_ordered (pair_le cmp)) P D (map_tree_by cmp) (map_tree_by cmp) go fuel orig dest.

(** Orders for the examples: by rows, and backwards; and a comparison that is no order. *)
Definition by_rows (p q : pos) : comparison :=
  match snd p ?= snd q with
  | Eq => fst p ?= fst q
  | c => c
  end.
Definition backwards (p q : pos) : comparison := pos_cmp q p.
Definition always_less (p q : pos) : comparison := Lt.
