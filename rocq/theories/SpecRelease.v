(** SpecRelease.v -- vocabulary for the searches in builds without overflow
    checks. *)

From Coq Require Import ZArith List Bool.
From Verif Require Import Rust BoundedInt Dir PosT Pos Grid Gridbool SetMap CameFrom Astar Ucs Release Spec SpecSearch.
Import ListNotations.
Open Scope Z_scope.

(** The search on the storage types. *)
Definition ucs_release_on (b : backend) (P : post) (D : bool) (fuel : nat)
    (go : pos -> dir -> option (pos * Z)) (orig dest : pos) : exec (result (list dir)) :=
  match b with
  | OnGrid => ucsr_search_path P D (map_grid P (cells P)) (map_grid P (cells P)) go fuel orig dest
  | OnHash => ucsr_search_path P D map_hash map_hash go fuel orig dest
  | OnBTree => ucsr_search_path P D map_btree map_btree go fuel orig dest
  end.

(** Costs are values of type usize. *)
Definition usize_costs (P : post) (go : pos -> dir -> option (pos * Z)) : Prop :=
  forall p d q w, valid P p -> go p d = Some (q, w) -> 0 <= w <= 18446744073709551615.
