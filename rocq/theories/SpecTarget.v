(** SpecTarget.v -- vocabulary for the searches on any target. *)

From Coq Require Import ZArith List Bool.
From Verif Require Import Rust BoundedInt Dir PosT Pos Grid Gridbool SetMap CameFrom Bf Astar Ucs Target Spec SpecSearch.
Import ListNotations.
Open Scope Z_scope.

(** The searches on the storage types. *)
Definition bfs_target_on (t : target) (b : backend) (P : post) (D : bool) (WORDS : Z) (fuel : nat)
    (go : pos -> dir -> option pos) (orig : pos) (found : pos -> bool) : exec (result (pos * list dir)) :=
  match b with
  | OnGrid => t_bf_search_path t P D (t_set_gridbool t P WORDS) (t_map_grid t P (cells P)) go fuel orig found
  | OnHash => t_bf_search_path t P D set_hash map_hash go fuel orig found
  | OnBTree => t_bf_search_path t P D set_btree map_btree go fuel orig found
  end.
Definition ucs_target_on (t : target) (b : backend) (P : post) (D : bool) (fuel : nat)
    (go : pos -> dir -> option (pos * Z)) (orig dest : pos) : exec (result (list dir)) :=
  match b with
  | OnGrid => t_ucs_search_path t P D (t_map_grid t P (cells P)) (t_map_grid t P (cells P)) go fuel orig dest
  | OnHash => t_ucs_search_path t P D map_hash map_hash go fuel orig dest
  | OnBTree => t_ucs_search_path t P D map_btree map_btree go fuel orig dest
  end.
Definition astar_target_on (t : target) (b : backend) (P : post) (D : bool) (fuel : nat)
    (go : pos -> dir -> option pos) (orig dest : pos) : exec (result (list dir)) :=
  match b with
  | OnGrid => t_astar_search_path t P D (t_map_grid t P (cells P)) (t_map_grid t P (cells P)) go fuel orig dest
  | OnHash => t_astar_search_path t P D map_hash map_hash go fuel orig dest
  | OnBTree => t_astar_search_path t P D map_btree map_btree go fuel orig dest
  end.

(** usize::MAX of a target. *)
Definition usize_MAX (t : target) : Z :=
  match t_word t with W16 => 65535 | W32 => 4294967295 | W64 => 18446744073709551615 end.

(** The numbers computed from the dimensions of the grid are usize values of the
    target -- the number of positions plus width and height --, and twice the greatest Manhattan distance is an isize value.  With
    Gridbool the bits of its words can be counted.  (The square of the width, with
    which a search limits the length of the path, is not mentioned here.) *)
Definition fits_target (t : target) (b : backend) (P : post) (WORDS : Z) : Prop :=
  cells P + cols P + rows P - 2 <= usize_MAX t /\
  2 * (2 * (cols P + rows P - 2)) <= usize_MAX t /\
  (b = OnGrid -> 32 * WORDS <= usize_MAX t).

(** Costs are not negative, the cost of a walk from [orig] that meets no position
    twice is less than the target's usize::MAX, and adding one more move stays
    within its usize. *)
Definition affordable_on (t : target) (D : bool) (P : post) (go : pos -> dir -> option (pos * Z)) (orig : pos) : Prop :=
  (forall p d q c, valid P p -> go p d = Some (q, c) -> 0 <= c) /\
  forall path p c, Forall (allowed D) path -> follow_cost go orig path = Some (p, c) -> NoDup (visits go orig path) ->
    c < usize_MAX t /\
    forall d q w, allowed D d -> go p d = Some (q, w) -> c + w <= usize_MAX t.
