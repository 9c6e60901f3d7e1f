(** SpecQueue.v -- what is asked of a priority queue. *)

From Coq Require Import ZArith List Bool Permutation.
From Verif Require Import Rust BoundedInt Dir PosT Pos Grid SetMap Heap Queue Spec SpecSearch.
Import ListNotations.
Open Scope Z_scope.

(** [a] is popped before [b]: it has a lower cost or, at equal costs, a later
    position in the order of positions (by columns) or, at equal positions, a
    later direction. *)
Definition sooner (a b : entry) : Prop :=
  e_prio a < e_prio b \/
  e_prio a = e_prio b /\
    (fst (e_pos b) < fst (e_pos a) \/
     fst (e_pos b) = fst (e_pos a) /\
       (snd (e_pos b) < snd (e_pos a) \/
        snd (e_pos b) = snd (e_pos a) /\ dir_index (e_dir b) < dir_index (e_dir a))).

(** [els] tells what a queue that satisfies [ok] holds: nothing at first; [push]
    adds an element; [pop] removes one than which no other is popped sooner. *)
Record lawful_queue {H} (qo : queueops H) (ok : H -> Prop) (els : H -> list entry) : Prop := {
  lq_new : ok (q_new qo) /\ els (q_new qo) = [];
  lq_push : forall h e, ok h -> ok (q_push qo h e) /\ Permutation (els (q_push qo h e)) (e :: els h);
  lq_pop : forall h, ok h ->
    match q_pop qo h with
    | None => els h = []
    | Some (e, h') => ok h' /\ Permutation (els h) (e :: els h') /\ forall x, In x (els h) -> ~ sooner x e
    end }.

(** The searches with a queue and a storage backend. *)
Definition ucs_with {H} (qo : queueops H) (b : backend) (P : post) (D : bool) (fuel : nat)
    (go : pos -> dir -> option (pos * Z)) (orig dest : pos) : exec (result (list dir)) :=
  match b with
  | OnGrid => ucsq_search_path qo P D (map_grid P (cells P)) (map_grid P (cells P)) go fuel orig dest
  | OnHash => ucsq_search_path qo P D map_hash map_hash go fuel orig dest
  | OnBTree => ucsq_search_path qo P D map_btree map_btree go fuel orig dest
  end.

Definition astar_with {H} (qo : queueops H) (b : backend) (P : post) (D : bool) (fuel : nat)
    (go : pos -> dir -> option pos) (orig dest : pos) : exec (result (list dir)) :=
  match b with
  | OnGrid => astarq_search_path qo P D (map_grid P (cells P)) (map_grid P (cells P)) go fuel orig dest
  | OnHash => astarq_search_path qo P D map_hash map_hash go fuel orig dest
  | OnBTree => astarq_search_path qo P D map_btree map_btree go fuel orig dest
  end.
