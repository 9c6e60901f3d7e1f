(** SpecOrderPath.v -- queues and paths where ties are broken by the order of a position
    type. *)

From Coq Require Import ZArith List Bool Permutation.
From Verif Require Import Rust BoundedInt Dir PosT Pos Grid SetMap Heap Queue Spec SpecSearch SpecOrder.
Import ListNotations.
Open Scope Z_scope.

(** [a] is popped before [b]: it has a lower cost or, at equal costs, a position that is
    greater in the order [cmp] or, at equal positions, a later direction. *)
Definition sooner_by (cmp : pos -> pos -> comparison) (a b : entry) : Prop :=
  e_prio a < e_prio b \/
  e_prio a = e_prio b /\
    (cmp (e_pos b) (e_pos a) = Lt \/ cmp (e_pos b) (e_pos a) = Eq /\ dir_index (e_dir b) < dir_index (e_dir a)).

(** [els] tells what a queue that satisfies [ok] holds: nothing at first; [push] adds an
    element, if its position is one of the type [P]; [pop] removes an element than which
    no other is popped sooner. *)
Record ordered_queue {H} (P : post) (cmp : pos -> pos -> comparison) (qo : queueops H) (ok : H -> Prop) (els : H -> list entry) : Prop := {
  oq_new : ok (q_new qo) /\ els (q_new qo) = [];
  oq_push : forall h e, ok h -> valid P (e_pos e) -> ok (q_push qo h e) /\ Permutation (els (q_push qo h e)) (e :: els h);
  oq_pop : forall h, ok h ->
    match q_pop qo h with
    | None => els h = []
    | Some (e, h') => ok h' /\ Permutation (els h) (e :: els h') /\ forall x, In x (els h) -> ~ sooner_by cmp x e
    end }.

(** The cost [fst a] of the position [snd a] is lower than that of [b] or, at equal
    costs, the position is the same or a greater one. *)
Definition ahead_by (cmp : pos -> pos -> comparison) (a b : Z * pos) : Prop :=
  fst a < fst b \/ fst a = fst b /\ cmp (snd b) (snd a) <> Gt.
