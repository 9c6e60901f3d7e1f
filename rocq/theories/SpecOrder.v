(** SpecOrder.v -- what is asked of a priority queue that may choose among the
    elements of the lowest cost. *)

From Coq Require Import ZArith List Bool Permutation.
From Verif Require Import Rust BoundedInt Dir PosT Pos Grid SetMap Heap Queue Spec SpecSearch.
Import ListNotations.
Open Scope Z_scope.

(** [els] tells what a queue that satisfies [ok] holds: nothing at first; [push]
    adds an element; [pop] removes one of the lowest cost. *)
Record fair_queue {H} (qo : queueops H) (ok : H -> Prop) (els : H -> list entry) : Prop := {
  fq_new : ok (q_new qo) /\ els (q_new qo) = [];
  fq_push : forall h e, ok h -> ok (q_push qo h e) /\ Permutation (els (q_push qo h e)) (e :: els h);
  fq_pop : forall h, ok h ->
    match q_pop qo h with
    | None => els h = []
    | Some (e, h') => ok h' /\ Permutation (els h) (e :: els h') /\ forall x, In x (els h) -> e_prio e <= e_prio x
    end }.

(** The results of [n] calls to [next] on a new iterator with a queue, and the cost it
    has then recorded for a position. *)
Definition ucsq_yields_with {H MC} (qo : queueops H) (co : mapops Z MC) (D : bool) (go : pos -> dir -> option (pos * Z)) (orig : pos) (n : nat) :=
  it <- ucsq_new qo co orig ;; next_calls (ucsq_next qo D co go) n it.
Definition ucsq_records_with {H MC} (qo : queueops H) (co : mapops Z MC) (D : bool) (go : pos -> dir -> option (pos * Z)) (orig : pos) (n : nat) (p : pos) :=
  it <- ucsq_new qo co orig ;; it' <- calls_state (ucsq_next qo D co go) n it ;; mp_get co (qu_cost it') p.
Definition astarq_yields_with {H MC} (qo : queueops H) (co : mapops Z MC) (P : post) (D : bool) (go : pos -> dir -> option pos) (orig dest : pos) (n : nat) :=
  it <- astarq_new qo co orig ;; next_calls (astarq_next qo P D co go dest) n it.
Definition astarq_records_with {H MC} (qo : queueops H) (co : mapops Z MC) (P : post) (D : bool) (go : pos -> dir -> option pos) (orig dest : pos) (n : nat) (p : pos) :=
  it <- astarq_new qo co orig ;; it' <- calls_state (astarq_next qo P D co go dest) n it ;; mp_get co (qa_cost it') p.

Definition ucsq_yields {H} (qo : queueops H) (b : backend) (P : post) (D : bool) :=
  match b with
  | OnGrid => ucsq_yields_with qo (map_grid P (cells P)) D
  | OnHash => ucsq_yields_with qo map_hash D
  | OnBTree => ucsq_yields_with qo map_btree D
  end.
Definition ucsq_records {H} (qo : queueops H) (b : backend) (P : post) (D : bool) :=
  match b with
  | OnGrid => ucsq_records_with qo (map_grid P (cells P)) D
  | OnHash => ucsq_records_with qo map_hash D
  | OnBTree => ucsq_records_with qo map_btree D
  end.
Definition astarq_yields {H} (qo : queueops H) (b : backend) (P : post) (D : bool) :=
  match b with
  | OnGrid => astarq_yields_with qo (map_grid P (cells P)) P D
  | OnHash => astarq_yields_with qo map_hash P D
  | OnBTree => astarq_yields_with qo map_btree P D
  end.
Definition astarq_records {H} (qo : queueops H) (b : backend) (P : post) (D : bool) :=
  match b with
  | OnGrid => astarq_records_with qo (map_grid P (cells P)) P D
  | OnHash => astarq_records_with qo map_hash P D
  | OnBTree => astarq_records_with qo map_btree P D
  end.
