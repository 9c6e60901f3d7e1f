(** Heap.v -- std's [BinaryHeap<(Reverse<usize>, (P, Dir))>], by its contract:
    [push] adds an element, [pop] removes a greatest element.

    Used by astar.rs:72,96,112,120 and ucs.rs:82,104,120,128. *)

From Coq Require Import ZArith List Bool.
From Verif Require Import Rust BoundedInt Dir PosT.
Import ListNotations.
Open Scope Z_scope.

(** The priority (before [Reverse]) and the movement. *)
Definition entry := (Z * (pos * dir))%type.
Definition e_prio (e : entry) : Z := fst e.
Definition e_pos (e : entry) : pos := fst (snd e).
Definition e_dir (e : entry) : dir := snd (snd e).

(** Derived lexicographic [Ord] of [(Reverse<usize>, (P, Dir))]. *)
Definition entry_ltb (a b : entry) : bool :=
  if e_prio a =? e_prio b then
    if pos_eqb (e_pos a) (e_pos b) then dir_index (e_dir a) <? dir_index (e_dir b)
    else pos_ltb (e_pos a) (e_pos b)
  else e_prio b <? e_prio a.

Definition heap := list entry.

Definition heap_push (h : heap) (e : entry) : heap := e :: h.

(** Select a greatest element and the rest. *)
Fixpoint heap_take (e : entry) (h : heap) : entry * heap :=
  match h with
  | [] => (e, [])
  | x :: t =>
      if entry_ltb e x then let '(m, r) := heap_take x t in (m, e :: r)
      else let '(m, r) := heap_take e t in (m, x :: r)
  end.

Definition heap_pop (h : heap) : option (entry * heap) :=
  match h with
  | [] => None
  | e :: t => Some (heap_take e t)
  end.
