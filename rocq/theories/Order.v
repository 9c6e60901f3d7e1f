(** Order.v -- the frontier of ucs.rs and astar.rs with position types that have an
    order of their own.

    The searches ask for [P: Ord] (ucs.rs:99,117, astar.rs:88,107) and keep tuples
    [(Reverse<usize>, (P, Dir))] in a [BinaryHeap] (ucs.rs:80, astar.rs:72).  A type
    of the user's may order its positions in any way, so the comparison of the second
    components is a parameter here: [le a b] tells whether [a <= b], and need not
    satisfy any law.  Queue.v has the same algorithms for the orders of sqrid's own
    types. *)

From Coq Require Import ZArith List Bool.
From Verif Require Import Rust BoundedInt Dir PosT Pos Heap Queue.
Import ListNotations.
Open Scope Z_scope.

Section Order.
  Context (le : (pos * dir) -> (pos * dir) -> bool).

  (** [<=] of the tuples: the first components decide, the second ones when those are
      equal; [Reverse] exchanges the operands. *)
  Definition entry_le (a b : entry) : bool :=
    if e_prio a =? e_prio b then le (snd a) (snd b) else e_prio b <? e_prio a.

  (** [sift_up(0, pos)]: stop at the root, or when [element <= parent]. *)
  Fixpoint oh_sift_up (n : nat) (v : list entry) (pos : nat) : list entry :=
    match n with
    | O => v
    | S n' =>
        match pos with
        | O => v
        | S _ =>
            let parent := Nat.div2 (pos - 1) in
            if entry_le (bh_get v pos) (bh_get v parent) then v
            else oh_sift_up n' (bh_swap v pos parent) parent
        end
    end.

  (** [push]. *)
  Definition oh_push (v : list entry) (e : entry) : list entry :=
    oh_sift_up (length v) (v ++ [e]) (length v).

  (** [sift_down_to_bottom(0)]: [child += (child <= child + 1) as usize]. *)
  Fixpoint oh_sink (n : nat) (v : list entry) (pos : nat) : list entry * nat :=
    match n with
    | O => (v, pos)
    | S n' =>
        let child := (2 * pos + 1)%nat in
        if (child + 1 <? length v)%nat then
          let child' := if entry_le (bh_get v child) (bh_get v (child + 1)) then (child + 1)%nat else child in
          oh_sink n' (bh_swap v pos child') child'
        else if (child <? length v)%nat then (bh_swap v pos child, child)
        else (v, pos)
    end.

  (** [pop]: the last element takes the place of the first one. *)
  Definition oh_pop (v : list entry) : option (entry * list entry) :=
    match v with
    | [] => None
    | top :: t =>
        match rev t with
        | [] => Some (top, [])
        | item :: _ =>
            let v0 := item :: removelast t in
            let '(v1, pos) := oh_sink (length v0) v0 0 in
            Some (top, oh_sift_up pos v1 pos)
        end
    end.

  Definition queue_ordered : queueops (list entry) := Queueops (list entry) [] oh_push oh_pop.
End Order.
