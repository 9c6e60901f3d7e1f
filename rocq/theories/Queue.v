(** Queue.v -- the priority queue of ucs.rs and astar.rs as a parameter.

    Heap.v fixes one implementation of [std::collections::BinaryHeap], a list
    searched for its greatest element.  Here the code that uses the queue is
    written again over any implementation, among them std's; PropQueue.v proves
    that all of them give the results of Ucs.v and Astar.v. *)

From Coq Require Import ZArith List Bool.
From Verif Require Import Rust BoundedInt Dir PosT Pos SetMap CameFrom Heap Astar Ucs.
Import ListNotations.
Open Scope Z_scope.

(** The operations used: [BinaryHeap::default], [push] and [pop]
    (astar.rs:72,96,112,120 and ucs.rs:82,104,120,128). *)
Record queueops (H : Type) := Queueops {
  q_new : H;
  q_push : H -> entry -> H;
  q_pop : H -> option (entry * H) }.
Arguments q_new {H}.
Arguments q_push {H}.
Arguments q_pop {H}.

Definition queue_list : queueops heap := Queueops heap [] heap_push heap_pop.

(** ** ucs.rs *)

Section UcsQ.
  Context {H MC M : Type} (qo : queueops H) (P : post) (D : bool).
  Context (co : mapops Z MC) (mo : mapops (option dir) M).
  Context (go : pos -> dir -> option (pos * Z)).

  (** ucs.rs:73-84: the iterator state. *)
  Record quit := QUIt { qu_cost : MC; qu_frontier : H }.

  (** ucs.rs:92-107: [new]. *)
  Definition ucsq_new (orig : pos) : exec quit :=
    let cost := mp_new co COST_MAX in
    let frontier := q_push qo (q_new qo) (0, (orig, dir_default)) in
    cost' <- mp_set co cost orig 0 ;;
    Ret (QUIt cost' frontier).

  (** ucs.rs:122-131: the body of the [for dir] loop. *)
  Definition ucsq_step_dir (p : pos) (it : quit) (d : dir) : exec quit :=
    match go p d with
    | Some (next_pos, costincr) =>
        c <- mp_get co (qu_cost it) p ;;
        newcost <- uadd c costincr ;;
        c' <- mp_get co (qu_cost it) next_pos ;;
        if newcost <? c' then
          cost' <- mp_set co (qu_cost it) next_pos newcost ;;
          nd <- dir_neg d ;;
          Ret (QUIt cost' (q_push qo (qu_frontier it) (newcost, (next_pos, nd))))
        else Ret it
    | None => Ret it
    end.

  (** ucs.rs:119-136: [next]. *)
  Definition ucsq_next (it : quit) : exec (option (pos * dir) * quit) :=
    match q_pop qo (qu_frontier it) with
    | Some ((_, mov), rest) =>
        ds <- dir_iter_list D ;;
        it' <- foldM (ucsq_step_dir (fst mov)) ds (QUIt (qu_cost it) rest) ;;
        Ret (Some mov, it')
    | None => Ret (None, it)
    end.

  (** ucs.rs:165-172: the loop of [search_mapmov]. *)
  Fixpoint ucsq_search_loop (fuel : nat) (dest : pos) (from : M) (it : quit)
    : exec (result M) :=
    match fuel with
    | O => Fuel
    | S fuel' =>
        '(o, it') <- ucsq_next it ;;
        match o with
        | None => Ret (Err DestinationUnreachable)
        | Some (p, d) =>
            from' <- mp_set mo from p (Some d) ;;
            if pos_eqb p dest then Ret (Ok from')
            else ucsq_search_loop fuel' dest from' it'
        end
    end.

  (** ucs.rs:144-173: [search_mapmov]; 181-205: [search_path]. *)
  Definition ucsq_search_mapmov (fuel : nat) (orig dest : pos) : exec (result M) :=
    let from := mp_default mo None in
    it <- ucsq_new orig ;;
    ucsq_search_loop fuel dest from it.
  Definition ucsq_search_path (fuel : nat) (orig dest : pos) : exec (result (list dir)) :=
    r <- ucsq_search_mapmov fuel orig dest ;;
    match r with
    | Err e => Ret (Err e)
    | Ok mapmov => camefrom_into_path P mo fuel mapmov orig dest
    end.
End UcsQ.
Arguments QUIt {H MC}.
Arguments qu_cost {H MC}.
Arguments qu_frontier {H MC}.

(** ** astar.rs *)

Section AstarQ.
  Context {H MC M : Type} (qo : queueops H) (P : post) (D : bool).
  Context (co : mapops Z MC) (mo : mapops (option dir) M).
  Context (go : pos -> dir -> option pos).

  (** astar.rs:63-75: the iterator state. *)
  Record qait := QAIt { qa_cost : MC; qa_frontier : H }.

  (** astar.rs:83-99: [new]. *)
  Definition astarq_new (orig : pos) : exec qait :=
    let cost := mp_new co COST_MAX in
    let frontier := q_push qo (q_new qo) (0, (orig, dir_default)) in
    cost' <- mp_set co cost orig 0 ;;
    Ret (QAIt cost' frontier).

  (** astar.rs:114-123: the body of the [for dir] loop. *)
  Definition astarq_step_dir (dest p : pos) (it : qait) (d : dir) : exec qait :=
    c <- mp_get co (qa_cost it) p ;;
    newcost <- uadd c 1 ;;
    match go p d with
    | Some next_pos =>
        c' <- mp_get co (qa_cost it) next_pos ;;
        if newcost <? c' then
          cost' <- mp_set co (qa_cost it) next_pos newcost ;;
          m <- manhattan P next_pos dest ;;
          prio <- uadd newcost m ;;
          nd <- dir_neg d ;;
          Ret (QAIt cost' (q_push qo (qa_frontier it) (prio, (next_pos, nd))))
        else Ret it
    | None => Ret it
    end.

  (** astar.rs:111-128: [next]. *)
  Definition astarq_next (dest : pos) (it : qait) : exec (option (pos * dir) * qait) :=
    match q_pop qo (qa_frontier it) with
    | Some ((_, mov), rest) =>
        ds <- dir_iter_list D ;;
        it' <- foldM (astarq_step_dir dest (fst mov)) ds (QAIt (qa_cost it) rest) ;;
        Ret (Some mov, it')
    | None => Ret (None, it)
    end.

  (** astar.rs:157-164: the loop of [search_mapmov]. *)
  Fixpoint astarq_search_loop (fuel : nat) (dest : pos) (from : M) (it : qait)
    : exec (result M) :=
    match fuel with
    | O => Fuel
    | S fuel' =>
        '(o, it') <- astarq_next dest it ;;
        match o with
        | None => Ret (Err DestinationUnreachable)
        | Some (p, d) =>
            from' <- mp_set mo from p (Some d) ;;
            if pos_eqb p dest then Ret (Ok from')
            else astarq_search_loop fuel' dest from' it'
        end
    end.

  (** astar.rs:136-165: [search_mapmov]; 173-197: [search_path]. *)
  Definition astarq_search_mapmov (fuel : nat) (orig dest : pos) : exec (result M) :=
    let from := mp_default mo None in
    it <- astarq_new orig ;;
    astarq_search_loop fuel dest from it.
  Definition astarq_search_path (fuel : nat) (orig dest : pos) : exec (result (list dir)) :=
    r <- astarq_search_mapmov fuel orig dest ;;
    match r with
    | Err e => Ret (Err e)
    | Ok mapmov => camefrom_into_path P mo fuel mapmov orig dest
    end.
End AstarQ.
Arguments QAIt {H MC}.
Arguments qa_cost {H MC}.
Arguments qa_frontier {H MC}.

(** ** std's BinaryHeap

    The algorithms of [std::collections::BinaryHeap] (library/alloc), which are
    not part of /repo: a vector in which the item at index i is not less than
    those at 2i+1 and 2i+2.  The element moved through the hole is written back
    at each step here; std writes it once at the end.  std's source was not at
    hand: this follows its algorithms from knowledge of them. *)

Definition bh_get (v : list entry) (i : nat) : entry := nth i v (0, ((0, 0), dir_default)).

Fixpoint bh_set (v : list entry) (i : nat) (e : entry) : list entry :=
  match v, i with
  | [], _ => []
  | _ :: t, O => e :: t
  | x :: t, S i' => x :: bh_set t i' e
  end.

Definition bh_swap (v : list entry) (i j : nat) : list entry :=
  bh_set (bh_set v i (bh_get v j)) j (bh_get v i).

(** [sift_up(0, pos)]: while not at the root and the element is greater than its
    parent, swap them.  [n] is at least [pos]. *)
Fixpoint bh_sift_up (n : nat) (v : list entry) (pos : nat) : list entry :=
  match n with
  | O => v
  | S n' =>
      match pos with
      | O => v
      | S _ =>
          let parent := Nat.div2 (pos - 1) in
          if entry_ltb (bh_get v parent) (bh_get v pos) then bh_sift_up n' (bh_swap v pos parent) parent
          else v
      end
  end.

(** [push]. *)
Definition bh_push (v : list entry) (e : entry) : list entry :=
  bh_sift_up (length v) (v ++ [e]) (length v).

(** [sift_down_to_bottom(0)]: move the element down, always exchanging it with
    the greater child (the second one when they are equal), then sift it up. *)
Fixpoint bh_sink (n : nat) (v : list entry) (pos : nat) : list entry * nat :=
  match n with
  | O => (v, pos)
  | S n' =>
      let child := (2 * pos + 1)%nat in
      if (child + 1 <? length v)%nat then
        let child' := if entry_ltb (bh_get v (child + 1)) (bh_get v child) then child else (child + 1)%nat in
        bh_sink n' (bh_swap v pos child') child'
      else if (child <? length v)%nat then (bh_swap v pos child, child)
      else (v, pos)
  end.

(** [pop]: the last element takes the place of the first one. *)
Definition bh_pop (v : list entry) : option (entry * list entry) :=
  match v with
  | [] => None
  | top :: t =>
      match rev t with
      | [] => Some (top, [])
      | item :: _ =>
          let v0 := item :: removelast t in
          let '(v1, pos) := bh_sink (length v0) v0 0 in
          Some (top, bh_sift_up pos v1 pos)
      end
  end.

Definition queue_binary : queueops (list entry) := Queueops (list entry) [] bh_push bh_pop.
