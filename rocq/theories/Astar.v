(** Astar.v -- model of src/sqrid/astar.rs. *)

From Coq Require Import ZArith List Bool.
From Verif Require Import Rust BoundedInt Dir PosT Pos Grid Gridbool SetMap CameFrom Heap.
Import ListNotations.
Open Scope Z_scope.

(** usize::MAX. *)
Definition COST_MAX : Z := 18446744073709551615.

Section Astar.
  Context {MC M : Type} (P : post) (D : bool).
  Context (co : mapops Z MC) (mo : mapops (option dir) M).
  Context (go : pos -> dir -> option pos).

  (** astar.rs:63-75: the iterator state ([go] and [dest] are constant). *)
  Record ait := AIt { a_cost : MC; a_frontier : heap }.

  (** astar.rs:83-99: [new]. *)
  Definition astar_new (orig : pos) : exec ait :=
    let cost := mp_new co COST_MAX in
    let frontier := heap_push [] (0, (orig, dir_default)) in
    cost' <- mp_set co cost orig 0 ;;
    Ret (AIt cost' frontier).

  (** astar.rs:114-123: the body of the [for dir] loop; [newcost] is computed
      before [go] is called. *)
  Definition astar_step_dir (dest p : pos) (it : ait) (d : dir) : exec ait :=
    c <- mp_get co (a_cost it) p ;;
    newcost <- uadd c 1 ;;
    match go p d with
    | Some next_pos =>
        c' <- mp_get co (a_cost it) next_pos ;;
        if newcost <? c' then
          cost' <- mp_set co (a_cost it) next_pos newcost ;;
          m <- manhattan P next_pos dest ;;
          prio <- uadd newcost m ;;
          nd <- dir_neg d ;;
          Ret (AIt cost' (heap_push (a_frontier it) (prio, (next_pos, nd))))
        else Ret it
    | None => Ret it
    end.

  (** astar.rs:111-128: [next]. *)
  Definition astar_next (dest : pos) (it : ait) : exec (option (pos * dir) * ait) :=
    match heap_pop (a_frontier it) with
    | Some ((_, mov), rest) =>
        ds <- dir_iter_list D ;;
        it' <- foldM (astar_step_dir dest (fst mov)) ds (AIt (a_cost it) rest) ;;
        Ret (Some mov, it')
    | None => Ret (None, it)
    end.

  (** astar.rs:157-164: the loop of [search_mapmov]. *)
  Fixpoint astar_search_loop (fuel : nat) (dest : pos) (from : M) (it : ait)
    : exec (result M) :=
    match fuel with
    | O => Fuel
    | S fuel' =>
        '(o, it') <- astar_next dest it ;;
        match o with
        | None => Ret (Err DestinationUnreachable)
        | Some (p, d) =>
            from' <- mp_set mo from p (Some d) ;;
            if pos_eqb p dest then Ret (Ok from')
            else astar_search_loop fuel' dest from' it'
        end
    end.

  (** astar.rs:136-165: [search_mapmov]. *)
  Definition astar_search_mapmov (fuel : nat) (orig dest : pos) : exec (result M) :=
    let from := mp_default mo None in
    it <- astar_new orig ;;
    astar_search_loop fuel dest from it.

  (** astar.rs:173-197: [search_path]. *)
  Definition astar_search_path (fuel : nat) (orig dest : pos) : exec (result (list dir)) :=
    r <- astar_search_mapmov fuel orig dest ;;
    match r with
    | Err e => Ret (Err e)
    | Ok mapmov => camefrom_into_path P mo fuel mapmov orig dest
    end.
End Astar.
Arguments AIt {MC}.
Arguments a_cost {MC}.
Arguments a_frontier {MC}.

(** astar.rs:202-268: the parameterized searches; 272-327:
    [Sqrid::astar_path*] ([astar_path] is [astar_path_grid]). *)
Definition astar_path_grid (P : post) (D : bool) (SIZE : Z) (fuel : nat)
    (go : pos -> dir -> option pos) (orig dest : pos) :=
  astar_search_path P D (map_grid P SIZE) (map_grid P SIZE) go fuel orig dest.
Definition astar_path_hash (P : post) (D : bool) (fuel : nat)
    (go : pos -> dir -> option pos) (orig dest : pos) :=
  astar_search_path P D map_hash map_hash go fuel orig dest.
Definition astar_path_btree (P : post) (D : bool) (fuel : nat)
    (go : pos -> dir -> option pos) (orig dest : pos) :=
  astar_search_path P D map_btree map_btree go fuel orig dest.
Definition astar_path := astar_path_grid.
