(** Ucs.v -- model of src/sqrid/ucs.rs. *)

From Coq Require Import ZArith List Bool.
From Verif Require Import Rust BoundedInt Dir PosT Pos Grid Gridbool SetMap CameFrom Heap Astar.
Import ListNotations.
Open Scope Z_scope.

Section Ucs.
  Context {MC M : Type} (P : post) (D : bool).
  Context (co : mapops Z MC) (mo : mapops (option dir) M).
  Context (go : pos -> dir -> option (pos * Z)).

  (** ucs.rs:73-84: the iterator state ([go] is constant). *)
  Record uit := UIt { u_cost : MC; u_frontier : heap }.

  (** ucs.rs:92-107: [new]. *)
  Definition ucs_new (orig : pos) : exec uit :=
    let cost := mp_new co COST_MAX in
    let frontier := heap_push [] (0, (orig, dir_default)) in
    cost' <- mp_set co cost orig 0 ;;
    Ret (UIt cost' frontier).

  (** ucs.rs:122-131: the body of the [for dir] loop. *)
  Definition ucs_step_dir (p : pos) (it : uit) (d : dir) : exec uit :=
    match go p d with
    | Some (next_pos, costincr) =>
        c <- mp_get co (u_cost it) p ;;
        newcost <- uadd c costincr ;;
        c' <- mp_get co (u_cost it) next_pos ;;
        if newcost <? c' then
          cost' <- mp_set co (u_cost it) next_pos newcost ;;
          nd <- dir_neg d ;;
          Ret (UIt cost' (heap_push (u_frontier it) (newcost, (next_pos, nd))))
        else Ret it
    | None => Ret it
    end.

  (** ucs.rs:119-136: [next]. *)
  Definition ucs_next (it : uit) : exec (option (pos * dir) * uit) :=
    match heap_pop (u_frontier it) with
    | Some ((_, mov), rest) =>
        ds <- dir_iter_list D ;;
        it' <- foldM (ucs_step_dir (fst mov)) ds (UIt (u_cost it) rest) ;;
        Ret (Some mov, it')
    | None => Ret (None, it)
    end.

  (** ucs.rs:165-172: the loop of [search_mapmov]. *)
  Fixpoint ucs_search_loop (fuel : nat) (dest : pos) (from : M) (it : uit)
    : exec (result M) :=
    match fuel with
    | O => Fuel
    | S fuel' =>
        '(o, it') <- ucs_next it ;;
        match o with
        | None => Ret (Err DestinationUnreachable)
        | Some (p, d) =>
            from' <- mp_set mo from p (Some d) ;;
            if pos_eqb p dest then Ret (Ok from')
            else ucs_search_loop fuel' dest from' it'
        end
    end.

  (** ucs.rs:144-173: [search_mapmov]. *)
  Definition ucs_search_mapmov (fuel : nat) (orig dest : pos) : exec (result M) :=
    let from := mp_default mo None in
    it <- ucs_new orig ;;
    ucs_search_loop fuel dest from it.

  (** ucs.rs:181-205: [search_path]. *)
  Definition ucs_search_path (fuel : nat) (orig dest : pos) : exec (result (list dir)) :=
    r <- ucs_search_mapmov fuel orig dest ;;
    match r with
    | Err e => Ret (Err e)
    | Ok mapmov => camefrom_into_path P mo fuel mapmov orig dest
    end.
End Ucs.
Arguments UIt {MC}.
Arguments u_cost {MC}.
Arguments u_frontier {MC}.

(** ucs.rs:210-276: the parameterized searches; 280-336: [Sqrid::ucs_path*]
    ([ucs_path] is [ucs_path_grid]). *)
Definition ucs_path_grid (P : post) (D : bool) (SIZE : Z) (fuel : nat)
    (go : pos -> dir -> option (pos * Z)) (orig dest : pos) :=
  ucs_search_path P D (map_grid P SIZE) (map_grid P SIZE) go fuel orig dest.
Definition ucs_path_hash (P : post) (D : bool) (fuel : nat)
    (go : pos -> dir -> option (pos * Z)) (orig dest : pos) :=
  ucs_search_path P D map_hash map_hash go fuel orig dest.
Definition ucs_path_btree (P : post) (D : bool) (fuel : nat)
    (go : pos -> dir -> option (pos * Z)) (orig dest : pos) :=
  ucs_search_path P D map_btree map_btree go fuel orig dest.
Definition ucs_path := ucs_path_grid.
