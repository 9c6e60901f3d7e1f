(** Release.v -- uniform-cost search in a build without overflow checks.

    The rest of the model takes arithmetic overflow to be a panic, as in debug
    builds.  In release builds (without [overflow-checks]) the sum of a cost and
    a cost increment, ucs.rs:124, wraps around; this file is Ucs.v with that
    sum.  It is the only operation of the search whose operands are the user's:
    the others are on positions. *)

From Coq Require Import ZArith List Bool.
From Verif Require Import Rust BoundedInt Dir PosT Pos Grid Gridbool SetMap CameFrom Heap Astar Ucs.
Import ListNotations.
Open Scope Z_scope.

(** [usize] addition that wraps around. *)
Definition wadd (a b : Z) : Z := (a + b) mod 18446744073709551616.

Section UcsRelease.
  Context {MC M : Type} (P : post) (D : bool).
  Context (co : mapops Z MC) (mo : mapops (option dir) M).
  Context (go : pos -> dir -> option (pos * Z)).

  (** ucs.rs:122-131: the body of the [for dir] loop. *)
  Definition ucsr_step_dir (p : pos) (it : @uit MC) (d : dir) : exec uit :=
    match go p d with
    | Some (next_pos, costincr) =>
        c <- mp_get co (u_cost it) p ;;
        let newcost := wadd c costincr in
        c' <- mp_get co (u_cost it) next_pos ;;
        if newcost <? c' then
          cost' <- mp_set co (u_cost it) next_pos newcost ;;
          nd <- dir_neg d ;;
          Ret (UIt cost' (heap_push (u_frontier it) (newcost, (next_pos, nd))))
        else Ret it
    | None => Ret it
    end.

  (** ucs.rs:119-136: [next]. *)
  Definition ucsr_next (it : uit) : exec (option (pos * dir) * uit) :=
    match heap_pop (u_frontier it) with
    | Some ((_, mov), rest) =>
        ds <- dir_iter_list D ;;
        it' <- foldM (ucsr_step_dir (fst mov)) ds (UIt (u_cost it) rest) ;;
        Ret (Some mov, it')
    | None => Ret (None, it)
    end.

  (** ucs.rs:165-172: the loop of [search_mapmov]. *)
  Fixpoint ucsr_search_loop (fuel : nat) (dest : pos) (from : M) (it : uit)
    : exec (result M) :=
    match fuel with
    | O => Fuel
    | S fuel' =>
        '(o, it') <- ucsr_next it ;;
        match o with
        | None => Ret (Err DestinationUnreachable)
        | Some (p, d) =>
            from' <- mp_set mo from p (Some d) ;;
            if pos_eqb p dest then Ret (Ok from')
            else ucsr_search_loop fuel' dest from' it'
        end
    end.

  (** ucs.rs:144-173: [search_mapmov]; 181-205: [search_path]. *)
  Definition ucsr_search_mapmov (fuel : nat) (orig dest : pos) : exec (result M) :=
    let from := mp_default mo None in
    it <- ucs_new co orig ;;
    ucsr_search_loop fuel dest from it.
  Definition ucsr_search_path (fuel : nat) (orig dest : pos) : exec (result (list dir)) :=
    r <- ucsr_search_mapmov fuel orig dest ;;
    match r with
    | Err e => Ret (Err e)
    | Ok mapmov => camefrom_into_path P mo fuel mapmov orig dest
    end.
End UcsRelease.
