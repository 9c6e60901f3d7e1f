(** Target.v -- the searches on targets whose [usize] does not have 64 bits, and
    in builds with or without overflow checks.

    The rest of the model takes [usize] to have 64 bits and overflow to be a
    panic.  This file repeats every function that computes with [usize] on the
    way of a search -- positions to indices, Grid and Gridbool access,
    [manhattan], [camefrom_into_path], uniform-cost search and A* -- for any
    target.  The coordinate types are taken not to be [usize] or [isize]
    themselves. *)

From Coq Require Import ZArith List Bool.
From Verif Require Import Rust BoundedInt Dir PosT Pos Grid Gridbool SetMap CameFrom Heap Bf Astar Ucs.
Import ListNotations.
Open Scope Z_scope.

(** The sizes [usize] can have, and whether overflow is checked. *)
Inductive word := W16 | W32 | W64.
Record target := Target { t_word : word; t_checks : bool }.

Section Target.
  Context (t : target).

  Definition t_modulus : Z :=
    match t_word t with W16 => 65536 | W32 => 4294967296 | W64 => 18446744073709551616 end.
  (** usize::MAX and isize::MAX. *)
  Definition t_MAX : Z := t_modulus - 1.
  Definition t_IMAX : Z := t_modulus / 2 - 1.

  (** Plain [+ - *] on [usize]: on overflow, a panic or the value wrapped
      around. *)
  Definition t_arith (v : Z) : exec Z :=
    if (0 <=? v) && (v <=? t_MAX) then Ret v
    else if t_checks t then Panic else Ret (v mod t_modulus).
  Definition t_add (a b : Z) : exec Z := t_arith (a + b).
  Definition t_sub (a b : Z) : exec Z := t_arith (a - b).
  Definition t_mul (a b : Z) : exec Z := t_arith (a * b).

  (** Overflow in a constant is a compilation error on every target: modelled as
      [Panic]. *)
  Definition t_const (v : Z) : exec Z := if (0 <=? v) && (v <=? t_MAX) then Ret v else Panic.

  (** postrait.rs: macro [into_or_panic]. *)
  Definition t_into_usize (v : Z) : exec Z := unwrap_res (int_try_from (Ity 0 t_MAX) v).

  (** postrait.rs:116-118: [width]; 185-197: [manhattan]; 216-220: [to_usize]. *)
  Definition t_width (P : post) : exec Z := m <- t_into_usize (b_max (pt_x P)) ;; t_add m 1.
  Definition t_manhattan (P : post) (p q : pos) : exec Z :=
    dx <- (if fst p >? fst q
           then unwrap_opt (b_checked_sub (pt_x P) (fst p) (fst q))
           else unwrap_opt (b_checked_sub (pt_x P) (fst q) (fst p))) ;;
    dy <- (if snd p >? snd q
           then unwrap_opt (b_checked_sub (pt_y P) (snd p) (snd q))
           else unwrap_opt (b_checked_sub (pt_y P) (snd q) (snd p))) ;;
    ux <- t_into_usize dx ;;
    uy <- t_into_usize dy ;;
    t_add ux uy.
  Definition t_to_usize (P : post) (p : pos) : exec Z :=
    y <- t_into_usize (snd p) ;;
    x <- t_into_usize (fst p) ;;
    w <- t_width P ;;
    yw <- t_mul y w ;;
    t_add yw x.

  (** grid.rs:134-145: [get], and a write through [get_mut]; mappos.rs:40-54. *)
  Definition t_map_grid {Item} (P : post) (SIZE : Z) : mapops Item (grid Item) :=
    MapOps (grid_default SIZE) (grid_repeat SIZE)
      (fun g p => i <- t_to_usize P p ;; array_get_unchecked g i)
      (fun g p v => i <- t_to_usize P p ;; array_set_unchecked g i v).

  (** gridbool.rs:64-68, 83-91, 102-130; setpos.rs:35-45. *)
  Definition t_asserts (P : post) (WORDS : Z) : exec bool :=
    wh <- t_const (pt_WIDTH P * pt_HEIGHT P) ;;
    w32 <- t_const (WORDS * 32) ;;
    if wh <=? w32 then
      lo <- t_const (w32 - 32) ;;
      Ret (wh >=? lo)
    else Ret false.
  Definition t_gb_default (P : post) (WORDS : Z) : exec gridbool :=
    ok <- t_asserts P WORDS ;;
    if ok then Ret (repeat WORD_FALSE (Z.to_nat WORDS)) else Panic.
  Definition t_gb_get (P : post) (g : gridbool) (p : pos) : exec bool :=
    i <- t_to_usize P p ;;
    let '(byte, bit) := byte_bit i in
    w <- array_get g byte ;;
    Ret (negb (Z.land w bit =? 0)).
  Definition t_gb_set_t (P : post) (g : gridbool) (p : pos) : exec gridbool :=
    i <- t_to_usize P p ;;
    let '(byte, bit) := byte_bit i in
    w <- array_get g byte ;;
    array_set g byte (Z.lor w bit).
  Definition t_gb_set_f (P : post) (g : gridbool) (p : pos) : exec gridbool :=
    i <- t_to_usize P p ;;
    let '(byte, bit) := byte_bit i in
    w <- array_get g byte ;;
    array_set g byte (Z.land w (u32_not bit)).
  Definition t_set_gridbool (P : post) (WORDS : Z) : setops gridbool :=
    SetOps (t_gb_default P WORDS) (t_gb_get P) (t_gb_set_t P) (t_gb_set_f P).

  Section CameFrom.
    Context {M : Type} (P : post) (mo : mapops (option dir) M).

    (** mappos.rs:116-126: the [while] loop. *)
    Fixpoint t_camefrom_loop (fuel : nat) (map : M) (orig : pos)
        (ret : list dir) (p : pos) (maxiter : Z) : exec (result (list dir)) :=
      match fuel with
      | O => Fuel
      | S fuel' =>
          if negb (pos_eqb p orig) then
            o <- mp_get mo map p ;;
            match o with
            | None => Ret (Err InvalidMovement)
            | Some d =>
                nd <- dir_neg d ;;
                let ret' := nd :: ret in
                match pos_dir_add P p d with
                | Err _ => Ret (Err InvalidMovement)
                | Ok p' =>
                    maxiter' <- t_sub maxiter 1 ;;
                    if maxiter' =? 0 then Ret (Err Loop)
                    else t_camefrom_loop fuel' map orig ret' p' maxiter'
                end
            end
          else Ret (Ok ret)
      end.

    (** mappos.rs:96-128; [VecDeque::with_capacity] panics when the capacity
        exceeds isize::MAX, in every build. *)
    Definition t_camefrom_into_path (fuel : nat) (map : M) (orig dest : pos)
      : exec (result (list dir)) :=
      distance <- t_manhattan P orig dest ;;
      cap <- t_mul 2 distance ;;
      _ <- (if cap <=? t_IMAX then Ret cap else Panic) ;;
      o <- mp_get mo map dest ;;
      match o with
      | None => Ret (Err DestinationUnreachable)
      | Some _ =>
          w <- t_width P ;;
          w' <- t_width P ;;
          ww <- t_mul w w' ;;
          maxiter <- t_add ww 1 ;;
          t_camefrom_loop fuel map orig [] dest maxiter
      end.
  End CameFrom.

  (** bf.rs:212-239: [search_path]; the iterator and [search_mapmov] do not
      compute with [usize] outside the set and the map. *)
  Definition t_bf_search_path {S M} (P : post) (D : bool) (so : setops S) (mo : mapops (option dir) M)
      (go : pos -> dir -> option pos) (fuel : nat) (orig : pos) (found : pos -> bool)
    : exec (result (pos * list dir)) :=
    r <- bf_search_mapmov D so mo go fuel orig found ;;
    match r with
    | Err e => Ret (Err e)
    | Ok (dest, mapmov) =>
        r' <- t_camefrom_into_path P mo fuel mapmov orig dest ;;
        match r' with
        | Err e => Ret (Err e)
        | Ok path => Ret (Ok (dest, path))
        end
    end.

  Section Ucs.
    Context {MC M : Type} (P : post) (D : bool).
    Context (co : mapops Z MC) (mo : mapops (option dir) M).
    Context (go : pos -> dir -> option (pos * Z)).

    (** ucs.rs:92-107: [new]. *)
    Definition t_ucs_new (orig : pos) : exec (@uit MC) :=
      let cost := mp_new co t_MAX in
      let frontier := heap_push [] (0, (orig, dir_default)) in
      cost' <- mp_set co cost orig 0 ;;
      Ret (UIt cost' frontier).

    (** ucs.rs:122-131: the body of the [for dir] loop. *)
    Definition t_ucs_step_dir (p : pos) (it : @uit MC) (d : dir) : exec uit :=
      match go p d with
      | Some (next_pos, costincr) =>
          c <- mp_get co (u_cost it) p ;;
          newcost <- t_add c costincr ;;
          c' <- mp_get co (u_cost it) next_pos ;;
          if newcost <? c' then
            cost' <- mp_set co (u_cost it) next_pos newcost ;;
            nd <- dir_neg d ;;
            Ret (UIt cost' (heap_push (u_frontier it) (newcost, (next_pos, nd))))
          else Ret it
      | None => Ret it
      end.

    (** ucs.rs:119-136: [next]; 165-172: the loop of [search_mapmov]. *)
    Definition t_ucs_next (it : uit) : exec (option (pos * dir) * uit) :=
      match heap_pop (u_frontier it) with
      | Some ((_, mov), rest) =>
          ds <- dir_iter_list D ;;
          it' <- foldM (t_ucs_step_dir (fst mov)) ds (UIt (u_cost it) rest) ;;
          Ret (Some mov, it')
      | None => Ret (None, it)
      end.
    Fixpoint t_ucs_search_loop (fuel : nat) (dest : pos) (from : M) (it : uit)
      : exec (result M) :=
      match fuel with
      | O => Fuel
      | S fuel' =>
          '(o, it') <- t_ucs_next it ;;
          match o with
          | None => Ret (Err DestinationUnreachable)
          | Some (p, d) =>
              from' <- mp_set mo from p (Some d) ;;
              if pos_eqb p dest then Ret (Ok from')
              else t_ucs_search_loop fuel' dest from' it'
          end
      end.

    (** ucs.rs:144-173: [search_mapmov]; 181-205: [search_path]. *)
    Definition t_ucs_search_path (fuel : nat) (orig dest : pos) : exec (result (list dir)) :=
      it <- t_ucs_new orig ;;
      r <- t_ucs_search_loop fuel dest (mp_default mo None) it ;;
      match r with
      | Err e => Ret (Err e)
      | Ok mapmov => t_camefrom_into_path P mo fuel mapmov orig dest
      end.
  End Ucs.

  Section Astar.
    Context {MC M : Type} (P : post) (D : bool).
    Context (co : mapops Z MC) (mo : mapops (option dir) M).
    Context (go : pos -> dir -> option pos).

    (** astar.rs:83-99: [new]. *)
    Definition t_astar_new (orig : pos) : exec (@ait MC) :=
      let cost := mp_new co t_MAX in
      let frontier := heap_push [] (0, (orig, dir_default)) in
      cost' <- mp_set co cost orig 0 ;;
      Ret (AIt cost' frontier).

    (** astar.rs:114-123: the body of the [for dir] loop. *)
    Definition t_astar_step_dir (dest p : pos) (it : @ait MC) (d : dir) : exec ait :=
      c <- mp_get co (a_cost it) p ;;
      newcost <- t_add c 1 ;;
      match go p d with
      | Some next_pos =>
          c' <- mp_get co (a_cost it) next_pos ;;
          if newcost <? c' then
            cost' <- mp_set co (a_cost it) next_pos newcost ;;
            m <- t_manhattan P next_pos dest ;;
            prio <- t_add newcost m ;;
            nd <- dir_neg d ;;
            Ret (AIt cost' (heap_push (a_frontier it) (prio, (next_pos, nd))))
          else Ret it
      | None => Ret it
      end.

    (** astar.rs:111-128: [next]; 157-164: the loop of [search_mapmov]. *)
    Definition t_astar_next (dest : pos) (it : ait) : exec (option (pos * dir) * ait) :=
      match heap_pop (a_frontier it) with
      | Some ((_, mov), rest) =>
          ds <- dir_iter_list D ;;
          it' <- foldM (t_astar_step_dir dest (fst mov)) ds (AIt (a_cost it) rest) ;;
          Ret (Some mov, it')
      | None => Ret (None, it)
      end.
    Fixpoint t_astar_search_loop (fuel : nat) (dest : pos) (from : M) (it : ait)
      : exec (result M) :=
      match fuel with
      | O => Fuel
      | S fuel' =>
          '(o, it') <- t_astar_next dest it ;;
          match o with
          | None => Ret (Err DestinationUnreachable)
          | Some (p, d) =>
              from' <- mp_set mo from p (Some d) ;;
              if pos_eqb p dest then Ret (Ok from')
              else t_astar_search_loop fuel' dest from' it'
          end
      end.

    (** astar.rs:136-165: [search_mapmov]; 173-197: [search_path]. *)
    Definition t_astar_search_path (fuel : nat) (orig dest : pos) : exec (result (list dir)) :=
      it <- t_astar_new orig ;;
      r <- t_astar_search_loop fuel dest (mp_default mo None) it ;;
      match r with
      | Err e => Ret (Err e)
      | Ok mapmov => t_camefrom_into_path P mo fuel mapmov orig dest
      end.
  End Astar.
End Target.
