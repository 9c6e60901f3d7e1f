(** Bf.v -- model of src/sqrid/bf.rs.

    [go : pos -> dir -> option pos] and [found : pos -> bool] are the user's
    closures, taken to be pure. *)

From Coq Require Import ZArith List Bool.
From Verif Require Import Rust BoundedInt Dir PosT Pos Grid Gridbool SetMap CameFrom.
Import ListNotations.
Open Scope Z_scope.

Section Bf.
  Context {S M : Type} (P : post) (D : bool).
  Context (so : setops S) (mo : mapops (option dir) M).
  Context (go : pos -> dir -> option pos).

  (** bf.rs:95-100: the iterator state. *)
  Record bfit := BfIt { bf_visited : S; bf_nextfront : list (pos * dir) }.

  (** bf.rs:138-146: the body of the inner [for dir] loop. *)
  Definition bf_step_dir (p : pos) (it : bfit) (d : dir) : exec bfit :=
    match go p d with
    | Some next_pos =>
        seen <- sp_contains so (bf_visited it) next_pos ;;
        if seen then Ret it
        else
          nd <- dir_neg d ;;
          v <- sp_insert so (bf_visited it) next_pos ;;
          Ret (BfIt v (bf_nextfront it ++ [(next_pos, nd)]))
    | None => Ret it
    end.

  (** bf.rs:137-148: the body of the outer [for] loop. *)
  Definition bf_step_pos (it : bfit) (pd : pos * dir) : exec bfit :=
    let p := fst pd in
    ds <- dir_iter_list D ;;
    it' <- foldM (bf_step_dir p) ds it ;;
    v <- sp_insert so (bf_visited it') p ;;
    Ret (BfIt v (bf_nextfront it')).

  (** bf.rs:132-150: [next]. *)
  Definition bf_next (it : bfit) : exec (option (list (pos * dir)) * bfit) :=
    let front := bf_nextfront it in
    let it0 := BfIt (bf_visited it) [] in
    match front with
    | [] => Ret (None, it0)
    | _ :: _ =>
        it' <- foldM bf_step_pos front it0 ;;
        Ret (Some front, it')
    end.

  (** bf.rs:109-121: [new]: the first [next] is performed and discarded;
      158-169: [bf_iter]. *)
  Definition bf_new (orig : pos) : exec bfit :=
    v <- sp_default so ;;
    '(_, it) <- bf_next (BfIt v [(orig, dir_default)]) ;;
    Ret it.
  Definition bf_iter (orig : pos) : exec bfit := bf_new orig.

  (** bf.rs:197-202: the body of the search loop over one yielded vector. *)
  Fixpoint bf_scan (found : pos -> bool) (from : M) (front : list (pos * dir))
    : exec (M * option pos) :=
    match front with
    | [] => Ret (from, None)
    | (p, d) :: rest =>
        from' <- mp_set mo from p (Some d) ;;
        if found p then Ret (from', Some p) else bf_scan found from' rest
    end.

  (** bf.rs:196-203: the loop over [bf_iter(..).flatten()]. *)
  Fixpoint bf_search_loop (fuel : nat) (found : pos -> bool) (from : M) (it : bfit)
    : exec (result (pos * M)) :=
    match fuel with
    | O => Fuel
    | Datatypes.S fuel' =>
        '(o, it') <- bf_next it ;;
        match o with
        | None => Ret (Err DestinationUnreachable)
        | Some front =>
            '(from', hit) <- bf_scan found from front ;;
            match hit with
            | Some p => Ret (Ok (p, from'))
            | None => bf_search_loop fuel' found from' it'
            end
        end
    end.

  (** bf.rs:174-204: [search_mapmov]. *)
  Definition bf_search_mapmov (fuel : nat) (orig : pos) (found : pos -> bool)
    : exec (result (pos * M)) :=
    let from := mp_default mo None in
    it <- bf_iter orig ;;
    bf_search_loop fuel found from it.

  (** bf.rs:212-239: [search_path]. *)
  Definition bf_search_path (fuel : nat) (orig : pos) (found : pos -> bool)
    : exec (result (pos * list dir)) :=
    r <- bf_search_mapmov fuel orig found ;;
    match r with
    | Err e => Ret (Err e)
    | Ok (dest, mapmov) =>
        r' <- camefrom_into_path P mo fuel mapmov orig dest ;;
        match r' with
        | Err e => Ret (Err e)
        | Ok path => Ret (Ok (dest, path))
        end
    end.
End Bf.
Arguments BfIt {S}.
Arguments bf_visited {S}.
Arguments bf_nextfront {S}.

(** bf.rs:246-286: the parameterized iterators; 369-431: [Sqrid::bf_iter*]. *)
Definition bf_iter_grid (P : post) (D : bool) (WORDS : Z) (go : pos -> dir -> option pos) (orig : pos) :=
  bf_iter D (set_gridbool P WORDS) go orig.
Definition bf_iter_hash (D : bool) (go : pos -> dir -> option pos) (orig : pos) :=
  bf_iter D set_hash go orig.
Definition bf_iter_btree (D : bool) (go : pos -> dir -> option pos) (orig : pos) :=
  bf_iter D set_btree go orig.

(** bf.rs:291-363: the parameterized searches; 435-511: [Sqrid::bfs_path*]
    ([bfs_path] is [bfs_path_grid]). *)
Definition bfs_path_grid (P : post) (D : bool) (WORDS SIZE : Z) (fuel : nat)
    (go : pos -> dir -> option pos) (orig : pos) (found : pos -> bool) :=
  bf_search_path P D (set_gridbool P WORDS) (map_grid P SIZE) go fuel orig found.
Definition bfs_path_hash (P : post) (D : bool) (fuel : nat)
    (go : pos -> dir -> option pos) (orig : pos) (found : pos -> bool) :=
  bf_search_path P D set_hash map_hash go fuel orig found.
Definition bfs_path_btree (P : post) (D : bool) (fuel : nat)
    (go : pos -> dir -> option pos) (orig : pos) (found : pos -> bool) :=
  bf_search_path P D set_btree map_btree go fuel orig found.
Definition bfs_path := bfs_path_grid.
