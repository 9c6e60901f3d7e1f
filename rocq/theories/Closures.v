(** Closures.v -- the searches of bf.rs, ucs.rs and astar.rs called with
    closures that have effects.

    A [Fn] closure can keep a state (a counter, a cache, a log behind a [Cell]
    or [RefCell]), print, or panic.  Here a call of a closure maps the state of
    the outside world to an outcome, the next state and the answer; the
    functions are those of Bf.v, Ucs.v and Astar.v, which take pure closures,
    with that state passed along in the order of evaluation. *)

From Coq Require Import ZArith List Bool.
From Verif Require Import Rust BoundedInt Dir PosT Pos Grid Gridbool SetMap CameFrom Heap Bf Astar Ucs.
Import ListNotations.
Open Scope Z_scope.

(** An expression evaluated in a world of type [St]. *)
Definition act (St A : Type) := St -> exec (St * A).
Definition done {St A} (a : A) : act St A := fun s => Ret (s, a).
Definition andthen {St A B} (m : act St A) (k : A -> act St B) : act St B :=
  fun s => '(s', a) <- m s ;; k a s'.
(** An expression that does not touch the world. *)
Definition apart {St A} (m : exec A) : act St A := fun s => a <- m ;; Ret (s, a).
Notation "x <~ m ;; k" := (andthen m (fun x => k)) (at level 61, m at next level, right associativity).
Notation "' p <~ m ;; k" := (andthen m (fun p => k)) (at level 61, p pattern, m at next level, right associativity).

(** A loop over a list. *)
Fixpoint foldA {St A S} (f : S -> A -> act St S) (l : list A) (x : S) : act St S :=
  match l with
  | [] => done x
  | a :: l' => x' <~ f x a ;; foldA f l' x'
  end.

(** ** bf.rs *)

Section BfActs.
  Context {St S M : Type} (P : post) (D : bool).
  Context (so : setops S) (mo : mapops (option dir) M).
  Context (go : pos -> dir -> act St (option pos)) (found : pos -> act St bool).

  (** bf.rs:138-146. *)
  Definition bfa_step_dir (p : pos) (it : @bfit S) (d : dir) : act St bfit :=
    o <~ go p d ;;
    match o with
    | Some next_pos =>
        seen <~ apart (sp_contains so (bf_visited it) next_pos) ;;
        if seen : bool then done it
        else
          nd <~ apart (dir_neg d) ;;
          v <~ apart (sp_insert so (bf_visited it) next_pos) ;;
          done (BfIt v (bf_nextfront it ++ [(next_pos, nd)]))
    | None => done it
    end.

  (** bf.rs:137-148. *)
  Definition bfa_step_pos (it : bfit) (pd : pos * dir) : act St bfit :=
    let p := fst pd in
    ds <~ apart (dir_iter_list D) ;;
    it' <~ foldA (bfa_step_dir p) ds it ;;
    v <~ apart (sp_insert so (bf_visited it') p) ;;
    done (BfIt v (bf_nextfront it')).

  (** bf.rs:132-150: [next]. *)
  Definition bfa_next (it : bfit) : act St (option (list (pos * dir)) * bfit) :=
    let front := bf_nextfront it in
    let it0 := BfIt (bf_visited it) [] in
    match front with
    | [] => done (None, it0)
    | _ :: _ =>
        it' <~ foldA bfa_step_pos front it0 ;;
        done (Some front, it')
    end.

  (** bf.rs:109-121: [new]; 158-169: [bf_iter]. *)
  Definition bfa_new (orig : pos) : act St bfit :=
    v <~ apart (sp_default so) ;;
    '(_, it) <~ bfa_next (BfIt v [(orig, dir_default)]) ;;
    done it.

  (** bf.rs:197-202. *)
  Fixpoint bfa_scan (from : M) (front : list (pos * dir)) : act St (M * option pos) :=
    match front with
    | [] => done (from, None)
    | (p, d) :: rest =>
        from' <~ apart (mp_set mo from p (Some d)) ;;
        hit <~ found p ;;
        if hit : bool then done (from', Some p) else bfa_scan from' rest
    end.

  (** bf.rs:196-203. *)
  Fixpoint bfa_search_loop (fuel : nat) (from : M) (it : bfit) : act St (result (pos * M)) :=
    match fuel with
    | O => fun _ => Fuel
    | Datatypes.S fuel' =>
        '(o, it') <~ bfa_next it ;;
        match o with
        | None => done (Err DestinationUnreachable)
        | Some front =>
            '(from', hit) <~ bfa_scan from front ;;
            match hit with
            | Some p => done (Ok (p, from'))
            | None => bfa_search_loop fuel' from' it'
            end
        end
    end.

  (** bf.rs:174-204: [search_mapmov]. *)
  Definition bfa_search_mapmov (fuel : nat) (orig : pos) : act St (result (pos * M)) :=
    let from := mp_default mo None in
    it <~ bfa_new orig ;;
    bfa_search_loop fuel from it.

  (** bf.rs:212-239: [search_path]. *)
  Definition bfa_search_path (fuel : nat) (orig : pos) : act St (result (pos * list dir)) :=
    r <~ bfa_search_mapmov fuel orig ;;
    match r with
    | Err e => done (Err e)
    | Ok (dest, mapmov) =>
        r' <~ apart (camefrom_into_path P mo fuel mapmov orig dest) ;;
        match r' with
        | Err e => done (Err e)
        | Ok path => done (Ok (dest, path))
        end
    end.
End BfActs.

(** ** ucs.rs *)

Section UcsActs.
  Context {St MC M : Type} (P : post) (D : bool).
  Context (co : mapops Z MC) (mo : mapops (option dir) M).
  Context (go : pos -> dir -> act St (option (pos * Z))).

  (** ucs.rs:122-131. *)
  Definition ucsa_step_dir (p : pos) (it : @uit MC) (d : dir) : act St uit :=
    o <~ go p d ;;
    match o with
    | Some (next_pos, costincr) =>
        c <~ apart (mp_get co (u_cost it) p) ;;
        newcost <~ apart (uadd c costincr) ;;
        c' <~ apart (mp_get co (u_cost it) next_pos) ;;
        if newcost <? c' then
          cost' <~ apart (mp_set co (u_cost it) next_pos newcost) ;;
          nd <~ apart (dir_neg d) ;;
          done (UIt cost' (heap_push (u_frontier it) (newcost, (next_pos, nd))))
        else done it
    | None => done it
    end.

  (** ucs.rs:119-136: [next]. *)
  Definition ucsa_next (it : uit) : act St (option (pos * dir) * uit) :=
    match heap_pop (u_frontier it) with
    | Some ((_, mov), rest) =>
        ds <~ apart (dir_iter_list D) ;;
        it' <~ foldA (ucsa_step_dir (fst mov)) ds (UIt (u_cost it) rest) ;;
        done (Some mov, it')
    | None => done (None, it)
    end.

  (** ucs.rs:165-172. *)
  Fixpoint ucsa_search_loop (fuel : nat) (dest : pos) (from : M) (it : uit) : act St (result M) :=
    match fuel with
    | O => fun _ => Fuel
    | S fuel' =>
        '(o, it') <~ ucsa_next it ;;
        match o with
        | None => done (Err DestinationUnreachable)
        | Some (p, d) =>
            from' <~ apart (mp_set mo from p (Some d)) ;;
            if pos_eqb p dest then done (Ok from')
            else ucsa_search_loop fuel' dest from' it'
        end
    end.

  (** ucs.rs:144-173: [search_mapmov]; 181-205: [search_path]. *)
  Definition ucsa_search_mapmov (fuel : nat) (orig dest : pos) : act St (result M) :=
    let from := mp_default mo None in
    it <~ apart (ucs_new co orig) ;;
    ucsa_search_loop fuel dest from it.
  Definition ucsa_search_path (fuel : nat) (orig dest : pos) : act St (result (list dir)) :=
    r <~ ucsa_search_mapmov fuel orig dest ;;
    match r with
    | Err e => done (Err e)
    | Ok mapmov => apart (camefrom_into_path P mo fuel mapmov orig dest)
    end.
End UcsActs.

(** ** astar.rs *)

Section AstarActs.
  Context {St MC M : Type} (P : post) (D : bool).
  Context (co : mapops Z MC) (mo : mapops (option dir) M).
  Context (go : pos -> dir -> act St (option pos)).

  (** astar.rs:114-123; [newcost] is computed before [go] is called. *)
  Definition astara_step_dir (dest p : pos) (it : @ait MC) (d : dir) : act St ait :=
    c <~ apart (mp_get co (a_cost it) p) ;;
    newcost <~ apart (uadd c 1) ;;
    o <~ go p d ;;
    match o with
    | Some next_pos =>
        c' <~ apart (mp_get co (a_cost it) next_pos) ;;
        if newcost <? c' then
          cost' <~ apart (mp_set co (a_cost it) next_pos newcost) ;;
          m <~ apart (manhattan P next_pos dest) ;;
          prio <~ apart (uadd newcost m) ;;
          nd <~ apart (dir_neg d) ;;
          done (AIt cost' (heap_push (a_frontier it) (prio, (next_pos, nd))))
        else done it
    | None => done it
    end.

  (** astar.rs:111-128: [next]. *)
  Definition astara_next (dest : pos) (it : ait) : act St (option (pos * dir) * ait) :=
    match heap_pop (a_frontier it) with
    | Some ((_, mov), rest) =>
        ds <~ apart (dir_iter_list D) ;;
        it' <~ foldA (astara_step_dir dest (fst mov)) ds (AIt (a_cost it) rest) ;;
        done (Some mov, it')
    | None => done (None, it)
    end.

  (** astar.rs:157-164. *)
  Fixpoint astara_search_loop (fuel : nat) (dest : pos) (from : M) (it : ait) : act St (result M) :=
    match fuel with
    | O => fun _ => Fuel
    | S fuel' =>
        '(o, it') <~ astara_next dest it ;;
        match o with
        | None => done (Err DestinationUnreachable)
        | Some (p, d) =>
            from' <~ apart (mp_set mo from p (Some d)) ;;
            if pos_eqb p dest then done (Ok from')
            else astara_search_loop fuel' dest from' it'
        end
    end.

  (** astar.rs:136-165: [search_mapmov]; 173-197: [search_path]. *)
  Definition astara_search_mapmov (fuel : nat) (orig dest : pos) : act St (result M) :=
    let from := mp_default mo None in
    it <~ apart (astar_new co orig) ;;
    astara_search_loop fuel dest from it.
  Definition astara_search_path (fuel : nat) (orig dest : pos) : act St (result (list dir)) :=
    r <~ astara_search_mapmov fuel orig dest ;;
    match r with
    | Err e => done (Err e)
    | Ok mapmov => apart (camefrom_into_path P mo fuel mapmov orig dest)
    end.
End AstarActs.
