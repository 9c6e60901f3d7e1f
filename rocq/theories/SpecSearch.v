(** SpecSearch.v -- vocabulary for the properties of the set and map backends
    and of the searches. *)

From Coq Require Import ZArith List Bool.
From Verif Require Import Rust BoundedInt Dir PosT Pos Grid Gridbool SetMap Bf Astar Ucs Spec.
Import ListNotations.
Open Scope Z_scope.

(** ** Running a history of operations on a backend *)

Fixpoint run_set_ops {S} (so : setops S) (s : S) (ops : list set_op) : exec (list bool) :=
  match ops with
  | [] => Ret []
  | OpInsert p :: ops' => s' <- sp_insert so s p ;; run_set_ops so s' ops'
  | OpRemove p :: ops' => s' <- sp_remove so s p ;; run_set_ops so s' ops'
  | OpSet p b :: ops' => s' <- sp_set so s p b ;; run_set_ops so s' ops'
  | OpContains p :: ops' => b <- sp_contains so s p ;; l <- run_set_ops so s ops' ;; Ret (b :: l)
  end.

Fixpoint run_map_ops {Item M} (mo : mapops Item M) (m : M) (ops : list (map_op Item)) : exec (list Item) :=
  match ops with
  | [] => Ret []
  | OpPut p v :: ops' => m' <- mp_set mo m p v ;; run_map_ops mo m' ops'
  | OpGet p :: ops' => v <- mp_get mo m p ;; l <- run_map_ops mo m ops' ;; Ret (v :: l)
  end.

(** ** The three storage backends of the searches *)

Inductive backend := OnGrid | OnHash | OnBTree.

(** A position type, and a number WORDS of Gridbool words, that can be used with
    a backend.  Grid and Gridbool only accept the right sizes; SIZE is always the
    number of positions. *)
Definition usable (b : backend) (P : post) (WORDS : Z) : Prop :=
  match b with
  | OnGrid => exists X Y, u16_dims X Y /\ P = Pos X Y /\ cells P <= 32 * WORDS <= cells P + 32
  | OnHash | OnBTree => grid_type P
  end.

Definition bfs_on (b : backend) (P : post) (D : bool) (WORDS : Z) (fuel : nat)
    (go : pos -> dir -> option pos) (orig : pos) (found : pos -> bool) : exec (result (pos * list dir)) :=
  match b with
  | OnGrid => bfs_path_grid P D WORDS (cells P) fuel go orig found
  | OnHash => bfs_path_hash P D fuel go orig found
  | OnBTree => bfs_path_btree P D fuel go orig found
  end.

Definition astar_on (b : backend) (P : post) (D : bool) (fuel : nat)
    (go : pos -> dir -> option pos) (orig dest : pos) : exec (result (list dir)) :=
  match b with
  | OnGrid => astar_path_grid P D (cells P) fuel go orig dest
  | OnHash => astar_path_hash P D fuel go orig dest
  | OnBTree => astar_path_btree P D fuel go orig dest
  end.

Definition ucs_on (b : backend) (P : post) (D : bool) (fuel : nat)
    (go : pos -> dir -> option (pos * Z)) (orig dest : pos) : exec (result (list dir)) :=
  match b with
  | OnGrid => ucs_path_grid P D (cells P) fuel go orig dest
  | OnHash => ucs_path_hash P D fuel go orig dest
  | OnBTree => ucs_path_btree P D fuel go orig dest
  end.

(** The results of [n] calls to [next] on the iterator returned by [bf_iter]. *)
Definition bf_yields (b : backend) (P : post) (D : bool) (WORDS : Z) (go : pos -> dir -> option pos)
    (orig : pos) (n : nat) : exec (list (option (list (pos * dir)))) :=
  match b with
  | OnGrid => it <- bf_iter_grid P D WORDS go orig ;; next_calls (bf_next D (set_gridbool P WORDS) go) n it
  | OnHash => it <- bf_iter_hash D go orig ;; next_calls (bf_next D set_hash go) n it
  | OnBTree => it <- bf_iter_btree D go orig ;; next_calls (bf_next D set_btree go) n it
  end.

(** The results of [n] calls to [next] on the iterator returned by
    [UcsIterator::new], and the cost it has then recorded for a position. *)
Definition ucs_yields_with {MC} (co : mapops Z MC) (D : bool) (go : pos -> dir -> option (pos * Z)) (orig : pos) (n : nat) :=
  it <- ucs_new co orig ;; next_calls (ucs_next D co go) n it.
Definition ucs_records_with {MC} (co : mapops Z MC) (D : bool) (go : pos -> dir -> option (pos * Z)) (orig : pos) (n : nat) (p : pos) :=
  it <- ucs_new co orig ;; it' <- calls_state (ucs_next D co go) n it ;; mp_get co (u_cost it') p.

Definition ucs_yields (b : backend) (P : post) (D : bool) (go : pos -> dir -> option (pos * Z)) (orig : pos) (n : nat)
  : exec (list (option (pos * dir))) :=
  match b with
  | OnGrid => ucs_yields_with (map_grid P (cells P)) D go orig n
  | OnHash => ucs_yields_with map_hash D go orig n
  | OnBTree => ucs_yields_with map_btree D go orig n
  end.
Definition ucs_records (b : backend) (P : post) (D : bool) (go : pos -> dir -> option (pos * Z)) (orig : pos) (n : nat) (p : pos)
  : exec Z :=
  match b with
  | OnGrid => ucs_records_with (map_grid P (cells P)) D go orig n p
  | OnHash => ucs_records_with map_hash D go orig n p
  | OnBTree => ucs_records_with map_btree D go orig n p
  end.

(** The same for [AstarIterator]. *)
Definition astar_yields_with {MC} (co : mapops Z MC) (P : post) (D : bool) (go : pos -> dir -> option pos) (orig dest : pos) (n : nat) :=
  it <- astar_new co orig ;; next_calls (astar_next P D co go dest) n it.
Definition astar_records_with {MC} (co : mapops Z MC) (P : post) (D : bool) (go : pos -> dir -> option pos) (orig dest : pos) (n : nat) (p : pos) :=
  it <- astar_new co orig ;; it' <- calls_state (astar_next P D co go dest) n it ;; mp_get co (a_cost it') p.

Definition astar_yields (b : backend) (P : post) (D : bool) (go : pos -> dir -> option pos) (orig dest : pos) (n : nat)
  : exec (list (option (pos * dir))) :=
  match b with
  | OnGrid => astar_yields_with (map_grid P (cells P)) P D go orig dest n
  | OnHash => astar_yields_with map_hash P D go orig dest n
  | OnBTree => astar_yields_with map_btree P D go orig dest n
  end.
Definition astar_records (b : backend) (P : post) (D : bool) (go : pos -> dir -> option pos) (orig dest : pos) (n : nat) (p : pos)
  : exec Z :=
  match b with
  | OnGrid => astar_records_with (map_grid P (cells P)) P D go orig dest n p
  | OnHash => astar_records_with map_hash P D go orig dest n p
  | OnBTree => astar_records_with map_btree P D go orig dest n p
  end.

(** The entry for [p] in the map returned by [search_mapmov]; for breadth-first
    search also the goal found. *)
Definition bf_entry_with {S M} (D : bool) (so : setops S) (mo : mapops (option dir) M) (fuel : nat)
    (go : pos -> dir -> option pos) (orig : pos) (found : pos -> bool) (p : pos) : exec (result (pos * option dir)) :=
  r <- bf_search_mapmov D so mo go fuel orig found ;;
  match r with Err e => Ret (Err e) | Ok (q, m) => v <- mp_get mo m p ;; Ret (Ok (q, v)) end.
Definition bf_entry (b : backend) (P : post) (D : bool) (WORDS : Z) :=
  match b with
  | OnGrid => bf_entry_with D (set_gridbool P WORDS) (map_grid P (cells P))
  | OnHash => bf_entry_with D set_hash map_hash
  | OnBTree => bf_entry_with D set_btree map_btree
  end.

Definition ucs_entry_with {MC M} (D : bool) (co : mapops Z MC) (mo : mapops (option dir) M) (fuel : nat)
    (go : pos -> dir -> option (pos * Z)) (orig dest p : pos) : exec (result (option dir)) :=
  r <- ucs_search_mapmov D co mo go fuel orig dest ;;
  match r with Err e => Ret (Err e) | Ok m => v <- mp_get mo m p ;; Ret (Ok v) end.
Definition ucs_entry (b : backend) (P : post) (D : bool) :=
  match b with
  | OnGrid => ucs_entry_with D (map_grid P (cells P)) (map_grid P (cells P))
  | OnHash => ucs_entry_with D map_hash map_hash
  | OnBTree => ucs_entry_with D map_btree map_btree
  end.

Definition astar_entry_with {MC M} (P : post) (D : bool) (co : mapops Z MC) (mo : mapops (option dir) M) (fuel : nat)
    (go : pos -> dir -> option pos) (orig dest p : pos) : exec (result (option dir)) :=
  r <- astar_search_mapmov P D co mo go fuel orig dest ;;
  match r with Err e => Ret (Err e) | Ok m => v <- mp_get mo m p ;; Ret (Ok v) end.
Definition astar_entry (b : backend) (P : post) (D : bool) :=
  match b with
  | OnGrid => astar_entry_with P D (map_grid P (cells P)) (map_grid P (cells P))
  | OnHash => astar_entry_with P D map_hash map_hash
  | OnBTree => astar_entry_with P D map_btree map_btree
  end.

(** A computation returns [r]: it does so with any large enough fuel. *)
Definition returns {A} (run : nat -> exec A) (r : A) : Prop :=
  exists n, forall fuel, (n <= fuel)%nat -> run fuel = Ret r.

(** ** Maps of directions leading back *)

(** Walking along a path inside the grid. *)
Fixpoint walk_inside (P : post) (p : pos) (path : list dir) (q : pos) : Prop :=
  match path with
  | [] => p = q
  | d :: ds => valid P (step p d) /\ walk_inside P (step p d) ds q
  end.

(** Following the entries of [f] from [p] arrives at [orig] after [n] moves, for
    the first time, and without leaving the grid. *)
Fixpoint leads_back (P : post) (f : pos -> option dir) (orig : pos) (n : nat) (p : pos) : Prop :=
  match n with
  | O => p = orig
  | S n' => p <> orig /\ exists d, f p = Some d /\ valid P (step p d) /\ leads_back P f orig n' (step p d)
  end.

(** One can follow [n] entries without leaving the grid, none of them at [orig]. *)
Fixpoint goes_on (P : post) (f : pos -> option dir) (orig : pos) (n : nat) (p : pos) : Prop :=
  match n with
  | O => True
  | S n' => p <> orig /\ exists d, f p = Some d /\ valid P (step p d) /\ goes_on P f orig n' (step p d)
  end.

(** ** Movement functions *)

(** A movement function of type [Fn(P, Dir) -> Option<P>] returns values of [P]. *)
Definition go_inside (P : post) (go : pos -> dir -> option pos) : Prop :=
  forall p d q, valid P p -> go p d = Some q -> valid P q.

(** It moves, if at all, by one step in the given direction. *)
Definition one_step (P : post) (go : pos -> dir -> option pos) : Prop :=
  forall p d q, valid P p -> go p d = Some q -> q = step p d.

(** A walk of [n] moves, in directions a search with parameter [D] may use,
    leads from [p] to [q]. *)
Definition walk (D : bool) (go : pos -> dir -> option pos) (p : pos) (n : nat) (q : pos) : Prop :=
  exists path, length path = n /\ Forall (allowed D) path /\ follow go p path = Some q.

Definition reachable (D : bool) (go : pos -> dir -> option pos) (p q : pos) : Prop :=
  exists n, walk D go p n q.

(** The shortest walk from [p] to [q] has [n] moves. *)
Definition at_distance (D : bool) (go : pos -> dir -> option pos) (p : pos) (n : nat) (q : pos) : Prop :=
  walk D go p n q /\ forall j, (j < n)%nat -> ~ walk D go p j q.

(** [path] is open and always heads for [dest]: each move changes each coordinate
    towards that of [dest], or leaves it alone if it is already right. *)
Fixpoint beeline (go : pos -> dir -> option pos) (dest p : pos) (path : list dir) : Prop :=
  match path with
  | [] => p = dest
  | d :: ds =>
      p <> dest /\ delta_x d = Z.sgn (fst dest - fst p) /\ delta_y d = Z.sgn (snd dest - snd p) /\
      go p d = Some (step p d) /\ beeline go dest (step p d) ds
  end.

(** Some move leaves [p] where it is. *)
Definition stays (D : bool) (go : pos -> dir -> option pos) (p : pos) : Prop :=
  exists d, allowed D d /\ go p d = Some p.

(** The goal positions nearest to [orig], other than [orig] itself, are at
    distance [n]. *)
Definition nearest_goal (D : bool) (go : pos -> dir -> option pos) (orig : pos) (found : pos -> bool) (n : nat) : Prop :=
  (exists q, q <> orig /\ found q = true /\ walk D go orig n q) /\
  forall j q, (j < n)%nat -> q <> orig -> found q = true -> ~ walk D go orig j q.

(** Movement functions with costs. *)
Definition move_of (go : pos -> dir -> option (pos * Z)) (p : pos) (d : dir) : option pos :=
  match go p d with Some (q, _) => Some q | None => None end.

Fixpoint follow_cost (go : pos -> dir -> option (pos * Z)) (p : pos) (path : list dir) : option (pos * Z) :=
  match path with
  | [] => Some (p, 0)
  | d :: ds =>
      match go p d with
      | Some (q, c) => match follow_cost go q ds with Some (r, cs) => Some (r, c + cs) | None => None end
      | None => None
      end
  end.

(** A walk of total cost [c] leads from [p] to [q]. *)
Definition cost_walk (D : bool) (go : pos -> dir -> option (pos * Z)) (p : pos) (c : Z) (q : pos) : Prop :=
  exists path, Forall (allowed D) path /\ follow_cost go p path = Some (q, c).

(** The lowest total cost of a walk from [p] to [q] is [c]. *)
Definition lowest_cost (D : bool) (go : pos -> dir -> option (pos * Z)) (p : pos) (c : Z) (q : pos) : Prop :=
  cost_walk D go p c q /\ forall c', cost_walk D go p c' q -> c <= c'.

(** Moves that all cost [k]. *)
Definition priced (k : Z) (go : pos -> dir -> option pos) (p : pos) (d : dir) : option (pos * Z) :=
  match go p d with Some q => Some (q, k) | None => None end.

(** Every move can be undone by a move. *)
Definition reversible (D : bool) (P : post) (go : pos -> dir -> option pos) : Prop :=
  forall p d q, valid P p -> allowed D d -> go p d = Some q -> exists e, allowed D e /\ go q e = Some p.

(** Two searches agree: both find a path, of the same length, or both fail in the
    same way. *)
Definition same_length (r r' : result (list dir)) : Prop :=
  match r, r' with
  | Ok path, Ok path' => length path = length path'
  | Err e, Err e' => e = e'
  | _, _ => False
  end.

(** The cost of a move only depends on the position entered. *)
Definition cost_of_entering (D : bool) (P : post) (go : pos -> dir -> option (pos * Z)) : Prop :=
  forall p d c p' d' c' q, valid P p -> valid P p' -> allowed D d -> allowed D d' ->
    go p d = Some (q, c) -> go p' d' = Some (q, c') -> c = c'.

(** Costs are usize values, and so small that no sum over a path without
    repetitions overflows. *)
Definition small_costs (P : post) (go : pos -> dir -> option (pos * Z)) : Prop :=
  exists cmax, cmax * cells P <= 18446744073709551615 /\
    forall p d q c, valid P p -> go p d = Some (q, c) -> 0 <= c <= cmax.

(** ** Searches on any position type *)

(** With enough fuel the outcome is [r], which may be a panic. *)
Definition settles {A} (run : nat -> exec A) (r : exec A) : Prop :=
  exists n, forall fuel, (n <= fuel)%nat -> run fuel = r.

(** The distances between the coordinates of [p] and [q] are values of the
    coordinate types. *)
Definition measurable (P : post) (p q : pos) : Prop :=
  in_bty (pt_x P) (Z.abs (fst p - fst q)) /\ in_bty (pt_y P) (Z.abs (snd p - snd q)).

(** The sizes computed before going back from [dest] to [orig] exist: twice their
    Manhattan distance is an isize, and the square of the width plus one a usize. *)
Definition retraceable (P : post) (orig dest : pos) : Prop :=
  measurable P orig dest /\
  2 * (Z.abs (fst orig - fst dest) + Z.abs (snd orig - snd dest)) <= 9223372036854775807 /\
  0 <= XM P /\ cols P * cols P + 1 <= 18446744073709551615.

(** ** Costs that can be summed *)

(** The positions met on a walk, the first one included. *)
Fixpoint visits (go : pos -> dir -> option (pos * Z)) (p : pos) (path : list dir) : list pos :=
  p :: match path with
       | [] => []
       | d :: ds => match go p d with Some (q, _) => visits go q ds | None => [] end
       end.

(** Costs are not negative, the cost of a walk from [orig] that meets no position
    twice is less than usize::MAX, and adding one more move stays within usize. *)
Definition affordable (D : bool) (P : post) (go : pos -> dir -> option (pos * Z)) (orig : pos) : Prop :=
  (forall p d q c, valid P p -> go p d = Some (q, c) -> 0 <= c) /\
  forall path p c, Forall (allowed D) path -> follow_cost go orig path = Some (p, c) -> NoDup (visits go orig path) ->
    c < 18446744073709551615 /\
    forall d q w, allowed D d -> go p d = Some (q, w) -> c + w <= 18446744073709551615.
