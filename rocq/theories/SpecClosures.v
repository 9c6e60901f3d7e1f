(** SpecClosures.v -- vocabulary for the effects of the user's closures. *)

From Coq Require Import ZArith List Bool.
From Verif Require Import Rust BoundedInt Dir PosT Pos Grid Gridbool SetMap CameFrom Bf Astar Ucs Closures Spec SpecSearch SpecMaze.
Import ListNotations.
Open Scope Z_scope.

(** One call of the movement closure, or of the goal closure. *)
Inductive ask := AskGo (p : pos) (d : dir) | AskGoal (p : pos).

(** Make these calls, one after the other, and ignore the answers. *)
Fixpoint perform {St A B} (go : pos -> dir -> act St A) (found : pos -> act St B) (cs : list ask) (s : St) : exec St :=
  match cs with
  | [] => Ret s
  | AskGo p d :: cs' => '(s', _) <- go p d s ;; perform go found cs' s'
  | AskGoal p :: cs' => '(s', _) <- found p s ;; perform go found cs' s'
  end.

(** The world after these calls, and the result of the whole. *)
Definition effect {St A B C} (go : pos -> dir -> act St A) (found : pos -> act St B) (cs : list ask) (r : C) (s : St) : exec (St * C) :=
  s' <- perform go found cs s ;; Ret (s', r).

(** The closure may change the world or panic, but its answers depend on its
    arguments only. *)
Definition answers {St A} (go : pos -> dir -> act St A) (f : pos -> dir -> A) : Prop :=
  forall s p d s' a, go p d s = Ret (s', a) -> a = f p d.
Definition answers_goal {St} (found : pos -> act St bool) (f : pos -> bool) : Prop :=
  forall s p s' a, found p s = Ret (s', a) -> a = f p.

(** For the searches without goal closure. *)
Definition no_goal {St} : pos -> act St unit := fun _ s => Ret (s, tt).

(** The calls of the movement closure around a position: clockwise from north. *)
Definition around (D : bool) (p : pos) : list ask :=
  map (AskGo p) (if D then [dN; dNE; dE; dSE; dS; dSW; dW; dNW] else [dN; dE; dS; dW]).
Definition around_all (D : bool) (l : list (pos * dir)) : list ask := flat_map (fun x => around D (fst x)) l.
Definition goals (l : list (pos * dir)) : list ask := map (fun x => AskGoal (fst x)) l.

(** The searches and the breadth-first iterator on the storage types. *)
Definition bfs_acts {St} (b : backend) (P : post) (D : bool) (WORDS : Z) (fuel : nat)
    (go : pos -> dir -> act St (option pos)) (orig : pos) (found : pos -> act St bool) : act St (result (pos * list dir)) :=
  match b with
  | OnGrid => bfa_search_path P D (set_gridbool P WORDS) (map_grid P (cells P)) go found fuel orig
  | OnHash => bfa_search_path P D set_hash map_hash go found fuel orig
  | OnBTree => bfa_search_path P D set_btree map_btree go found fuel orig
  end.
Definition ucs_acts {St} (b : backend) (P : post) (D : bool) (fuel : nat)
    (go : pos -> dir -> act St (option (pos * Z))) (orig dest : pos) : act St (result (list dir)) :=
  match b with
  | OnGrid => ucsa_search_path P D (map_grid P (cells P)) (map_grid P (cells P)) go fuel orig dest
  | OnHash => ucsa_search_path P D map_hash map_hash go fuel orig dest
  | OnBTree => ucsa_search_path P D map_btree map_btree go fuel orig dest
  end.
Definition astar_acts {St} (b : backend) (P : post) (D : bool) (fuel : nat)
    (go : pos -> dir -> act St (option pos)) (orig dest : pos) : act St (result (list dir)) :=
  match b with
  | OnGrid => astara_search_path P D (map_grid P (cells P)) (map_grid P (cells P)) go fuel orig dest
  | OnHash => astara_search_path P D map_hash map_hash go fuel orig dest
  | OnBTree => astara_search_path P D map_btree map_btree go fuel orig dest
  end.

(** The results of [n] calls to [next]. *)
Fixpoint next_acts {St A I} (next : I -> act St (option A * I)) (n : nat) (it : I) : act St (list (option A)) :=
  match n with
  | O => done []
  | S n' => '(o, it') <~ next it ;; l <~ next_acts next n' it' ;; done (o :: l)
  end.
Definition bf_yields_acts {St} (b : backend) (P : post) (D : bool) (WORDS : Z)
    (go : pos -> dir -> act St (option pos)) (orig : pos) (n : nat) : act St (list (option (list (pos * dir)))) :=
  match b with
  | OnGrid => it <~ bfa_new D (set_gridbool P WORDS) go orig ;; next_acts (bfa_next D (set_gridbool P WORDS) go) n it
  | OnHash => it <~ bfa_new D set_hash go orig ;; next_acts (bfa_next D set_hash go) n it
  | OnBTree => it <~ bfa_new D set_btree go orig ;; next_acts (bfa_next D set_btree go) n it
  end.
(** The positions of the vectors among the results. *)
Definition vectors (l : list (option (list (pos * dir)))) : list (pos * dir) :=
  flat_map (fun o => match o with Some v => v | None => [] end) l.

(** Every call ends with an answer that satisfies [Q], or, if [panics], with a
    panic; what it answers may depend on the state of the world. *)
Definition gives {St A} (panics : Prop) (m : act St A) (Q : A -> Prop) : Prop :=
  forall s, (panics /\ m s = Panic) \/ exists s' a, m s = Ret (s', a) /\ Q a.

(** A path in the grid: it leads from [orig] to [dest] without leaving the grid
    or visiting a position twice, and without diagonals if they are off. *)
Definition grid_path (P : post) (D : bool) (orig : pos) (path : list dir) (dest : pos) : Prop :=
  walk_inside P orig path dest /\ Forall (allowed D) path /\ NoDup (orig :: places orig path).
Definition search_error (e : error) : Prop := e = DestinationUnreachable \/ e = InvalidMovement \/ e = Loop.
