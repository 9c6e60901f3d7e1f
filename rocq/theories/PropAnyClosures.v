(** PropAnyClosures.v -- closures that answer anything: C123. *)

From Coq Require Import ZArith List Bool Lia.
From Verif Require Import Rust BoundedInt Dir PosT Pos Grid Gridbool SetMap CameFrom Heap Bf Astar Ucs Closures Spec SpecSearch SpecMaze SpecClosures Lib BoundedIntProofs PosTProofs PosTProofs2 SetMapProofs Sim CameFromProofs PropSetMapProofs BfProofs PropBfProofs BestFirst SearchProofs PropPathProofs.
From Verif Require Import PropAnyClosuresProofs.
Import ListNotations.
Open Scope Z_scope.

(** ** Path reconstruction on the maps that occur *)

(** ** Breadth-first search *)

(** C123: breadth-first search returns whatever the closures answer, even if the
    answers contradict each other: an error, or a path in the grid. *)
Theorem C123_bfs_any_closures : forall St b P D W (panics : Prop) (goa : pos -> dir -> act St (option pos)) (fda : pos -> act St bool) orig,
  usable b P W -> valid P orig ->
  (forall p d, valid P p -> gives panics (goa p d) (fun o => forall q, o = Some q -> valid P q)) ->
  (forall p, valid P p -> gives panics (fda p) (fun _ => True)) ->
  exists N, forall fuel, (N <= fuel)%nat -> gives panics (bfs_acts b P D W fuel goa orig fda) (fun r =>
    match r with Ok (dest, path) => valid P dest /\ grid_path P D orig path dest | Err e => search_error e end).
Proof. exact C123_bfs_any_closures_proof. Qed.
Print Assumptions C123_bfs_any_closures.

(** ** Uniform-cost search and A* *)

(** C123: so does uniform-cost search if costs cannot sum up to an overflow. *)
Theorem C123_ucs_any_closures : forall St b P D W (panics : Prop) (goa : pos -> dir -> act St (option (pos * Z))) orig dest K,
  usable b P W -> valid P orig -> valid P dest -> 0 <= K -> K * cells P <= 18446744073709551615 ->
  (forall p d, valid P p -> gives panics (goa p d) (fun o => forall q w, o = Some (q, w) -> valid P q /\ 0 <= w <= K)) ->
  exists N, forall fuel, (N <= fuel)%nat -> gives panics (ucs_acts b P D fuel goa orig dest) (fun r =>
    match r with Ok path => grid_path P D orig path dest | Err e => search_error e end).
Proof. exact C123_ucs_any_closures_proof. Qed.
Print Assumptions C123_ucs_any_closures.

(** With any costs of type usize it can panic, but never runs for ever and never
    reaches undefined behaviour, and what it returns is as above. *)
Theorem C123_ucs_any_costs : forall St b P D W (goa : pos -> dir -> act St (option (pos * Z))) orig dest,
  usable b P W -> valid P orig -> valid P dest ->
  (forall p d, valid P p -> gives True (goa p d) (fun o => forall q w, o = Some (q, w) -> valid P q /\ 0 <= w)) ->
  exists N, forall fuel, (N <= fuel)%nat -> gives True (ucs_acts b P D fuel goa orig dest) (fun r =>
    match r with Ok path => grid_path P D orig path dest | Err e => search_error e end).
Proof. exact C123_ucs_any_costs_proof. Qed.
Print Assumptions C123_ucs_any_costs.

(** C123: and so does A*. *)
Theorem C123_astar_any_closures : forall St b P D W (panics : Prop) (goa : pos -> dir -> act St (option pos)) orig dest,
  usable b P W -> valid P orig -> valid P dest ->
  (forall p d, valid P p -> gives panics (goa p d) (fun o => forall q, o = Some q -> valid P q)) ->
  exists N, forall fuel, (N <= fuel)%nat -> gives panics (astar_acts b P D fuel goa orig dest) (fun r =>
    match r with Ok path => grid_path P D orig path dest | Err e => search_error e end).
Proof. exact C123_astar_any_closures_proof. Qed.
Print Assumptions C123_astar_any_closures.

(** Closures whose answers come from a sequence of pseudo-random numbers and have
    nothing to do with the arguments; all four kinds of results occur. *)
Example C123_example :
  let random s := (s * 5 + 3) mod 64 in
  let go (p : pos) (d : dir) s := Ret (random s, if s mod 3 =? 0 then None else Some (s mod 4, (s / 4) mod 4)) in
  let go_cost (p : pos) (d : dir) s := Ret (random s, if s mod 3 =? 0 then None else Some ((s mod 4, (s / 4) mod 4), s mod 64)) in
  let found (p : pos) s := Ret (random s, s mod 11 =? 0) in
  bfs_acts OnGrid (Pos 3 3) false 1 30 go (0, 0) found 0 = Ret (3, Err InvalidMovement) /\
  bfs_acts OnGrid (Pos 3 3) false 1 30 go (0, 0) found 6 = Ret (55, Err DestinationUnreachable) /\
  bfs_acts OnGrid (Pos 3 3) false 1 30 go (0, 0) found 20 = Ret (40, Err Loop) /\
  ucs_acts OnHash (Pos 3 3) false 300 go_cost (0, 0) (1, 2) 10 = Ret (10, Ok [dS; dS; dE]) /\
  astar_acts OnBTree (Pos 3 3) true 300 go (0, 0) (1, 2) 5 = Ret (37, Err Loop) /\
  (forall p d, valid (Pos 3 3) p -> gives False (go p d) (fun o => forall q, o = Some q -> valid (Pos 3 3) q)) /\
  (forall p d, valid (Pos 3 3) p -> gives False (go_cost p d) (fun o => forall q w, o = Some (q, w) -> valid (Pos 3 3) q /\ 0 <= w <= 63)).
Proof.
  do 5 (split; [vm_compute; reflexivity |]).
  assert (V : forall s, valid (Pos 3 3) (s mod 4, (s / 4) mod 4)).
  { intros s. pose proof (Z.mod_pos_bound s 4 eq_refl). pose proof (Z.mod_pos_bound (s / 4) 4 eq_refl). unfold valid, in_bty. cbn. lia. }
  split; intros p d _ s; right; eexists; eexists; (split; [reflexivity |]).
  - intros q E. destruct (s mod 3 =? 0); [discriminate |]. injection E as <-. apply V.
  - intros q w E. destruct (s mod 3 =? 0); [discriminate |]. injection E as <- <-. split; [apply V |]. pose proof (Z.mod_pos_bound s 64 eq_refl). lia.
Qed.
