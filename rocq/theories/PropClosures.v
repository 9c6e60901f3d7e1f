(** PropClosures.v -- the effects of the user's closures: C122. *)

From Coq Require Import ZArith List Bool Lia.
From Verif Require Import Rust BoundedInt Dir PosT Pos Grid Gridbool SetMap CameFrom Heap Bf Astar Ucs Closures Spec SpecSearch SpecClosures Lib PosTProofs GridProofs2 BfProofs PropBfProofs.
From Verif Require Import PropClosuresProofs.
Import ListNotations.
Open Scope Z_scope.

(** C122: the breadth-first iterator calls the movement closure around the
    origin when it is created, and around the positions of a vector when [next]
    returns it; in all other respects effects make no difference. *)
Theorem C122_bf_iter_effects : forall St b P D W (goa : pos -> dir -> act St (option pos)) go orig n l,
  answers goa go -> bf_yields b P D W go orig n = Ret l ->
  forall s, bf_yields_acts b P D W goa orig n s = effect goa no_goal (around D orig ++ around_all D (vectors l)) l s.
Proof. exact C122_bf_iter_effects_proof. Qed.
Print Assumptions C122_bf_iter_effects.

(** C122: breadth-first search gives the result it gives with the pure closures;
    until then it calls the movement closure around the origin, and for one
    vector of the iterator after the other, around its positions and then the
    goal closure on them, up to the first goal. *)
Theorem C122_bfs_effects : forall St b P D W fuel (goa : pos -> dir -> act St (option pos)) (fda : pos -> act St bool) go found orig r,
  answers goa go -> answers_goal fda found -> bfs_on b P D W fuel go orig found = Ret r ->
  exists levels last tail,
    bf_yields b P D W go orig (length levels + 1) = Ret (map Some levels ++ [last]) /\
    (forall l x, In l levels -> In x l -> found (fst x) = false) /\
    match last with
    | None => r = Err DestinationUnreachable /\ tail = []
    | Some l => exists l1 p d l2, l = l1 ++ (p, d) :: l2 /\ found p = true /\ (forall x, In x l1 -> found (fst x) = false) /\
        (forall q path, r = Ok (q, path) -> q = p) /\ tail = around_all D l ++ goals l1 ++ [AskGoal p]
    end /\
    forall s, bfs_acts b P D W fuel goa orig fda s =
      effect goa fda (around D orig ++ flat_map (fun l => around_all D l ++ goals l) levels ++ tail) r s.
Proof. exact C122_bfs_effects_proof. Qed.
Print Assumptions C122_bfs_effects.

(** C122: the same for uniform-cost search, which calls the closure around every
    position its iterator yields, up to the destination. *)
Theorem C122_ucs_effects : forall St b P D fuel (goa : pos -> dir -> act St (option (pos * Z))) go orig dest r,
  answers goa go -> ucs_on b P D fuel go orig dest = Ret r ->
  exists items last,
    ucs_yields b P D go orig (length items + 1) = Ret (map Some items ++ [last]) /\
    (forall x, In x items -> fst x <> dest) /\
    match last with None => r = Err DestinationUnreachable | Some x => fst x = dest end /\
    forall s, ucs_acts b P D fuel goa orig dest s =
      effect goa no_goal (around_all D (items ++ match last with Some x => [x] | None => [] end)) r s.
Proof. exact C122_ucs_effects_proof. Qed.
Print Assumptions C122_ucs_effects.

(** C122: the same for A*. *)
Theorem C122_astar_effects : forall St b P D fuel (goa : pos -> dir -> act St (option pos)) go orig dest r,
  answers goa go -> astar_on b P D fuel go orig dest = Ret r ->
  exists items last,
    astar_yields b P D go orig dest (length items + 1) = Ret (map Some items ++ [last]) /\
    (forall x, In x items -> fst x <> dest) /\
    match last with None => r = Err DestinationUnreachable | Some x => fst x = dest end /\
    forall s, astar_acts b P D fuel goa orig dest s =
      effect goa no_goal (around_all D (items ++ match last with Some x => [x] | None => [] end)) r s.
Proof. exact C122_astar_effects_proof. Qed.
Print Assumptions C122_astar_effects.

(** C122: none of these calls of breadth-first search is made twice; the list of
    calls of [C122_bfs_effects] is a beginning of the one here. *)
Theorem C122_bfs_asks_once : forall b P D W go orig levels last,
  usable b P W -> valid P orig -> go_inside P go -> ~ stays D go orig ->
  bf_yields b P D W go orig (length levels + 1) = Ret (map Some levels ++ [last]) ->
  NoDup (around D orig ++ flat_map (fun l => around_all D l ++ goals l) (levels ++ match last with Some l => [l] | None => [] end)).
Proof. exact C122_bfs_asks_once_proof. Qed.
Print Assumptions C122_bfs_asks_once.

(** A movement closure that counts its calls and panics at (2, 2), and a goal
    closure that counts its calls: 24 and 4 calls in a search for (1, 1); a
    search for (2, 2) panics. *)
Example C122_bfs_example :
  let go p d (s : nat * nat) := if pos_eqb p (2, 2) then Panic else Ret ((S (fst s), snd s), pos_dir_add_ok (Pos 2 2) p d) in
  let found q p (s : nat * nat) := Ret ((fst s, S (snd s)), pos_eqb p q) in
  bfs_acts OnHash (Pos 2 2) false 0 30 go (0, 0) (found (1, 1)) (0%nat, 0%nat) = Ret ((24%nat, 4%nat), Ok ((1, 1), [dE; dS])) /\
  bfs_acts OnHash (Pos 2 2) false 0 30 go (0, 0) (found (2, 2)) (0%nat, 0%nat) = Panic /\
  answers go (pos_dir_add_ok (Pos 2 2)) /\ answers_goal (found (1, 1)) (fun p => pos_eqb p (1, 1)) /\
  bfs_on OnHash (Pos 2 2) false 0 30 (pos_dir_add_ok (Pos 2 2)) (0, 0) (fun p => pos_eqb p (1, 1)) = Ret (Ok ((1, 1), [dE; dS])).
Proof.
  split; [vm_compute; reflexivity |]. split; [vm_compute; reflexivity |]. split; [|split; [|vm_compute; reflexivity]].
  - intros s p d s' a E. cbn in E. destruct (pos_eqb p (2, 2)); [discriminate | congruence].
  - intros s p s' a E. congruence.
Qed.

Example C122_ucs_astar_example :
  let gou p d (s : nat) := Ret (S s, option_map (fun q => (q, 1 + fst q)) (pos_dir_add_ok (Pos 2 2) p d)) in
  let gos p d (s : nat) := Ret (S s, pos_dir_add_ok (Pos 2 2) p d) in
  ucs_acts OnGrid (Pos 2 2) false 30 gou (0, 0) (2, 1) 0%nat = Ret (32%nat, Ok [dS; dE; dE]) /\
  astar_acts OnGrid (Pos 2 2) false 30 gos (0, 0) (2, 1) 0%nat = Ret (16%nat, Ok [dE; dE; dS]).
Proof. vm_compute. split; reflexivity. Qed.
