(** PropUcs.v -- properties of uniform-cost search: C50-C53, C74, C85, C97. *)

From Coq Require Import ZArith List Bool Lia.
From Verif Require Import Rust BoundedInt Dir PosT Pos Grid Gridbool SetMap CameFrom Heap Astar Ucs Spec SpecSearch Lib Deque BoundedIntProofs PosTProofs PosTProofs2 PropDirProofs SetMapProofs Sim CameFromProofs PropSetMapProofs BfProofs PropBfProofs BestFirst SearchProofs UcsProofs.
From Verif Require Import PropUcsProofs.
Import ListNotations.
Open Scope Z_scope.

(** C50: a returned path is a real path, whatever the costs. *)
Theorem C50_ucs_valid : forall b P D W go orig dest fuel path,
  usable b P W -> valid P orig -> valid P dest -> go_inside P (move_of go) -> one_step P (move_of go) ->
  ucs_on b P D fuel go orig dest = Ret (Ok path) ->
  Forall (allowed D) path /\ follow (move_of go) orig path = Some dest.
Proof. exact C50_ucs_valid_proof. Qed.
Print Assumptions C50_ucs_valid.

Example C50_example :
  let go p d := match pos_dir_add_ok (Pos 3 3) p d with Some q => if (fst q =? 1) && (snd q <? 3) then None else Some (q, 1 + snd q) | None => None end in
  ucs_on OnGrid (Pos 3 3) false 30 go (0, 0) (2, 1) = Ret (Ok [dS; dS; dS; dE; dE; dN; dN]) /\
  follow (move_of go) (0, 0) [dS; dS; dS; dE; dE; dN; dN] = Some (2, 1).
Proof. vm_compute. auto. Qed.

(** C74: what uniform-cost search returns, exactly but for the choice of the
    path: it ends, recognises unreachable destinations, and otherwise finds a
    path or, only on grids with more rows than columns, returns Err(Loop). *)
Theorem C74_ucs_exact : forall b P D W go orig dest,
  usable b P W -> valid P orig -> valid P dest -> go_inside P (move_of go) -> one_step P (move_of go) -> affordable D P go orig ->
  exists r, returns (fun fuel => ucs_on b P D fuel go orig dest) r /\
    (r = Err DestinationUnreachable <-> ~ reachable D (move_of go) orig dest) /\
    (r = Err DestinationUnreachable \/ (r = Err Loop /\ cols P < rows P) \/
     exists path, r = Ok path /\ Forall (allowed D) path /\ follow (move_of go) orig path = Some dest /\
       Z.of_nat (length path) <= cols P * cols P) /\
    (orig = dest -> r = Ok []) /\
    (r = Err Loop -> forall rs, (forall p, reachable D (move_of go) orig p -> In p rs) -> cols P * cols P < Z.of_nat (length rs)).
Proof. exact C74_ucs_exact_proof. Qed.
Print Assumptions C74_ucs_exact.

Example C74_example :
  let go p d := match pos_dir_add_ok (Pos 1 6) p d with Some q => Some (q, 3) | None => None end in
  ucs_on OnBTree (Pos 1 6) false 30 go (0, 0) (0, 4) = Ret (Ok [dS; dS; dS; dS]) /\
  ucs_on OnBTree (Pos 1 6) false 30 go (0, 0) (0, 5) = Ret (Err Loop) /\
  ucs_on OnBTree (Pos 1 6) false 30 (fun p d => if snd p =? 2 then None else go p d) (0, 0) (0, 4) = Ret (Err DestinationUnreachable).
Proof. vm_compute. auto. Qed.

(** C74, C52 and C53 ask that the cost of no walk without repeated positions
    overflows; this is enough for it. *)
Theorem C74_small_costs_suffice : forall D P go orig,
  grid_type P -> valid P orig -> go_inside P (move_of go) -> small_costs P go -> affordable D P go orig.
Proof. exact C74_small_costs_suffice_proof. Qed.
Print Assumptions C74_small_costs_suffice.

(** C53 is false on grids with more rows than columns. *)
Theorem C53_ucs_tall_grid_refuted : exists b P D W go orig dest,
  usable b P W /\ valid P orig /\ valid P dest /\ go_inside P (move_of go) /\ one_step P (move_of go) /\ small_costs P go /\
  reachable D (move_of go) orig dest /\ returns (fun fuel => ucs_on b P D fuel go orig dest) (Err Loop).
Proof. exact C53_ucs_tall_grid_refuted_proof. Qed.
Print Assumptions C53_ucs_tall_grid_refuted.

(** The part that holds: on grids with at least as many columns as rows.  Missing:
    the case above; C74 is the statement for all grids. *)
Theorem C53_ucs_complete_partial : forall b P D W go orig dest,
  usable b P W -> rows P <= cols P -> valid P orig -> valid P dest -> go_inside P (move_of go) -> one_step P (move_of go) -> affordable D P go orig ->
  exists r, returns (fun fuel => ucs_on b P D fuel go orig dest) r /\
    (r = Err DestinationUnreachable <-> ~ reachable D (move_of go) orig dest) /\
    (r <> Err DestinationUnreachable -> exists path, r = Ok path).
Proof. exact C53_ucs_complete_partial_proof. Qed.
Print Assumptions C53_ucs_complete_partial.

Example C53_example :
  let go p d := match pos_dir_add_ok (Pos 4 2) p d with Some q => if fst q =? 2 then None else Some (q, 4611686018427387904 / 4) | None => None end in
  ucs_on OnHash (Pos 4 2) true 60 go (0, 0) (3, 0) = Ret (Err DestinationUnreachable) /\
  ucs_on OnHash (Pos 4 2) true 60 go (0, 0) (1, 2) = Ret (Ok [dSE; dS]).
Proof. vm_compute. auto. Qed.

(** C51 is false: an entry left behind in the queue by a dearer way into a
    position overwrites the direction recorded for it. *)
Theorem C51_ucs_lowest_cost_refuted : exists b P D W go orig dest path c k,
  usable b P W /\ valid P orig /\ valid P dest /\ go_inside P (move_of go) /\ one_step P (move_of go) /\ small_costs P go /\
  rows P <= cols P /\
  returns (fun fuel => ucs_on b P D fuel go orig dest) (Ok path) /\
  follow_cost go orig path = Some (dest, c) /\ cost_walk D go orig k dest /\ k < c.
Proof. exact C51_ucs_lowest_cost_refuted_proof. Qed.
Print Assumptions C51_ucs_lowest_cost_refuted.

(** The part that holds: the path has the lowest cost when the cost of a move
    only depends on the position entered.  Missing: other cost functions, for
    which the claim is false in general. *)
Theorem C51_ucs_lowest_cost_partial : forall b P D W go orig dest path,
  usable b P W -> valid P orig -> valid P dest -> go_inside P (move_of go) -> one_step P (move_of go) -> affordable D P go orig ->
  cost_of_entering D P go ->
  returns (fun fuel => ucs_on b P D fuel go orig dest) (Ok path) ->
  exists c, follow_cost go orig path = Some (dest, c) /\ lowest_cost D go orig c dest.
Proof. exact C51_ucs_lowest_cost_partial_proof. Qed.
Print Assumptions C51_ucs_lowest_cost_partial.

Example C51_example :
  let go p d := match pos_dir_add_ok (Pos 3 2) p d with Some q => Some (q, if fst q =? 1 then 10 - 4 * snd q else 1) | None => None end in
  ucs_on OnGrid (Pos 3 2) false 60 go (0, 0) (2, 0) = Ret (Ok [dS; dS; dE; dE; dN; dN]) /\
  follow_cost go (0, 0) [dS; dS; dE; dE; dN; dN] = Some ((2, 0), 7) /\
  follow_cost go (0, 0) [dE; dE] = Some ((2, 0), 11).
Proof. vm_compute. auto. Qed.

(** C52: the iterator yields exactly the reachable positions, first yields them in
    the order of their true lowest costs, and has recorded these costs. *)
Theorem C52_ucs_iterator_order : forall b P D W go orig,
  usable b P W -> valid P orig -> go_inside P (move_of go) -> affordable D P go orig ->
  exists items : list (pos * dir),
    (forall n, ucs_yields b P D go orig n = Ret (items_then_none items n)) /\
    (forall p, In p (map fst items) <-> reachable D (move_of go) orig p) /\
    (forall n p d, nth_error items n = Some (p, d) ->
       exists c, lowest_cost D go orig c p /\ ucs_records b P D go orig (S n) p = Ret c) /\
    (forall i j p d q e c c', (i < j)%nat -> nth_error items i = Some (p, d) -> nth_error items j = Some (q, e) ->
       ~ In q (map fst (firstn j items)) -> lowest_cost D go orig c p -> lowest_cost D go orig c' q -> c <= c').
Proof. exact C52_ucs_iterator_order_proof. Qed.
Print Assumptions C52_ucs_iterator_order.

Example C52_example :
  let go p d := match pos_dir_add_ok (Pos 1 1) p d with Some q => Some (q, if pos_eqb p (0, 0) && pos_eqb q (1, 0) then 10 else 1) | None => None end in
  ucs_yields OnGrid (Pos 1 1) false go (0, 0) 7 =
    Ret [Some ((0, 0), dN); Some ((0, 1), dN); Some ((1, 1), dW); Some ((1, 0), dS); Some ((1, 0), dW); None; None] /\
  ucs_records OnGrid (Pos 1 1) false go (0, 0) 1 (1, 0) = Ret 10 /\ ucs_records OnGrid (Pos 1 1) false go (0, 0) 4 (1, 0) = Ret 3.
Proof. vm_compute. auto. Qed.

(** C85: the first time the iterator yields a position, the direction leads back
    to a position yielded before, along a move of some lowest-cost walk; so the
    first yields form a tree of lowest-cost walks, whatever the costs. *)
Theorem C85_ucs_first_yields : forall b P D W go orig n l p d,
  usable b P W -> valid P orig -> go_inside P (move_of go) -> affordable D P go orig ->
  ucs_yields b P D go orig n = Ret (map Some l ++ [Some (p, d)]) -> ~ In p (map fst l) ->
  p = orig \/
  exists q e w c, In q (map fst l) /\ allowed D e /\ go q e = Some (p, w) /\ heading d = (heading e + 4) mod 8 /\
    (one_step P (move_of go) -> step p d = q) /\
    lowest_cost D go orig c q /\ lowest_cost D go orig (c + w) p.
Proof. exact C85_ucs_first_yields_proof. Qed.
Print Assumptions C85_ucs_first_yields.

Example C85_example :
  let go p d := match pos_dir_add_ok (Pos 1 1) p d with Some q => Some (q, if pos_eqb p (0, 0) && pos_eqb q (1, 0) then 10 else 1) | None => None end in
  ucs_yields OnGrid (Pos 1 1) false go (0, 0) 4 = Ret (map Some [((0, 0), dN); ((0, 1), dN); ((1, 1), dW)] ++ [Some ((1, 0), dS)]) /\
  ~ In (1, 0) (map fst [((0, 0), dN); ((0, 1), dN); ((1, 1), dW)]) /\ go (1, 1) dN = Some ((1, 0), 1).
Proof. vm_compute. intuition congruence. Qed.

(** C97 is false: a destination whose lowest cost is usize::MAX is reported
    unreachable. *)
Theorem C97_ucs_largest_cost_refuted : exists b P W go orig dest,
  usable b P W /\ valid P orig /\ valid P dest /\ go_inside P (move_of go) /\ one_step P (move_of go) /\
  (forall p d q c, go p d = Some (q, c) -> 0 <= c <= 18446744073709551615) /\
  lowest_cost false go orig 18446744073709551615 dest /\
  returns (fun fuel => ucs_on b P false fuel go orig dest) (Err DestinationUnreachable).
Proof. exact C97_ucs_largest_cost_refuted_proof. Qed.
Print Assumptions C97_ucs_largest_cost_refuted.

(** And a destination with a lowest cost of 1 makes the search panic, because the
    cost of going on from it is added before it is found to be the destination. *)
Theorem C97_ucs_overflow_refuted : exists b P W go orig dest,
  usable b P W /\ valid P orig /\ valid P dest /\ go_inside P (move_of go) /\ one_step P (move_of go) /\
  (forall p d q c, go p d = Some (q, c) -> 0 <= c <= 18446744073709551615) /\
  lowest_cost false go orig 1 dest /\
  settles (fun fuel => ucs_on b P false fuel go orig dest) Panic.
Proof. exact C97_ucs_overflow_refuted_proof. Qed.
Print Assumptions C97_ucs_overflow_refuted.

(** What holds: with costs so small that the largest one times the number of
    positions is a usize, the search never panics and is right about which
    destinations can be reached.  Missing: larger costs, see above; C74 has the
    exact condition used. *)
Theorem C97_ucs_costs_partial : forall b P D W go orig dest cmax,
  usable b P W -> valid P orig -> valid P dest -> go_inside P (move_of go) -> one_step P (move_of go) ->
  (forall p d q c, valid P p -> go p d = Some (q, c) -> 0 <= c <= cmax) -> cmax * cells P <= 18446744073709551615 ->
  exists r, returns (fun fuel => ucs_on b P D fuel go orig dest) r /\ (r = Err DestinationUnreachable <-> ~ reachable D (move_of go) orig dest).
Proof. exact C97_ucs_costs_partial_proof. Qed.
Print Assumptions C97_ucs_costs_partial.

Example C97_example :
  let go k p d := match pos_dir_add_ok (Pos 2 1) p d with Some q => Some (q, k) | None => None end in
  3074457345618258602 * cells (Pos 2 1) <= 18446744073709551615 /\
  ucs_on OnGrid (Pos 2 1) false 30 (go 3074457345618258602) (0, 0) (2, 1) = Ret (Ok [dE; dE; dS]) /\
  ucs_on OnGrid (Pos 2 1) false 30 (go 9223372036854775808) (0, 0) (2, 1) = Panic.
Proof. vm_compute. repeat split; discriminate. Qed.
