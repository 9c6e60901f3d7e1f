(** PropOrderIter.v -- iterators of searches on position types with an order of their own: C149. *)

From Coq Require Import ZArith List Bool Lia Permutation Arith.
From Verif Require Import Rust BoundedInt Dir PosT Pos Grid Gridbool SetMap CameFrom Bf Heap Astar Ucs Queue Order Spec SpecSearch SpecPrice SpecQueue SpecOrder Lib Deque BoundedIntProofs PosTProofs PosTProofs2 PropDirProofs SetMapProofs Sim CameFromProofs BfProofs Fair FairSearch AstarProofs UcsProofs PropUcsProofs FairQueue PropQueueProofs PropAgreeProofs PropOrderProofs.
From Verif Require Import PropOrderIterProofs.
Import ListNotations.
Open Scope Z_scope.

(** C149: the iterator of uniform-cost search yields exactly the reachable positions, in
    the order of their lowest costs, and has recorded the lowest cost when it yields one. *)
Theorem C149_ucs_iterator : forall H (qo : queueops H) ok els b P D go orig,
  fair_queue qo ok els -> (b = OnGrid -> grid_type P) -> valid P orig ->
  go_inside P (move_of go) -> affordable D P go orig ->
  exists items : list (pos * dir),
    (forall n, ucsq_yields qo b P D go orig n = Ret (items_then_none items n)) /\
    (forall p, In p (map fst items) <-> reachable D (move_of go) orig p) /\
    (forall n p d, nth_error items n = Some (p, d) ->
       exists c, lowest_cost D go orig c p /\ ucsq_records qo b P D go orig (S n) p = Ret c) /\
    (forall i j p d q e c c', (i < j)%nat -> nth_error items i = Some (p, d) -> nth_error items j = Some (q, e) ->
       ~ In q (map fst (firstn j items)) -> lowest_cost D go orig c p -> lowest_cost D go orig c' q -> c <= c').
Proof. exact C149_ucs_iterator_proof. Qed.
Print Assumptions C149_ucs_iterator.

(** C149: the first time a position is yielded, its direction leads back to the
    position before it on a path of lowest cost, which has been yielded already. *)
Theorem C149_ucs_first_yields : forall H (qo : queueops H) ok els b P D go orig n l p d,
  fair_queue qo ok els -> (b = OnGrid -> grid_type P) -> valid P orig ->
  go_inside P (move_of go) -> affordable D P go orig ->
  ucsq_yields qo b P D go orig n = Ret (map Some l ++ [Some (p, d)]) -> ~ In p (map fst l) ->
  p = orig \/
  exists q e w c, In q (map fst l) /\ allowed D e /\ go q e = Some (p, w) /\ heading d = (heading e + 4) mod 8 /\
    (one_step P (move_of go) -> step p d = q) /\
    lowest_cost D go orig c q /\ lowest_cost D go orig (c + w) p.
Proof. exact C149_ucs_first_yields_proof. Qed.
Print Assumptions C149_ucs_first_yields.

(** C149: the iterator of A* yields exactly the reachable positions; without diagonals in
    the order of their distance from the origin plus the columns and rows to the destination. *)
Theorem C149_astar_iterator : forall H (qo : queueops H) ok els b P D go orig dest rs,
  fair_queue qo ok els -> post_wf P -> (b = OnGrid -> grid_type P) -> valid P orig -> valid P dest ->
  go_inside P go -> one_step P go ->
  (forall p, reachable D go orig p -> In p rs) ->
  (forall p, reachable D go orig p -> measurable P p dest /\
     Z.of_nat (length rs) + (Z.abs (fst p - fst dest) + Z.abs (snd p - snd dest)) <= 18446744073709551615) ->
  exists items : list (pos * dir),
    (forall n, astarq_yields qo b P D go orig dest n = Ret (items_then_none items n)) /\
    (forall p, In p (map fst items) <-> reachable D go orig p) /\
    (forall n p d, nth_error items n = Some (p, d) ->
       exists k, walk D go orig k p /\ astarq_records qo b P D go orig dest (S n) p = Ret (Z.of_nat k) /\
         (D = false -> at_distance D go orig k p)) /\
    (forall i j p d q e k k', D = false -> (i < j)%nat -> nth_error items i = Some (p, d) -> nth_error items j = Some (q, e) ->
       ~ In q (map fst (firstn j items)) -> at_distance D go orig k p -> at_distance D go orig k' q ->
       Z.of_nat k + (Z.abs (fst p - fst dest) + Z.abs (snd p - snd dest)) <=
       Z.of_nat k' + (Z.abs (fst q - fst dest) + Z.abs (snd q - snd dest))).
Proof. exact C149_astar_iterator_proof. Qed.
Print Assumptions C149_astar_iterator.

(** C149: without diagonals, the first time A* yields a position its direction leads back
    along a shortest path. *)
Theorem C149_astar_first_yields : forall H (qo : queueops H) ok els b P D go orig dest rs n l p d,
  fair_queue qo ok els -> post_wf P -> (b = OnGrid -> grid_type P) -> valid P orig -> valid P dest ->
  go_inside P go -> one_step P go ->
  (forall p, reachable D go orig p -> In p rs) ->
  (forall p, reachable D go orig p -> measurable P p dest /\
     Z.of_nat (length rs) + (Z.abs (fst p - fst dest) + Z.abs (snd p - snd dest)) <= 18446744073709551615) ->
  D = false -> astarq_yields qo b P D go orig dest n = Ret (map Some l ++ [Some (p, d)]) -> ~ In p (map fst l) ->
  p = orig \/
  exists k, In (step p d) (map fst l) /\ (exists e, allowed D e /\ go (step p d) e = Some p /\ heading d = (heading e + 4) mod 8) /\
    at_distance D go orig k (step p d) /\ at_distance D go orig (S k) p.
Proof. exact C149_astar_first_yields_proof. Qed.
Print Assumptions C149_astar_first_yields.

(** Around a wall, with the order of sqrid's types and with the reversed one: positions
    of equal costs come in another order. *)
Example C149_ucs_example :
  let own (x y : pos * dir) := negb (entry_ltb (0, y) (0, x)) in
  let P := Pos 2 1 in
  let go p d := match pos_dir_add_ok P p d with Some q => if pos_eqb q (1, 0) then None else Some q | None => None end in
  let priced p d := match go p d with Some q => Some (q, if fst q =? 1 then 5 else 1) | None => None end in
  grid_type P /\ valid P (0, 0) /\ go_inside P (move_of priced) /\ affordable true P priced (0, 0) /\
  ucsq_yields (queue_ordered own) OnHash P true priced (0, 0) 7 =
    Ret (items_then_none [((0, 0), dN); ((0, 1), dN); ((1, 1), dNW); ((2, 1), dW); ((2, 0), dSW)] 7) /\
  ucsq_yields (queue_ordered (fun x y => own y x)) OnHash P true priced (0, 0) 7 =
    Ret (items_then_none [((0, 0), dN); ((0, 1), dN); ((1, 1), dNW); ((2, 0), dSW); ((2, 1), dW)] 7) /\
  ucsq_records (queue_ordered own) OnHash P true priced (0, 0) 3 (1, 1) = Ret 5.
Proof.
  intros own P go priced. assert (G : grid_type P) by (apply Pos_grid_type; unfold u16_dims; lia).
  assert (V : valid P (0, 0)) by (unfold valid, in_bty; cbn; lia).
  assert (K : forall p d q w, priced p d = Some (q, w) -> pos_dir_add_ok P p d = Some q /\ 0 <= w <= 5).
  { intros p d q w. unfold priced, go. destruct (pos_dir_add_ok P p d) as [r|]; [|discriminate]. destruct (pos_eqb r (1, 0)); [discriminate |].
    intros E. injection E as <- <-. split; [reflexivity |]. destruct (fst r =? 1); lia. }
  assert (HG : go_inside P (move_of priced)).
  { intros p d q Vp E. unfold move_of in E. destruct (priced p d) as [[r w]|] eqn:Ep; [|discriminate]. injection E as <-. exact (open_inside P G p d r Vp (proj1 (K p d r w Ep))). }
  split; [exact G |]. split; [exact V |]. split; [exact HG |]. split.
  - apply C74_small_costs_suffice_proof; [exact G | exact V | exact HG |]. exists 5. split; [unfold cells, cols, rows; cbn; lia |].
    intros p d q w Vp E. exact (proj2 (K p d q w E)).
  - vm_compute. auto.
Qed.

Example C149_astar_example :
  let own (x y : pos * dir) := negb (entry_ltb (0, y) (0, x)) in
  let P := Pos 1 1 in
  let go := pos_dir_add_ok P in
  let rs := [(0, 0); (0, 1); (1, 0); (1, 1)] in
  grid_type P /\ valid P (0, 0) /\ valid P (1, 1) /\ go_inside P go /\ one_step P go /\
  (forall p, reachable false go (0, 0) p -> In p rs /\ measurable P p (1, 1)) /\
  astarq_yields (queue_ordered own) OnBTree P false go (0, 0) (1, 1) 5 =
    Ret (items_then_none [((0, 0), dN); ((1, 0), dW); ((1, 1), dN); ((0, 1), dN)] 5) /\
  astarq_yields (queue_ordered (fun x y => own y x)) OnBTree P false go (0, 0) (1, 1) 5 =
    Ret (items_then_none [((0, 0), dN); ((0, 1), dN); ((1, 0), dW); ((1, 1), dW)] 5) /\
  astarq_records (queue_ordered own) OnBTree P false go (0, 0) (1, 1) 3 (1, 1) = Ret 2.
Proof.
  intros own P go rs. assert (G : grid_type P) by (apply Pos_grid_type; unfold u16_dims; lia).
  split; [exact G |]. split; [unfold valid, in_bty; cbn; lia |]. split; [unfold valid, in_bty; cbn; lia |].
  assert (HG : go_inside P go) by exact (open_inside P G). split; [exact HG |]. split; [exact (open_one_step P G) |]. split.
  - intros (x, y) (n & ds & _ & _ & F).
    assert (VV : valid P (x, y)).
    { assert (Q : forall l p q, valid P p -> follow go p l = Some q -> valid P q).
      { induction l as [|d l IH]; intros p q Vp E; cbn in E; [congruence |]. destruct (go p d) as [r|] eqn:Er; [|discriminate]. exact (IH r q (HG p d r Vp Er) E). }
      apply (Q ds (0, 0) (x, y)); [unfold valid, in_bty; cbn; lia | exact F]. }
    unfold valid, in_bty in VV. cbn in VV.
    assert (C : (x = 0 \/ x = 1) /\ (y = 0 \/ y = 1)) by lia.
    split; [destruct C as ([-> | ->] & [-> | ->]); cbn; tauto | unfold measurable, in_bty; cbn; lia].
  - vm_compute. auto.
Qed.
