(** PropOrderPath.v -- which path searches return on position types with an order of their own: C152. *)

From Coq Require Import ZArith List Bool Lia Permutation Arith.
From Verif Require Import Rust BoundedInt Dir PosT Pos Grid Gridbool SetMap CameFrom Bf Heap Astar Ucs Queue Order Btree Spec SpecSearch SpecMaze SpecStorage SpecPrice SpecQueue SpecOrder SpecBtree SpecTreeOrder SpecSettle SpecOrderPath Lib Deque BoundedIntProofs PosTProofs PosTProofs2 PropDirProofs SetMapProofs Sim CameFromProofs BfProofs PropBfProofs Fair FairSearch SearchProofs AstarProofs PropAstarProofs UcsProofs PropUcsProofs FairQueue BeelineProofs PropAgreeProofs PropStorageProofs PropEffortProofs GridProofs PropPathProofs PropReplanProofs PropStrayProofs PropLocalProofs BtreeProofs PropBtreeProofs PropOrderProofs PropTreeOrderProofs PropSettleProofs BestFirst Ordered OrderedQueue PropOrderWorkProofs PropPriceProofs.
From Verif Require Import PropOrderPathProofs.
Import ListNotations.
Open Scope Z_scope.

(** ** The heap *)

(** C152: a BinaryHeap, with the order of the positions that the type implements, pops an
    element of the lowest cost and, of these, one with the greatest position in that
    order. *)
Theorem C152_heap : forall cmp P, order_of P cmp ->
  exists ok, ordered_queue P cmp (queue_ordered (pair_le cmp)) ok (fun v => v).
Proof. exact C152_heap_proof. Qed.
Print Assumptions C152_heap.

(** ** The path of uniform-cost search *)

(** C152: with positive costs, uniform-cost search returns exactly the path that comes
    from the order in which positions are settled: by their cost and, at equal costs, the
    greater position in the order of the type first (if that path is not longer than the
    limit, and the limit can be computed); there is only one such path. *)
Theorem C152_ucs_exact : forall H M MC (qo : queueops H) ok els (co : mapops Z MC) (mo : mapops (option dir) M) cmp P (D : bool) go orig dest path,
  order_of P cmp -> ordered_queue P cmp qo ok els -> acts_as_map P co -> acts_as_map P mo -> post_wf P -> valid P orig -> valid P dest ->
  go_inside P (move_of go) -> one_step P (move_of go) -> affordable D P go orig ->
  (forall p d q w, valid P p -> go p d = Some (q, w) -> 0 < w) ->
  (returns (fun fuel => ucsq_search_path qo P D co mo go fuel orig dest) (Ok path) <->
   settled_path_by (ahead_by cmp) D go orig dest path /\ Z.of_nat (length path) <= cols P * cols P /\ retraceable P orig dest) /\
  forall path', settled_path_by (ahead_by cmp) D go orig dest path -> settled_path_by (ahead_by cmp) D go orig dest path' -> path' = path.
Proof. exact C152_ucs_exact_proof. Qed.
Print Assumptions C152_ucs_exact.

(** ** Moves, whatever is popped first among elements of equal cost *)

(** C152: with costs that may be zero, and any queue that pops an element of the lowest
    cost, every move of the path comes from a position of the lowest cost among those from
    which the next one can be entered below the cost of the destination. *)
Theorem C152_ucs_moves : forall H M MC (qo : queueops H) ok els (co : mapops Z MC) (mo : mapops (option dir) M) P (D : bool) go orig dest path l1 d l2 p,
  fair_queue qo ok els -> acts_as_map P co -> acts_as_map P mo -> post_wf P -> valid P orig -> valid P dest ->
  go_inside P (move_of go) -> one_step P (move_of go) -> affordable D P go orig ->
  returns (fun fuel => ucsq_search_path qo P D co mo go fuel orig dest) (Ok path) ->
  path = l1 ++ d :: l2 -> follow (move_of go) orig l1 = Some p ->
  exists k c q w, lowest_cost D go orig k dest /\ lowest_cost D go orig c p /\ go p d = Some (q, w) /\ c + w <= k /\
    forall p' d' w' c', lowest_cost D go orig c' p' -> allowed D d' -> go p' d' = Some (q, w') -> c' + w' < k -> c <= c'.
Proof. exact C152_ucs_moves_proof. Qed.
Print Assumptions C152_ucs_moves.

(** C152: A* search (without diagonals), likewise with its estimates. *)
Theorem C152_astar_moves : forall H M MC (qo : queueops H) ok els (co : mapops Z MC) (mo : mapops (option dir) M) P go orig dest rs path l1 d l2 p,
  fair_queue qo ok els -> acts_as_map P co -> acts_as_map P mo -> post_wf P -> valid P orig -> valid P dest ->
  go_inside P go -> one_step P go -> (forall q, reachable false go orig q -> In q rs) -> Z.of_nat (length rs) <= 18446744073709551615 ->
  returns (fun fuel => astarq_search_path qo P false co mo go fuel orig dest) (Ok path) ->
  path = l1 ++ d :: l2 -> follow go orig l1 = Some p ->
  let left q := Z.abs (fst q - fst dest) + Z.abs (snd q - snd dest) in
  exists n m q, at_distance false go orig n dest /\ at_distance false go orig m p /\ go p d = Some q /\
    Z.of_nat m + 1 + left q <= Z.of_nat n /\
    forall p' d' m', at_distance false go orig m' p' -> allowed false d' -> go p' d' = Some q ->
      Z.of_nat m' + 1 + left q < Z.of_nat n -> Z.of_nat m + left p <= Z.of_nat m' + left p'.
Proof. exact C152_astar_moves_proof. Qed.
Print Assumptions C152_astar_moves.

(** ** Nothing but the order matters *)

(** C152: the order decides: uniform-cost searches with any two queues that pop by the
    same order, and any storage that acts as maps, end with the same result. *)
Theorem C152_ucs_same : forall H M MC (qo : queueops H) ok els (co : mapops Z MC) (mo : mapops (option dir) M)
    H' M' MC' (qo' : queueops H') ok' els' (co' : mapops Z MC') (mo' : mapops (option dir) M') cmp P (D : bool) go orig dest,
  order_of P cmp -> ordered_queue P cmp qo ok els -> ordered_queue P cmp qo' ok' els' ->
  acts_as_map P co -> acts_as_map P mo -> acts_as_map P co' -> acts_as_map P mo' -> post_wf P -> valid P orig -> valid P dest ->
  go_inside P (move_of go) -> affordable D P go orig ->
  exists r, settles (fun fuel => ucsq_search_path qo P D co mo go fuel orig dest) r /\
    settles (fun fuel => ucsq_search_path qo' P D co' mo' go fuel orig dest) r.
Proof. exact C152_ucs_same_proof. Qed.
Print Assumptions C152_ucs_same.

(** C152: A* searches, likewise. *)
Theorem C152_astar_same : forall H M MC (qo : queueops H) ok els (co : mapops Z MC) (mo : mapops (option dir) M)
    H' M' MC' (qo' : queueops H') ok' els' (co' : mapops Z MC') (mo' : mapops (option dir) M') cmp P (D : bool) go orig dest rs,
  order_of P cmp -> ordered_queue P cmp qo ok els -> ordered_queue P cmp qo' ok' els' ->
  acts_as_map P co -> acts_as_map P mo -> acts_as_map P co' -> acts_as_map P mo' -> post_wf P -> valid P orig -> valid P dest ->
  go_inside P go ->
  (forall p, reachable D go orig p -> In p rs) ->
  (forall p, reachable D go orig p -> measurable P p dest /\
     Z.of_nat (length rs) + (Z.abs (fst p - fst dest) + Z.abs (snd p - snd dest)) <= 18446744073709551615) ->
  exists r, settles (fun fuel => astarq_search_path qo P D co mo go fuel orig dest) r /\
    settles (fun fuel => astarq_search_path qo' P D co' mo' go fuel orig dest) r.
Proof. exact C152_astar_same_proof. Qed.
Print Assumptions C152_astar_same.

Example C152_example :
  let P := Pos 4 3 in
  let go p d := pos_dir_add_ok P p d in
  let cost p d := option_map (fun q => (q, 1)) (go p d) in
  ucs_ordered pos_cmp P false 100 cost (0, 0) (2, 1) = Ret (Ok [dE; dE; dS]) /\
  ucs_ordered backwards P false 100 cost (0, 0) (2, 1) = Ret (Ok [dS; dE; dE]) /\
  astar_ordered pos_cmp P false 100 go (0, 0) (2, 2) = Ret (Ok [dE; dE; dS; dS]) /\
  astar_ordered backwards P false 100 go (0, 0) (2, 2) = Ret (Ok [dS; dS; dE; dE]) /\
  sooner_by pos_cmp (1, ((1, 0), dW)) (1, ((0, 1), dN)) /\ sooner_by backwards (1, ((0, 1), dN)) (1, ((1, 0), dW)).
Proof. vm_compute. repeat (split; [reflexivity |]). split; right; (split; [reflexivity | left; reflexivity]). Qed.

Example C152_hypotheses :
  let P := Pos 4 3 in
  let go p d := pos_dir_add_ok P p d in
  let cost p d := option_map (fun q => (q, 1)) (go p d) in
  order_of P backwards /\ (exists ok, ordered_queue P backwards (queue_ordered (pair_le backwards)) ok (fun v => v)) /\
  (forall Item, acts_as_map P (@map_tree_by Item backwards)) /\
  post_wf P /\ valid P (0, 0) /\ valid P (2, 1) /\ retraceable P (0, 0) (2, 1) /\
  go_inside P (move_of cost) /\ one_step P (move_of cost) /\ affordable false P cost (0, 0) /\
  (forall p d q w, valid P p -> cost p d = Some (q, w) -> 0 < w) /\
  settled_path_by (ahead_by backwards) false cost (0, 0) (2, 1) [dS; dE; dE] /\
  settled_path_by (ahead_by pos_cmp) false cost (0, 0) (2, 1) [dE; dE; dS].
Proof.
  intros P go cost. assert (G : grid_type P) by (apply Pos_grid_type; unfold u16_dims; lia). pose proof (grid_type_wf P G) as WF.
  assert (V : valid P (0, 0)) by (unfold valid, in_bty; cbn; lia). assert (Vd : valid P (2, 1)) by (unfold valid, in_bty; cbn; lia).
  assert (EM : forall p d q, move_of cost p d = Some q -> go p d = Some q) by (intros p d q; unfold move_of, cost; destruct (go p d) as [r |]; cbn; congruence).
  assert (HG : go_inside P (move_of cost)) by (intros p d q Vp E; exact (open_inside P G p d q Vp (EM p d q E))).
  assert (OS : one_step P (move_of cost)) by (intros p d q Vp E; exact (open_one_step P G p d q Vp (EM p d q E))).
  assert (OB : order_of P backwards).
  { unfold backwards. constructor.
    - intros p q _ _. rewrite (to_eq _ pos_cmp_order). split; congruence.
    - intros p q _ _. apply (to_flip _ pos_cmp_order).
    - intros p q r _ _ _ H1 H2. exact (to_trans _ pos_cmp_order _ _ _ H2 H1). }
  assert (OP : order_of P pos_cmp).
  { constructor.
    - intros p q _ _. apply (to_eq _ pos_cmp_order).
    - intros p q _ _. apply (to_flip _ pos_cmp_order).
    - intros p q r _ _ _. apply (to_trans _ pos_cmp_order). }
  assert (W1 : forall p d q w, cost p d = Some (q, w) -> w = 1) by (intros p d q w E; unfold cost in E; destruct (go p d) as [r |]; [|discriminate]; cbn [option_map] in E; injection E as _ <-; reflexivity).
  assert (HA : affordable false P cost (0, 0)).
  { apply C74_small_costs_suffice_proof; [exact G | exact V | exact HG |]. exists 1. split; [unfold cells, cols, rows; cbn; lia |].
    intros p d q c Vp E. rewrite (W1 p d q c E). lia. }
  assert (POS : forall p d q w, valid P p -> cost p d = Some (q, w) -> 0 < w) by (intros p d q w _ E; rewrite (W1 p d q w E); lia).
  assert (SP : forall cmp path, order_of P cmp -> ucs_ordered cmp P false 200 cost (0, 0) (2, 1) = Ret (Ok path) -> settled_path_by (ahead_by cmp) false cost (0, 0) (2, 1) path).
  { intros cmp path OC E. destruct (C152_heap_proof cmp P OC) as (ok & OQ). destruct (C151_applies_proof cmp P OC) as ((ok' & FQ) & AT & _).
    destruct (C151_ucs_effort_proof _ _ _ _ ok' _ (map_tree_by cmp) (map_tree_by cmp) P false cost (0, 0) (all_rows P) FQ (AT _) (AT _) WF V HG HA) as (_ & K).
    { intros p (n & Wn). apply all_rows_In. exact (BfProofs.walk_valid false (move_of cost) P n (0, 0) p HG V Wn). }
    destruct (K (2, 1) Vd) as (r & _ & Kr). assert (r = Ret (Ok path)) as ->.
    { rewrite <- E. symmetry. apply Kr; [vm_compute; repeat constructor | vm_compute; reflexivity]. }
    apply (C152_ucs_exact_proof _ _ _ _ ok _ (map_tree_by cmp) (map_tree_by cmp) cmp P false cost (0, 0) (2, 1) path OC OQ (AT _) (AT _) WF V Vd HG OS HA POS).
    exists 200%nat. intros fuel L. apply Kr; [apply (Nat.lt_le_trans _ 200); [vm_compute; repeat constructor | exact L] | unfold cols; cbn; lia]. }
  split; [exact OB |]. split; [apply C152_heap_proof; exact OB |]. split; [apply (C151_applies_proof backwards P OB) |].
  split; [exact WF |]. split; [exact V |]. split; [exact Vd |]. split; [unfold retraceable, measurable, in_bty; cbn; lia |].
  split; [exact HG |]. split; [exact OS |]. split; [exact HA |]. split; [exact POS |].
  split; apply SP; [exact OB | vm_compute; reflexivity | exact OP | vm_compute; reflexivity].
Qed.
