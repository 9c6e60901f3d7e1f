(** PropYield.v -- exactly what the iterator of uniform-cost search yields: C153. *)

From Coq Require Import ZArith List Bool Lia Permutation Arith.
From Verif Require Import Rust BoundedInt Dir PosT Pos Grid Gridbool SetMap CameFrom Bf Heap Astar Ucs Queue Order Btree Spec SpecSearch SpecMaze SpecStorage SpecPrice SpecQueue SpecOrder SpecBtree SpecTreeOrder SpecSettle SpecOrderPath SpecYield Lib Deque BoundedIntProofs PosTProofs PosTProofs2 PropDirProofs SetMapProofs Sim CameFromProofs BfProofs PropBfProofs Fair FairSearch SearchProofs AstarProofs PropAstarProofs UcsProofs PropUcsProofs FairQueue BeelineProofs PropAgreeProofs PropStorageProofs PropEffortProofs GridProofs PropPathProofs PropReplanProofs PropStrayProofs PropLocalProofs BtreeProofs PropBtreeProofs PropOrderProofs PropTreeOrderProofs PropSettleProofs BestFirst Ordered OrderedQueue PropOrderWorkProofs PropOrderPathProofs PropPriceProofs.
From Verif Require Import PropYieldProofs.
Import ListNotations.
Open Scope Z_scope.

(** ** Runs *)

(** ** What is yielded *)

(** C153: with positive costs, the iterator of uniform-cost search yields exactly the
    origin and the moves that improve on those from positions settled before, sorted by
    their cost and, at equal costs, the greatest position first. *)
Theorem C153_ucs_yields : forall H MC (qo : queueops H) ok els (co : mapops Z MC) cmp P (D : bool) go orig,
  order_of P cmp -> ordered_queue P cmp qo ok els -> acts_as_map P co -> valid P orig ->
  go_inside P (move_of go) -> one_step P (move_of go) -> affordable D P go orig ->
  (forall p d q w, valid P p -> go p d = Some (q, w) -> 0 < w) ->
  exists es : list entry,
    (forall n, ucsq_yields_with qo co D go orig n = Ret (items_then_none (map snd es) n)) /\
    (forall x, In x es <-> improving (ahead_by cmp) D go orig x) /\
    (forall i j x y, (i < j)%nat -> nth_error es i = Some x -> nth_error es j = Some y -> sooner_by cmp x y).
Proof. exact C153_ucs_yields_proof. Qed.
Print Assumptions C153_ucs_yields.

(** C153: the two conditions leave no choice. *)
Theorem C153_one_list : forall cmp P (D : bool) go orig (es es' : list entry),
  order_of P cmp -> valid P orig -> go_inside P (move_of go) ->
  (forall x, In x es <-> improving (ahead_by cmp) D go orig x) ->
  (forall x, In x es' <-> improving (ahead_by cmp) D go orig x) ->
  (forall i j x y, (i < j)%nat -> nth_error es i = Some x -> nth_error es j = Some y -> sooner_by cmp x y) ->
  (forall i j x y, (i < j)%nat -> nth_error es' i = Some x -> nth_error es' j = Some y -> sooner_by cmp x y) ->
  es = es'.
Proof. exact C153_one_list_proof. Qed.
Print Assumptions C153_one_list.

(** C153: the iterator of a [Ucs] over the crate's own storage and queue yields the same
    list, positions being compared by their x and then their y coordinates. *)
Theorem C153_ucs_crate : forall b P D W go orig,
  usable b P W -> valid P orig -> go_inside P (move_of go) -> one_step P (move_of go) -> affordable D P go orig ->
  (forall p d q w, valid P p -> go p d = Some (q, w) -> 0 < w) ->
  exists es : list entry,
    (forall n, ucs_yields b P D go orig n = Ret (items_then_none (map snd es) n)) /\
    (forall x, In x es <-> improving ahead D go orig x) /\
    (forall i j k p d k' p' d', (i < j)%nat -> nth_error es i = Some (k, (p, d)) -> nth_error es j = Some (k', (p', d')) ->
       k < k' \/ k = k' /\ (fst p' < fst p \/ fst p' = fst p /\ snd p' < snd p)).
Proof. exact C153_ucs_crate_proof. Qed.
Print Assumptions C153_ucs_crate.

(** ** The order decides *)

(** C153: with two queues that pop by the same order, and any storage that acts as maps,
    the iterators of uniform-cost search yield the same and record the same costs; costs
    of zero are allowed here. *)
Theorem C153_ucs_same : forall H MC (qo : queueops H) ok els (co : mapops Z MC) H' MC' (qo' : queueops H') ok' els' (co' : mapops Z MC') cmp P (D : bool) go orig,
  order_of P cmp -> ordered_queue P cmp qo ok els -> ordered_queue P cmp qo' ok' els' -> acts_as_map P co -> acts_as_map P co' -> valid P orig ->
  go_inside P (move_of go) -> affordable D P go orig ->
  forall n, (exists l, ucsq_yields_with qo co D go orig n = Ret l /\ ucsq_yields_with qo' co' D go orig n = Ret l) /\
    forall p, valid P p -> exists k, ucsq_records_with qo co D go orig n p = Ret k /\ ucsq_records_with qo' co' D go orig n p = Ret k.
Proof. exact C153_ucs_same_proof. Qed.
Print Assumptions C153_ucs_same.

(** C153: the iterators of A*, likewise. *)
Theorem C153_astar_same : forall H MC (qo : queueops H) ok els (co : mapops Z MC) H' MC' (qo' : queueops H') ok' els' (co' : mapops Z MC') cmp P (D : bool) go orig dest rs,
  order_of P cmp -> ordered_queue P cmp qo ok els -> ordered_queue P cmp qo' ok' els' -> acts_as_map P co -> acts_as_map P co' -> post_wf P -> valid P orig -> valid P dest ->
  go_inside P go ->
  (forall p, reachable D go orig p -> In p rs) ->
  (forall p, reachable D go orig p -> measurable P p dest /\
     Z.of_nat (length rs) + (Z.abs (fst p - fst dest) + Z.abs (snd p - snd dest)) <= 18446744073709551615) ->
  forall n, (exists l, astarq_yields_with qo co P D go orig dest n = Ret l /\ astarq_yields_with qo' co' P D go orig dest n = Ret l) /\
    forall p, valid P p -> exists k, astarq_records_with qo co P D go orig dest n p = Ret k /\ astarq_records_with qo' co' P D go orig dest n p = Ret k.
Proof. exact C153_astar_same_proof. Qed.
Print Assumptions C153_astar_same.

Example C153_example :
  let P := Pos 2 1 in
  let go p d := pos_dir_add_ok P p d in
  let cost p d := option_map (fun q => (q, if pos_eqb p (0, 0) && pos_eqb q (1, 0) then 9 else 1)) (go p d) in
  ucs_yields OnGrid P false cost (0, 0) 9 =
    Ret (items_then_none [((0, 0), dN); ((0, 1), dN); ((1, 1), dW); ((2, 1), dW); ((1, 0), dS); ((2, 0), dS); ((1, 0), dW)] 9) /\
  ucsq_yields_with (queue_ordered (pair_le backwards)) (map_tree_by backwards) false cost (0, 0) 9 =
    Ret (items_then_none [((0, 0), dN); ((0, 1), dN); ((1, 1), dW); ((1, 0), dS); ((2, 1), dW); ((2, 0), dW); ((1, 0), dW)] 9) /\
  astarq_yields_with (queue_ordered (pair_le pos_cmp)) (map_tree_by pos_cmp) P false go (0, 0) (2, 1) 7 =
    Ret (items_then_none [((0, 0), dN); ((1, 0), dW); ((2, 0), dW); ((2, 1), dN); ((1, 1), dN); ((0, 1), dN)] 7) /\
  astarq_yields_with (queue_ordered (pair_le backwards)) (map_tree_by backwards) P false go (0, 0) (2, 1) 7 =
    Ret (items_then_none [((0, 0), dN); ((0, 1), dN); ((1, 0), dW); ((1, 1), dW); ((2, 0), dW); ((2, 1), dW)] 7).
Proof. vm_compute. repeat split; reflexivity. Qed.

Example C153_hypotheses :
  let P := Pos 2 1 in
  let go p d := pos_dir_add_ok P p d in
  let cost p d := option_map (fun q => (q, if pos_eqb p (0, 0) && pos_eqb q (1, 0) then 9 else 1)) (go p d) in
  order_of P backwards /\ (exists ok, ordered_queue P backwards (queue_ordered (pair_le backwards)) ok (fun v => v)) /\
  (forall Item, acts_as_map P (@map_tree_by Item backwards)) /\
  usable OnGrid P 1 /\ post_wf P /\ valid P (0, 0) /\
  go_inside P (move_of cost) /\ one_step P (move_of cost) /\ affordable false P cost (0, 0) /\
  (forall p d q w, valid P p -> cost p d = Some (q, w) -> 0 < w) /\
  (exists k, improving (ahead_by backwards) false cost (0, 0) (k, ((2, 0), dW))) /\
  (exists k, improving (ahead_by backwards) false cost (0, 0) (k, ((1, 0), dS))) /\
  (exists k, improving (ahead_by backwards) false cost (0, 0) (k, ((1, 0), dW))).
Proof.
  intros P go cost. assert (G : grid_type P) by (apply Pos_grid_type; unfold u16_dims; lia). pose proof (grid_type_wf P G) as WF.
  assert (V : valid P (0, 0)) by (unfold valid, in_bty; cbn; lia).
  assert (EM : forall p d q, move_of cost p d = Some q -> go p d = Some q) by (intros p d q; unfold move_of, cost; destruct (go p d) as [r |]; cbn; congruence).
  assert (HG : go_inside P (move_of cost)) by (intros p d q Vp E; exact (open_inside P G p d q Vp (EM p d q E))).
  assert (OS : one_step P (move_of cost)) by (intros p d q Vp E; exact (open_one_step P G p d q Vp (EM p d q E))).
  assert (OB : order_of P backwards).
  { unfold backwards. constructor.
    - intros p q _ _. rewrite (to_eq _ pos_cmp_order). split; congruence.
    - intros p q _ _. apply (to_flip _ pos_cmp_order).
    - intros p q r _ _ _ H1 H2. exact (to_trans _ pos_cmp_order _ _ _ H2 H1). }
  assert (W1 : forall p d q w, cost p d = Some (q, w) -> 0 < w <= 9).
  { intros p d q w E. unfold cost in E. destruct (go p d) as [r |]; [|discriminate]. cbn [option_map] in E. injection E as _ <-. destruct (_ && _); lia. }
  assert (HA : affordable false P cost (0, 0)).
  { apply C74_small_costs_suffice_proof; [exact G | exact V | exact HG |]. exists 9. split; [unfold cells, cols, rows; cbn; lia |].
    intros p d q c Vp E. pose proof (W1 p d q c E). lia. }
  assert (POS : forall p d q w, valid P p -> cost p d = Some (q, w) -> 0 < w) by (intros p d q w _ E; pose proof (W1 p d q w E); lia).
  destruct (C152_heap_proof backwards P OB) as (ok & OQ). destruct (C151_applies_proof backwards P OB) as (_ & AT & _).
  split; [exact OB |]. split; [exists ok; exact OQ |]. split; [exact AT |].
  split; [exists 2, 1; unfold u16_dims, cells, cols, rows; cbn; repeat split; lia |]. split; [exact WF |]. split; [exact V |]. split; [exact HG |]. split; [exact OS |]. split; [exact HA |]. split; [exact POS |].
  destruct (C153_ucs_yields_proof _ _ _ ok _ (map_tree_by backwards) backwards P false cost (0, 0) OB OQ (AT _) V HG OS HA POS) as (es & K1 & K2 & _).
  assert (Y : ucsq_yields_with (queue_ordered (pair_le backwards)) (map_tree_by backwards) false cost (0, 0) 7 =
    Ret (map Some [((0, 0), dN); ((0, 1), dN); ((1, 1), dW); ((1, 0), dS); ((2, 1), dW); ((2, 0), dW); ((1, 0), dW)])) by (vm_compute; reflexivity).
  rewrite K1 in Y. injection Y as Y. unfold items_then_none in Y.
  assert (I : forall m, In (Some m) (map Some (firstn 7 (map snd es)) ++ repeat None (7 - length (map snd es))) -> exists k, improving (ahead_by backwards) false cost (0, 0) (k, m)).
  { intros m Hm. apply in_app_or in Hm. destruct Hm as [Hm | Hm]; [|apply repeat_spec in Hm; discriminate].
    apply in_map_iff in Hm. destruct Hm as (m' & Em & Hm). injection Em as ->. assert (Hm2 : In m (map snd es)) by (rewrite <- (firstn_skipn 7 (map snd es)); apply in_or_app; left; exact Hm).
    apply in_map_iff in Hm2. destruct Hm2 as ([k m'] & Em & Hk). cbn [snd] in Em. subst m'. exists k. apply K2. exact Hk. }
  rewrite Y in I. split; [|split]; apply I; cbn [In map]; tauto.
Qed.
