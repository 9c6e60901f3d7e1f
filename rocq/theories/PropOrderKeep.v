(** PropOrderKeep.v -- shortest paths of A* on position types with an order of their own: C155. *)

From Coq Require Import ZArith List Bool Lia Permutation Arith.
From Verif Require Import Rust BoundedInt Dir PosT Pos Grid Gridbool SetMap CameFrom Bf Heap Astar Ucs Queue Order Btree Spec SpecSearch SpecMaze SpecStorage SpecPrice SpecQueue SpecOrder SpecBtree SpecTreeOrder SpecSettle SpecOrderPath SpecReplan SpecKeep SpecKeepBy Lib Deque BoundedIntProofs PosTProofs PosTProofs2 PropDirProofs SetMapProofs Sim CameFromProofs BfProofs PropBfProofs Fair FairSearch SearchProofs AstarProofs PropAstarProofs FairQueue PropAgreeProofs PropStorageProofs PropEffortProofs GridProofs PropPathProofs PropReplanProofs BtreeProofs PropBtreeProofs PropOrderProofs PropTreeOrderProofs PropSettleProofs BestFirst Ordered OrderedQueue PropOrderWorkProofs PropOrderPathProofs ChronoBy SpineBy KeepBy PropKeepProofs.
From Verif Require Import PropOrderKeepProofs.
Import ListNotations.
Open Scope Z_scope.

(** ** Planning again *)

(** C155: if the path returned by A* without diagonals is a shortest one, planning again at a
    position [p] of it, on a map where some other moves are closed, gives the rest of it. *)
Theorem C155_astar_rest_unused : forall H M MC (qo : queueops H) ok els (co : mapops Z MC) (mo : mapops (option dir) M) cmp P go go' orig dest rs path l1 l2 p,
  order_of P cmp -> ordered_queue P cmp qo ok els -> acts_as_map P co -> acts_as_map P mo -> post_wf P -> valid P orig -> valid P dest ->
  go_inside P go -> one_step P go -> (forall p, reachable false go orig p -> In p rs) ->
  (forall p, reachable false go orig p -> measurable P p dest /\
     Z.of_nat (length rs) + (Z.abs (fst p - fst dest) + Z.abs (snd p - snd dest)) <= 18446744073709551615) ->
  returns (fun fuel => astarq_search_path qo P false co mo go fuel orig dest) (Ok path) -> at_distance false go orig (length path) dest ->
  (forall p d q, go' p d = Some q -> go p d = Some q) ->
  path = l1 ++ l2 -> follow go orig l1 = Some p -> follow go' p l2 = Some dest -> retraceable P p dest ->
  returns (fun fuel => astarq_search_path qo P false co mo go' fuel p dest) (Ok l2).
Proof. exact C155_astar_rest_unused_proof. Qed.
Print Assumptions C155_astar_rest_unused.

(** C155: so closing moves the path does not use changes nothing, *)
Theorem C155_astar_unused : forall H M MC (qo : queueops H) ok els (co : mapops Z MC) (mo : mapops (option dir) M) cmp P go go' orig dest rs path,
  order_of P cmp -> ordered_queue P cmp qo ok els -> acts_as_map P co -> acts_as_map P mo -> post_wf P -> valid P orig -> valid P dest ->
  go_inside P go -> one_step P go -> (forall p, reachable false go orig p -> In p rs) ->
  (forall p, reachable false go orig p -> measurable P p dest /\
     Z.of_nat (length rs) + (Z.abs (fst p - fst dest) + Z.abs (snd p - snd dest)) <= 18446744073709551615) ->
  returns (fun fuel => astarq_search_path qo P false co mo go fuel orig dest) (Ok path) -> at_distance false go orig (length path) dest ->
  (forall p d q, go' p d = Some q -> go p d = Some q) -> follow go' orig path = Some dest ->
  returns (fun fuel => astarq_search_path qo P false co mo go' fuel orig dest) (Ok path).
Proof. exact C155_astar_unused_proof. Qed.
Print Assumptions C155_astar_unused.

(** C155: and planning again on the same map before every move leads along the path. *)
Theorem C155_astar_replanned : forall H M MC (qo : queueops H) ok els (co : mapops Z MC) (mo : mapops (option dir) M) cmp P go orig dest rs path w,
  order_of P cmp -> ordered_queue P cmp qo ok els -> acts_as_map P co -> acts_as_map P mo -> post_wf P -> valid P orig -> valid P dest ->
  go_inside P go -> one_step P go -> (forall p, reachable false go orig p -> In p rs) ->
  (forall p, reachable false go orig p -> measurable P p dest /\ retraceable P p dest /\
     Z.of_nat (length rs) + (Z.abs (fst p - fst dest) + Z.abs (snd p - snd dest)) <= 18446744073709551615) ->
  returns (fun fuel => astarq_search_path qo P false co mo go fuel orig dest) (Ok path) -> at_distance false go orig (length path) dest ->
  (replanned (fun p l => returns (fun fuel => astarq_search_path qo P false co mo go fuel p dest) (Ok l)) go dest orig w <-> w = path).
Proof. exact C155_astar_replanned_proof. Qed.
Print Assumptions C155_astar_replanned.

(** ** Which shortest path *)

(** C155: a shortest path returned by A* without diagonals is the one [foremost_by] tells, *)
Theorem C155_astar_which : forall H M MC (qo : queueops H) ok els (co : mapops Z MC) (mo : mapops (option dir) M) cmp P go orig dest rs path,
  order_of P cmp -> ordered_queue P cmp qo ok els -> acts_as_map P co -> acts_as_map P mo -> post_wf P -> valid P orig -> valid P dest ->
  go_inside P go -> one_step P go -> (forall p, reachable false go orig p -> In p rs) ->
  (forall p, reachable false go orig p -> measurable P p dest /\
     Z.of_nat (length rs) + (Z.abs (fst p - fst dest) + Z.abs (snd p - snd dest)) <= 18446744073709551615) ->
  returns (fun fuel => astarq_search_path qo P false co mo go fuel orig dest) (Ok path) -> at_distance false go orig (length path) dest ->
  foremost_by (ahead_by cmp) go orig dest path.
Proof. exact C155_astar_which_proof. Qed.
Print Assumptions C155_astar_which.

(** C155: of which there is one only. *)
Theorem C155_foremost_unique : forall cmp P go orig dest path path', order_of P cmp -> valid P orig -> go_inside P go -> one_step P go ->
  foremost_by (ahead_by cmp) go orig dest path -> foremost_by (ahead_by cmp) go orig dest path' -> path = path'.
Proof. exact C155_foremost_unique_proof. Qed.
Print Assumptions C155_foremost_unique.

(** C155: where some walk approaches the destination by every move, this is exactly what A*
    without diagonals returns, if the limits of search_path allow it. *)
Theorem C155_astar_direct : forall H M MC (qo : queueops H) ok els (co : mapops Z MC) (mo : mapops (option dir) M) cmp P go orig dest rs n path,
  order_of P cmp -> ordered_queue P cmp qo ok els -> acts_as_map P co -> acts_as_map P mo -> post_wf P -> valid P orig -> valid P dest ->
  go_inside P go -> one_step P go -> (forall p, reachable false go orig p -> In p rs) ->
  (forall p, reachable false go orig p -> measurable P p dest /\
     Z.of_nat (length rs) + (Z.abs (fst p - fst dest) + Z.abs (snd p - snd dest)) <= 18446744073709551615) ->
  walk false go orig n dest -> Z.of_nat n = Z.abs (fst orig - fst dest) + Z.abs (snd orig - snd dest) ->
  (returns (fun fuel => astarq_search_path qo P false co mo go fuel orig dest) (Ok path) <->
   foremost_by (ahead_by cmp) go orig dest path /\ Z.of_nat n <= cols P * cols P /\ retraceable P orig dest).
Proof. exact C155_astar_direct_proof. Qed.
Print Assumptions C155_astar_direct.

Example C155_example :
  let P := Pos 3 2 in
  let go p d := match pos_dir_add_ok P p d with Some q => if (fst q =? 1) && (snd q =? 1) then None else Some q | None => None end in
  let go' p d := if (fst p =? 2) && (snd p =? 0) then None else go p d in
  astar_ordered backwards P false 60 go (0, 0) (3, 2) = Ret (Ok [dS; dS; dE; dE; dE]) /\
  astar_ordered pos_cmp P false 60 go (0, 0) (3, 2) = Ret (Ok [dE; dE; dE; dS; dS]) /\
  astar_ordered backwards P false 60 go' (0, 0) (3, 2) = Ret (Ok [dS; dS; dE; dE; dE]) /\
  astar_ordered backwards P false 60 go' (0, 2) (3, 2) = Ret (Ok [dE; dE; dE]) /\
  astar_ordered backwards P false 60 go (1, 2) (3, 2) = Ret (Ok [dE; dE]) /\
  go (2, 0) dE = Some (3, 0) /\ go' (2, 0) dE = None.
Proof. vm_compute. repeat split. Qed.

Example C155_hypotheses :
  let P := Pos 3 2 in
  let go p d := match pos_dir_add_ok P p d with Some q => if (fst q =? 1) && (snd q =? 1) then None else Some q | None => None end in
  let go' p d := if (fst p =? 2) && (snd p =? 0) then None else go p d in
  let path := [dS; dS; dE; dE; dE] in
  order_of P backwards /\ (exists ok, ordered_queue P backwards (queue_ordered (pair_le backwards)) ok (fun v => v)) /\
  (forall Item, acts_as_map P (@map_tree_by Item backwards)) /\
  post_wf P /\ valid P (0, 0) /\ valid P (3, 2) /\ go_inside P go /\ one_step P go /\
  (forall p, reachable false go (0, 0) p -> In p (all_rows P)) /\
  (forall p, reachable false go (0, 0) p -> measurable P p (3, 2) /\ retraceable P p (3, 2) /\
     Z.of_nat (length (all_rows P)) + (Z.abs (fst p - 3) + Z.abs (snd p - 2)) <= 18446744073709551615) /\
  returns (fun fuel => astar_ordered backwards P false fuel go (0, 0) (3, 2)) (Ok path) /\
  at_distance false go (0, 0) (length path) (3, 2) /\
  (forall p d q, go' p d = Some q -> go p d = Some q) /\ follow go' (0, 0) path = Some (3, 2) /\
  walk false go (0, 0) 5 (3, 2) /\ 5 <= cols P * cols P /\
  foremost_by (ahead_by backwards) go (0, 0) (3, 2) path /\ ~ foremost_by (ahead_by backwards) go (0, 0) (3, 2) [dE; dE; dE; dS; dS].
Proof.
  intros P go go' path. assert (G : grid_type P) by (apply Pos_grid_type; unfold u16_dims; lia). pose proof (grid_type_wf P G) as WF.
  assert (V : valid P (0, 0)) by (unfold valid, in_bty; cbn; lia). assert (Vd : valid P (3, 2)) by (unfold valid, in_bty; cbn; lia).
  assert (EM : forall p d q, go p d = Some q -> pos_dir_add_ok P p d = Some q).
  { intros p d q. unfold go. destruct (pos_dir_add_ok P p d) as [r |]; [|discriminate]. destruct (_ && _); [discriminate | congruence]. }
  assert (HG : go_inside P go) by (intros p d q Vp E; exact (open_inside P G p d q Vp (EM p d q E))).
  assert (OS : one_step P go) by (intros p d q Vp E; exact (open_one_step P G p d q Vp (EM p d q E))).
  assert (OB : order_of P backwards).
  { unfold backwards. constructor.
    - intros p q _ _. rewrite (to_eq _ pos_cmp_order). split; congruence.
    - intros p q _ _. apply (to_flip _ pos_cmp_order).
    - intros p q r _ _ _ H1 H2. exact (to_trans _ pos_cmp_order _ _ _ H2 H1). }
  assert (RV : forall p, reachable false go (0, 0) p -> valid P p) by (intros p (n & Wn); exact (BfProofs.walk_valid false go P n (0, 0) p HG V Wn)).
  assert (HR : forall p, reachable false go (0, 0) p -> In p (all_rows P)) by (intros p Rp; apply all_rows_In; apply RV; exact Rp).
  assert (LR : length (all_rows P) = 12%nat) by (vm_compute; reflexivity).
  assert (HM' : forall p, reachable false go (0, 0) p -> measurable P p (3, 2) /\ retraceable P p (3, 2) /\ Z.of_nat (length (all_rows P)) + (Z.abs (fst p - fst (3, 2)) + Z.abs (snd p - snd (3, 2))) <= 18446744073709551615).
  { intros p Rp. pose proof (RV p Rp) as Vp. rewrite LR. unfold valid, in_bty, P in Vp. cbn in Vp. unfold retraceable, measurable, in_bty, cols.
    change (XM P) with 3. change (b_min (pt_x P)) with 0. change (b_max (pt_x P)) with 3. change (b_min (pt_y P)) with 0. change (b_max (pt_y P)) with 2. cbn [fst snd]. lia. }
  assert (HM : forall p, reachable false go (0, 0) p -> measurable P p (3, 2) /\ Z.of_nat (length (all_rows P)) + (Z.abs (fst p - fst (3, 2)) + Z.abs (snd p - snd (3, 2))) <= 18446744073709551615) by (intros p Rp; destruct (HM' p Rp) as (K1 & _ & K2); auto).
  destruct (C152_heap_proof backwards P OB) as (ok & OQ). destruct (C151_applies_proof backwards P OB) as ((ok' & FQ) & AT & _).
  assert (RET : returns (fun fuel => astar_ordered backwards P false fuel go (0, 0) (3, 2)) (Ok path)).
  { destruct (C151_astar_effort_proof _ _ _ _ ok' _ (map_tree_by backwards) (map_tree_by backwards) P false go (0, 0) (3, 2) (all_rows P) FQ (AT _) (AT _) WF V Vd HG OS HR HM) as (_ & r & _ & Kr).
    assert (E : astar_ordered backwards P false 200 go (0, 0) (3, 2) = Ret (Ok path)) by (vm_compute; reflexivity).
    assert (r = Ret (Ok path)) as ->. { rewrite <- E. symmetry. apply Kr; [vm_compute; repeat constructor | vm_compute; reflexivity]. }
    exists 200%nat. intros fuel L. apply Kr; [apply (Nat.lt_le_trans _ 200); [vm_compute; repeat constructor | exact L] | unfold cols; cbn; lia]. }
  assert (W5 : walk false go (0, 0) 5 (3, 2)) by (exists path; split; [reflexivity |]; split; [repeat constructor | vm_compute; reflexivity]).
  pose proof (proj1 (C155_astar_direct_proof _ _ _ _ ok _ (map_tree_by backwards) (map_tree_by backwards) backwards P go (0, 0) (3, 2) (all_rows P) 5 path OB OQ (AT _) (AT _) WF V Vd HG OS HR HM W5 eq_refl) RET) as (FM & L5 & _).
  split; [exact OB |]. split; [exists ok; exact OQ |]. split; [exact AT |]. split; [exact WF |]. split; [exact V |]. split; [exact Vd |]. split; [exact HG |]. split; [exact OS |].
  split; [exact HR |]. split; [exact HM' |]. split; [exact RET |]. split; [apply FM |].
  split; [intros p d q E; unfold go' in E; destruct (_ && _); [discriminate | exact E] |]. split; [vm_compute; reflexivity |]. split; [exact W5 |]. split; [exact L5 |]. split; [exact FM |].
  intros FM'. discriminate (C155_foremost_unique_proof backwards P go (0, 0) (3, 2) _ _ OB V HG OS FM FM').
Qed.
