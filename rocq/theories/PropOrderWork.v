(** PropOrderWork.v -- the work done by searches on position types with an order of their own, and the paths they return: C151. *)

From Coq Require Import ZArith List Bool Lia Permutation Arith.
From Verif Require Import Rust BoundedInt Dir PosT Pos Grid Gridbool SetMap CameFrom Bf Heap Astar Ucs Queue Order Btree Spec SpecSearch SpecMaze SpecStorage SpecPrice SpecQueue SpecOrder SpecBtree SpecTreeOrder Lib Deque BoundedIntProofs PosTProofs PosTProofs2 PropDirProofs SetMapProofs Sim CameFromProofs BfProofs PropBfProofs Fair FairSearch SearchProofs AstarProofs PropAstarProofs UcsProofs PropUcsProofs FairQueue BeelineProofs PropAgreeProofs PropStorageProofs PropEffortProofs GridProofs PropPathProofs PropReplanProofs PropStrayProofs PropLocalProofs BtreeProofs PropBtreeProofs PropOrderProofs PropTreeOrderProofs.
From Verif Require Import PropOrderWorkProofs.
Import ListNotations.
Open Scope Z_scope.

(** ** What all this is about *)

(** C151: a position type with an order of its own: the heap with that order pops an
    element of the lowest cost, and the B-trees with that order act as maps; so do the
    backends of the crate. *)
Theorem C151_applies : forall cmp P, order_of P cmp ->
  (exists ok, fair_queue (queue_ordered (pair_le cmp)) ok (fun v => v)) /\
  (forall Item, acts_as_map P (@map_tree_by Item cmp)) /\
  (forall Item, acts_as_map P (@map_hash Item)) /\
  (grid_type P -> forall Item, acts_as_map P (@map_grid Item P (cells P))).
Proof. exact C151_applies_proof. Qed.
Print Assumptions C151_applies.

(** ** Work *)

(** C151: uniform-cost search with any queue that pops an element of the lowest cost,
    and any storage that acts as maps, yields every position at most once for each of its
    neighbours, and ends after as many steps. *)
Theorem C151_ucs_effort : forall H M MC (qo : queueops H) ok els (co : mapops Z MC) (mo : mapops (option dir) M) P (D : bool) go orig rs,
  fair_queue qo ok els -> acts_as_map P co -> acts_as_map P mo -> post_wf P -> valid P orig ->
  go_inside P (move_of go) -> affordable D P go orig ->
  (forall p, reachable D (move_of go) orig p -> In p rs) ->
  (exists items : list (pos * dir), (length items <= 1 + (if D then 8 else 4) * length rs)%nat /\
     forall n, ucsq_yields_with qo co D go orig n = Ret (items_then_none items n)) /\
  (forall dest, valid P dest -> exists r, ((exists x, r = Ret x) \/ r = Panic /\ ~ retraceable P orig dest) /\
     forall fuel, (1 + (if D then 8 else 4) * length rs < fuel)%nat -> cols P * cols P < Z.of_nat fuel ->
       ucsq_search_path qo P D co mo go fuel orig dest = r).
Proof. exact C151_ucs_effort_proof. Qed.
Print Assumptions C151_ucs_effort.

(** C151: A* search, likewise; with diagonals the bound is quadratic. *)
Theorem C151_astar_effort : forall H M MC (qo : queueops H) ok els (co : mapops Z MC) (mo : mapops (option dir) M) P (D : bool) go orig dest rs,
  fair_queue qo ok els -> acts_as_map P co -> acts_as_map P mo -> post_wf P -> valid P orig -> valid P dest ->
  go_inside P go -> one_step P go ->
  (forall p, reachable D go orig p -> In p rs) ->
  (forall p, reachable D go orig p -> measurable P p dest /\
     Z.of_nat (length rs) + (Z.abs (fst p - fst dest) + Z.abs (snd p - snd dest)) <= 18446744073709551615) ->
  (exists items : list (pos * dir), (length items <= if D then length rs * length rs else 1 + 4 * length rs)%nat /\
     forall n, astarq_yields_with qo co P D go orig dest n = Ret (items_then_none items n)) /\
  (exists r, ((exists x, r = Ret x) \/ r = Panic /\ ~ retraceable P orig dest) /\
     forall fuel, ((if D then length rs * length rs else 1 + 4 * length rs) < fuel)%nat -> cols P * cols P < Z.of_nat fuel ->
       astarq_search_path qo P D co mo go fuel orig dest = r).
Proof. exact C151_astar_effort_proof. Qed.
Print Assumptions C151_astar_effort.

(** ** Paths *)

(** C151: with any queue and any storage whatever, lawful or not, no path visits a
    position twice, and every path leads to the destination. *)
Theorem C151_simple : forall H M MC (qo : queueops H) (co : mapops Z MC) (mo : mapops (option dir) M) P D fuel orig dest path,
  post_wf P -> valid P dest ->
  (exists go, ucsq_search_path qo P D co mo go fuel orig dest = Ret (Ok path)) \/
  (exists go, astarq_search_path qo P D co mo go fuel orig dest = Ret (Ok path)) ->
  NoDup (orig :: places orig path) /\ last (places orig path) orig = dest.
Proof. exact C151_simple_proof. Qed.
Print Assumptions C151_simple.

(** C151: A* with diagonals returns the straight way to the destination if it is open,
    whatever the queue and the storage. *)
Theorem C151_beeline : forall H M MC (qo : queueops H) ok els (co : mapops Z MC) (mo : mapops (option dir) M) P go orig dest rs path,
  fair_queue qo ok els -> acts_as_map P co -> acts_as_map P mo -> post_wf P -> valid P orig -> valid P dest ->
  go_inside P go -> one_step P go -> retraceable P orig dest ->
  (forall p, reachable true go orig p -> In p rs) ->
  (forall p, reachable true go orig p -> measurable P p dest /\
     Z.of_nat (length rs) + (Z.abs (fst p - fst dest) + Z.abs (snd p - snd dest)) <= 18446744073709551615) ->
  beeline go dest orig path ->
  settles (fun fuel => astarq_search_path qo P true co mo go fuel orig dest)
    (Ret (if Z.of_nat (length path) <=? cols P * cols P then Ok path else Err Loop)) /\
  at_distance true go orig (length path) dest.
Proof. exact C151_beeline_proof. Qed.
Print Assumptions C151_beeline.

(** ** Where searches look *)

(** C151: uniform-cost search does not look at positions farther than the destination. *)
Theorem C151_ucs_near : forall H M MC (qo : queueops H) ok els (co : mapops Z MC) (mo : mapops (option dir) M) P D go go' orig dest k fuel,
  fair_queue qo ok els -> acts_as_map P co -> valid P orig ->
  go_inside P (move_of go) -> affordable D P go orig -> lowest_cost D go orig k dest ->
  (forall p d c, lowest_cost D go orig c p -> c <= k -> allowed D d -> go' p d = go p d) ->
  ucsq_search_path qo P D co mo go' fuel orig dest = ucsq_search_path qo P D co mo go fuel orig dest.
Proof. exact C151_ucs_near_proof. Qed.
Print Assumptions C151_ucs_near.

(** C151: A* does not look at positions from which the destination is too far away. *)
Theorem C151_astar_near : forall H M MC (qo : queueops H) ok els (co : mapops Z MC) (mo : mapops (option dir) M) P D go go' orig dest rs n fuel,
  fair_queue qo ok els -> acts_as_map P co -> post_wf P -> valid P orig -> valid P dest ->
  go_inside P go -> one_step P go ->
  (forall p, reachable D go orig p -> In p rs) -> Z.of_nat (length rs) <= 18446744073709551615 ->
  at_distance D go orig n dest ->
  (forall p d m, at_distance D go orig m p ->
     Z.of_nat m + (Z.abs (fst p - fst dest) + Z.abs (snd p - snd dest)) <= (if D then 2 else 1) * Z.of_nat n ->
     allowed D d -> go' p d = go p d) ->
  astarq_search_path qo P D co mo go' fuel orig dest = astarq_search_path qo P D co mo go fuel orig dest.
Proof. exact C151_astar_near_proof. Qed.
Print Assumptions C151_astar_near.

(** The searches with the reversed order: on a grid of 5 columns and 4 rows, whether
    the far corner (where columns and rows add up to more than 3) is closed or not. *)
Example C151_example :
  let P := Pos 4 3 in
  let far p := 3 <? fst p + snd p in
  let go p d := pos_dir_add_ok P p d in
  let go' p d := if far p then None else pos_dir_add_ok P p d in
  let cost p d := option_map (fun q => (q, 1)) (go p d) in
  let cost' p d := if far p then None else option_map (fun q => (q, 1)) (go p d) in
  ucs_ordered backwards P false 100 cost (0, 0) (2, 1) = Ret (Ok [dS; dE; dE]) /\
  ucs_ordered backwards P false 100 cost' (0, 0) (2, 1) = Ret (Ok [dS; dE; dE]) /\
  astar_ordered backwards P false 100 go (0, 0) (2, 1) = Ret (Ok [dS; dE; dE]) /\
  astar_ordered backwards P false 100 go' (0, 0) (2, 1) = Ret (Ok [dS; dE; dE]) /\
  astar_ordered backwards P true 60 go (0, 1) (4, 3) = Ret (Ok [dSE; dSE; dE; dE]) /\
  astarq_yields_with (queue_ordered (pair_le backwards)) (map_tree_by backwards) (Pos 1 1) true (pos_dir_add_ok (Pos 1 1)) (0, 0) (1, 1) 6 =
    Ret [Some ((0, 0), dN); Some ((1, 1), dNW); Some ((0, 1), dN); Some ((1, 0), dW); None; None].
Proof. vm_compute. repeat (split; [reflexivity |]). reflexivity. Qed.

(** These maps satisfy what the theorems ask for. *)
Example C151_hypotheses :
  let P := Pos 4 3 in
  let far p := 3 <? fst p + snd p in
  let go p d := pos_dir_add_ok P p d in
  let go' p d := if far p then None else pos_dir_add_ok P p d in
  let cost p d := option_map (fun q => (q, 1)) (go p d) in
  let cost' p d := if far p then None else option_map (fun q => (q, 1)) (go p d) in
  post_wf P /\ valid P (0, 0) /\ valid P (2, 1) /\ order_of P backwards /\
  go_inside P go /\ one_step P go /\ affordable false P cost (0, 0) /\
  lowest_cost false cost (0, 0) 3 (2, 1) /\ at_distance false go (0, 0) 3 (2, 1) /\
  (forall p d c, lowest_cost false cost (0, 0) c p -> c <= 3 -> allowed false d -> cost' p d = cost p d) /\
  (forall p d m, at_distance false go (0, 0) m p -> Z.of_nat m + (Z.abs (fst p - 2) + Z.abs (snd p - 1)) <= 3 -> allowed false d -> go' p d = go p d) /\
  beeline go (4, 3) (0, 1) [dSE; dSE; dE; dE].
Proof.
  intros P far go go' cost cost'. assert (G : grid_type P) by (apply Pos_grid_type; unfold u16_dims; lia). pose proof (grid_type_wf P G) as WF.
  assert (V : valid P (0, 0)) by (unfold valid, in_bty; cbn; lia).
  assert (HG : go_inside P go) by (intros p d q Vp E; exact (open_inside P G p d q Vp E)).
  assert (OS : one_step P go) by (intros p d q Vp E; exact (open_one_step P G p d q Vp E)).
  assert (EM : forall p d q, move_of cost p d = Some q -> go p d = Some q) by (intros p d q; unfold move_of, cost; destruct (go p d) as [r |]; cbn; congruence).
  assert (WM : forall n q, walk false go (0, 0) n q -> fst q + snd q <= Z.of_nat n).
  { intros n q Wn. pose proof (walk_mdist P go (0, 0) n q OS HG V Wn). unfold mdist in H. cbn [fst snd] in H. lia. }
  assert (CW : forall c q, cost_walk false cost (0, 0) c q -> fst q + snd q <= c).
  { intros c q (path & A & F). assert (exists n, c = Z.of_nat n /\ walk false go (0, 0) n q) as (n & -> & Wn); [|apply WM; exact Wn].
    exists (length path). revert A F. generalize (0, 0) as p. revert c. induction path as [|d ds IH]; intros c p A F; cbn [follow_cost length] in *.
    - injection F as <- <-. split; [reflexivity |]. exists []. cbn. auto.
    - unfold cost at 1 in F. destruct (go p d) as [r|] eqn:Eg; [|discriminate]. cbn [option_map] in F. destruct (follow_cost cost r ds) as [[q' c']|] eqn:Ef; [|discriminate]. injection F as <- <-. inversion A; subst.
      destruct (IH c' r H2 Ef) as (-> & (l & L1 & L2 & L3)). split; [change (1 + Z.of_nat (length ds) = Z.of_nat (S (length ds))); lia |]. exists (d :: l). cbn [length follow]. rewrite Eg. split; [lia |]. split; [constructor; assumption | exact L3]. }
  split; [exact WF |]. split; [exact V |]. split; [unfold valid, in_bty; cbn; lia |]. split.
  { unfold backwards. constructor.
    - intros p q _ _. rewrite (to_eq _ pos_cmp_order). split; congruence.
    - intros p q _ _. apply (to_flip _ pos_cmp_order).
    - intros p q r _ _ _ H1 H2. exact (to_trans _ pos_cmp_order _ _ _ H2 H1). }
  split; [exact HG |]. split; [exact OS |]. split.
  { apply C74_small_costs_suffice_proof; [exact G | exact V | intros p d q Vp E; exact (HG p d q Vp (EM p d q E)) |]. exists 1. split; [unfold cells, cols, rows; cbn; lia |].
    intros p d q c Vp E. unfold cost in E. destruct (go p d) as [r |]; [|discriminate]. cbn [option_map] in E. injection E as _ <-. lia. }
  split; [split; [exists [dS; dE; dE]; split; [repeat constructor; right; reflexivity | vm_compute; reflexivity] | intros c' Wc; apply CW in Wc; cbn in Wc; lia] |].
  split; [split; [exists [dS; dE; dE]; split; [reflexivity | split; [repeat constructor; right; reflexivity | vm_compute; reflexivity]] | intros j Lj Wj; apply WM in Wj; cbn in Wj; lia] |].
  split; [|split].
  - intros p d c (Wc & _) L _. apply CW in Wc. unfold cost', far. destruct (Z.ltb_spec 3 (fst p + snd p)); [lia | reflexivity].
  - intros p d m (Wm & _) L _. apply WM in Wm. unfold go', far. destruct (Z.ltb_spec 3 (fst p + snd p)); [lia | reflexivity].
  - vm_compute. repeat (split; [first [discriminate | reflexivity] |]). reflexivity.
Qed.
