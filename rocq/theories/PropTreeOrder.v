(** PropTreeOrder.v -- B-trees and searches on position types with an order of their own: C150. *)

From Coq Require Import ZArith List Bool Lia Sorted Permutation.
From Verif Require Import Rust BoundedInt Dir PosT Pos Grid Gridbool SetMap CameFrom Heap Bf Astar Ucs Queue Order Spec SpecSearch SpecStorage SpecPrice SpecQueue SpecOrder Btree SpecBtree SpecTreeOrder Lib BoundedIntProofs PosTProofs PosTProofs2 SetMapProofs Sim CameFromProofs PropSetMapProofs BfProofs PropBfProofs AstarProofs PropAstarProofs PropUcsProofs FairQueue PropAgreeProofs PropStorageProofs BtreeProofs PropBtreeProofs PropOrderProofs.
From Verif Require Import PropTreeOrderProofs.
Import ListNotations.
Open Scope Z_scope.

(** ** Trees *)

(** C150: whatever the order of the positions, a BTreeSet and a BTreeMap answer any
    history of operations like a set and a map. *)
Theorem C150_storage : forall cmp P, order_of P cmp ->
  (forall ops, Forall (fun o => valid P (set_op_pos o)) ops -> run_set_ops (set_tree_by cmp) tree_empty ops = Ret (set_answers (fun _ => false) ops)) /\
  (forall Item (dflt : Item) ops, Forall (fun o => valid P (map_op_pos o)) ops ->
     run_map_ops (map_tree_by cmp) (mp_new (map_tree_by cmp) dflt) ops = Ret (map_answers (fun _ => dflt) ops)).
Proof. exact C150_storage_proof. Qed.
Print Assumptions C150_storage.

(** C150: after any history the entries are those that the order of sqrid's own types
    gives, sorted by the type's own order, in a balanced tree. *)
Theorem C150_sorted : forall cmp P, order_of P cmp ->
  (forall ops, Forall (fun o => valid P (set_op_pos o)) ops ->
     exists t l, set_after (set_tree_by cmp) tree_empty ops = Ret t /\ set_after set_btree [] ops = Ret l /\
     Permutation (map fst (entries (snd t))) l /\ StronglySorted (fun p q => cmp p q = Lt) (map fst (entries (snd t))) /\ balanced (fst t) (snd t)) /\
  (forall Item (dflt : Item) ops, Forall (fun o => valid P (map_op_pos o)) ops ->
     exists t l, map_after (map_tree_by cmp) (mp_new (map_tree_by cmp) dflt) ops = Ret (t, dflt) /\ map_after map_btree (mp_new map_btree dflt) ops = Ret (l, dflt) /\
     Permutation (entries (snd t)) l /\ StronglySorted (fun p q => cmp p q = Lt) (map fst (entries (snd t))) /\ balanced (fst t) (snd t)).
Proof. exact C150_sorted_proof. Qed.
Print Assumptions C150_sorted.

(** ** Searches *)

(** C150: breadth-first search on such trees returns what it returns on the others. *)
Theorem C150_bfs : forall cmp P D W fuel go orig found, order_of P cmp -> post_wf P -> valid P orig -> go_inside P go ->
  bfs_ordered cmp P D fuel go orig found = bfs_on OnBTree P D W fuel go orig found.
Proof. exact C150_bfs_proof. Qed.
Print Assumptions C150_bfs.

(** C150: uniform-cost search with any queue that pops an element of the lowest cost,
    and any storage that acts as maps. *)
Theorem C150_ucs_any : forall H M MC (qo : queueops H) ok els (co : mapops Z MC) (mo : mapops (option dir) M) P D go orig dest,
  fair_queue qo ok els -> acts_as_map P co -> acts_as_map P mo -> post_wf P -> valid P orig -> valid P dest ->
  go_inside P (move_of go) -> one_step P (move_of go) -> affordable D P go orig ->
  exists r, settles (fun fuel => ucsq_search_path qo P D co mo go fuel orig dest) r /\
    (r = Ret (Err DestinationUnreachable) <-> ~ reachable D (move_of go) orig dest) /\
    (r = Panic <-> reachable D (move_of go) orig dest /\ ~ retraceable P orig dest) /\
    (r = Ret (Err DestinationUnreachable) \/ r = Panic \/
     (r = Ret (Err Loop) /\ forall rs, (forall p, reachable D (move_of go) orig p -> In p rs) -> cols P * cols P < Z.of_nat (length rs)) \/
     exists path, r = Ret (Ok path) /\ Forall (allowed D) path /\ follow (move_of go) orig path = Some dest /\
       Z.of_nat (length path) <= cols P * cols P /\
       (cost_of_entering D P go -> exists c, follow_cost go orig path = Some (dest, c) /\ lowest_cost D go orig c dest)).
Proof. exact C150_ucs_any_proof. Qed.
Print Assumptions C150_ucs_any.

(** C150: A* search, likewise. *)
Theorem C150_astar_any : forall H M MC (qo : queueops H) ok els (co : mapops Z MC) (mo : mapops (option dir) M) P D go orig dest rs,
  fair_queue qo ok els -> acts_as_map P co -> acts_as_map P mo -> post_wf P -> valid P orig -> valid P dest ->
  go_inside P go -> one_step P go ->
  (forall p, reachable D go orig p -> In p rs) ->
  (forall p, reachable D go orig p -> measurable P p dest /\
     Z.of_nat (length rs) + (Z.abs (fst p - fst dest) + Z.abs (snd p - snd dest)) <= 18446744073709551615) ->
  exists r, settles (fun fuel => astarq_search_path qo P D co mo go fuel orig dest) r /\
    (r = Ret (Err DestinationUnreachable) <-> ~ reachable D go orig dest) /\
    (r = Panic <-> reachable D go orig dest /\ ~ retraceable P orig dest) /\
    (r = Ret (Err DestinationUnreachable) \/ r = Panic \/
     (r = Ret (Err Loop) /\ (D = false -> cols P * cols P < Z.of_nat (length rs))) \/
     exists path, r = Ret (Ok path) /\ Forall (allowed D) path /\ follow go orig path = Some dest /\
       Z.of_nat (length path) <= cols P * cols P /\
       (D = false -> forall n, walk D go orig n dest ->
          Z.of_nat n = Z.abs (fst orig - fst dest) + Z.abs (snd orig - snd dest) -> length path = n)).
Proof. exact C150_astar_any_proof. Qed.
Print Assumptions C150_astar_any.

(** C150: [ucs_path_btree] with an order of the type's own, for the trees and for the
    heap: the path costs least where costs are of entering. *)
Theorem C150_ucs : forall cmp P D go orig dest, order_of P cmp -> post_wf P -> valid P orig -> valid P dest ->
  go_inside P (move_of go) -> one_step P (move_of go) -> affordable D P go orig -> retraceable P orig dest ->
  cost_of_entering D P go -> (exists rs, (forall p, reachable D (move_of go) orig p -> In p rs) /\ Z.of_nat (length rs) <= cols P * cols P) ->
  (reachable D (move_of go) orig dest ->
     exists path c, settles (fun fuel => ucs_ordered cmp P D fuel go orig dest) (Ret (Ok path)) /\
       Forall (allowed D) path /\ follow_cost go orig path = Some (dest, c) /\ lowest_cost D go orig c dest) /\
  (~ reachable D (move_of go) orig dest ->
     settles (fun fuel => ucs_ordered cmp P D fuel go orig dest) (Ret (Err DestinationUnreachable))).
Proof. exact C150_ucs_proof. Qed.
Print Assumptions C150_ucs.

(** C150: [astar_path_btree] likewise: without diagonals a path is found if there is
    one, and it is shortest if one is as long as the distance. *)
Theorem C150_astar : forall cmp P go orig dest rs, order_of P cmp -> post_wf P -> valid P orig -> valid P dest ->
  go_inside P go -> one_step P go -> retraceable P orig dest ->
  (forall p, reachable false go orig p -> In p rs) -> Z.of_nat (length rs) <= cols P * cols P ->
  (forall p, reachable false go orig p -> measurable P p dest /\
     Z.of_nat (length rs) + (Z.abs (fst p - fst dest) + Z.abs (snd p - snd dest)) <= 18446744073709551615) ->
  (reachable false go orig dest ->
     exists path, settles (fun fuel => astar_ordered cmp P false fuel go orig dest) (Ret (Ok path)) /\
       Forall (allowed false) path /\ follow go orig path = Some dest /\
       forall n, walk false go orig n dest -> Z.of_nat n = Z.abs (fst orig - fst dest) + Z.abs (snd orig - snd dest) -> length path = n) /\
  (~ reachable false go orig dest ->
     settles (fun fuel => astar_ordered cmp P false fuel go orig dest) (Ret (Err DestinationUnreachable))).
Proof. exact C150_astar_proof. Qed.
Print Assumptions C150_astar.

(** ** Comparisons that are no orders *)

(** C150: with any comparison at all, lawful or not, the operations on the trees
    return, the trees stay balanced, and what is in them was put there. *)
Theorem C150_any_comparison : forall cmp,
  (forall ops, exists t, set_after (set_tree_by cmp) tree_empty ops = Ret t /\ balanced (fst t) (snd t) /\
     (forall p, exists b, sp_contains (set_tree_by cmp) t p = Ret b) /\
     forall p, In p (map fst (entries (snd t))) -> In (OpInsert p) ops \/ In (OpSet p true) ops) /\
  (forall Item (dflt : Item) ops, exists t, map_after (map_tree_by cmp) (mp_new (map_tree_by cmp) dflt) ops = Ret (t, dflt) /\ balanced (fst t) (snd t) /\
     (forall p, exists v, mp_get (map_tree_by cmp) (t, dflt) p = Ret v /\ (v = dflt \/ exists q, In (OpPut q v) ops)) /\
     forall p v, In (p, v) (entries (snd t)) -> (exists u, In (OpPut p u) ops) /\ exists q, In (OpPut q v) ops).
Proof. exact C150_any_comparison_proof. Qed.
Print Assumptions C150_any_comparison.

(** C150: the laws of [Ord] are needed: with a comparison that is always [Less] a
    breadth-first search for a position that is not there never ends. *)
Theorem C150_laws_needed : forall fuel,
  bfs_ordered always_less (Pos 1 0) false fuel (pos_dir_add_ok (Pos 1 0)) (0, 0) (fun _ => false) = Fuel.
Proof. exact C150_laws_needed_proof. Qed.
Print Assumptions C150_laws_needed.

(** Orders by rows and backwards are orders; always "less" is none.  Thirty positions
    in three trees; searches with both orders. *)
Example C150_example :
  let P := Pos 5 4 in
  let square := flat_map (fun x => map (fun y => (x, y)) (zrange 0 5)) (zrange 0 6) in
  let cost p d := option_map (fun q => (q, 1 + fst q)) (pos_dir_add_ok P p d) in
  order_of P by_rows /\ order_of P backwards /\ ~ order_of P always_less /\
  bind (set_after (set_tree_by by_rows) tree_empty (map OpInsert square)) (fun t => Ret (firstn 8 (map fst (entries (snd t))))) = Ret [(0, 0); (1, 0); (2, 0); (3, 0); (4, 0); (5, 0); (0, 1); (1, 1)] /\
  bind (set_after (set_tree_by backwards) tree_empty (map OpInsert square)) (fun t => Ret (firstn 3 (map fst (entries (snd t))))) = Ret [(5, 4); (5, 3); (5, 2)] /\
  bfs_ordered by_rows P true 100 (pos_dir_add_ok P) (0, 0) (pos_eqb (3, 2)) = Ret (Ok ((3, 2), [dE; dSE; dSE])) /\
  ucs_ordered by_rows P true 999 cost (0, 0) (3, 2) = Ret (Ok [dSE; dSE; dE]) /\
  ucs_ordered backwards P true 999 cost (0, 0) (3, 2) = Ret (Ok [dE; dSE; dSE]) /\
  astar_ordered by_rows P false 100 (pos_dir_add_ok P) (0, 0) (3, 2) = Ret (Ok [dS; dS; dE; dE; dE]) /\
  astar_ordered backwards P false 100 (pos_dir_add_ok P) (0, 0) (3, 2) = Ret (Ok [dS; dS; dE; dE; dE]).
Proof.
  cbv zeta. split; [|split; [|split; [|repeat (split; [vm_compute; reflexivity |]); vm_compute; reflexivity]]].
  - constructor.
    + intros [x y] [x' y'] _ _. unfold by_rows. cbn [fst snd]. destruct (Z.compare_spec y y'); [subst; rewrite Z.compare_eq_iff | |]; split; intros H'; try discriminate; try congruence; inversion H'; lia.
    + intros [x y] [x' y'] _ _. unfold by_rows. cbn [fst snd]. rewrite (Z.compare_antisym x x'), (Z.compare_antisym y y'). destruct (y ?= y'); reflexivity.
    + intros [x y] [x' y'] [x2 y2] _ _ _. unfold by_rows. cbn [fst snd]. destruct (Z.compare_spec y y'), (Z.compare_spec y' y2), (Z.compare_spec y y2); rewrite ?Z.compare_lt_iff; try discriminate; try reflexivity; lia.
  - unfold backwards. constructor.
    + intros p q _ _. rewrite (to_eq _ pos_cmp_order). split; congruence.
    + intros p q _ _. apply (to_flip _ pos_cmp_order).
    + intros p q r _ _ _ H1 H2. exact (to_trans _ pos_cmp_order _ _ _ H2 H1).
  - intros OO. assert (V : valid (Pos 5 4) (0, 0)) by (unfold valid, in_bty; cbn; lia). pose proof (oo_flip _ _ OO (0, 0) (0, 0) V V). discriminate.
Qed.

(** The map of these searches satisfies what the theorems ask for. *)
Example C150_hypotheses :
  let P := Pos 5 4 in
  let cost p d := option_map (fun q => (q, 1 + fst q)) (pos_dir_add_ok P p d) in
  let square := flat_map (fun x => map (fun y => (x, y)) (zrange 0 5)) (zrange 0 6) in
  post_wf P /\ valid P (0, 0) /\ valid P (3, 2) /\ go_inside P (move_of cost) /\ one_step P (move_of cost) /\ affordable true P cost (0, 0) /\
  retraceable P (0, 0) (3, 2) /\ cost_of_entering true P cost /\
  (forall p, valid P p -> In p square /\ measurable P p (3, 2)) /\ Z.of_nat (length square) <= cols P * cols P.
Proof.
  intros P cost square. assert (G : grid_type P) by (apply Pos_grid_type; unfold u16_dims; lia). pose proof (grid_type_wf P G) as WF.
  assert (V : valid P (0, 0)) by (unfold valid, in_bty; cbn; lia).
  assert (K : forall p d q, move_of cost p d = Some q -> pos_dir_add_ok P p d = Some q).
  { intros p d q. unfold move_of, cost. destruct (pos_dir_add_ok P p d) as [r |]; cbn; congruence. }
  assert (HG : go_inside P (move_of cost)) by (intros p d q Vp E; exact (open_inside P G p d q Vp (K p d q E))).
  split; [exact WF |]. split; [exact V |]. split; [unfold valid, in_bty; cbn; lia |]. split; [exact HG |]. split; [intros p d q Vp E; exact (open_one_step P G p d q Vp (K p d q E)) |]. split.
  { apply C74_small_costs_suffice_proof; [exact G | exact V | exact HG |]. exists 6. split; [unfold cells, cols, rows; cbn; lia |].
    intros p d q c Vp E. assert (M : move_of cost p d = Some q) by (unfold move_of; rewrite E; reflexivity). pose proof (HG p d q Vp M) as Vq. unfold cost in E. destruct (pos_dir_add_ok P p d) as [r |]; [|discriminate]. injection E as E1 E2. subst r. change (1 + fst q = c) in E2. destruct Vq as ((H1 & H2) & _). unfold P in H1, H2. cbn in H1, H2. lia. }
  split; [unfold retraceable, measurable, in_bty, cols; cbn; lia |].
  split. { intros p d c p' d' c' q _ _ _ _ E E'. unfold cost in *. destruct (pos_dir_add_ok P p d) as [r |]; [|discriminate]. destruct (pos_dir_add_ok P p' d') as [r' |]; [|discriminate]. cbn [option_map] in *. congruence. }
  split; [|vm_compute; discriminate]. intros [x y] ((H1 & H2) & (H3 & H4)). unfold P in *. cbn in H1, H2, H3, H4.
  split; [apply in_flat_map; exists x; split; [apply zrange_In; lia | apply in_map_iff; exists y; split; [reflexivity | apply zrange_In; lia]] |]. unfold measurable, in_bty; cbn; lia.
Qed.
