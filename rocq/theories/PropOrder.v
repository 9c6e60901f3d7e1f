(** PropOrder.v -- searches on position types with an order of their own. *)

From Coq Require Import ZArith List Bool Lia Permutation Arith.
From Verif Require Import Rust BoundedInt Dir PosT Pos Grid Gridbool SetMap CameFrom Bf Heap Astar Ucs Queue Order Spec SpecSearch SpecPrice SpecQueue SpecOrder Lib Deque BoundedIntProofs PosTProofs PosTProofs2 PropDirProofs SetMapProofs Sim AstarProofs PropUcsProofs FairQueue PropQueueProofs PropAgreeProofs.
From Verif Require Import PropOrderProofs.
Import ListNotations.
Open Scope Z_scope.

(** ** Any queue that pops an element of the lowest cost *)

Theorem C148_ucs : forall H (qo : queueops H) ok els b P D go orig dest,
  fair_queue qo ok els -> post_wf P -> (b = OnGrid -> grid_type P) -> valid P orig -> valid P dest ->
  go_inside P (move_of go) -> one_step P (move_of go) -> affordable D P go orig ->
  exists r, settles (fun fuel => ucs_with qo b P D fuel go orig dest) r /\
    (r = Ret (Err DestinationUnreachable) <-> ~ reachable D (move_of go) orig dest) /\
    (r = Panic <-> reachable D (move_of go) orig dest /\ ~ retraceable P orig dest) /\
    (r = Ret (Err DestinationUnreachable) \/ r = Panic \/
     (r = Ret (Err Loop) /\ forall rs, (forall p, reachable D (move_of go) orig p -> In p rs) -> cols P * cols P < Z.of_nat (length rs)) \/
     exists path, r = Ret (Ok path) /\ Forall (allowed D) path /\ follow (move_of go) orig path = Some dest /\
       Z.of_nat (length path) <= cols P * cols P /\
       (cost_of_entering D P go -> exists c, follow_cost go orig path = Some (dest, c) /\ lowest_cost D go orig c dest)).
Proof. exact C148_ucs_proof. Qed.
Print Assumptions C148_ucs.

Theorem C148_astar : forall H (qo : queueops H) ok els b P D go orig dest rs,
  fair_queue qo ok els -> post_wf P -> (b = OnGrid -> grid_type P) -> valid P orig -> valid P dest ->
  go_inside P go -> one_step P go ->
  (forall p, reachable D go orig p -> In p rs) ->
  (forall p, reachable D go orig p -> measurable P p dest /\
     Z.of_nat (length rs) + (Z.abs (fst p - fst dest) + Z.abs (snd p - snd dest)) <= 18446744073709551615) ->
  exists r, settles (fun fuel => astar_with qo b P D fuel go orig dest) r /\
    (r = Ret (Err DestinationUnreachable) <-> ~ reachable D go orig dest) /\
    (r = Panic <-> reachable D go orig dest /\ ~ retraceable P orig dest) /\
    (r = Ret (Err DestinationUnreachable) \/ r = Panic \/
     (r = Ret (Err Loop) /\ (D = false -> cols P * cols P < Z.of_nat (length rs))) \/
     exists path, r = Ret (Ok path) /\ Forall (allowed D) path /\ follow go orig path = Some dest /\
       Z.of_nat (length path) <= cols P * cols P /\
       (D = false -> forall n, walk D go orig n dest ->
          Z.of_nat n = Z.abs (fst orig - fst dest) + Z.abs (snd orig - snd dest) -> length path = n)).
Proof. exact C148_astar_proof. Qed.
Print Assumptions C148_astar.

(** ** The binary heap with any comparison of positions *)

Theorem C148_binary_heap : forall le, exists ok, fair_queue (queue_ordered le) ok (fun v => v).
Proof. exact C148_binary_heap_proof. Qed.
Print Assumptions C148_binary_heap.

(** ** With the order of sqrid's own types, the heap of Queue.v *)

Theorem C148_own_order : forall le, (forall x y, le x y = true <-> ~ sooner (0, x) (0, y)) ->
  (forall v e, q_push (queue_ordered le) v e = q_push queue_binary v e) /\
  (forall v, q_pop (queue_ordered le) v = q_pop queue_binary v).
Proof. exact C148_own_order_proof. Qed.
Print Assumptions C148_own_order.

(** The order of sqrid's types has the form asked for.  Searches around a wall with
    that order, with the reversed order, and with comparisons that are no orders (all
    true, all false) find different paths of the same lowest cost. *)
Example C148_orders :
  let own (x y : pos * dir) := negb (entry_ltb (0, y) (0, x)) in
  (forall x y, own x y = true <-> ~ sooner (0, x) (0, y)) /\
  let P := Pos 3 3 in
  let go p d := match pos_dir_add_ok P p d with Some q => if pos_eqb q (1, 1) then None else Some q | None => None end in
  let priced p d := match go p d with Some q => Some (q, 1) | None => None end in
  map (fun le => ucs_with (queue_ordered le) OnGrid P true 100 priced (0, 0) (3, 3)) [own; (fun x y => own y x); (fun _ _ => true); (fun _ _ => false)] =
    [Ret (Ok [dE; dSE; dSE; dS]); Ret (Ok [dS; dSE; dE; dSE]); Ret (Ok [dS; dSE; dSE; dE]); Ret (Ok [dS; dSE; dSE; dE])] /\
  map (fun le => astar_with (queue_ordered le) OnHash P false 100 go (0, 0) (3, 3)) [own; (fun x y => own y x); (fun _ _ => true); (fun _ _ => false)] =
    [Ret (Ok [dE; dE; dE; dS; dS; dS]); Ret (Ok [dS; dS; dS; dE; dE; dE]); Ret (Ok [dE; dE; dE; dS; dS; dS]); Ret (Ok [dS; dS; dS; dE; dE; dE])].
Proof.
  split; [|vm_compute; split; reflexivity]. intros x y. rewrite negb_true_iff, <- not_true_iff_false, sooner_ltb. reflexivity.
Qed.

(** The map of these searches satisfies what the theorems ask for. *)
Example C148_hypotheses :
  let P := Pos 3 3 in
  let go p d := match pos_dir_add_ok P p d with Some q => if pos_eqb q (1, 1) then None else Some q | None => None end in
  post_wf P /\ grid_type P /\ valid P (0, 0) /\ valid P (3, 3) /\ go_inside P go /\ one_step P go /\
  walk false go (0, 0) 6 (3, 3) /\ Z.of_nat 6 = Z.abs (0 - 3) + Z.abs (0 - 3).
Proof.
  intros P go. assert (G : grid_type P) by (apply Pos_grid_type; unfold u16_dims; lia). pose proof (grid_type_wf P G) as WF.
  split; [exact WF |]. split; [exact G |]. split; [unfold valid, in_bty; cbn; lia |]. split; [unfold valid, in_bty; cbn; lia |].
  assert (K : forall p d q, go p d = Some q -> pos_dir_add_ok P p d = Some q).
  { intros p d q. unfold go. destruct (pos_dir_add_ok P p d) as [r|]; [|discriminate]. destruct (pos_eqb r (1, 1)); congruence. }
  split; [intros p d q V E; exact (open_inside P G p d q V (K p d q E)) |].
  split; [intros p d q V E; exact (open_one_step P G p d q V (K p d q E)) |].
  split; [|reflexivity]. exists [dE; dE; dE; dS; dS; dS]. split; [reflexivity |]. split; [repeat constructor; cbn; tauto | reflexivity].
Qed.
