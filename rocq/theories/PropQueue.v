(** PropQueue.v -- the searches do not depend on the implementation of the
    priority queue. *)

From Coq Require Import ZArith List Bool Lia Permutation Arith.
From Verif Require Import Rust BoundedInt Dir PosT Pos Grid Gridbool SetMap CameFrom Bf Heap Astar Ucs Queue Spec SpecSearch SpecPrice SpecQueue Lib Deque BoundedIntProofs PosTProofs PosTProofs2 PropDirProofs SetMapProofs Sim BestFirst BeelineProofs.
From Verif Require Import PropQueueProofs.
Import ListNotations.
Open Scope Z_scope.

(** ** Any lawful queue *)

(** C108: every priority queue gives the same results. *)
Theorem C108_any_queue : forall H (qo : queueops H) ok els, lawful_queue qo ok els ->
  (forall b P D fuel go orig dest, ucs_with qo b P D fuel go orig dest = ucs_on b P D fuel go orig dest) /\
  (forall b P D fuel go orig dest, astar_with qo b P D fuel go orig dest = astar_on b P D fuel go orig dest).
Proof. exact C108_any_queue_proof. Qed.
Print Assumptions C108_any_queue.

(** ** The binary heap *)

(** C109: the algorithms of std's BinaryHeap satisfy the contract, so that the
    searches with it are those of the model. *)
Theorem C109_binary_heap :
  (exists ok, lawful_queue queue_binary ok (fun v => v)) /\
  (forall b P D fuel go orig dest, ucs_with queue_binary b P D fuel go orig dest = ucs_on b P D fuel go orig dest) /\
  (forall b P D fuel go orig dest, astar_with queue_binary b P D fuel go orig dest = astar_on b P D fuel go orig dest).
Proof. exact C109_binary_heap_proof. Qed.
Print Assumptions C109_binary_heap.

(** The list of Heap.v is a queue too; the vector of the binary heap is in
    another order after three pushes and a pop, and a search with it finds the
    same path around a wall. *)
Example C108_list : exists ok, lawful_queue queue_list ok (fun l => l).
Proof.
  exists (fun _ => True). constructor.
  - split; [exact Logic.I | reflexivity].
  - intros h e _. split; [exact Logic.I | apply Permutation_refl].
  - intros h _. pose proof (pop_same_list h) as X. exact X.
Qed.

Example C109_run :
  let e p x : entry := (p, ((x, 0), dN)) in
  let v := bh_push (bh_push (bh_push (bh_push [] (e 3 0)) (e 2 0)) (e 1 0)) (e 1 4) in
  v = [e 1 4; e 1 0; e 2 0; e 3 0] /\ bh_pop v = Some (e 1 4, [e 1 0; e 3 0; e 2 0]).
Proof. vm_compute. split; reflexivity. Qed.

Example C109_search :
  let P := Pos 2 2 in
  let go := octile P (fun q => pos_eqb q (1, 0)) in
  ucs_with queue_binary OnHash P false 30 go (0, 0) (2, 0) = ucs_on OnHash P false 30 go (0, 0) (2, 0) /\
  ucs_with queue_binary OnHash P false 30 go (0, 0) (2, 0) = Ret (Ok [dS; dE; dE; dN]).
Proof. vm_compute. split; reflexivity. Qed.
