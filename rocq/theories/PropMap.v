(** PropMap.v -- properties of the maps of directions returned by the three
    search_mapmov functions: C91-C93. *)

From Coq Require Import ZArith List Bool Lia.
From Verif Require Import Rust BoundedInt Dir PosT Pos Grid Gridbool SetMap CameFrom Bf Heap Astar Ucs Spec SpecSearch Lib Deque BoundedIntProofs PosTProofs PosTProofs2 PropDirProofs SetMapProofs Sim CameFromProofs PropSetMapProofs BfProofs PropBfProofs BestFirst SearchProofs UcsProofs PropUcsProofs AstarProofs PropAstarProofs.
From Verif Require Import PropMapProofs.
Import ListNotations.
Open Scope Z_scope.

(** C91: breadth-first search returns the nearest goal and a map that holds every
    nearer position, nothing farther, and from each of its positions leads back to
    the origin along a shortest path of real moves. *)
Theorem C91_bf_mapmov : forall b P D W go orig found,
  usable b P W -> valid P orig -> go_inside P go -> one_step P go ->
  exists res : result (pos * (pos -> option dir)),
    (forall p, valid P p -> returns (fun fuel => bf_entry b P D W fuel go orig found p)
       (match res with Ok (q, f) => Ok (q, f p) | Err e => Err e end)) /\
    match res with
    | Ok (q, f) => exists n, q <> orig /\ found q = true /\ at_distance D go orig n q /\ nearest_goal D go orig found n /\
        f q <> None /\
        (forall p j, at_distance D go orig j p -> (0 < j < n)%nat -> f p <> None) /\
        (forall p d, f p = Some d -> exists j e, (1 <= j <= n)%nat /\ at_distance D go orig j p /\ leads_back P f orig j p /\
           allowed D e /\ heading d = (heading e + 4) mod 8 /\ go (step p d) e = Some p)
    | Err e => e = DestinationUnreachable /\ forall q, q <> orig -> found q = true -> ~ reachable D go orig q
    end.
Proof. exact C91_bf_mapmov_proof. Qed.
Print Assumptions C91_bf_mapmov.

Example C91_example :
  let go p d := match pos_dir_add_ok (Pos 2 2) p d with Some q => if pos_eqb q (1, 0) then None else Some q | None => None end in
  let f p := bf_entry OnGrid (Pos 2 2) false 1 20 go (0, 0) (fun q => pos_eqb q (1, 2)) p in
  f (1, 2) = Ret (Ok ((1, 2), Some dN)) /\ f (1, 1) = Ret (Ok ((1, 2), Some dW)) /\ f (0, 1) = Ret (Ok ((1, 2), Some dN)) /\
  f (0, 0) = Ret (Ok ((1, 2), None)) /\ f (2, 2) = Ret (Ok ((1, 2), None)) /\ f (1, 0) = Ret (Ok ((1, 2), None)) /\
  bf_entry OnHash (Pos 2 2) false 1 20 go (0, 0) (fun q => pos_eqb q (1, 0)) (1, 1) = Ret (Err DestinationUnreachable).
Proof. vm_compute. auto 10. Qed.

(** C92: uniform-cost search returns a map that holds the destination, every position
    cheaper to reach and none more expensive, and from each of its positions leads
    back to the origin along real moves; if the cost of a move only depends on the
    position entered, these moves have the lowest total cost. *)
Theorem C92_ucs_mapmov : forall b P D W go orig dest,
  usable b P W -> valid P orig -> valid P dest -> go_inside P (move_of go) -> one_step P (move_of go) -> affordable D P go orig ->
  exists res : result (pos -> option dir),
    (forall p, valid P p -> returns (fun fuel => ucs_entry b P D fuel go orig dest p)
       (match res with Ok f => Ok (f p) | Err e => Err e end)) /\
    match res with
    | Ok f => exists cd, lowest_cost D go orig cd dest /\ f dest <> None /\
        (forall p c, lowest_cost D go orig c p -> (c < cd -> f p <> None) /\ (f p <> None -> c <= cd)) /\
        (forall p, f p <> None -> reachable D (move_of go) orig p /\ exists n, leads_back P f orig n p) /\
        (forall p d, f p = Some d -> p <> orig -> f (step p d) <> None /\
           exists e w, allowed D e /\ heading d = (heading e + 4) mod 8 /\ go (step p d) e = Some (p, w) /\
             (cost_of_entering D P go -> forall c, lowest_cost D go orig c (step p d) -> lowest_cost D go orig (c + w) p))
    | Err e => e = DestinationUnreachable /\ ~ reachable D (move_of go) orig dest
    end.
Proof. exact C92_ucs_mapmov_proof. Qed.
Print Assumptions C92_ucs_mapmov.

Example C92_example :
  let go p d := match pos_dir_add_ok (Pos 2 2) p d with Some q => Some (q, if pos_eqb q (1, 1) then 9 else 1) | None => None end in
  let f p := ucs_entry OnGrid (Pos 2 2) false 40 go (0, 1) (2, 1) p in
  f (2, 1) = Ret (Ok (Some dS)) /\ f (2, 0) = Ret (Ok (Some dW)) /\ f (1, 1) = Ret (Ok None) /\ f (0, 1) = Ret (Ok (Some dN)) /\
  f (0, 2) = Ret (Ok (Some dN)) /\ follow_cost go (0, 1) [dN; dE; dE; dS] = Some ((2, 1), 4).
Proof. vm_compute. auto 10. Qed.

(** C93: A* search returns a map of real moves between recorded positions, which
    holds the destination. *)
Theorem C93_astar_mapmov : forall b P D W go orig dest,
  usable b P W -> valid P orig -> valid P dest -> go_inside P go -> one_step P go ->
  exists res : result (pos -> option dir),
    (forall p, valid P p -> returns (fun fuel => astar_entry b P D fuel go orig dest p)
       (match res with Ok f => Ok (f p) | Err e => Err e end)) /\
    match res with
    | Ok f => f dest <> None /\
        (forall p, f p <> None -> reachable D go orig p) /\
        (forall p d, f p = Some d -> p <> orig -> f (step p d) <> None /\
           exists e, allowed D e /\ heading d = (heading e + 4) mod 8 /\ go (step p d) e = Some p) /\
        (D = false -> exists n, at_distance false go orig n dest /\
           (forall p, f p <> None -> exists m, leads_back P f orig m p) /\
           (forall p k, at_distance false go orig k p ->
              (Z.of_nat k + mdist p dest < Z.of_nat n -> f p <> None) /\ (f p <> None -> Z.of_nat k + mdist p dest <= Z.of_nat n)))
    | Err e => e = DestinationUnreachable /\ ~ reachable D go orig dest
    end.
Proof. exact C93_astar_mapmov_proof. Qed.
Print Assumptions C93_astar_mapmov.

Example C93_example :
  let go p d := match pos_dir_add_ok (Pos 2 2) p d with Some q => if pos_eqb q (1, 1) then None else Some q | None => None end in
  let f p := astar_entry OnGrid (Pos 2 2) false 40 go (0, 0) (2, 1) p in
  f (2, 1) = Ret (Ok (Some dN)) /\ f (2, 0) = Ret (Ok (Some dW)) /\ f (1, 0) = Ret (Ok (Some dW)) /\ f (0, 2) = Ret (Ok None) /\
  astar_entry OnHash (Pos 2 2) true 40 go (0, 0) (2, 1) (2, 1) = Ret (Ok (Some dNW)) /\
  astar_entry OnHash (Pos 2 2) true 40 go (0, 0) (1, 1) (2, 1) = Ret (Err DestinationUnreachable).
Proof. vm_compute. auto 10. Qed.
