(** PropCost.v -- how paths of uniform-cost search and their costs depend on the map: C144, C145. *)

From Coq Require Import ZArith List Bool Lia Sorted.
From Verif Require Import Rust BoundedInt Dir PosT Pos Grid Gridbool SetMap CameFrom Bf Heap Astar Ucs Spec SpecSearch SpecSettle SpecMaze Lib Deque BoundedIntProofs PosTProofs PosTProofs2 PropDirProofs SetMapProofs Sim CameFromProofs PropSetMapProofs BfProofs PropBfProofs PropFirstProofs BestFirst UcsProofs PropUcsProofs AstarProofs PropAstarProofs PropAgreeProofs PropPathProofs PropSettleProofs SpecFirst SpecReplan PropReplanProofs.
From Verif Require Import PropCostProofs.
Import ListNotations.
Open Scope Z_scope.

(** * Paths that stay *)

(** C144: if the path that [ucs_path] returns has the lowest cost, then closing other
    moves, or making them dearer, does not change it. *)
Theorem C144_ucs_unused : forall b P D W go go' orig dest path c,
  usable b P W -> valid P orig -> valid P dest -> go_inside P (move_of go) -> one_step P (move_of go) ->
  affordable D P go orig -> affordable D P go' orig -> (forall p d q w, valid P p -> go p d = Some (q, w) -> 0 < w) ->
  returns (fun fuel => ucs_on b P D fuel go orig dest) (Ok path) ->
  follow_cost go orig path = Some (dest, c) -> lowest_cost D go orig c dest ->
  (forall p d q w', go' p d = Some (q, w') -> exists w, go p d = Some (q, w) /\ w <= w') ->
  follow_cost go' orig path = Some (dest, c) ->
  returns (fun fuel => ucs_on b P D fuel go' orig dest) (Ok path).
Proof. exact C144_ucs_unused_proof. Qed.
Print Assumptions C144_ucs_unused.

(** C144: and searching for a position of it gives the path up to there. *)
Theorem C144_ucs_part : forall b P D W go orig dest path c l1 l2 q,
  usable b P W -> valid P orig -> valid P dest -> go_inside P (move_of go) -> one_step P (move_of go) ->
  affordable D P go orig -> (forall p d q w, valid P p -> go p d = Some (q, w) -> 0 < w) ->
  returns (fun fuel => ucs_on b P D fuel go orig dest) (Ok path) ->
  follow_cost go orig path = Some (dest, c) -> lowest_cost D go orig c dest ->
  path = l1 ++ l2 -> follow (move_of go) orig l1 = Some q ->
  returns (fun fuel => ucs_on b P D fuel go orig q) (Ok l1).
Proof. exact C144_ucs_part_proof. Qed.
Print Assumptions C144_ucs_part.

(** A ridge in column 1 that is lowest in the last row; then other moves along and
    from the last columns are closed, and the ridge gets higher. *)
Example C144_example :
  let go p d := match pos_dir_add_ok (Pos 3 2) p d with Some q => Some (q, if fst q =? 1 then 10 - 4 * snd q else 1) | None => None end in
  let go' p d := match go p d with
    | Some (q, w) => if (fst p =? 2) && (snd p <=? snd q) then None else if (fst q =? 1) && (snd q <? 2) then Some (q, w + 7) else Some (q, w)
    | None => None end in
  ucs_on OnGrid (Pos 3 2) false 60 go (0, 0) (2, 0) = Ret (Ok [dS; dS; dE; dE; dN; dN]) /\
  follow_cost go (0, 0) [dS; dS; dE; dE; dN; dN] = Some ((2, 0), 7) /\ follow_cost go' (0, 0) [dS; dS; dE; dE; dN; dN] = Some ((2, 0), 7) /\
  go (0, 1) dE = Some ((1, 1), 6) /\ go' (0, 1) dE = Some ((1, 1), 13) /\ go' (2, 1) dE = None /\
  ucs_on OnGrid (Pos 3 2) false 60 go' (0, 0) (2, 0) = Ret (Ok [dS; dS; dE; dE; dN; dN]) /\
  ucs_on OnGrid (Pos 3 2) false 60 go (0, 0) (2, 1) = Ret (Ok [dS; dS; dE; dE; dN]).
Proof. vm_compute. auto 10. Qed.

(** * Costs *)

(** C145: when costs depend on the position entered, [ucs_path] finds a way from [p]
    to [r] that is not dearer than those it finds to [q] and from there (or the path
    has too many moves). *)
Theorem C145_ucs_triangle : forall b P D W go p q r path1 path2 c1 c2,
  usable b P W -> valid P p -> valid P q -> valid P r -> go_inside P (move_of go) -> one_step P (move_of go) -> affordable D P go p ->
  affordable D P go q -> cost_of_entering D P go ->
  returns (fun fuel => ucs_on b P D fuel go p q) (Ok path1) -> follow_cost go p path1 = Some (q, c1) ->
  returns (fun fuel => ucs_on b P D fuel go q r) (Ok path2) -> follow_cost go q path2 = Some (r, c2) ->
  (returns (fun fuel => ucs_on b P D fuel go p r) (Err Loop) /\ cols P < rows P) \/
  exists path c, returns (fun fuel => ucs_on b P D fuel go p r) (Ok path) /\ follow_cost go p path = Some (r, c) /\ c <= c1 + c2.
Proof. exact C145_ucs_triangle_proof. Qed.
Print Assumptions C145_ucs_triangle.

(** C145: opening moves and lowering costs never makes the result dearer. *)
Theorem C145_ucs_cheaper : forall b P D W go go' orig dest path c,
  usable b P W -> valid P orig -> valid P dest -> go_inside P (move_of go) -> one_step P (move_of go) -> affordable D P go orig ->
  go_inside P (move_of go') -> one_step P (move_of go') -> affordable D P go' orig -> cost_of_entering D P go' ->
  (forall p d q w, valid P p -> go p d = Some (q, w) -> exists w', go' p d = Some (q, w') /\ w' <= w) ->
  returns (fun fuel => ucs_on b P D fuel go orig dest) (Ok path) -> follow_cost go orig path = Some (dest, c) ->
  (returns (fun fuel => ucs_on b P D fuel go' orig dest) (Err Loop) /\ cols P < rows P) \/
  exists path' c', returns (fun fuel => ucs_on b P D fuel go' orig dest) (Ok path') /\ follow_cost go' orig path' = Some (dest, c') /\ c' <= c.
Proof. exact C145_ucs_cheaper_proof. Qed.
Print Assumptions C145_ucs_cheaper.

(** C145: if every move can be undone and costs depend on the position entered, the
    ways there and back cost the same but for entering the two ends, and are found
    or not found alike. *)
Theorem C145_ucs_symmetric : forall b P D W go enter p q,
  usable b P W -> valid P p -> valid P q -> go_inside P (move_of go) -> one_step P (move_of go) -> affordable D P go p -> affordable D P go q ->
  reversible D P (move_of go) -> (forall p d q w, valid P p -> go p d = Some (q, w) -> w = enter q) ->
  exists r r',
    returns (fun fuel => ucs_on b P D fuel go p q) r /\ returns (fun fuel => ucs_on b P D fuel go q p) r' /\
    (r = Err DestinationUnreachable <-> r' = Err DestinationUnreachable) /\
    (rows P <= cols P -> forall e, r = Err e -> r' = Err e) /\
    forall path path', r = Ok path -> r' = Ok path' ->
      exists c c', follow_cost go p path = Some (q, c) /\ follow_cost go q path' = Some (p, c') /\ c + enter p = c' + enter q.
Proof. exact C145_ucs_symmetric_proof. Qed.
Print Assumptions C145_ucs_symmetric.

(** The same ridge, crossed from both sides, and from its foot; and the flat map. *)
Example C145_example :
  let enter (q : pos) := if fst q =? 1 then 10 - 4 * snd q else 1 in
  let go p d := match pos_dir_add_ok (Pos 3 2) p d with Some q => Some (q, enter q) | None => None end in
  let flat p d := match pos_dir_add_ok (Pos 3 2) p d with Some q => Some (q, 1) | None => None end in
  ucs_on OnHash (Pos 3 2) false 60 go (0, 0) (1, 2) = Ret (Ok [dS; dS; dE]) /\ follow_cost go (0, 0) [dS; dS; dE] = Some ((1, 2), 4) /\
  ucs_on OnHash (Pos 3 2) false 60 go (1, 2) (0, 0) = Ret (Ok [dW; dN; dN]) /\ follow_cost go (1, 2) [dW; dN; dN] = Some ((0, 0), 3) /\
  enter (0, 0) = 1 /\ enter (1, 2) = 2 /\
  ucs_on OnHash (Pos 3 2) false 60 go (1, 2) (2, 0) = Ret (Ok [dE; dN; dN]) /\ follow_cost go (1, 2) [dE; dN; dN] = Some ((2, 0), 3) /\
  ucs_on OnHash (Pos 3 2) false 60 go (0, 0) (2, 0) = Ret (Ok [dS; dS; dE; dE; dN; dN]) /\ follow_cost go (0, 0) [dS; dS; dE; dE; dN; dN] = Some ((2, 0), 7) /\
  ucs_on OnHash (Pos 3 2) false 60 flat (0, 0) (2, 0) = Ret (Ok [dE; dE]) /\ follow_cost flat (0, 0) [dE; dE] = Some ((2, 0), 2).
Proof. vm_compute. auto 15. Qed.
