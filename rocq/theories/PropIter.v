(** PropIter.v -- properties of iterators between any bounds, on any position type and after their end: C138-C141. *)

From Coq Require Import ZArith List Bool Lia.
From Verif Require Import Rust BoundedInt Dir PosT Pos Grid Gridbool SetMap CameFrom Bf Heap Astar Ucs Spec Lib Deque BoundedIntProofs PosTProofs PosTProofs2.
From Verif Require Import PropIterProofs.
Import ListNotations.
Open Scope Z_scope.

(** ** BoundedIntIterator::new *)

(** C138: from [lo] to [hi], in order: the two ends of the list lo..=hi. *)
Theorem C138_between : forall b lo hi, bty_wf b -> in_bty b lo -> in_bty b hi -> lo <= hi ->
  (forall cs, run_calls (biter_next b) (biter_next_back b) cs (biter_new lo hi) =
              run_calls pop_front pop_back cs (interval lo hi)) /\
  (forall n, next_calls (fun it => Ret (biter_next b it)) n (biter_new lo hi) =
             Ret (items_then_none (interval lo hi) n)).
Proof. exact C138_between_proof. Qed.
Print Assumptions C138_between.

(** C138: when [lo] is larger than [hi] the iterator is not empty: [next] counts
    from [lo] up to the largest value of the type, and [next_back] from [hi] down to
    the smallest, independently of each other. *)
Theorem C138_crossed : forall b lo hi, bty_wf b -> in_bty b lo -> in_bty b hi -> hi < lo ->
  forall cs, run_calls (biter_next b) (biter_next_back b) cs (biter_new lo hi) =
    run_calls (fun '(up, down) => let '(o, up') := pop_front up in (o, (up', down)))
              (fun '(up, down) => let '(o, down') := pop_back down in (o, (up, down')))
              cs (interval lo (b_max b), interval (b_min b) hi).
Proof. exact C138_crossed_proof. Qed.
Print Assumptions C138_crossed.

Example C138_example :
  bty_wf (Bounded u8 2 9) /\ in_bty (Bounded u8 2 9) 7 /\ in_bty (Bounded u8 2 9) 4 /\
  run_calls (biter_next (Bounded u8 2 9)) (biter_next_back (Bounded u8 2 9)) [Front; Back; Front; Front; Back] (biter_new 4 7) = [Some 4; Some 7; Some 5; Some 6; None] /\
  run_calls (biter_next (Bounded u8 2 9)) (biter_next_back (Bounded u8 2 9)) [Front; Back; Front; Front; Front; Back; Back; Back] (biter_new 7 4) =
    [Some 7; Some 4; Some 8; Some 9; None; Some 3; Some 2; None].
Proof. unfold bty_wf, in_bty. cbn. repeat split; try lia; tauto. Qed.

(** ** iter_range with corners in the wrong order *)

(** C139: the first corner right of the second: the column of the first corner, from
    its row down to the row of the second (without the last row of the grid, unless
    it is the last column). *)
Theorem C139_right_of : forall P tl br, post_wf P -> valid P tl -> valid P br -> fst br < fst tl -> snd tl <= snd br ->
  let lost := (snd br =? YM P) && (fst tl <? XM P) in
  let l := map (fun y => (fst tl, y)) (interval (snd tl) (if lost then snd br - 1 else snd br)) in
  prange_list P tl br = Ret l /\
  forall n, next_calls (fun it => Ret (prange_next P it)) n (prange_new tl br) = Ret (items_then_none l n).
Proof. exact C139_right_of_proof. Qed.
Print Assumptions C139_right_of.

(** C139: the first corner below the second: just the first corner, or nothing when it
    is in the last row of the grid, not in the last column and not left of the second
    corner. *)
Theorem C139_below : forall P tl br, post_wf P -> valid P tl -> valid P br -> snd br < snd tl ->
  let lost := (snd tl =? YM P) && (fst tl <? XM P) && (fst br <=? fst tl) in
  let l := if lost then [] else [tl] in
  prange_list P tl br = Ret l /\
  forall n, next_calls (fun it => Ret (prange_next P it)) n (prange_new tl br) = Ret (items_then_none l n).
Proof. exact C139_below_proof. Qed.
Print Assumptions C139_below.

Example C139_example :
  let P := Pos 3 3 in
  post_wf P /\ valid P (2, 1) /\ valid P (0, 2) /\ valid P (0, 3) /\
  prange_list P (2, 1) (0, 2) = Ret [(2, 1); (2, 2)] /\
  prange_list P (2, 1) (0, 3) = Ret [(2, 1); (2, 2)] /\
  prange_list P (3, 1) (0, 3) = Ret [(3, 1); (3, 2); (3, 3)] /\
  prange_list P (1, 2) (2, 0) = Ret [(1, 2)] /\ prange_list P (0, 3) (2, 0) = Ret [(0, 3)] /\ prange_list P (2, 3) (2, 0) = Ret [].
Proof.
  unfold post_wf, bty_wf, valid, in_bty. cbn [pt_x pt_y b_inner b_min b_max Pos fst snd]. repeat split; try lia; try (cbn; tauto); try (vm_compute; congruence); vm_compute; reflexivity.
Qed.

(** ** iter_in_x, iter_in_y on any position type *)

(** C140: rows and columns start at 0 whatever the smallest coordinate is: columns go
    on to the last row if 0 or 1 is a row, and consist of row 0 alone otherwise
    (which then is outside the type). *)
Theorem C140_lines : forall P, post_wf P ->
  (forall x n, next_calls (fun it => Ret (in_x_next P it)) n (in_x_new P x) =
     Ret (items_then_none (map (fun y => (x, y))
       (if (b_min (pt_y P) <=? 1) && (1 <=? YM P) then interval 0 (YM P) else [0])) n)) /\
  (forall y n, next_calls (fun it => Ret (in_y_next P it)) n (in_y_new P y) =
     Ret (items_then_none (map (fun x => (x, y))
       (if (b_min (pt_x P) <=? 1) && (1 <=? XM P) then interval 0 (XM P) else [0])) n)).
Proof. exact C140_lines_proof. Qed.
Print Assumptions C140_lines.

(** C140: so they deliver exactly the positions of the row or column when the
    coordinates of the type start at 0, and only then. *)
Theorem C140_whole_lines : forall P, post_wf P ->
  (forall x, (forall n, next_calls (fun it => Ret (in_x_next P it)) n (in_x_new P x) =
                Ret (items_then_none (map (fun y => (x, y)) (interval (b_min (pt_y P)) (YM P))) n)) <-> b_min (pt_y P) = 0) /\
  (forall y, (forall n, next_calls (fun it => Ret (in_y_next P it)) n (in_y_new P y) =
                Ret (items_then_none (map (fun x => (x, y)) (interval (b_min (pt_x P)) (XM P))) n)) <-> b_min (pt_x P) = 0).
Proof. exact C140_whole_lines_proof. Qed.
Print Assumptions C140_whole_lines.

(** Columns -2..=3, rows 5..=8: rows come out as 0..=3, columns as the single
    position in row 0, which is not of the type. *)
Example C140_example :
  let P := Post (Bounded i8 (-2) 3) (Bounded u8 5 8) 6 4 in
  post_wf P /\ b_min (pt_x P) <> 0 /\ b_min (pt_y P) <> 0 /\
  in_y_list P 6 = Ret [(0, 6); (1, 6); (2, 6); (3, 6)] /\
  in_x_list P 2 = Ret [(2, 0)] /\ ~ valid P (2, 0).
Proof.
  unfold post_wf, bty_wf, valid, in_bty. cbn [pt_x pt_y b_inner b_min b_max fst snd].
  repeat split; try lia; try (cbn; tauto); try (vm_compute; congruence); vm_compute; reflexivity.
Qed.

(** ** Iterators that are at their end *)

(** C141: iterators over integers, positions and directions, in whatever state. *)
Theorem C141_positions :
  (forall b it it', biter_next b it = (None, it') ->
     forall n, next_calls (fun s => Ret (biter_next b s)) n it' = Ret (repeat None n)) /\
  (forall b it it', biter_next_back b it = (None, it') ->
     forall n, next_calls (fun s => Ret (biter_next_back b s)) n it' = Ret (repeat None n)) /\
  (forall P XFIRST it it', piter_next P XFIRST it = (None, it') ->
     forall n, next_calls (fun s => Ret (piter_next P XFIRST s)) n it' = Ret (repeat None n)) /\
  (forall P XFIRST it it', piter_next_back P XFIRST it = (None, it') ->
     forall n, next_calls (fun s => Ret (piter_next_back P XFIRST s)) n it' = Ret (repeat None n)) /\
  (forall P it it', prange_next P it = (None, it') ->
     forall n, next_calls (fun s => Ret (prange_next P s)) n it' = Ret (repeat None n)) /\
  (forall P it it', in_x_next P it = (None, it') ->
     forall n, next_calls (fun s => Ret (in_x_next P s)) n it' = Ret (repeat None n)) /\
  (forall P it it', in_y_next P it = (None, it') ->
     forall n, next_calls (fun s => Ret (in_y_next P s)) n it' = Ret (repeat None n)) /\
  (forall D it it', dir_iter_next D it = Ret (None, it') ->
     forall n, next_calls (dir_iter_next D) n it' = Ret (repeat None n)).
Proof. exact C141_positions_proof. Qed.
Print Assumptions C141_positions.

(** C141: the searches' iterators, with any storage and in any state: once at the end
    they stay there, and do not ask the closure again (any other closure may take its
    place). *)
Theorem C141_searches :
  (forall S (so : setops S) D go it it', bf_next D so go it = Ret (None, it') ->
     it' = it /\ forall go' n, next_calls (bf_next D so go') n it' = Ret (repeat None n)) /\
  (forall MC (co : mapops Z MC) D go it it', ucs_next D co go it = Ret (None, it') ->
     it' = it /\ forall go' n, next_calls (ucs_next D co go') n it' = Ret (repeat None n)) /\
  (forall MC (co : mapops Z MC) P D go dest it it', astar_next P D co go dest it = Ret (None, it') ->
     it' = it /\ forall go' n, next_calls (astar_next P D co go' dest) n it' = Ret (repeat None n)).
Proof. exact C141_searches_proof. Qed.
Print Assumptions C141_searches.

(** A rectangle that loses its last corner, and searches on a 2x1 grid, after their
    end; a crossed integer iterator is at its end in front but not yet at the back. *)
Example C141_example :
  let P := Pos 1 0 in
  let go := pos_dir_add_ok P in
  let goc p d := option_map (fun q => (q, 3)) (go p d) in
  prange_next (Pos 3 3) (PRange (1, 3) (2, 3) (Some (2, 3))) = (None, PRange (1, 3) (2, 3) None) /\
  (it <- bf_iter_hash false go (0, 0) ;; next_calls (bf_next false set_hash go) 4 it) = Ret [Some [((1, 0), dW)]; None; None; None] /\
  (it <- ucs_new map_hash (0, 0) ;; next_calls (ucs_next false map_hash goc) 4 it) = Ret [Some ((0, 0), dN); Some ((1, 0), dW); None; None] /\
  (it <- astar_new map_hash (0, 0) ;; next_calls (astar_next P false map_hash go (1, 0)) 4 it) = Ret [Some ((0, 0), dN); Some ((1, 0), dW); None; None] /\
  biter_next (Bounded u8 0 9) (None, Some 4) = (None, (None, Some 4)) /\ biter_next_back (Bounded u8 0 9) (None, Some 4) = (Some 4, (None, Some 3)).
Proof. vm_compute. repeat split; reflexivity. Qed.
