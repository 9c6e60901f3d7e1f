(** PropAnyPos.v -- geometry on any position type, whatever its smallest and largest coordinates: C142. *)

From Coq Require Import ZArith List Bool Lia.
From Verif Require Import Rust BoundedInt Dir PosT Pos Spec Lib Deque BoundedIntProofs PosTProofs PosTProofs2 PropDirProofs.
From Verif Require Import PropAnyPosProofs.
Import ListNotations.
Open Scope Z_scope.

(** C142: flips subtract from the largest coordinate, and panic when the result is
    not a coordinate. *)
Theorem C142_flips : forall P p, post_wf P ->
  (in_bty (pt_x P) (XM P - fst p) -> pos_flip_h P p = Ret (XM P - fst p, snd p)) /\
  (~ in_bty (pt_x P) (XM P - fst p) -> pos_flip_h P p = Panic) /\
  (in_bty (pt_y P) (YM P - snd p) -> pos_flip_v P p = Ret (fst p, YM P - snd p)) /\
  (~ in_bty (pt_y P) (YM P - snd p) -> pos_flip_v P p = Panic).
Proof. exact C142_flips_proof. Qed.
Print Assumptions C142_flips.

(** C142: so they mirror the type exactly when its coordinates start at 0. *)
Theorem C142_mirrors : forall P, post_wf P ->
  ((forall p, valid P p -> pos_flip_h P p = Ret (b_min (pt_x P) + XM P - fst p, snd p)) <-> b_min (pt_x P) = 0) /\
  ((forall p, valid P p -> pos_flip_v P p = Ret (fst p, b_min (pt_y P) + YM P - snd p)) <-> b_min (pt_y P) = 0).
Proof. exact C142_mirrors_proof. Qed.
Print Assumptions C142_mirrors.

(** C142: [manhattan] is the L1 distance if both differences are coordinates and the
    sum is a usize, and panics otherwise. *)
Theorem C142_manhattan : forall P p q, post_wf P ->
  let dx := Z.abs (fst p - fst q) in
  let dy := Z.abs (snd p - snd q) in
  (in_bty (pt_x P) dx /\ in_bty (pt_y P) dy /\ dx + dy < 2 ^ 64 -> manhattan P p q = Ret (dx + dy)) /\
  (~ (in_bty (pt_x P) dx /\ in_bty (pt_y P) dy /\ dx + dy < 2 ^ 64) -> manhattan P p q = Panic).
Proof. exact C142_manhattan_proof. Qed.
Print Assumptions C142_manhattan.

(** C142: so it never panics exactly when the coordinates start at 0 and the two
    largest ones add up to a usize. *)
Theorem C142_manhattan_total : forall P, post_wf P ->
  (forall p q, valid P p -> valid P q -> manhattan P p q <> Panic) <->
  b_min (pt_x P) = 0 /\ b_min (pt_y P) = 0 /\ XM P + YM P < 2 ^ 64.
Proof. exact C142_manhattan_total_proof. Qed.
Print Assumptions C142_manhattan_total.

(** C142: rotations, which also need the difference to be a number of the integer
    type that the coordinate is kept in. *)
Theorem C142_rotations : forall P p, post_wf P ->
  let inner b v := imin (b_inner b) <= v <= imax (b_inner b) in
  let cw := (YM P - snd p, fst p) in
  let cc := (snd p, XM P - fst p) in
  (valid P cw /\ inner (pt_y P) (YM P - snd p) -> pos_rotate_cw P p = Ret cw) /\
  (~ (valid P cw /\ inner (pt_y P) (YM P - snd p)) -> pos_rotate_cw P p = Panic) /\
  (valid P cc /\ inner (pt_x P) (XM P - fst p) -> pos_rotate_cc P p = Ret cc) /\
  (~ (valid P cc /\ inner (pt_x P) (XM P - fst p)) -> pos_rotate_cc P p = Panic).
Proof. exact C142_rotations_proof. Qed.
Print Assumptions C142_rotations.

(** C142: [width] and the index of a position, and positions of indices. *)
Theorem C142_index : forall P, post_wf P ->
  let fits := 0 <= XM P < 2 ^ 64 - 1 in
  (fits -> width P = Ret (XM P + 1)) /\ (~ fits -> width P = Panic) /\
  (forall x y, valid P (x, y) ->
     let i := y * (XM P + 1) + x in
     (0 <= x /\ 0 <= y /\ XM P < 2 ^ 64 - 1 /\ i < 2 ^ 64 -> to_usize P (x, y) = Ret i /\ tryfrom_usize P i = Ret (Ok (x, y))) /\
     (~ (0 <= x /\ 0 <= y /\ XM P < 2 ^ 64 - 1 /\ i < 2 ^ 64) -> to_usize P (x, y) = Panic)) /\
  (forall i, 0 <= i < 2 ^ 64 ->
     let p := (i mod (XM P + 1), i / (XM P + 1)) in
     (fits -> valid P p -> tryfrom_usize P i = Ret (Ok p)) /\
     (fits -> ~ valid P p -> tryfrom_usize P i = Ret (Err OutOfBounds)) /\
     (~ fits -> tryfrom_usize P i = Panic)).
Proof. exact C142_index_proof. Qed.
Print Assumptions C142_index.

(** C142: [next] and [prev] ([next_y] and [prev_y]) go to the neighbours in the
    horizontal (vertical) iteration over all positions, and end with it. *)
Theorem C142_steps : forall P XFIRST, post_wf P ->
  exists l, iter_list P XFIRST = Ret l /\
    (forall p, valid P p <-> In p l) /\
    (forall i p, nth_error l i = Some p ->
       (if XFIRST then pos_next P p else pos_next_y P p) = nth_error l (S i) /\
       (if XFIRST then pos_prev P p else pos_prev_y P p) = match i with O => None | S j => nth_error l j end).
Proof. exact C142_steps_proof. Qed.
Print Assumptions C142_steps.

(** C142: sides are the positions from which some straight step leaves the type, and
    corners those from which both a horizontal and a vertical step do. *)
Theorem C142_border : forall P p, post_wf P -> valid P p ->
  (is_side P p = true <-> exists d, In d [dN; dE; dS; dW] /\ pos_dir_add_ok P p d = None) /\
  (is_corner P p = true <->
     (exists d, In d [dE; dW] /\ pos_dir_add_ok P p d = None) /\ (exists d, In d [dN; dS] /\ pos_dir_add_ok P p d = None)).
Proof. exact C142_border_proof. Qed.
Print Assumptions C142_border.

(** Columns -2..=3 and rows 5..=9, both kept in i8; and the crate's (i8, i8). *)
Example C142_example :
  let P := Post (Bounded i8 (-2) 3) (Bounded i8 5 9) 6 5 in
  let T := IntTuple i8 in
  post_wf P /\ valid P (-1, 6) /\ valid P (2, 6) /\ post_wf T /\ valid T (-1, 100) /\
  pos_flip_h P (2, 6) = Ret (1, 6) /\ pos_flip_h P (-1, 6) = Panic /\ pos_flip_v P (2, 6) = Panic /\
  manhattan P (2, 6) (2, 6) = Panic /\ manhattan T (-1, 100) (3, 90) = Ret 14 /\ manhattan T (-100, 0) (100, 0) = Panic /\
  pos_rotate_cw T (3, 100) = Ret (27, 3) /\ pos_rotate_cw T (3, -1) = Panic /\
  to_usize P (2, 6) = Ret 26 /\ to_usize P (-1, 6) = Panic /\ tryfrom_usize P 26 = Ret (Ok (2, 6)) /\ tryfrom_usize P 3 = Ret (Err OutOfBounds) /\
  pos_next P (3, 6) = Some (-2, 7) /\ is_corner P (-2, 5) = true /\ is_side P (0, 5) = true /\ is_side P (0, 6) = false.
Proof.
  unfold post_wf, bty_wf, valid, in_bty, IntTuple. cbn [pt_x pt_y b_inner b_min b_max fst snd imin imax i8].
  repeat split; try lia; try (cbn; tauto); vm_compute; reflexivity.
Qed.
