(** PropAnyStore.v -- Grid and Gridbool of any position type: C143. *)

From Coq Require Import ZArith List Bool Lia.
From Verif Require Import Rust BoundedInt Dir PosT Pos Grid Gridbool Spec Lib Deque BoundedIntProofs PosTProofs PosTProofs2 GridProofs GridboolProofs PropAnyPosProofs.
From Verif Require Import PropAnyStoreProofs.
Import ListNotations.
Open Scope Z_scope.

(** C143: access to a Grid of any length.  A position with a coordinate below 0, or
    whose index is no usize, panics; an index past the end is undefined behaviour;
    anything else is read and written like a variable of its own. *)
Theorem C143_grid : forall (T : Type) P (g : list T) x y w, post_wf P -> valid P (x, y) ->
  let i := y * (XM P + 1) + x in
  let has := 0 <= x /\ 0 <= y /\ XM P < 2 ^ 64 - 1 /\ i < 2 ^ 64 in
  (~ has -> grid_get P g (x, y) = Panic /\ grid_set P g (x, y) w = Panic) /\
  (has -> Z.of_nat (length g) <= i -> grid_get P g (x, y) = UB /\ grid_set P g (x, y) w = UB) /\
  (has -> i < Z.of_nat (length g) ->
     (exists a, nth_error g (Z.to_nat i) = Some a /\ grid_get P g (x, y) = Ret a) /\
     exists g', grid_set P g (x, y) w = Ret g' /\ length g' = length g /\ grid_get P g' (x, y) = Ret w /\
       forall q, valid P q -> q <> (x, y) -> grid_get P g' q = grid_get P g q).
Proof. exact C143_grid_proof. Qed.
Print Assumptions C143_grid.

(** C143: access to a Gridbool of any length; past the end it panics. *)
Theorem C143_gridbool : forall P g x y w, post_wf P -> valid P (x, y) -> u32_words g ->
  let i := y * (XM P + 1) + x in
  let has := 0 <= x /\ 0 <= y /\ XM P < 2 ^ 64 - 1 /\ i < 2 ^ 64 in
  (~ (has /\ i < 32 * Z.of_nat (length g)) -> gb_get P g (x, y) = Panic /\ gb_set P g (x, y) w = Panic) /\
  (has /\ i < 32 * Z.of_nat (length g) ->
     (exists a, gb_get P g (x, y) = Ret a) /\
     exists g', gb_set P g (x, y) w = Ret g' /\ length g' = length g /\ u32_words g' /\ gb_get P g' (x, y) = Ret w /\
       forall q, valid P q -> q <> (x, y) -> gb_get P g' q = gb_get P g q).
Proof. exact C143_gridbool_proof. Qed.
Print Assumptions C143_gridbool.

(** C143: no access through a position is undefined behaviour exactly if the Grid has
    as many items as the columns from 0 times the rows from 0. *)
Theorem C143_safe : forall (T : Type) P (g : list T) w, post_wf P -> 0 <= XM P < 2 ^ 64 - 1 -> 0 <= YM P ->
  (XM P + 1) * (YM P + 1) <= 2 ^ 64 ->
  ((forall p, valid P p -> grid_get P g p <> UB) <-> (XM P + 1) * (YM P + 1) <= Z.of_nat (length g)) /\
  ((forall p, valid P p -> grid_set P g p w <> UB) <-> (XM P + 1) * (YM P + 1) <= Z.of_nat (length g)).
Proof. exact C143_safe_proof. Qed.
Print Assumptions C143_safe.

(** C143: with the tuples of u8, u16 and u32, whose WIDTH and HEIGHT are one too
    small, a Grid of WIDTH * HEIGHT items is too small for the last position, and a
    Gridbool of a length that its assertion accepts is too small for it, too. *)
Theorem C143_declared : forall t, In t [u8; u16; u32] ->
  let P := IntTuple t in let last := (imax t, imax t) in
  valid P last /\
  (forall (T : Type) (g : list T) SIZE w, grid_asserts P SIZE = Ret true -> Z.of_nat (length g) = SIZE ->
     grid_get P g last = UB /\ grid_set P g last w = UB) /\
  (forall WORDS v g w, gb_repeat P WORDS v = Ret g ->
     gb_get P g last = Panic /\ gb_set P g last w = Panic /\ gb_get P g (0, 0) = Ret v).
Proof. exact C143_declared_proof. Qed.
Print Assumptions C143_declared.

(** Columns -2..=3 and rows 1..=2 kept in i8, with a Grid of 12 and of 10 items. *)
Example C143_example :
  let P := Post (Bounded i8 (-2) 3) (Bounded i8 1 2) 6 2 in
  let g := [0; 1; 2; 3; 4; 5; 6; 7; 8; 9; 10; 11] in
  post_wf P /\ valid P (1, 2) /\ valid P (3, 2) /\ valid P (-1, 2) /\ (XM P + 1) * (YM P + 1) = 12 /\
  grid_get P g (1, 2) = Ret 9 /\ grid_get P g (-1, 2) = Panic /\ grid_get P (firstn 10 g) (3, 2) = UB /\
  grid_set P g (1, 2) 77 = Ret [0; 1; 2; 3; 4; 5; 6; 7; 8; 77; 10; 11] /\
  gb_set P [0] (1, 2) true = Ret [4194304] /\ gb_get P [4194304] (1, 2) = Ret true /\ gb_get P [4194304] (3, 2) = Ret false /\
  grid_asserts (IntTuple u8) 65025 = Ret true /\ gridbool_asserts (IntTuple u8) 2033 = Ret true.
Proof.
  unfold post_wf, bty_wf, valid, in_bty. cbn [pt_x pt_y b_inner b_min b_max fst snd imin imax i8].
  repeat split; try lia; try (cbn; tauto); vm_compute; reflexivity.
Qed.
