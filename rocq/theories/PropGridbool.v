(** PropGridbool.v -- properties of Gridbool: C37-C42, C68-C70. *)

From Coq Require Import ZArith List Bool Lia Sorted.
From Verif Require Import Rust BoundedInt Dir PosT Pos Grid Gridbool Spec Lib Deque BoundedIntProofs PosTProofs PosTProofs2 GridProofs GridRotProofs GridboolProofs GridboolRotProofs.
From Verif Require Import PropGridboolProofs.
Import ListNotations.
Open Scope Z_scope.

(** C37: a Gridbool with at least one bit per position can be read and written at
    every position without panicking. *)
Theorem C37_gridbool_get_set : forall P g p v, grid_type P -> roomy P g -> valid P p ->
  (exists w, gb_get P g p = Ret w) /\
  exists g', gb_set P g p v = Ret g' /\ roomy P g' /\ length g' = length g /\
    (if v then gb_set_t P g p else gb_set_f P g p) = Ret g' /\
    gb_get P g' p = Ret v /\
    (forall q, valid P q -> q <> p -> gb_get P g' q = gb_get P g q).
Proof. exact C37_gridbool_get_set_proof. Qed.
Print Assumptions C37_gridbool_get_set.

(** [repeat] compiles exactly for the number of words that fits (with at most
    one spare word), and then gives a Gridbool with enough bits, holding the
    value everywhere. *)
Theorem C37_gridbool_repeat : forall X Y WORDS v, u16_dims X Y -> in_ity usize WORDS = true ->
  let P := Pos X Y in
  (cells P <= 32 * WORDS <= cells P + 32 ->
    exists g, gb_repeat P WORDS v = Ret g /\ roomy P g /\ Z.of_nat (length g) = WORDS /\
      (forall p, valid P p -> gb_get P g p = Ret v) /\
      (v = true -> gb_ALL_TRUE P WORDS = Ret g) /\
      (v = false -> gb_ALL_FALSE P WORDS = Ret g /\ gb_default P WORDS = Ret g)) /\
  (~ (cells P <= 32 * WORDS <= cells P + 32) -> gb_repeat P WORDS v = Panic).
Proof. exact C37_gridbool_repeat_proof. Qed.
Print Assumptions C37_gridbool_repeat.

Example C37_example : exists g, gb_repeat (Pos 6 6) 2 true = Ret g /\ roomy (Pos 6 6) g /\
  exists g', gb_set (Pos 6 6) g (4, 4) false = Ret g' /\ gb_get (Pos 6 6) g' (4, 4) = Ret false /\
  g' = [4294967295; 4294967295 - 2 ^ 31] /\ gb_repeat (Pos 6 6) 1 true = Panic.
Proof.
  exists [4294967295; 4294967295]. split; [reflexivity |].
  split; [split; [repeat constructor; lia | cbn; lia] |].
  exists [4294967295; 4294967295 - 2 ^ 31]. vm_compute. auto.
Qed.

(** C68 is false: for integer tuples the assertion uses MAX-MIN instead of the
    number of columns and rows, so it accepts too few words. *)
Theorem C68_gridbool_int_tuple_refuted : exists P WORDS g p, grid_type P /\ valid P p /\
  gb_repeat P WORDS false = Ret g /\ gb_get P g p = Panic /\ gb_set P g p true = Panic.
Proof. exact C68_gridbool_int_tuple_refuted_proof. Qed.
Print Assumptions C68_gridbool_int_tuple_refuted.

(** C68, the part that holds: what the assertion does protect.  Missing: all
    positions, which fails for integer tuples since their WIDTH and HEIGHT are
    one too small. *)
Theorem C68_gridbool_assert_partial : forall P WORDS v g p u, grid_type P -> in_ity usize WORDS = true ->
  gb_repeat P WORDS v = Ret g -> valid P p ->
  pt_WIDTH P * pt_HEIGHT P <= 32 * WORDS <= pt_WIDTH P * pt_HEIGHT P + 32 /\
  (index_of P p < 32 * WORDS -> gb_get P g p = Ret v /\ exists g', gb_set P g p u = Ret g') /\
  (32 * WORDS <= index_of P p -> gb_get P g p = Panic /\ gb_set P g p u = Panic).
Proof. exact C68_gridbool_assert_partial_proof. Qed.
Print Assumptions C68_gridbool_assert_partial.

Example C68_example : exists g, gb_repeat (IntTuple u8) 2033 true = Ret g /\
  gb_get (IntTuple u8) g (7, 254) = Ret true /\ gb_get (IntTuple u8) g (128, 254) = Panic /\
  index_of (IntTuple u8) (7, 254) = 65031 /\ 32 * 2033 = 65056 /\ index_of (IntTuple u8) (128, 254) = 65152.
Proof. exists (repeat 4294967295 (Z.to_nat 2033)). vm_compute. auto 10. Qed.

(** C38: the macros. *)
Theorem C38_macro_sizes : forall X Y, u16_dims X Y ->
  let n := (X + 1) * (Y + 1) in
  sqrid_create_SIZE X Y = Ret n /\ grid_create_SIZE X Y = Ret n /\
  grid_asserts (Pos X Y) n = Ret true /\ cells (Pos X Y) = n /\
  exists w1 w2, sqrid_create_WORDS X Y = Ret w1 /\ gridbool_create_WORDS X Y = Ret w2 /\
    gridbool_asserts (Pos X Y) w1 = Ret true /\ gridbool_asserts (Pos X Y) w2 = Ret true /\
    n <= 32 * w2 /\ 32 * (w2 - 1) < n /\ w2 <= w1 <= w2 + 1.
Proof. exact C38_macro_sizes_proof. Qed.
Print Assumptions C38_macro_sizes.

Example C38_example : u16_dims 65535 65535 /\ sqrid_create_WORDS 65535 65535 = Ret 134217729 /\
  gridbool_create_WORDS 65535 65535 = Ret 134217728 /\ gridbool_create_WORDS 4 4 = Ret 1.
Proof. split; [unfold u16_dims; lia |]. vm_compute. auto. Qed.

(** C39: iterators. *)
Theorem C39_gridbool_iter : forall P g, grid_type P -> roomy P g ->
  exists bs, gb_iter P g = Ret bs /\ Z.of_nat (length bs) = cells P /\
    (forall p, valid P p -> exists b, gb_get P g p = Ret b /\ nth_error bs (Z.to_nat (index_of P p)) = Some b) /\
    gb_iter_pos P g = Ret (combine (all_rows P) bs).
Proof. exact C39_gridbool_iter_proof. Qed.
Print Assumptions C39_gridbool_iter.

(** [iter_t] and [iter_f]: in index order (hence without repetition), exactly
    the positions that hold the value. *)
Theorem C39_gridbool_iter_tf : forall P g, grid_type P -> roomy P g ->
  exists lt lf, gb_iter_t P g = Ret lt /\ gb_iter_f P g = Ret lf /\
    (forall p, In p lt <-> valid P p /\ gb_get P g p = Ret true) /\
    (forall p, In p lf <-> valid P p /\ gb_get P g p = Ret false) /\
    StronglySorted (fun p q => index_of P p < index_of P q) lt /\
    StronglySorted (fun p q => index_of P p < index_of P q) lf.
Proof. exact C39_gridbool_iter_tf_proof. Qed.
Print Assumptions C39_gridbool_iter_tf.

(** [set_iter_t], [set_iter_f] set exactly the given positions. *)
Theorem C39_gridbool_set_iter : forall P g ps, grid_type P -> roomy P g -> (forall p, In p ps -> valid P p) ->
  (exists g', gb_set_iter_t P g ps = Ret g' /\ roomy P g' /\ length g' = length g /\
    forall p, valid P p -> (In p ps -> gb_get P g' p = Ret true) /\ (~ In p ps -> gb_get P g' p = gb_get P g p)) /\
  (exists g', gb_set_iter_f P g ps = Ret g' /\ roomy P g' /\ length g' = length g /\
    forall p, valid P p -> (In p ps -> gb_get P g' p = Ret false) /\ (~ In p ps -> gb_get P g' p = gb_get P g p)).
Proof. exact C39_gridbool_set_iter_proof. Qed.
Print Assumptions C39_gridbool_set_iter.

(** Collecting positions sets exactly those. *)
Theorem C39_gridbool_from_positions : forall X Y WORDS g0 ps, u16_dims X Y -> in_ity usize WORDS = true ->
  let P := Pos X Y in
  gb_repeat P WORDS false = Ret g0 -> (forall p, In p ps -> valid P p) ->
  exists g, gb_from_positions P WORDS ps = Ret g /\ roomy P g /\
    forall p, valid P p -> (gb_get P g p = Ret true <-> In p ps) /\ (gb_get P g p = Ret false <-> ~ In p ps).
Proof. exact C39_gridbool_from_positions_proof. Qed.
Print Assumptions C39_gridbool_from_positions.

(** Collecting booleans takes exactly one per position, in index order. *)
Theorem C39_gridbool_from_bools : forall X Y WORDS g0 it, u16_dims X Y -> in_ity usize WORDS = true ->
  let P := Pos X Y in
  gb_repeat P WORDS false = Ret g0 ->
  (Z.of_nat (length it) = cells P ->
    exists g, gb_from_bools P WORDS it = Ret g /\ roomy P g /\ gb_iter P g = Ret it) /\
  (Z.of_nat (length it) <> cells P -> gb_from_bools P WORDS it = Panic).
Proof. exact C39_gridbool_from_bools_proof. Qed.
Print Assumptions C39_gridbool_from_bools.

Example C39_example : exists g, gb_from_positions (Pos 2 1) 1 [(2, 0); (0, 1); (2, 0)] = Ret g /\
  gb_iter (Pos 2 1) g = Ret [false; false; true; true; false; false] /\
  gb_iter_t (Pos 2 1) g = Ret [(2, 0); (0, 1)] /\ gb_iter_f (Pos 2 1) g = Ret [(0, 0); (1, 0); (1, 1); (2, 1)] /\
  gb_from_bools (Pos 2 1) 1 [false; false; true; true; false; false] = Ret g /\
  gb_from_bools (Pos 2 1) 1 [true] = Panic.
Proof. exists [805306368]. vm_compute. auto 10. Qed.

(** C40: flips. *)
Theorem C40_gridbool_flips : forall P g, grid_type P -> roomy P g ->
  exists gh gv, gb_flip_h P g = Ret gh /\ gb_flip_v P g = Ret gv /\ roomy P gh /\ roomy P gv /\
    (forall x y, valid P (x, y) -> gb_get P gh (XM P - x, y) = gb_get P g (x, y)) /\
    (forall x y, valid P (x, y) -> gb_get P gv (x, YM P - y) = gb_get P g (x, y)) /\
    gb_flip_h P gh = Ret g /\ gb_flip_v P gv = Ret g.
Proof. exact C40_gridbool_flips_proof. Qed.
Print Assumptions C40_gridbool_flips.

Example C40_example : exists g gh gv, gb_from_bools (Pos 2 1) 1 [true; false; false; false; true; true] = Ret g /\
  gb_flip_h (Pos 2 1) g = Ret gh /\ gb_iter (Pos 2 1) gh = Ret [false; false; true; true; true; false] /\
  gb_flip_v (Pos 2 1) g = Ret gv /\ gb_iter (Pos 2 1) gv = Ret [false; true; true; true; false; false].
Proof. exists [2348810240], [939524096], [1879048192]. vm_compute. auto 10. Qed.

(** C41 is false: in a 2x2 square nothing moves. *)
Theorem C41_gridbool_rotation_refuted : exists W g x y, u16_dims W W /\ roomy (Pos W W) g /\ valid (Pos W W) (x, y) /\
  (exists gw, gb_rotate_cw W g = Ret gw /\ gb_get (Pos W W) gw (W - y, x) <> gb_get (Pos W W) g (x, y)) /\
  (exists gc, gb_rotate_cc W g = Ret gc /\ gb_get (Pos W W) gc (y, W - x) <> gb_get (Pos W W) g (x, y)).
Proof. exact C41_gridbool_rotation_refuted_proof. Qed.
Print Assumptions C41_gridbool_rotation_refuted.

(** What holds of C41: squares with an odd number of columns (W even).  Missing:
    squares with an even number of columns, see C69. *)
Theorem C41_gridbool_rotation_partial : forall W g, u16_dims W W -> W mod 2 = 0 -> roomy (Pos W W) g ->
  let P := Pos W W in
  exists gw gc, gb_rotate_cw W g = Ret gw /\ gb_rotate_cc W g = Ret gc /\ roomy P gw /\ roomy P gc /\
    (forall x y, valid P (x, y) -> gb_get P gw (W - y, x) = gb_get P g (x, y)) /\
    (forall x y, valid P (x, y) -> gb_get P gc (y, W - x) = gb_get P g (x, y)) /\
    gb_rotate_cc W gw = Ret g /\ gb_rotate_cw W gc = Ret g.
Proof. exact C41_gridbool_rotation_partial_proof. Qed.
Print Assumptions C41_gridbool_rotation_partial.

Example C41_example : exists g gw, gb_from_bools (Pos 2 2) 1 [true; false; false; true; false; true; false; false; false] = Ret g /\
  gb_rotate_cw 2 g = Ret gw /\ gb_iter (Pos 2 2) gw = Ret [false; true; true; false; false; false; false; true; false] /\
  gb_rotate_cc 2 gw = Ret g.
Proof. exists [2483027968], [1627389952]. vm_compute. auto 10. Qed.

(** C69: what rotations do, exactly.  In a square with an even number of columns
    (W odd) the four central positions keep their values; every other value moves
    by a quarter turn. *)
Theorem C69_gridbool_rotation_exact : forall W g, u16_dims W W -> roomy (Pos W W) g ->
  let P := Pos W W in
  let central p := W mod 2 = 1 /\ W / 2 <= fst p <= W / 2 + 1 /\ W / 2 <= snd p <= W / 2 + 1 in
  exists gw gc, gb_rotate_cw W g = Ret gw /\ gb_rotate_cc W g = Ret gc /\ roomy P gw /\ roomy P gc /\
    (forall p, valid P p -> central p -> gb_get P gw p = gb_get P g p /\ gb_get P gc p = gb_get P g p) /\
    (forall x y, valid P (x, y) -> ~ central (x, y) -> gb_get P gw (W - y, x) = gb_get P g (x, y)) /\
    (forall x y, valid P (x, y) -> ~ central (x, y) -> gb_get P gc (y, W - x) = gb_get P g (x, y)) /\
    gb_rotate_cc W gw = Ret g /\ gb_rotate_cw W gc = Ret g.
Proof. exact C69_gridbool_rotation_exact_proof. Qed.
Print Assumptions C69_gridbool_rotation_exact.

Example C69_example : exists g gw, roomy (Pos 3 3) g /\ gb_iter (Pos 3 3) g = Ret
    [true; true; false; false;  false; true; false; false;  false; false; false; false;  false; false; false; false] /\
  gb_rotate_cw 3 g = Ret gw /\ gb_iter (Pos 3 3) gw = Ret
    [false; false; false; true;  false; true; false; true;  false; false; false; false;  false; false; false; false].
Proof.
  exists [3288334336], [352321536]. split; [|vm_compute; auto].
  split; [repeat constructor; lia | cbn; lia].
Qed.

(** C42 is false: the bits that correspond to no position take part in the
    comparison. *)
Theorem C42_gridbool_eq_refuted : exists P WORDS a b, grid_type P /\
  gb_ALL_TRUE P WORDS = Ret a /\ gb_from_positions P WORDS (all_rows P) = Ret b /\
  (forall p, valid P p -> gb_get P a p = gb_get P b p) /\ gb_eqb a b = false.
Proof. exact C42_gridbool_eq_refuted_proof. Qed.
Print Assumptions C42_gridbool_eq_refuted.

(** What holds of C42: Gridbools that started as the same Gridbool and went
    through any sequences of [set]; and any Gridbools without spare bits.
    Missing: Gridbools with spare bits and different origins, see C70. *)
Theorem C42_gridbool_eq_partial : forall P, grid_type P ->
  (forall g items1 items2, roomy P g ->
    (forall p v, In (p, v) (items1 ++ items2) -> valid P p) ->
    exists a b, foldM (fun g pv => gb_set P g (fst pv) (snd pv)) items1 g = Ret a /\
      foldM (fun g pv => gb_set P g (fst pv) (snd pv)) items2 g = Ret b /\
      (gb_eqb a b = true <-> forall p, valid P p -> gb_get P a p = gb_get P b p)) /\
  (forall a b, roomy P a -> roomy P b -> 32 * Z.of_nat (length a) = cells P -> length b = length a ->
    (gb_eqb a b = true <-> forall p, valid P p -> gb_get P a p = gb_get P b p)).
Proof. exact C42_gridbool_eq_partial_proof. Qed.
Print Assumptions C42_gridbool_eq_partial.

Example C42_example : exists a b, gb_from_positions (Pos 4 4) 1 [(1, 1); (3, 2)] = Ret a /\
  gb_from_positions (Pos 4 4) 1 [(3, 2); (3, 2); (1, 1)] = Ret b /\ gb_eqb a b = true /\
  roomy (Pos 7 3) [5] /\ 32 * Z.of_nat (length [5]) = cells (Pos 7 3).
Proof. exists [33816576], [33816576]. split; [|split]; [vm_compute; reflexivity..|].
  split; [reflexivity |]. split; [split; [repeat constructor; lia | cbn; lia] | reflexivity]. Qed.

(** C70: equality is exactly equality at every position and of every spare bit,
    and no operation ever changes a spare bit. *)
Theorem C70_gridbool_eq_exact : forall P a b, grid_type P -> roomy P a -> roomy P b -> length a = length b ->
  (gb_eqb a b = true <->
    (forall p, valid P p -> gb_get P a p = gb_get P b p) /\
    (forall i, cells P <= i < 32 * Z.of_nat (length a) -> bit_at a i = bit_at b i)).
Proof. exact C70_gridbool_eq_exact_proof. Qed.
Print Assumptions C70_gridbool_eq_exact.

Theorem C70_gridbool_spare_bits : forall P g g', grid_type P -> roomy P g ->
  (exists p v, valid P p /\ gb_set P g p v = Ret g') \/
  gb_flip_h P g = Ret g' \/ gb_flip_v P g = Ret g' \/
  (exists W, u16_dims W W /\ P = Pos W W /\ (gb_rotate_cw W g = Ret g' \/ gb_rotate_cc W g = Ret g')) ->
  length g' = length g /\
  forall i, cells P <= i < 32 * Z.of_nat (length g) -> bit_at g' i = bit_at g i.
Proof. exact C70_gridbool_spare_bits_proof. Qed.
Print Assumptions C70_gridbool_spare_bits.

(** The word layout: a new Gridbool has all its spare bits equal to its value. *)
Theorem C70_gridbool_repeat_bits : forall X Y WORDS v g, u16_dims X Y -> in_ity usize WORDS = true ->
  gb_repeat (Pos X Y) WORDS v = Ret g -> forall i, 0 <= i < 32 * Z.of_nat (length g) -> bit_at g i = v.
Proof. exact C70_gridbool_repeat_bits_proof. Qed.
Print Assumptions C70_gridbool_repeat_bits.

Example C70_example : roomy (Pos 1 1) [4294967295] /\ roomy (Pos 1 1) [4026531840] /\
  bit_at [4294967295] 4 = true /\ bit_at [4026531840] 4 = false /\ gb_eqb [4294967295] [4026531840] = false.
Proof. split; [split; [repeat constructor; lia | cbn; lia] |]. split; [split; [repeat constructor; lia | cbn; lia] |]. auto. Qed.
