(** PropViews.v -- properties of the views of inner arrays, of the derived orderings, and of the texts of bounded integers and errors: C98-C102. *)

From Coq Require Import ZArith List Bool Lia.
From Verif Require Import Rust BoundedInt Dir PosT Pos Grid Gridbool Display Views Spec SpecDisplay SpecHistory Lib BoundedIntProofs PosTProofs GridProofs GridboolProofs PropGridProofs PropGridboolProofs DisplayProofs PropDisplayProofs PropHistoryProofs.
From Verif Require Import PropViewsProofs.
Import ListNotations.
Open Scope Z_scope.

(** C98: the inner array of a Grid holds the rows one after another; the slot of
    a position can be written through the array, and every cell can be changed
    in place. *)
Theorem C98_grid_array : forall (T : Type) P (g : list T), grid_type P -> proper P g ->
  (forall p v, valid P p ->
    (nth_error (grid_as_array g) (Z.to_nat (snd p * cols P + fst p)) = Some v <-> grid_get P g p = Ret v) /\
    (nth_error (grid_into_inner g) (Z.to_nat (snd p * cols P + fst p)) = Some v <-> grid_get P g p = Ret v)) /\
  (forall p v, valid P p -> exists g', grid_write_slot g (snd p * cols P + fst p) v = Ret g' /\ proper P g' /\
    grid_get P g' p = Ret v /\ forall q, valid P q -> q <> p -> grid_get P g' q = grid_get P g q) /\
  (forall i v, ~ (0 <= i < cells P) -> grid_write_slot g i v = Panic) /\
  (forall f p v, valid P p -> grid_get P g p = Ret v -> grid_get P (grid_iter_mut f g) p = Ret (f v)) /\
  (forall f, proper P (grid_iter_mut f g)).
Proof. exact C98_grid_array_proof. Qed.
Print Assumptions C98_grid_array.

Example C98_example : proper (Pos 2 1) [10; 11; 12; 20; 21; 22] /\ grid_write_slot [10; 11; 12; 20; 21; 22] 4 7 = Ret [10; 11; 12; 20; 7; 22] /\
  grid_get (Pos 2 1) [10; 11; 12; 20; 7; 22] (1, 1) = Ret 7 /\ grid_iter_mut (fun v => v + 1) [10; 11] = [11; 12].
Proof. vm_compute. auto. Qed.

(** C99: the inner bitmap of a Gridbool: cell number [32 * k + j] in row-major
    order is bit [31 - j] of word [k], and a word can be replaced. *)
Theorem C99_gridbool_bitmap : forall P g, grid_type P -> roomy P g ->
  (forall p, valid P p -> let i := snd p * cols P + fst p in
    exists w, nth_error (gb_as_inner g) (Z.to_nat (i / 32)) = Some w /\ nth_error (gb_into_inner g) (Z.to_nat (i / 32)) = Some w /\
      gb_get P g p = Ret (Z.testbit w (31 - i mod 32))) /\
  (forall k w, 0 <= k < Z.of_nat (length g) -> 0 <= w <= 4294967295 -> exists g', gb_write_word g k w = Ret g' /\ roomy P g' /\ length g' = length g /\
    forall p, valid P p -> let i := snd p * cols P + fst p in
      gb_get P g' p = if i / 32 =? k then Ret (Z.testbit w (31 - i mod 32)) else gb_get P g p).
Proof. exact C99_gridbool_bitmap_proof. Qed.
Print Assumptions C99_gridbool_bitmap.

Example C99_example : roomy (Pos 7 7) [2147483648; 1] /\ gb_get (Pos 7 7) [2147483648; 1] (0, 0) = Ret true /\ gb_get (Pos 7 7) [2147483648; 1] (7, 7) = Ret true /\
  gb_get (Pos 7 7) [2147483648; 1] (7, 3) = Ret false /\ gb_write_word [2147483648; 1] 1 2 = Ret [2147483648; 2] /\ gb_get (Pos 7 7) [2147483648; 2] (6, 7) = Ret true.
Proof. split; [split; [repeat constructor; lia | cbn; lia] |]. vm_compute. auto. Qed.

(** C100: grids are ordered by the first cell, in row-major order, at which they
    differ. *)
Theorem C100_grid_order : forall (T : Type) P (cmp : T -> T -> comparison) (a b : list T) (ca cb : pos -> T), grid_type P -> proper P a -> proper P b ->
  (forall p, valid P p -> grid_get P a p = Ret (ca p)) -> (forall p, valid P p -> grid_get P b p = Ret (cb p)) ->
  (grid_cmp cmp a b = Eq <-> forall p, valid P p -> cmp (ca p) (cb p) = Eq) /\
  forall c, c <> Eq ->
    (grid_cmp cmp a b = c <-> exists p, valid P p /\ cmp (ca p) (cb p) = c /\
      forall q, valid P q -> snd q < snd p \/ (snd q = snd p /\ fst q < fst p) -> cmp (ca q) (cb q) = Eq).
Proof. exact C100_grid_order_proof. Qed.
Print Assumptions C100_grid_order.

Example C100_example : grid_cmp Z.compare [1; 5; 3; 9] [1; 5; 4; 0] = Lt /\ proper (Pos 1 1) [1; 5; 3; 9] /\
  grid_get (Pos 1 1) [1; 5; 3; 9] (0, 1) = Ret 3 /\ grid_get (Pos 1 1) [1; 5; 4; 0] (0, 1) = Ret 4.
Proof. vm_compute. auto. Qed.

(** C101 is false: cells alike everywhere, but the spare bits decide. *)
Theorem C101_gridbool_order_refuted : exists P WORDS a b, grid_type P /\
  gb_ALL_TRUE P WORDS = Ret a /\ gb_from_positions P WORDS (all_rows P) = Ret b /\
  (forall p, valid P p -> gb_get P a p = gb_get P b p) /\ gb_cmp a b = Gt.
Proof. exact C101_gridbool_order_refuted_proof. Qed.
Print Assumptions C101_gridbool_order_refuted.

(** What holds of C101: Gridbools with the same spare bits are ordered by the
    first cell, in row-major order, at which they differ, false before true.
    Missing: Gridbools with different spare bits, see the exact statement
    below. *)
Theorem C101_gridbool_order_partial : forall P a b (ca cb : pos -> bool), grid_type P -> roomy P a -> roomy P b -> length a = length b ->
  (forall i, cells P <= i < 32 * Z.of_nat (length a) -> bit_at a i = bit_at b i) ->
  (forall p, valid P p -> gb_get P a p = Ret (ca p)) -> (forall p, valid P p -> gb_get P b p = Ret (cb p)) ->
  (gb_cmp a b = Eq <-> forall p, valid P p -> ca p = cb p) /\
  (gb_cmp a b = Lt <-> exists p, valid P p /\ ca p = false /\ cb p = true /\
    forall q, valid P q -> snd q < snd p \/ (snd q = snd p /\ fst q < fst p) -> ca q = cb q) /\
  (gb_cmp a b = Gt <-> exists p, valid P p /\ ca p = true /\ cb p = false /\
    forall q, valid P q -> snd q < snd p \/ (snd q = snd p /\ fst q < fst p) -> ca q = cb q).
Proof. exact C101_gridbool_order_partial_proof. Qed.
Print Assumptions C101_gridbool_order_partial.

(** C101, exactly: the first of all bits, spare ones last, at which two
    Gridbools differ decides, and this is a total order. *)
Theorem C101_gridbool_order_exact : forall P a b, grid_type P -> roomy P a -> roomy P b -> length a = length b ->
  (gb_cmp a b = Lt <-> exists i, 0 <= i < 32 * Z.of_nat (length a) /\ bit_at a i = false /\ bit_at b i = true /\ forall j, 0 <= j < i -> bit_at a j = bit_at b j) /\
  (gb_cmp a b = Eq <-> gb_eqb a b = true) /\ gb_cmp b a = CompOpp (gb_cmp a b).
Proof. exact C101_gridbool_order_exact_proof. Qed.
Print Assumptions C101_gridbool_order_exact.

Example C101_example : roomy (Pos 7 3) [16777216] /\ roomy (Pos 7 3) [33554431] /\ gb_cmp [33554431] [16777216] = Gt /\ gb_cmp [16777216] [33554431] = Lt /\
  gb_get (Pos 7 3) [16777216] (0, 1) = Ret false /\ gb_get (Pos 7 3) [33554431] (0, 1) = Ret true /\ gb_get (Pos 7 3) [16777216] (7, 0) = gb_get (Pos 7 3) [33554431] (7, 0).
Proof. split; [split; [repeat constructor; lia | cbn; lia] |]. split; [split; [repeat constructor; lia | cbn; lia] |]. vm_compute. auto. Qed.

(** C112: Gridbools that come from the same Gridbool by any modifications are
    ordered by their contents. *)
Theorem C112_gridbool_history_order : forall X Y g f es es', u16_dims X Y -> roomy (Pos X Y) g -> Forall (edit_ok X Y) es -> Forall (edit_ok X Y) es' ->
  let P := Pos X Y in
  (forall p, valid P p -> gb_get P g p = Ret (f p)) ->
  exists a b, gb_edits X Y g es = Ret a /\ gb_edits X Y g es' = Ret b /\
    (gb_cmp a b = Lt <-> exists p, valid P p /\ gb_drawing X Y f es p = false /\ gb_drawing X Y f es' p = true /\
      forall q, valid P q -> snd q < snd p \/ (snd q = snd p /\ fst q < fst p) -> gb_drawing X Y f es q = gb_drawing X Y f es' q).
Proof. exact C112_gridbool_history_order_proof. Qed.
Print Assumptions C112_gridbool_history_order.

Example C112_order_example :
  gb_edits 1 1 [1] [Put (0, 0) true; FlipH] = Ret [1073741825] /\ gb_edits 1 1 [1] [Put (0, 0) true] = Ret [2147483649] /\
  gb_cmp [1073741825] [2147483649] = Lt.
Proof. vm_compute. auto. Qed.

(** C102: a bounded integer is printed as the decimal numeral of its value,
    after a minus sign when it is negative, with Display and with Debug. *)
Theorem C102_bounded_text : forall v,
  (0 <= v -> numeral v (bounded_display v)) /\
  (v < 0 -> exists s, numeral (- v) s /\ bounded_display v = [45] ++ s) /\
  bounded_debug v = bounded_display v /\
  forall w, bounded_display v = bounded_display w -> v = w.
Proof. exact C102_bounded_text_proof. Qed.
Print Assumptions C102_bounded_text.

(** Different errors have different, non-empty, one-line messages. *)
Theorem C102_error_text : forall e f, (error_display e = error_display f -> e = f) /\ error_display e <> [] /\ ~ In 10 (error_display e).
Proof. exact C102_error_text_proof. Qed.
Print Assumptions C102_error_text.

Example C102_example : bounded_display (-120) = [45; 49; 50; 48] /\ bounded_debug 7 = [55] /\ error_display DestinationUnreachable = [100; 101; 115; 116; 105; 110; 97; 116; 105; 111; 110; 32; 117; 110; 114; 101; 97; 99; 104; 97; 98; 108; 101].
Proof. vm_compute. auto. Qed.
