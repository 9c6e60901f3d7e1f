(** PropBounded.v -- properties of bounded integers: C01-C04, C59. *)

From Coq Require Import ZArith List Bool Lia.
From Verif Require Import Rust BoundedInt Spec Lib BoundedIntProofs.
Import ListNotations.
Open Scope Z_scope.

(** C01: building a bounded integer succeeds exactly on MIN..=MAX and keeps the
    value; [s] is the integer type converted from. *)
Theorem C01_bounded_construction : forall t mn mx s v,
  bty_wf (Bounded t mn mx) ->
  (mn <= v <= mx ->
     bounded_new mn mx v = Ok v /\
     b_try_from (Bounded t mn mx) (FromInt s) v = Ok v /\
     bounded_new_unwrap mn mx v = Ret v /\
     bounded_new_static mn mx v = Ret v) /\
  (~ (mn <= v <= mx) ->
     bounded_new mn mx v = Err OutOfBounds /\
     b_try_from (Bounded t mn mx) (FromInt s) v = Err OutOfBounds /\
     bounded_new_unwrap mn mx v = Panic /\
     bounded_new_static mn mx v = Panic).
Proof. exact bounded_construction. Qed.
Print Assumptions C01_bounded_construction.

Example C01_example :
  bty_wf (Bounded i16 (-3) 1000) /\
  b_try_from (Bounded i16 (-3) 1000) (FromInt u64) 999 = Ok 999 /\
  b_try_from (Bounded i16 (-3) 1000) (FromInt u64) 65535 = Err OutOfBounds.
Proof. vm_compute. intuition discriminate. Qed.

(** C02: checked arithmetic is the mathematical result exactly when it is in
    range, for builtin and bounded integers alike. *)
Theorem C02_checked_arithmetic : forall b x y,
  bty_wf b ->
  (in_bty b (x + y) -> b_checked_add b x y = Some (x + y)) /\
  (~ in_bty b (x + y) -> b_checked_add b x y = None) /\
  (in_bty b (x - y) -> b_checked_sub b x y = Some (x - y)) /\
  (~ in_bty b (x - y) -> b_checked_sub b x y = None) /\
  (in_bty b (x + 1) -> b_inc b x = Some (x + 1)) /\
  (~ in_bty b (x + 1) -> b_inc b x = None) /\
  (in_bty b (x - 1) -> b_dec b x = Some (x - 1)) /\
  (~ in_bty b (x - 1) -> b_dec b x = None).
Proof. exact checked_arithmetic. Qed.
Print Assumptions C02_checked_arithmetic.

(** The bounds of the builtin types are those of two's complement: [0 .. 2^n - 1]
    and [-2^(n-1) .. 2^(n-1) - 1]. *)
Theorem C02_builtin_bounds :
  let unsigned n := (0, 2 ^ n - 1) in
  let signed n := (- 2 ^ (n - 1), 2 ^ (n - 1) - 1) in
  let bounds t := (b_min (Builtin t), b_max (Builtin t)) in
  map bounds [u8; u16; u32; u64; u128; usize] = map unsigned [8; 16; 32; 64; 128; 64] /\
  map bounds [i8; i16; i32; i64; i128; isize] = map signed [8; 16; 32; 64; 128; 64] /\
  forall t, bty_wf (Builtin t) <-> In t [u8; u16; u32; u64; u128; usize; i8; i16; i32; i64; i128; isize].
Proof. exact builtin_bounds. Qed.
Print Assumptions C02_builtin_bounds.

Example C02_example :
  bty_wf (Bounded u8 250 255) /\
  b_inc (Bounded u8 250 255) 254 = Some 255 /\ b_inc (Bounded u8 250 255) 255 = None /\
  b_checked_sub (Bounded i8 (-128) 3) (-100) 29 = None.
Proof. vm_compute. intuition discriminate. Qed.

(** C03: iteration behaves like popping the two ends of MIN..=MAX, whatever the
    sequence of [next] / [next_back] calls; a [for] loop sees MIN..=MAX. *)
Theorem C03_bounded_iteration : forall b, bty_wf b ->
  (forall cs, run_calls (biter_next b) (biter_next_back b) cs (b_iter b) =
              run_calls pop_front pop_back cs (interval (b_min b) (b_max b))) /\
  b_iter_list b = Ret (interval (b_min b) (b_max b)).
Proof. exact bounded_iteration. Qed.
Print Assumptions C03_bounded_iteration.

Example C03_example :
  let b := Bounded i8 (-2) 1 in
  bty_wf b /\
  run_calls (biter_next b) (biter_next_back b) [Front; Back; Front; Front; Back; Front] (b_iter b)
  = [Some (-2); Some 1; Some (-1); Some 0; None; None].
Proof. vm_compute. intuition discriminate. Qed.

(** C04 is false: [From<bool>] and [Default] ignore the bounds. *)
Theorem C04_safe_conversions_refuted :
  exists b : bty, bty_wf b /\
    ~ in_bty b (b_from_bool b true) /\ ~ in_bty b (b_from_bool b false) /\ ~ in_bty b (b_default b).
Proof. exact safe_conversions_refuted. Qed.
Print Assumptions C04_safe_conversions_refuted.

(** C04, the part that holds: every other safe operation gives a value in range.
    Missing: [From<bool>] and [Default], for which it is false. *)
Theorem C04_safe_conversions_partial : forall b, bty_wf b ->
  in_bty b (b_min b) /\ in_bty b (b_max b) /\
  (forall s v v', b_try_from b (FromInt s) v = Ok v' -> in_bty b v') /\
  (forall v v', bounded_new (b_min b) (b_max b) v = Ok v' -> in_bty b v') /\
  (forall v v', bounded_new_unwrap (b_min b) (b_max b) v = Ret v' -> in_bty b v') /\
  (forall x y v', b_checked_add b x y = Some v' -> in_bty b v') /\
  (forall x y v', b_checked_sub b x y = Some v' -> in_bty b v') /\
  (forall x v', b_inc b x = Some v' -> in_bty b v') /\
  (forall x v', b_dec b x = Some v' -> in_bty b v').
Proof. exact safe_conversions_partial. Qed.
Print Assumptions C04_safe_conversions_partial.

Example C04_example : bty_wf (Bounded i32 10 20) /\ b_from_bool (Bounded i32 10 20) true = 1.
Proof. vm_compute. intuition discriminate. Qed.

(** C59: what [From<bool>] and [Default] really give: 0 or 1, so they respect
    the bounds exactly when that number does. *)
Theorem C59_bool_and_default : forall b v,
  b_from_bool b v = Z.b2z v /\ b_default b = 0 /\
  (in_bty b (b_from_bool b v) <-> b_min b <= Z.b2z v <= b_max b) /\
  (in_bty b (b_default b) <-> b_min b <= 0 <= b_max b).
Proof. exact bool_and_default. Qed.
Print Assumptions C59_bool_and_default.

Example C59_example : in_bty (Bounded u8 0 1) (b_from_bool (Bounded u8 0 1) true).
Proof. vm_compute. intuition discriminate. Qed.
