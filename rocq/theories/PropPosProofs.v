(** PropPosProofs.v -- proofs of the statements of PropPos.v. *)

From Coq Require Import ZArith List Bool Lia.
From Verif Require Import Rust BoundedInt Dir PosT Pos Spec Lib Deque BoundedIntProofs PosTProofs PosTProofs2.
Import ListNotations.
Open Scope Z_scope.

Lemma C05_pos_is_grid_type_proof :
  (forall X Y, u16_dims X Y -> grid_type (Pos X Y)) /\
  grid_type (IntTuple u8) /\ grid_type (IntTuple u16).
Proof.
  split; [exact Pos_grid_type | split; [exact IntTuple_u8_grid_type | exact IntTuple_u16_grid_type]].
Qed.

Lemma C05_pos_construction_proof : forall X Y x y s t, u16_dims X Y ->
  (0 <= x <= X /\ 0 <= y <= Y ->
     Pos_new X Y x y = Ok (x, y) /\
     Pos_try_from_u16 X Y (x, y) = Ok (x, y) /\
     pos_new (Pos X Y) (FromInt s) (FromInt t) x y = Ok (x, y) /\
     Pos_new_unwrap X Y x y = Ret (x, y) /\ Pos_new_static X Y x y = Ret (x, y) /\
     Pos_x (x, y) = x /\ Pos_y (x, y) = y /\ Pos_tuple (x, y) = (x, y)) /\
  (~ (0 <= x <= X /\ 0 <= y <= Y) ->
     Pos_new X Y x y = Err OutOfBounds /\
     Pos_try_from_u16 X Y (x, y) = Err OutOfBounds /\
     pos_new (Pos X Y) (FromInt s) (FromInt t) x y = Err OutOfBounds /\
     Pos_new_unwrap X Y x y = Panic /\ Pos_new_static X Y x y = Panic).
Proof.
  intros X Y x y s t HD. pose proof (Pos_grid_type X Y HD) as G. pose proof (grid_type_wf _ G) as W.
  assert (V : valid (Pos X Y) (x, y) <-> (0 <= x <= X /\ 0 <= y <= Y)) by reflexivity.
  split; intros H.
  - assert (E : Pos_new X Y x y = Ok (x, y)).
    { unfold Pos_new. rewrite (proj1 (bounded_new_spec 0 X x)), (proj1 (bounded_new_spec 0 Y y)) by lia. reflexivity. }
    split; [exact E | split; [exact E |]].
    split; [apply pos_new_ok; [exact W | apply V; exact H] |].
    unfold Pos_new_unwrap, Pos_new_static.
    rewrite (proj1 (bounded_new_unwrap_spec 0 X x)), (proj1 (bounded_new_unwrap_spec 0 Y y)) by lia.
    rewrite (proj1 (bounded_new_static_spec 0 X x)), (proj1 (bounded_new_static_spec 0 Y y)) by lia.
    repeat split.
  - assert (E : Pos_new X Y x y = Err OutOfBounds).
    { unfold Pos_new. destruct (bounded_new_spec 0 X x) as [A1 A2], (bounded_new_spec 0 Y y) as [B1 B2].
      destruct (Z_lt_dec x 0), (Z_lt_dec X x); try (rewrite A2 by lia; reflexivity).
      rewrite A1 by lia. rewrite B2 by lia. reflexivity. }
    split; [exact E | split; [exact E |]].
    split; [apply pos_new_err; [exact W | rewrite V; exact H] |].
    unfold Pos_new_unwrap, Pos_new_static.
    destruct (bounded_new_unwrap_spec 0 X x) as [A1 A2], (bounded_new_unwrap_spec 0 Y y) as [B1 B2].
    destruct (bounded_new_static_spec 0 X x) as [C1 C2], (bounded_new_static_spec 0 Y y) as [D1 D2].
    destruct (Z_lt_dec x 0), (Z_lt_dec X x);
      try (rewrite A2 by lia; rewrite C2 by lia; split; reflexivity).
    rewrite A1 by lia. rewrite C1 by lia. cbn [bind]. rewrite B2 by lia. rewrite D2 by lia. split; reflexivity.
Qed.

Lemma C06_i32_conversion_refuted_proof :
  exists X Y x y p, u16_dims X Y /\ imin i32 <= x <= imax i32 /\ imin i32 <= y <= imax i32 /\
    Pos_try_from_i32 X Y (x, y) = Ok p /\ x > X /\ y < 0 /\ Pos_to_i32 p <> (x, y).
Proof.
  exists 2, 2, 65536, (-65535), (0, 1). cbn. unfold u16_dims. repeat split; try lia; try discriminate.
Qed.

Lemma C06_i32_conversion_partial_proof : forall X Y x y, u16_dims X Y ->
  (0 <= x <= X -> 0 <= y <= Y ->
     Pos_try_from_i32 X Y (x, y) = Ok (x, y) /\ Pos_to_i32 (x, y) = (x, y)) /\
  (0 <= x <= 65535 -> 0 <= y <= 65535 -> X < x \/ Y < y ->
     Pos_try_from_i32 X Y (x, y) = Err OutOfBounds).
Proof.
  intros X Y x y HD. pose proof HD as (HX & HY). unfold Pos_try_from_i32, as_u16. cbn [fst snd]. split.
  - intros Hx Hy. rewrite !Z.mod_small by lia. split; [|reflexivity].
    apply (C05_pos_construction_proof X Y x y u16 u16 HD). lia.
  - intros Hx Hy H. rewrite !Z.mod_small by lia.
    apply (C05_pos_construction_proof X Y x y u16 u16 HD). lia.
Qed.

Lemma C60_i32_conversion_exact_proof : forall X Y x y, u16_dims X Y ->
  (x mod 65536 <= X /\ y mod 65536 <= Y ->
     Pos_try_from_i32 X Y (x, y) = Ok (x mod 65536, y mod 65536)) /\
  (X < x mod 65536 \/ Y < y mod 65536 -> Pos_try_from_i32 X Y (x, y) = Err OutOfBounds).
Proof.
  intros X Y x y HD. unfold Pos_try_from_i32, as_u16. cbn [fst snd].
  pose proof (Z.mod_pos_bound x 65536 eq_refl). pose proof (Z.mod_pos_bound y 65536 eq_refl).
  set (a := x mod 65536) in *. set (b := y mod 65536) in *. clearbody a b.
  destruct (C05_pos_construction_proof X Y a b u16 u16 HD) as [C1 C2].
  split; intros H'; [apply C1 | apply C2]; lia.
Qed.

Lemma C07_index_bijection_proof : forall P, grid_type P ->
  (forall p, valid P p ->
     to_usize P p = Ret (index_of P p) /\ 0 <= index_of P p < cells P /\
     tryfrom_usize P (index_of P p) = Ret (Ok p)) /\
  (forall i, 0 <= i < cells P ->
     exists p, valid P p /\ tryfrom_usize P i = Ret (Ok p) /\ to_usize P p = Ret i) /\
  (forall i, cells P <= i -> tryfrom_usize P i = Ret (Err OutOfBounds)).
Proof.
  exact index_bijection.
Qed.

Lemma C07_pos_usize_proof : forall X Y i p,
  Pos_try_from_usize X Y i = tryfrom_usize (Pos X Y) i /\ Pos_to_usize X Y p = to_usize (Pos X Y) p.
Proof.
  intros. split; reflexivity.
Qed.

Lemma C08_next_prev_proof : forall P p, grid_type P -> valid P p ->
  ((index_of P p + 1 < cells P ->
      exists q, pos_next P p = Some q /\ valid P q /\ index_of P q = index_of P p + 1) /\
   (index_of P p + 1 = cells P -> pos_next P p = None)) /\
  ((0 < index_of P p ->
      exists q, pos_prev P p = Some q /\ valid P q /\ index_of P q = index_of P p - 1) /\
   (index_of P p = 0 -> pos_prev P p = None)) /\
  ((index_col P p + 1 < cells P ->
      exists q, pos_next_y P p = Some q /\ valid P q /\ index_col P q = index_col P p + 1) /\
   (index_col P p + 1 = cells P -> pos_next_y P p = None)) /\
  ((0 < index_col P p ->
      exists q, pos_prev_y P p = Some q /\ valid P q /\ index_col P q = index_col P p - 1) /\
   (index_col P p = 0 -> pos_prev_y P p = None)).
Proof.
  intros P p H Hv. split; [apply next_by_index | split; [apply prev_by_index |
    split; [apply next_y_by_index | apply prev_y_by_index]]]; assumption.
Qed.

Lemma C08_next_prev_inverse_proof : forall P p q, grid_type P -> valid P p -> valid P q ->
  (pos_next P p = Some q <-> pos_prev P q = Some p) /\
  (pos_next_y P p = Some q <-> pos_prev_y P q = Some p).
Proof.
  exact next_prev_inverse.
Qed.

Lemma C09_full_iteration_proof : forall P, post_wf P ->
  exists hor ver,
    iter_list P true = Ret hor /\ iter_list P false = Ret ver /\
    iter_list_rev P true = Ret (rev hor) /\ iter_list_rev P false = Ret (rev ver) /\
    NoDup hor /\ (forall p, In p hor <-> valid P p) /\
    NoDup ver /\ (forall p, In p ver <-> valid P p) /\
    hor = flat_map (fun y => map (fun x => (x, y)) (interval (b_min (pt_x P)) (XM P)))
            (interval (b_min (pt_y P)) (YM P)) /\
    ver = flat_map (fun x => map (fun y => (x, y)) (interval (b_min (pt_y P)) (YM P)))
            (interval (b_min (pt_x P)) (XM P)).
Proof.
  intros P H. exists (all_rows P), (all_cols P).
  split; [apply (iter_list_of P true H) |]. split; [apply (iter_list_of P false H) |].
  split; [apply (iter_list_rev_of P true H) |]. split; [apply (iter_list_rev_of P false H) |].
  split; [apply (all_of_NoDup P true) |]. split; [apply all_rows_In |].
  split; [apply (all_of_NoDup P false) |]. split; [apply all_cols_In |]. split; reflexivity.
Qed.

Lemma C09_index_order_proof : forall P, grid_type P ->
  exists hor ver, iter_list P true = Ret hor /\ iter_list P false = Ret ver /\
    Z.of_nat (length hor) = cells P /\ Z.of_nat (length ver) = cells P /\
    forall p, valid P p ->
      nth_error hor (Z.to_nat (index_of P p)) = Some p /\
      nth_error ver (Z.to_nat (index_col P p)) = Some p.
Proof.
  intros P H. pose proof (grid_type_wf P H) as W. exists (all_rows P), (all_cols P).
  split; [apply (iter_list_of P true W) |]. split; [apply (iter_list_of P false W) |].
  assert (L : forall X, Z.of_nat (length (all_of P X)) = cells P).
  { intros X. rewrite (all_of_length P X W). destruct (grid_type_nums P H) as (-> & -> & _ & _).
    unfold cells, cols, rows. lia. }
  split; [apply (L true) | split; [apply (L false) |]].
  intros p Hp. split; [apply all_rows_nth | apply all_cols_nth]; assumption.
Qed.

Lemma C09_axis_iteration_proof : forall P, post_wf P ->
  iter_x P = Ret (interval (b_min (pt_x P)) (XM P)) /\
  iter_y P = Ret (interval (b_min (pt_y P)) (YM P)).
Proof.
  intros P H. split; [apply iter_x_ok | apply iter_y_ok]; exact H.
Qed.

Lemma C10_deque_iteration_proof : forall P XFIRST cs, post_wf P ->
  run_calls (piter_next P XFIRST) (piter_next_back P XFIRST) cs (piter_new P) =
  run_calls pop_front pop_back cs (if XFIRST then all_rows P else all_cols P).
Proof. intros P X cs H. rewrite (piter_calls P X cs H). destruct X; reflexivity. Qed.

Lemma C11_size_hint_refuted_proof :
  exists P, grid_type P /\
    (let it := snd (piter_next P true (piter_new P)) in
     piter_size_hint P it = Ret (2, Some 2) /\
     drain (fun it => Ret (piter_next P true it)) (piter_fuel P) it = Ret [(1, 0)]) /\
    (let it := snd (in_y_next P (in_y_new P 0)) in
     in_y_size_hint P it = Ret (2, Some 2) /\
     drain (fun it => Ret (in_y_next P it)) (piter_fuel P) it = Ret [(1, 0)]) /\
    (let it := snd (in_x_next P (in_x_new P 0)) in
     in_x_size_hint P it = Ret (1, Some 1) /\
     drain (fun it => Ret (in_x_next P it)) (piter_fuel P) it = Ret []) /\
    (let it := prange_new (0, 0) (0, 0) in
     prange_size_hint P it = Ret (2, Some 2) /\
     drain (fun it => Ret (prange_next P it)) (piter_fuel P) it = Ret []) /\
    (let it := dir_iter in
     exists it', dir_iter_next false it = Ret (Some dN, it') /\
     dir_iter_size_hint false it' = (4, Some 4) /\
     drain (dir_iter_next false) 9 it' = Ret [dE; dS; dW]).
Proof.
  exists (Pos 1 0). split; [apply Pos_grid_type; unfold u16_dims; lia |].
  vm_compute. repeat split. exists (Some dE). repeat split.
Qed.

Lemma dir_iter_left : forall D n, exists it, calls_state (dir_iter_next D) n dir_iter = Ret it /\ drain (dir_iter_next D) 9 it = Ret (skipn n (if D then ALL8 else ALL4)).
Proof.
  assert (N : forall D n, calls_state (dir_iter_next D) n None = Ret None) by (intros D n; induction n as [|n IH]; [reflexivity | exact IH]).
  intros D n. destruct D.
  - do 9 (destruct n as [|n]; [eexists; split; reflexivity |]). exists None. split; [exact (N true n) | reflexivity].
  - do 5 (destruct n as [|n]; [eexists; split; reflexivity |]). exists None. split; [exact (N false n) | reflexivity].
Qed.

Lemma C11_size_hint_partial_proof : forall P, grid_type P ->
  (forall XFIRST cs, exists lo up l,
     let it := state_after (piter_next P XFIRST) (piter_next_back P XFIRST) cs (piter_new P) in
     piter_size_hint P it = Ret (lo, Some up) /\
     drain (fun it => Ret (piter_next P XFIRST it)) (piter_fuel P) it = Ret l /\
     Z.of_nat (length l) <= up /\ (cs = [] -> lo = Z.of_nat (length l))) /\
  (forall x n, exists lo up l,
     let it := Nat.iter n (fun s => snd (in_x_next P s)) (in_x_new P x) in
     in_x_size_hint P it = Ret (lo, Some up) /\
     drain (fun it => Ret (in_x_next P it)) (piter_fuel P) it = Ret l /\
     Z.of_nat (length l) <= up /\ (n = O -> lo = Z.of_nat (length l))) /\
  (forall y n, exists lo up l,
     let it := Nat.iter n (fun s => snd (in_y_next P s)) (in_y_new P y) in
     in_y_size_hint P it = Ret (lo, Some up) /\
     drain (fun it => Ret (in_y_next P it)) (piter_fuel P) it = Ret l /\
     Z.of_nat (length l) <= up /\ (n = O -> lo = Z.of_nat (length l))) /\
  (forall tl br n, valid P tl -> valid P br -> fst tl <= fst br -> snd tl <= snd br ->
     exists lo up l,
     let it := Nat.iter n (fun s => snd (prange_next P s)) (prange_new tl br) in
     prange_size_hint P it = Ret (lo, Some up) /\
     drain (fun it => Ret (prange_next P it)) (piter_fuel P) it = Ret l /\
     Z.of_nat (length l) <= up) /\
  (forall D n, exists lo up l it,
     calls_state (dir_iter_next D) n dir_iter = Ret it /\
     dir_iter_size_hint D it = (lo, Some up) /\
     drain (dir_iter_next D) 9 it = Ret l /\
     Z.of_nat (length l) <= up /\ (n = O -> lo = Z.of_nat (length l))).
Proof.
  intros P H. pose proof (grid_type_wf P H) as W. destruct (grid_type_nums P H) as (Ex & Ey & HX & HY).
  split; [|split; [|split; [|split]]].
  - intros X cs. destruct (piter_left P X cs W) as (l & E & L). exists (cells P), (cells P), l.
    unfold piter_size_hint. rewrite dimensions_ok by exact H.
    assert (LA : Z.of_nat (length (all_of P X)) = cells P).
    { rewrite (all_of_length P X W), Ex, Ey. unfold cells, cols, rows. lia. }
    split; [reflexivity | split; [exact E | split; [lia |]]]. intros ->. cbn [length] in L. lia.
  - intros x n. exists (rows P), (rows P), (skipn n (map (fun y => (x, y)) (interval 0 (YM P)))).
    unfold in_x_size_hint. rewrite height_ok by exact H.
    pose proof (interval_length 0 (YM P) ltac:(lia)) as LI.
    split; [reflexivity |]. split.
    + apply (yields_iter (in_x_next P) _ _ None None); [|reflexivity | reflexivity |].
      * unfold in_x_new, b_default. apply (in_x_yields P x W (Z.to_nat (YM P + 1)) 0); lia.
      * rewrite map_length. unfold piter_fuel. nia.
    + rewrite skipn_length, map_length. unfold rows. split; [lia |]. intros ->. lia.
  - intros y n. exists (cols P), (cols P), (skipn n (map (fun x => (x, y)) (interval 0 (XM P)))).
    unfold in_y_size_hint. rewrite width_ok by exact H.
    pose proof (interval_length 0 (XM P) ltac:(lia)) as LI.
    split; [reflexivity |]. split.
    + apply (yields_iter (in_y_next P) _ _ None None); [|reflexivity | reflexivity |].
      * unfold in_y_new, b_default. apply (in_y_yields P y W (Z.to_nat (XM P + 1)) 0); lia.
      * rewrite map_length. unfold piter_fuel. nia.
    + rewrite skipn_length, map_length. unfold cols. split; [lia |]. intros ->. lia.
  - intros tl br n Ht Hb Hx Hy. exists (cells P), (cells P), (skipn n (range_items P tl br)).
    pose proof (dimensions_ok P H) as ED. unfold dimensions in ED. unfold prange_size_hint.
    rewrite width_ok, height_ok in * by exact H. cbn [bind] in *. rewrite ED. split; [reflexivity |].
    destruct (range_yields P W tl br Ht Hb Hx Hy) as (s & Y & N). injection N as N.
    pose proof (range_items_length P tl br Ht Hb Hx Hy) as LR. split.
    + apply (yields_iter (prange_next P) _ _ s (PRange tl br None) Y N); [reflexivity | exact LR].
    + rewrite skipn_length. unfold piter_fuel in LR. rewrite Ex, Ey in LR. unfold cells, cols, rows. lia.
  - intros D n. destruct (dir_iter_left D n) as (it & E & Dr). exists (if D then 8 else 4), (if D then 8 else 4), (skipn n (if D then ALL8 else ALL4)), it.
    split; [exact E |]. split; [destruct D; reflexivity |]. split; [exact Dr |]. rewrite skipn_length. split; [destruct D; cbn [length ALL8 ALL4]; lia |]. intros ->. destruct D; reflexivity.
Qed.

Lemma C61_size_hint_exact_proof : forall P, grid_type P ->
  (forall XFIRST cs,
     let it := state_after (piter_next P XFIRST) (piter_next_back P XFIRST) cs (piter_new P) in
     piter_size_hint P it = Ret (cells P, Some (cells P)) /\
     exists l, drain (fun it => Ret (piter_next P XFIRST it)) (piter_fuel P) it = Ret l /\
       Z.of_nat (length l) = Z.max 0 (cells P - Z.of_nat (length cs))) /\
  (forall tl br n, valid P tl -> valid P br -> fst tl <= fst br -> snd tl <= snd br ->
     let it := Nat.iter n (fun s => snd (prange_next P s)) (prange_new tl br) in
     prange_size_hint P it = Ret (cells P, Some (cells P)) /\
     exists l, prange_list P tl br = Ret l /\
       drain (fun it => Ret (prange_next P it)) (piter_fuel P) it = Ret (skipn n l)) /\
  (forall x n,
     let it := Nat.iter n (fun s => snd (in_x_next P s)) (in_x_new P x) in
     in_x_size_hint P it = Ret (rows P, Some (rows P)) /\
     exists l, drain (fun it => Ret (in_x_next P it)) (piter_fuel P) it = Ret l /\
       Z.of_nat (length l) = Z.max 0 (rows P - Z.of_nat n)) /\
  (forall y n,
     let it := Nat.iter n (fun s => snd (in_y_next P s)) (in_y_new P y) in
     in_y_size_hint P it = Ret (cols P, Some (cols P)) /\
     exists l, drain (fun it => Ret (in_y_next P it)) (piter_fuel P) it = Ret l /\
       Z.of_nat (length l) = Z.max 0 (cols P - Z.of_nat n)) /\
  (forall D n, exists it l, calls_state (dir_iter_next D) n dir_iter = Ret it /\
     dir_iter_size_hint D it = (if D then (8, Some 8) else (4, Some 4)) /\
     drain (dir_iter_next D) 9 it = Ret l /\ Z.of_nat (length l) = Z.max 0 ((if D then 8 else 4) - Z.of_nat n)).
Proof.
  intros P H. pose proof (grid_type_wf P H) as W. destruct (grid_type_nums P H) as (Ex & Ey & HX & HY).
  split; [|split; [|split; [|split]]].
  - intros X cs it. unfold piter_size_hint. rewrite dimensions_ok by exact H. split; [reflexivity |].
    destruct (piter_left P X cs W) as (l & E & L). exists l. split; [exact E |].
    assert (LA : Z.of_nat (length (all_of P X)) = cells P).
    { rewrite (all_of_length P X W), Ex, Ey. unfold cells, cols, rows. lia. }
    lia.
  - intros tl br n Ht Hb Hx Hy it. pose proof (dimensions_ok P H) as ED. unfold dimensions in ED. unfold prange_size_hint.
    rewrite width_ok, height_ok in * by exact H. cbn [bind] in *. rewrite ED. split; [reflexivity |].
    destruct (range_yields P W tl br Ht Hb Hx Hy) as (s & Y & N). injection N as N.
    pose proof (range_items_length P tl br Ht Hb Hx Hy) as LR. exists (range_items P tl br). split; [apply (range_list P W tl br Ht Hb Hx Hy) |].
    apply (yields_iter (prange_next P) _ _ s (PRange tl br None) Y N); [reflexivity | exact LR].
  - intros x n it. unfold in_x_size_hint. rewrite height_ok by exact H. split; [reflexivity |].
    pose proof (interval_length 0 (YM P) ltac:(lia)) as LI. exists (skipn n (map (fun y => (x, y)) (interval 0 (YM P)))). split.
    + apply (yields_iter (in_x_next P) _ _ None None); [|reflexivity | reflexivity |].
      * unfold in_x_new, b_default. apply (in_x_yields P x W (Z.to_nat (YM P + 1)) 0); lia.
      * rewrite map_length. unfold piter_fuel. nia.
    + rewrite skipn_length, map_length. unfold rows. lia.
  - intros y n it. unfold in_y_size_hint. rewrite width_ok by exact H. split; [reflexivity |].
    pose proof (interval_length 0 (XM P) ltac:(lia)) as LI. exists (skipn n (map (fun x => (x, y)) (interval 0 (XM P)))). split.
    + apply (yields_iter (in_y_next P) _ _ None None); [|reflexivity | reflexivity |].
      * unfold in_y_new, b_default. apply (in_y_yields P y W (Z.to_nat (XM P + 1)) 0); lia.
      * rewrite map_length. unfold piter_fuel. nia.
    + rewrite skipn_length, map_length. unfold cols. lia.
  - intros D n. destruct (dir_iter_left D n) as (it & E & Dr). exists it, (skipn n (if D then ALL8 else ALL4)). split; [exact E |]. split; [destruct D; reflexivity |].
    split; [exact Dr |]. rewrite skipn_length. destruct D; cbn [length ALL8 ALL4]; lia.
Qed.

Lemma C12_iter_range_refuted_proof :
  exists P tl br l, grid_type P /\ valid P tl /\ valid P br /\ fst tl <= fst br /\ snd tl <= snd br /\
    prange_list P tl br = Ret l /\ ~ In br l.
Proof.
  exists (Pos 3 3), (1, 2), (2, 3), [(1, 2); (2, 2); (1, 3)].
  split; [apply Pos_grid_type; unfold u16_dims; lia |].
  split; [vm_compute; intuition discriminate |]. split; [vm_compute; intuition discriminate |].
  split; [cbn; lia |]. split; [cbn; lia |]. split; [vm_compute; reflexivity |].
  intros [E | [E | [E | []]]]; discriminate.
Qed.

Lemma C12_iter_range_partial_proof : forall P tl br, post_wf P -> valid P tl -> valid P br ->
  fst tl <= fst br -> snd tl <= snd br -> (snd br < YM P \/ fst br = XM P) ->
  exists l, l = flat_map (fun y => map (fun x => (x, y)) (interval (fst tl) (fst br)))
                  (interval (snd tl) (snd br)) /\
  NoDup l /\
  (forall p, In p l <-> fst tl <= fst p <= fst br /\ snd tl <= snd p <= snd br) /\
  prange_list P tl br = Ret l /\
  forall n, next_calls (fun it => Ret (prange_next P it)) n (prange_new tl br) =
            Ret (items_then_none l n).
Proof.
  intros P tl br W Ht Hb Hx Hy Hc. exists (rect_rows (fst tl) (snd tl) (fst br) (snd br)).
  split; [reflexivity |]. split; [apply rect_rows_NoDup |]. split; [apply rect_rows_In |].
  apply in_rect_iff; assumption.
Qed.

Lemma C62_iter_range_exact_proof : forall P tl br, post_wf P -> valid P tl -> valid P br ->
  fst tl <= fst br -> snd tl <= snd br -> snd br = YM P -> fst br < XM P ->
  exists l, flat_map (fun y => map (fun x => (x, y)) (interval (fst tl) (fst br)))
              (interval (snd tl) (snd br)) = l ++ [br] /\
  prange_list P tl br = Ret l /\
  forall n, next_calls (fun it => Ret (prange_next P it)) n (prange_new tl br) =
            Ret (items_then_none l n).
Proof.
  exact range_loses_corner.
Qed.

Lemma C13_row_column_iteration_proof : forall P, grid_type P ->
  (forall x,
     in_x_list P x = Ret (map (fun y => (x, y)) (interval 0 (YM P))) /\
     forall n, next_calls (fun it => Ret (in_x_next P it)) n (in_x_new P x) =
               Ret (items_then_none (map (fun y => (x, y)) (interval 0 (YM P))) n)) /\
  (forall y,
     in_y_list P y = Ret (map (fun x => (x, y)) (interval 0 (XM P))) /\
     forall n, next_calls (fun it => Ret (in_y_next P it)) n (in_y_new P y) =
               Ret (items_then_none (map (fun x => (x, y)) (interval 0 (XM P))) n)).
Proof.
  exact row_col_items.
Qed.

Lemma C14_tlbr_of_proof : forall l : list pos,
  (l = [] -> tlbr_of l = Err Empty) /\
  (l <> [] -> exists tl br, tlbr_of l = Ok (tl, br) /\
     (forall p, In p l -> fst tl <= fst p <= fst br /\ snd tl <= snd p <= snd br) /\
     (exists p, In p l /\ fst p = fst tl) /\ (exists p, In p l /\ snd p = snd tl) /\
     (exists p, In p l /\ fst p = fst br) /\ (exists p, In p l /\ snd p = snd br)).
Proof.
  exact tlbr_of_tight.
Qed.

Lemma C15_manhattan_proof : forall P p q, grid_type P -> valid P p -> valid P q ->
  manhattan P p q = Ret (Z.abs (fst p - fst q) + Z.abs (snd p - snd q)).
Proof.
  exact manhattan_ok.
Qed.

Lemma C15_manhattan_metric_proof : forall P p q r, grid_type P -> valid P p -> valid P q -> valid P r ->
  exists pq qp pr qr,
    manhattan P p q = Ret pq /\ manhattan P q p = Ret qp /\ manhattan P p r = Ret pr /\
    manhattan P q r = Ret qr /\
    pq = qp /\ (pq = 0 <-> p = q) /\ pr <= pq + qr /\ 0 <= pq.
Proof.
  intros P p q r H Hp Hq Hr. do 4 eexists.
  rewrite !manhattan_ok by assumption. do 4 (split; [reflexivity |]).
  destruct p as [x y], q as [x' y']. cbn [fst snd].
  split; [lia |]. split; [|lia]. split; [intros; f_equal; lia | intros E; inv E; lia].
Qed.

Lemma C16_inside_proof : forall p a b,
  inside p a b = true <->
  Z.min (fst a) (fst b) <= fst p <= Z.max (fst a) (fst b) /\
  Z.min (snd a) (snd b) <= snd p <= Z.max (snd a) (snd b).
Proof.
  exact inside_ok.
Qed.

Lemma C17_flips_proof : forall P p, grid_type P -> valid P p ->
  pos_flip_h P p = Ret (XM P - fst p, snd p) /\ valid P (XM P - fst p, snd p) /\
  pos_flip_v P p = Ret (fst p, YM P - snd p) /\ valid P (fst p, YM P - snd p).
Proof.
  intros P p H Hv. split; [apply flip_h_ok; assumption |]. split; [apply flip_h_valid; assumption |].
  split; [apply flip_v_ok; assumption | apply flip_v_valid; assumption].
Qed.

Lemma C17_flip_involutions_proof : forall P p h v, grid_type P -> valid P p ->
  pos_flip_h P p = Ret h -> pos_flip_v P p = Ret v ->
  pos_flip_h P h = Ret p /\ pos_flip_v P v = Ret p /\
  pos_flip_v P h = pos_flip_h P v /\
  is_corner P h = is_corner P p /\ is_corner P v = is_corner P p /\
  is_side P h = is_side P p /\ is_side P v = is_side P p.
Proof.
  intros P p h v H Hv Eh Ev. rewrite flip_h_ok in Eh by assumption. rewrite flip_v_ok in Ev by assumption.
  inv Eh. inv Ev. rewrite !flip_h_ok, !flip_v_ok by (assumption || apply flip_h_valid || apply flip_v_valid; assumption).
  cbn [fst snd]. assert (B : forall a b : bool, (a = true <-> b = true) -> a = b) by (intros [|] [|]; intuition congruence).
  repeat split.
  - destruct p. cbn. repeat f_equal. lia.
  - destruct p. cbn. repeat f_equal. lia.
  - apply B. rewrite !is_corner_iff by exact H. cbn [fst snd]. lia.
  - apply B. rewrite !is_corner_iff by exact H. cbn [fst snd]. lia.
  - apply B. rewrite !is_side_iff by exact H. cbn [fst snd]. lia.
  - apply B. rewrite !is_side_iff by exact H. cbn [fst snd]. lia.
Qed.

Lemma C17_corners_sides_proof : forall P p, grid_type P ->
  (is_corner P p = true <-> (fst p = 0 \/ fst p = XM P) /\ (snd p = 0 \/ snd p = YM P)) /\
  (is_side P p = true <-> fst p = 0 \/ fst p = XM P \/ snd p = 0 \/ snd p = YM P).
Proof.
  intros P p H. split; [apply is_corner_iff | apply is_side_iff]; exact H.
Qed.

Lemma C18_rotation_proof : forall P p, grid_type P -> valid P p ->
  (valid P (YM P - snd p, fst p) -> pos_rotate_cw P p = Ret (YM P - snd p, fst p)) /\
  (~ valid P (YM P - snd p, fst p) -> pos_rotate_cw P p = Panic) /\
  (valid P (snd p, XM P - fst p) -> pos_rotate_cc P p = Ret (snd p, XM P - fst p)) /\
  (~ valid P (snd p, XM P - fst p) -> pos_rotate_cc P p = Panic) /\
  (XM P = YM P -> valid P (YM P - snd p, fst p) /\ valid P (snd p, XM P - fst p)).
Proof.
  intros P p H Hv. destruct (rotate_cw_ok P p H Hv) as [A1 A2], (rotate_cc_ok P p H Hv) as [B1 B2].
  do 4 (split; [assumption |]). intros E. rewrite valid_nums in * by exact H. rewrite valid_nums by exact H.
  cbn [fst snd]. lia.
Qed.

Lemma C18_rotation_group_proof : forall P p, grid_type P -> valid P p -> XM P = YM P ->
  exists q1 q2 q3 c1,
    pos_rotate_cw P p = Ret q1 /\ pos_rotate_cw P q1 = Ret q2 /\ pos_rotate_cw P q2 = Ret q3 /\
    pos_rotate_cw P q3 = Ret p /\
    pos_rotate_cc P q1 = Ret p /\ pos_rotate_cc P p = Ret c1 /\ pos_rotate_cw P c1 = Ret p /\
    pos_rotate_cc P c1 = Ret q2 /\
    is_corner P q1 = is_corner P p /\ is_side P q1 = is_side P p.
Proof.
  intros P [x y] H Hv E.
  assert (CW : forall p, valid P p -> pos_rotate_cw P p = Ret (XM P - snd p, fst p) /\ valid P (XM P - snd p, fst p)).
  { intros p Hp. assert (V : valid P (YM P - snd p, fst p)).
    { rewrite valid_nums in * by exact H. cbn [fst snd]. lia. }
    destruct (rotate_cw_ok P p H Hp) as [A _]. rewrite E. split; [apply A; exact V | exact V]. }
  assert (CC : forall p, valid P p -> pos_rotate_cc P p = Ret (snd p, XM P - fst p) /\ valid P (snd p, XM P - fst p)).
  { intros p Hp. assert (V : valid P (snd p, XM P - fst p)).
    { rewrite valid_nums in * by exact H. cbn [fst snd]. lia. }
    destruct (rotate_cc_ok P p H Hp) as [A _]. split; [apply A; exact V | exact V]. }
  destruct (CW _ Hv) as [E1 V1]. destruct (CW _ V1) as [E2 V2]. destruct (CW _ V2) as [E3 V3].
  destruct (CW _ V3) as [E4 V4]. destruct (CC _ V1) as [F1 _]. destruct (CC _ Hv) as [F2 W2].
  destruct (CW _ W2) as [F3 _]. destruct (CC _ W2) as [F4 _]. cbn [fst snd] in *.
  assert (B : forall a b : bool, (a = true <-> b = true) -> a = b) by (intros [|] [|]; intuition congruence).
  exists (XM P - y, x), (XM P - x, XM P - y), (XM P - (XM P - y), XM P - x), (y, XM P - x).
  split; [exact E1 |]. split; [exact E2 |]. split; [exact E3 |].
  split; [rewrite E4; repeat f_equal; lia |]. split; [rewrite F1; repeat f_equal; lia |].
  split; [exact F2 |]. split; [rewrite F3; repeat f_equal; lia |]. split; [exact F4 |].
  split; apply B; rewrite ?is_corner_iff, ?is_side_iff by exact H; cbn [fst snd]; lia.
Qed.

Lemma C19_tryfrom_pos_proof : forall P Q p, post_wf P -> post_wf Q -> valid Q p ->
  (valid P p -> tryfrom_pos P Q p = Ok p) /\ (~ valid P p -> tryfrom_pos P Q p = Err OutOfBounds).
Proof.
  intros P Q p HP _ _. apply tryfrom_pos_ok. exact HP.
Qed.

Lemma C20_named_positions_refuted_proof :
  exists X Y, u16_dims X Y /\ dimensions (Pos X Y) = Ret 65536 /\ Pos_SIZE X Y = Panic /\ Pos_WIDTH X = Panic.
Proof.
  exists 65535, 0. unfold u16_dims. repeat split; lia.
Qed.

Lemma C20_named_positions_partial_proof : forall X Y, u16_dims X Y ->
  width (Pos X Y) = Ret (X + 1) /\ height (Pos X Y) = Ret (Y + 1) /\
  dimensions (Pos X Y) = Ret ((X + 1) * (Y + 1)) /\
  FIRST X Y = Ret (0, 0) /\ TOP_LEFT X Y = Ret (0, 0) /\
  LAST X Y = Ret (X, Y) /\ BOTTOM_RIGHT X Y = Ret (X, Y) /\
  TOP_RIGHT X Y = Ret (X, 0) /\ BOTTOM_LEFT X Y = Ret (0, Y) /\
  pos_first (Pos X Y) = (0, 0) /\ pos_last (Pos X Y) = (X, Y) /\ Pos_default X Y = (0, 0) /\
  (exists cx cy, CENTER X Y = Ret (cx, cy) /\ valid (Pos X Y) (cx, cy) /\
     0 <= X - 2 * cx <= 1 /\ 0 <= Y - 2 * cy <= 1) /\
  (X < 65535 -> Y < 65535 ->
     Pos_WIDTH X = Ret (X + 1) /\ Pos_HEIGHT Y = Ret (Y + 1) /\ Pos_SIZE X Y = Ret ((X + 1) * (Y + 1))).
Proof.
  intros X Y HD. pose proof HD as (HX & HY). pose proof (Pos_grid_type X Y HD) as G.
  assert (S : forall a b, 0 <= a <= X -> 0 <= b <= Y -> Pos_new_static X Y a b = Ret (a, b)).
  { intros a b Ha Hb. apply (C05_pos_construction_proof X Y a b u16 u16 HD). auto. }
  split; [apply (width_ok _ G) |]. split; [apply (height_ok _ G) |]. split; [apply (dimensions_ok _ G) |].
  split; [apply S; lia |]. split; [apply S; lia |]. split; [apply S; lia |]. split; [apply S; lia |].
  split; [apply S; lia |]. split; [apply S; lia |]. do 3 (split; [reflexivity |]).
  split.
  - exists (X / 2), (Y / 2). split; [|split; [|split; lia]].
    + apply (C05_pos_construction_proof X Y _ _ u16 u16 HD). split; lia.
    + rewrite valid_nums by exact G. cbn. lia.
  - intros LX LY. unfold Pos_SIZE, Pos_WIDTH, Pos_HEIGHT.
    rewrite !arith_ok by (cbn; lia). cbn [bind]. do 2 (split; [reflexivity |]).
    unfold umul. apply usize_arith. nia.
Qed.

Lemma C28_order_proof : forall P, grid_type P ->
  exists ver, iter_list P false = Ret ver /\
  (forall i j p q, nth_error ver i = Some p -> nth_error ver j = Some q ->
     (pos_ltb p q = true <-> (i < j)%nat)).
Proof.
  intros P H. pose proof (grid_type_wf P H) as W. exists (all_cols P).
  split; [apply (iter_list_of P false W) |].
  intros i j p q Ei Ej.
  assert (Vp : valid P p) by (apply all_cols_In; eapply nth_error_In; exact Ei).
  assert (Vq : valid P q) by (apply all_cols_In; eapply nth_error_In; exact Ej).
  assert (I : forall k r, valid P r -> nth_error (all_cols P) k = Some r -> k = Z.to_nat (index_col P r)).
  { intros k r Vr Ek. apply (proj1 (NoDup_nth_error (all_cols P)) (all_of_NoDup P false)).
    - apply nth_error_Some. rewrite Ek. discriminate.
    - rewrite Ek. symmetry. apply all_cols_nth; assumption. }
  rewrite (I i p Vp Ei), (I j q Vq Ej). rewrite (index_col_lt P p q H Vp Vq).
  pose proof (index_col_bound P p H Vp). pose proof (index_col_bound P q H Vq). lia.
Qed.

Lemma C28_order_total_proof : forall p q r : pos,
  pos_ltb p p = false /\
  (pos_ltb p q = true -> pos_ltb q r = true -> pos_ltb p r = true) /\
  (pos_ltb p q = true \/ p = q \/ pos_ltb q p = true) /\
  (pos_ltb p q = true -> pos_ltb q p = false) /\
  (pos_eqb p q = true <-> p = q).
Proof.
  intros p q r. repeat split; try apply pos_eqb_eq.
  - destruct (pos_ltb p p) eqn:E; [|reflexivity]. apply pos_ltb_iff in E. lia.
  - rewrite !pos_ltb_iff. lia.
  - rewrite !pos_ltb_iff. destruct p as [a b], q as [c d]. cbn [fst snd].
    destruct (Z.eq_dec a c) as [-> |], (Z.eq_dec b d) as [-> |]; auto; lia.
  - intros E. destruct (pos_ltb q p) eqn:E2; [|reflexivity]. apply pos_ltb_iff in E, E2. lia.
Qed.

Lemma C27_int_tuples_refuted_proof :
  (exists t w, In t int_tuple_types /\ width (IntTuple t) = Ret w /\ pt_WIDTH (IntTuple t) <> w) /\
  (exists t p, In t int_tuple_types /\ valid (IntTuple t) p /\ to_usize (IntTuple t) p = Panic) /\
  (exists t l p, In t int_tuple_types /\ in_x_list (IntTuple t) 0 = Ret l /\ valid (IntTuple t) p /\
     fst p = 0 /\ ~ In p l) /\
  (exists t, In t int_tuple_types /\ width (IntTuple t) = Panic).
Proof.
  split; [|split; [|split]].
  - exists u8, 256. split; [left; reflexivity |]. split; [reflexivity |]. vm_compute. discriminate.
  - exists i8, (-1, 0). split; [unfold int_tuple_types; cbn; tauto |].
    split; [vm_compute; intuition discriminate | reflexivity].
  - exists i8, (map (fun y => (0, y)) (interval 0 127)), (0, -1).
    split; [unfold int_tuple_types; cbn; tauto |].
    split; [apply in_x_items; [|vm_compute; intuition discriminate] |].
    { split; vm_compute; intuition discriminate. }
    split; [vm_compute; intuition discriminate |]. split; [reflexivity |].
    intros HI. apply in_map_iff in HI. destruct HI as (y & E & Hy). inv E. apply interval_In in Hy. lia.
  - exists u64. split; [unfold int_tuple_types; cbn; tauto | reflexivity].
Qed.

Lemma to_usize_big : forall t x y, In t all_ity -> 0 <= imax t <= 4294967295 -> 0 <= x <= imax t -> 0 <= y <= imax t ->
  to_usize (IntTuple t) (x, y) = Ret (y * (imax t + 1) + x).
Proof.
  intros t x y Ht Hm Hx Hy. unfold to_usize, width. cbn [fst snd IntTuple pt_x b_max].
  rewrite !b_into_usize_ok by lia. cbn [bind]. unfold uadd, umul.
  rewrite usize_arith by lia. cbn [bind]. rewrite usize_arith by nia. cbn [bind]. apply usize_arith. nia.
Qed.

Lemma C27_int_tuples_partial_proof : forall t x y, In t [u8; u16; u32] -> valid (IntTuple t) (x, y) ->
  width (IntTuple t) = Ret (imax t - imin t + 1) /\ height (IntTuple t) = Ret (imax t - imin t + 1) /\
  to_usize (IntTuple t) (x, y) = Ret (y * (imax t - imin t + 1) + x) /\
  in_x_list (IntTuple t) x = Ret (map (fun y => (x, y)) (interval (imin t) (imax t))) /\
  in_y_list (IntTuple t) y = Ret (map (fun x => (x, y)) (interval (imin t) (imax t))).
Proof.
  intros t x y Ht (Vx & Vy). unfold in_bty in *. cbn [fst snd IntTuple pt_x pt_y b_min b_max] in *.
  assert (A : In t all_ity /\ imin t = 0 /\ 0 <= imax t <= 4294967295).
  { destruct Ht as [<- | [<- | [<- | []]]]; (split; [unfold all_ity; cbn; tauto | cbn; lia]). }
  destruct A as (A1 & A2 & A3). rewrite A2 in *. replace (imax t - 0 + 1) with (imax t + 1) by lia.
  assert (W : post_wf (IntTuple t)).
  { split; unfold bty_wf; cbn [IntTuple pt_x pt_y b_inner b_min b_max]; rewrite A2; repeat split; auto; lia. }
  assert (Wd : width (IntTuple t) = Ret (imax t + 1)).
  { unfold width. cbn [IntTuple pt_x b_max]. rewrite b_into_usize_ok by lia. apply usize_arith. lia. }
  split; [exact Wd |]. split; [exact Wd |]. split; [apply to_usize_big; auto |].
  split; [apply in_x_items | apply in_y_items]; try exact W; unfold in_bty; cbn; lia.
Qed.

Lemma C63_int_tuples_exact_proof :
  (forall t, In t [u8; u16; u32; i8; i16; i32] ->
     width (IntTuple t) = Ret (imax t + 1) /\ height (IntTuple t) = Ret (imax t + 1) /\
     pt_WIDTH (IntTuple t) = imax t - imin t /\ pt_HEIGHT (IntTuple t) = imax t - imin t /\
     (forall x y, valid (IntTuple t) (x, y) -> 0 <= x -> 0 <= y ->
        to_usize (IntTuple t) (x, y) = Ret (y * (imax t + 1) + x)) /\
     (forall x y, valid (IntTuple t) (x, y) -> x < 0 \/ y < 0 -> to_usize (IntTuple t) (x, y) = Panic) /\
     (forall x, in_x_list (IntTuple t) x = Ret (map (fun y => (x, y)) (interval 0 (imax t)))) /\
     (forall y, in_y_list (IntTuple t) y = Ret (map (fun x => (x, y)) (interval 0 (imax t))))) /\
  (forall t, In t [u64; u128] ->
     width (IntTuple t) = Panic /\ height (IntTuple t) = Panic /\
     pt_WIDTH (IntTuple t) = 18446744073709551615 /\ pt_HEIGHT (IntTuple t) = 18446744073709551615 /\
     (forall p, to_usize (IntTuple t) p = Panic) /\
     (forall x, in_x_list (IntTuple t) x = Ret (map (fun y => (x, y)) (interval 0 (imax t)))) /\
     (forall y, in_y_list (IntTuple t) y = Ret (map (fun x => (x, y)) (interval 0 (imax t))))).
Proof.
  split.
  - intros t Ht.
    assert (A : In t all_ity /\ imin t <= 0 /\ 0 <= imax t <= 4294967295 /\ int_dim t = imax t - imin t).
    { repeat (destruct Ht as [<- | Ht]; [split; [unfold all_ity; cbn; tauto | vm_compute; intuition discriminate] |]).
      destruct Ht. }
    destruct A as (A1 & A2 & A3 & A4).
    assert (W : post_wf (IntTuple t)).
    { split; unfold bty_wf; cbn [IntTuple pt_x pt_y b_inner b_min b_max]; repeat split; auto; lia. }
    assert (Wd : width (IntTuple t) = Ret (imax t + 1)).
    { unfold width. cbn [IntTuple pt_x b_max]. rewrite b_into_usize_ok by lia. apply usize_arith. lia. }
    split; [exact Wd |]. split; [exact Wd |]. split; [exact A4 |]. split; [exact A4 |].
    split; [intros x y (Vx & Vy) Hx Hy; unfold in_bty in *; cbn in Vx, Vy; apply to_usize_big; auto; lia |].
    split.
    { intros x y (Vx & Vy) Hn. unfold in_bty in *. cbn [fst snd IntTuple pt_x pt_y b_min b_max] in *.
      unfold to_usize. cbn [fst snd].
      assert (NP : forall v, v < 0 -> b_into_usize v = Panic).
      { intros v Hv. unfold b_into_usize, b_to_usize, int_try_from.
        rewrite (proj2 (in_ity_false usize v)); [reflexivity | cbn; lia]. }
      destruct (Z_lt_dec y 0) as [Hy | Hy]; [rewrite NP by exact Hy; reflexivity |].
      rewrite b_into_usize_ok by lia. cbn [bind]. rewrite NP by lia. reflexivity. }
    split; intros z; [apply in_x_items | apply in_y_items]; try exact W; unfold in_bty; cbn; lia.
  - intros t Ht. assert (A : In t all_ity /\ imin t = 0 /\ 0 <= imax t) by (destruct Ht as [<- | [<- | []]]; (split; [unfold all_ity; cbn; tauto | vm_compute; split; [reflexivity | discriminate]])).
    destruct A as (A1 & A2 & A3).
    assert (W : post_wf (IntTuple t)) by (split; unfold bty_wf; cbn [IntTuple pt_x pt_y b_inner b_min b_max]; repeat split; auto; lia).
    assert (Wd : width (IntTuple t) = Panic) by (destruct Ht as [<- | [<- | []]]; reflexivity).
    split; [exact Wd |]. split; [exact Wd |]. split; [destruct Ht as [<- | [<- | []]]; reflexivity |]. split; [destruct Ht as [<- | [<- | []]]; reflexivity |].
    split; [| split; intros z; [apply in_x_items | apply in_y_items]; try exact W; unfold in_bty; cbn; lia].
    intros p. unfold to_usize. rewrite Wd.
    assert (C : forall v, b_into_usize v = Panic \/ exists u, b_into_usize v = Ret u) by (intros v; unfold b_into_usize; destruct (b_to_usize v); cbn; eauto).
    destruct (C (snd p)) as [-> | (y & ->)]; [reflexivity |]. destruct (C (fst p)) as [-> | (x & ->)]; reflexivity.
Qed.
