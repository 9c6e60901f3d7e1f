(** PropTargetGridProofs.v -- proofs of the statements of PropTargetGrid.v. *)

From Coq Require Import ZArith List Bool Lia.
From Verif Require Import Rust BoundedInt Dir PosT Pos Grid Gridbool Display SetMap CameFrom Bf Astar Ucs Target TargetGrid Spec SpecSearch SpecTarget Lib BoundedIntProofs PosTProofs PosTProofs2 GridProofs GridProofs2 GridboolProofs PropGridboolProofs SetMapProofs Sim CameFromProofs AstarProofs PropTargetProofs.
Import ListNotations.
Open Scope Z_scope.

(** ** The same results where the number of positions fits *)

Lemma t_height_ok : forall t P, grid_type P -> rows P <= usize_MAX t -> t_height t P = Ret (rows P).
Proof.
  intros t P G H. destruct (grid_type_nums P G) as (_ & _ & HX & HY). unfold t_height, t_add. fold (YM P). unfold rows in *. rewrite t_into_ok by lia. cbn [bind]. apply t_arith_ok. lia.
Qed.

Lemma t_int_ok : forall t ty v, in_ity ty v = true -> t_int t ty v = Ret v /\ arith ty v = Ret v.
Proof. intros t ty v H. unfold t_int, arith. rewrite H. split; reflexivity. Qed.

Lemma t_tryfrom_ok : forall t P i, grid_type P -> cells P <= usize_MAX t -> t_tryfrom_usize t P i = tryfrom_usize P i.
Proof.
  intros t P i G H. pose proof (cols_cells P G). pose proof (cols_pos P G). unfold t_tryfrom_usize, tryfrom_usize. rewrite t_width_ok by (first [exact G | lia]). rewrite width_ok by exact G. cbn [bind].
  destruct (Z.eqb_spec (cols P) 0); [lia | reflexivity].
Qed.

Lemma t_dimensions_ok : forall t P, grid_type P -> cells P <= usize_MAX t -> t_dimensions t P = Ret (cells P).
Proof.
  intros t P G H. pose proof (cols_cells P G) as (C1 & C2). pose proof (cells_pos P G). unfold t_dimensions. rewrite t_width_ok by (first [exact G | lia]). cbn [bind]. rewrite t_height_ok by (first [exact G | lia]). cbn [bind].
  apply t_arith_ok. unfold cells in *. lia.
Qed.

Lemma dimensions_val : forall P, grid_type P -> dimensions P = Ret (cells P).
Proof.
  intros P G. unfold dimensions. rewrite width_ok, height_ok by exact G. cbn [bind]. apply usize_arith. fold (cells P). destruct (grid_type_nums P G) as (_ & _ & HX & HY). pose proof (cells_pos P G). unfold cells, cols, rows in *. nia.
Qed.

Lemma t_rotate_cw_same : forall t P p, grid_type P -> valid P p -> t_rotate_cw t P p = pos_rotate_cw P p.
Proof.
  intros t P p G (Vx & Vy). pose proof G as ((Wx & Wy) & Ex & Ey & HX & HY). unfold t_rotate_cw, pos_rotate_cw.
  assert (I : in_ity (b_inner (pt_y P)) (b_into_inner (b_max (pt_y P)) - b_into_inner (snd p)) = true).
  { apply in_ity_true. unfold b_into_inner. fold (YM P). destruct Wy as (W1 & W2 & W3 & W4). unfold in_bty, YM in *. lia. }
  destruct (t_int_ok t _ _ I) as (-> & ->). reflexivity.
Qed.

Lemma t_rotate_cc_same : forall t P p, grid_type P -> valid P p -> t_rotate_cc t P p = pos_rotate_cc P p.
Proof.
  intros t P p G (Vx & Vy). pose proof G as ((Wx & Wy) & Ex & Ey & HX & HY). unfold t_rotate_cc, pos_rotate_cc.
  assert (I : in_ity (b_inner (pt_x P)) (b_into_inner (b_max (pt_x P)) - b_into_inner (fst p)) = true).
  { apply in_ity_true. unfold b_into_inner. fold (XM P). destruct Wx as (W1 & W2 & W3 & W4). unfold in_bty, XM in *. lia. }
  destruct (t_int_ok t _ _ I) as (-> & ->). reflexivity.
Qed.

Lemma C136_positions_proof : forall t P, grid_type P -> cells P <= usize_MAX t ->
  t_width t P = width P /\ t_height t P = height P /\ t_dimensions t P = dimensions P /\
  (forall it, t_piter_size_hint t P it = piter_size_hint P it) /\
  (forall it, t_prange_size_hint t P it = prange_size_hint P it) /\
  (forall st, t_in_x_size_hint t P st = in_x_size_hint P st) /\
  (forall st, t_in_y_size_hint t P st = in_y_size_hint P st) /\
  (forall i, t_tryfrom_usize t P i = tryfrom_usize P i) /\
  forall p, valid P p ->
    t_to_usize t P p = to_usize P p /\ t_rotate_cw t P p = pos_rotate_cw P p /\ t_rotate_cc t P p = pos_rotate_cc P p /\
    forall q, valid P q -> t_manhattan t P p q = manhattan P p q.
Proof.
  intros t P G H. pose proof (cols_cells P G) as (C1 & C2). pose proof (cols_pos P G). pose proof (rows_pos P G).
  assert (EW : t_width t P = width P) by (rewrite t_width_ok, width_ok by (first [exact G | lia]); reflexivity).
  assert (EH : t_height t P = height P) by (rewrite t_height_ok, height_ok by (first [exact G | lia]); reflexivity).
  assert (ED : t_dimensions t P = dimensions P) by (rewrite t_dimensions_ok, dimensions_val by (first [exact G | lia]); reflexivity).
  split; [exact EW |]. split; [exact EH |]. split; [exact ED |].
  split. { intros it. unfold t_piter_size_hint, piter_size_hint. rewrite ED. reflexivity. }
  split. { intros it. transitivity (t_piter_size_hint t P (None, None)).
    - unfold t_prange_size_hint, t_piter_size_hint, t_dimensions. rewrite t_width_ok, t_height_ok by (first [exact G | lia]). reflexivity.
    - unfold t_piter_size_hint, prange_size_hint. rewrite ED. unfold dimensions. rewrite width_ok, height_ok by exact G. reflexivity. }
  split. { intros st. unfold t_in_x_size_hint, in_x_size_hint. rewrite EH. reflexivity. }
  split. { intros st. unfold t_in_y_size_hint, in_y_size_hint. rewrite EW. reflexivity. }
  split. { intros i. apply t_tryfrom_ok; assumption. }
  intros p V. split. { rewrite t_to_usize_ok, to_usize_ok by assumption. reflexivity. }
  split. { apply t_rotate_cw_same; assumption. }
  split. { apply t_rotate_cc_same; assumption. }
  intros q Vq. rewrite (t_manhattan_ok t P p q G) by (first [assumption | unfold cells in *; nia]). symmetry. apply manhattan_ok; assumption.
Qed.

Lemma t_get_same : forall t T P (g : grid T) p, grid_type P -> cells P <= usize_MAX t -> valid P p -> t_grid_get t P g p = grid_get P g p.
Proof. intros. unfold t_grid_get, grid_get. rewrite t_to_usize_ok, to_usize_ok by assumption. reflexivity. Qed.

Lemma t_set_same : forall t T P (g : grid T) p v, grid_type P -> cells P <= usize_MAX t -> valid P p -> t_grid_set t P g p v = grid_set P g p v.
Proof. intros. unfold t_grid_set, grid_set. rewrite t_to_usize_ok, to_usize_ok by assumption. reflexivity. Qed.

Lemma mapM_ext_in : forall {A B} (f g : A -> exec B) l, (forall x, In x l -> f x = g x) -> mapM f l = mapM g l.
Proof.
  intros A B f g l. induction l as [|x l IH]; intros H; [reflexivity |]. cbn [mapM]. rewrite H by (left; reflexivity). rewrite IH by (intros; apply H; right; assumption). reflexivity.
Qed.

Lemma filterM_ext_in : forall {A} (f g : A -> exec bool) l, (forall x, In x l -> f x = g x) -> filterM f l = filterM g l.
Proof.
  intros A f g l. induction l as [|x l IH]; intros H; [reflexivity |]. cbn [filterM]. rewrite H by (left; reflexivity). rewrite IH by (intros; apply H; right; assumption). reflexivity.
Qed.

Lemma t_line_same : forall t T P (g : grid T) y, grid_type P -> cells P <= usize_MAX t -> 0 <= y <= YM P -> t_grid_line t P g y = grid_line P g y.
Proof.
  intros t T P g y G H Hy. pose proof (cols_cells P G) as (C1 & C2). pose proof (cols_pos P G). destruct (grid_type_nums P G) as (_ & _ & HX & HY).
  unfold t_grid_line, grid_line. rewrite t_width_ok, width_ok by (first [exact G | lia]). cbn [bind].
  assert (B : 0 <= y * cols P /\ y * cols P + cols P <= cells P) by (unfold cells, rows in *; nia). assert (cells P <= 4294967296) by (unfold cells, cols, rows in *; nia).
  rewrite t_into_ok by (unfold cells, rows in *; lia). rewrite b_into_usize_ok by lia. cbn [bind].
  unfold t_mul, umul, t_add, uadd. rewrite t_arith_ok, usize_arith by lia. cbn [bind]. rewrite t_arith_ok, usize_arith by lia. reflexivity.
Qed.

Lemma t_line_write_same : forall t T P (g : grid T) y l, grid_type P -> cells P <= usize_MAX t -> 0 <= y <= YM P -> t_grid_line_write t P g y l = grid_line_write P g y l.
Proof.
  intros t T P g y l G H Hy. pose proof (cols_cells P G) as (C1 & C2). pose proof (cols_pos P G). destruct (grid_type_nums P G) as (_ & _ & HX & HY).
  unfold t_grid_line_write, grid_line_write. rewrite t_width_ok, width_ok by (first [exact G | lia]). cbn [bind].
  assert (B : 0 <= y * cols P /\ y * cols P + cols P <= cells P) by (unfold cells, rows in *; nia). assert (cells P <= 4294967296) by (unfold cells, cols, rows in *; nia).
  rewrite t_into_ok by (unfold cells, rows in *; lia). rewrite b_into_usize_ok by lia. cbn [bind].
  unfold t_mul, umul, t_add, uadd. rewrite t_arith_ok, usize_arith by lia. cbn [bind]. rewrite t_arith_ok, usize_arith by lia. reflexivity.
Qed.

Lemma half_col : forall P x, grid_type P -> 0 <= x < cols P / 2 -> in_bty (pt_x P) x.
Proof. intros P x G H. destruct (grid_type_nums P G) as (Ex & _ & HX & _). unfold in_bty. rewrite Ex. fold (XM P). pose proof (Z.div_le_upper_bound (cols P) 2 (cols P)). unfold cols in *. lia. Qed.

Lemma half_row : forall P y, grid_type P -> 0 <= y < rows P / 2 -> in_bty (pt_y P) y.
Proof. intros P y G H. destruct (grid_type_nums P G) as (_ & Ey & _ & HY). unfold in_bty. rewrite Ey. fold (YM P). pose proof (Z.div_le_upper_bound (rows P) 2 (rows P)). unfold rows in *. lia. Qed.

Lemma t_flip_h_same : forall t T P (g : grid T), grid_type P -> cells P <= usize_MAX t -> t_grid_flip_h t P g = grid_flip_h P g.
Proof.
  intros t T P g G H. pose proof (cols_cells P G) as (C1 & C2). pose proof G as (W & _). unfold t_grid_flip_h, grid_flip_h. rewrite iter_y_ok by exact W. cbn [bind].
  apply foldM_ext. intros s y Hy. apply interval_In in Hy. rewrite t_width_ok, width_ok by (first [exact G | lia]). cbn [bind].
  apply foldM_ext. intros s' x Hx. apply zrange_In in Hx. pose proof (half_col P x G Hx) as Bx. rewrite !pos_new_mixed_xy by assumption. cbn [unwrap_res bind].
  assert (V : valid P (x, y)) by (split; [exact Bx | exact Hy]). rewrite flip_h_ok by assumption. cbn [bind]. pose proof (flip_h_valid P _ G V). rewrite !t_to_usize_ok, !to_usize_ok by assumption. reflexivity.
Qed.

Lemma t_flip_v_same : forall t T P (g : grid T), grid_type P -> cells P <= usize_MAX t -> t_grid_flip_v t P g = grid_flip_v P g.
Proof.
  intros t T P g G H. pose proof (cols_cells P G) as (C1 & C2). pose proof G as (W & _). unfold t_grid_flip_v, grid_flip_v. rewrite t_height_ok, height_ok by (first [exact G | lia]). cbn [bind].
  apply foldM_ext. intros s y Hy. apply zrange_In in Hy. rewrite iter_x_ok by exact W. cbn [bind].
  apply foldM_ext. intros s' x Hx. apply interval_In in Hx. pose proof (half_row P y G Hy) as By. rewrite !pos_new_mixed_yx by assumption. cbn [unwrap_res bind].
  assert (V : valid P (x, y)) by (split; [exact Hx | exact By]). rewrite flip_v_ok by assumption. cbn [bind]. pose proof (flip_v_valid P _ G V). rewrite !t_to_usize_ok, !to_usize_ok by assumption. reflexivity.
Qed.

Lemma new_valid : forall P s1 s2 x y p, post_wf P -> pos_new P (FromInt s1) (FromInt s2) x y = Ok p -> valid P p.
Proof.
  intros P s1 s2 x y p W E. assert (D : valid P (x, y) \/ ~ valid P (x, y)).
  { destruct (in_bty_dec (pt_x P) x) as [A | A]; destruct (in_bty_dec (pt_y P) y) as [B | B]; [left; split; assumption | right; intros (_ & C); exact (B C) | right; intros (C & _); exact (A C) | right; intros (C & _); exact (A C)]. }
  destruct D as [V | V].
  - rewrite pos_new_ok in E by assumption. injection E as <-. exact V.
  - rewrite pos_new_err in E by assumption. discriminate.
Qed.

Lemma t_extend_same : forall t T P v (g : grid T) y, grid_type P -> cells P <= usize_MAX t -> t_extend_rows t P g y v = extend_rows P g y v.
Proof.
  intros t T P v g y G H. pose proof G as (W & _).
  assert (R : forall line (g : grid T) x y, t_extend_row t P g x y line = extend_row P g x y line).
  { intros line. induction line as [|c line IH]; intros g0 x0 y0; [reflexivity |]. cbn [t_extend_row extend_row].
    destruct (pos_new P (FromInt u16) (FromInt u16) (as_u16 x0) (as_u16 y0)) as [p | e] eqn:E; [|reflexivity].
    rewrite t_set_same by (first [assumption | exact (new_valid _ _ _ _ _ _ W E)]). apply bind_ext. intros a. apply IH. }
  revert g y. induction v as [|line v IH]; intros g y; [reflexivity |]. cbn [t_extend_rows extend_rows]. rewrite R. apply bind_ext. intros [g' [u | e]]; [apply IH | reflexivity].
Qed.

Lemma t_try_from_same : forall t T P SIZE (d : T) vec, grid_type P -> cells P <= usize_MAX t -> t_grid_try_from_vecvec t P SIZE d vec = grid_try_from_vecvec P SIZE d vec.
Proof.
  intros t T P SIZE d vec G H. pose proof (cols_cells P G) as (C1 & C2). pose proof G as (W & _). destruct (grid_type_nums P G) as (_ & _ & HX & HY).
  unfold t_grid_try_from_vecvec, grid_try_from_vecvec. rewrite t_height_ok, height_ok by (first [exact G | lia]). cbn [bind]. rewrite t_width_ok, width_ok by (first [exact G | lia]). cbn [bind].
  destruct (_ || _); [reflexivity |]. f_equal. generalize (zrange 0 SIZE). intros is. revert vec.
  induction is as [|i is IH]; intros vec; [reflexivity |]. cbn [t_try_from_vecvec_cells try_from_vecvec_cells].
  assert (E : t_try_from_vecvec_cell t P d vec i = try_from_vecvec_cell P d vec i).
  { unfold t_try_from_vecvec_cell, try_from_vecvec_cell. rewrite t_tryfrom_ok by assumption. unfold tryfrom_usize. rewrite width_ok by exact G. cbn [bind].
    destruct (pos_new P (FromInt usize) (FromInt usize) (i mod cols P) (i / cols P)) as [p | e] eqn:E; [|reflexivity]. cbn [unwrap_res bind].
    pose proof (new_valid _ _ _ _ _ _ W E) as V. apply valid_nums in V; [|exact G]. unfold cols, rows in *.
    unfold b_to_usize, int_try_from, t_usize. rewrite t_MAX_eq.
    rewrite !(proj2 (in_ity_true usize _)) by (cbn; lia). rewrite !(proj2 (in_ity_true (Ity 0 (usize_MAX t)) _)) by (cbn [imin imax]; lia). reflexivity. }
  rewrite E. apply bind_ext. intros [v vec']. rewrite IH. reflexivity.
Qed.

Lemma t_grid_extend_same : forall t T P items (g : grid T), grid_type P -> cells P <= usize_MAX t -> Forall (fun it => valid P (fst it)) items -> t_grid_extend t P g items = grid_extend P g items.
Proof.
  intros t T P items g G H F. unfold t_grid_extend, grid_extend. apply foldM_ext. intros s [p v] Hi. rewrite Forall_forall in F. apply t_set_same; [exact G | exact H | exact (F _ Hi)].
Qed.

Lemma square_rot : forall t X x y, u16_dims X X -> valid (Pos X X) (x, y) ->
  t_rotate_cw t (Pos X X) (x, y) = Ret (X - y, x) /\ pos_rotate_cw (Pos X X) (x, y) = Ret (X - y, x) /\ valid (Pos X X) (X - y, x).
Proof.
  intros t X x y D V. pose proof (Pos_grid_type X X D) as G. rewrite t_rotate_cw_same by assumption. pose proof V as V'. apply (proj1 (valid_nums _ _ G)) in V'.
  assert (Vr : valid (Pos X X) (X - y, x)) by (apply valid_nums; [exact G |]; assert (EX : XM (Pos X X) = X) by reflexivity; assert (EY : YM (Pos X X) = X) by reflexivity; rewrite EX, EY; rewrite EX, EY in V'; cbn [fst snd] in *; lia).
  assert (E : pos_rotate_cw (Pos X X) (x, y) = Ret (X - y, x)) by exact (proj1 (rotate_cw_ok _ _ G V) Vr). split; [exact E |]. split; assumption.
Qed.

Lemma t_grid_rot_same : forall t T X (g : grid T), u16_dims X X -> cells (Pos X X) <= usize_MAX t ->
  t_grid_rotate_cw t X g = grid_rotate_cw X g /\ t_grid_rotate_cc t X g = grid_rotate_cc X g.
Proof.
  intros t T X g D H. pose proof (Pos_grid_type X X D) as G. pose proof (cols_cells _ G) as (C1 & C2).
  assert (ER : rows (Pos X X) = X + 1) by reflexivity. destruct D as (DX & _).
  assert (HH : (X + 1) / 2 <= X + 1) by (apply Z.div_le_upper_bound; lia).
  assert (DD : u16_dims X X) by (split; exact DX).
  assert (HH2 : 2 * ((X + 1) / 2) <= X + 1) by (apply Z.mul_div_le; lia).
  split; unfold t_grid_rotate_cw, grid_rotate_cw, t_grid_rotate_cc, grid_rotate_cc; rewrite t_height_ok, height_ok by (first [exact G | lia]); cbn [bind]; rewrite ER;
    (apply foldM_ext; intros s y Hy; apply zrange_In in Hy; unfold t_sub, usub; rewrite ER in C2; rewrite (t_arith_ok t (X + 1 - 1)), (usize_arith (X + 1 - 1)) by lia; cbn [bind]; rewrite t_arith_ok, usize_arith by lia; cbn [bind];
     apply foldM_ext; intros s' x Hx; apply zrange_In in Hx;
     apply bind_ext; intros y'; apply bind_ext; intros x'; destruct (Pos_new X X x' y') as [p1 | e] eqn:E; [|reflexivity]; cbn [unwrap_res bind];
     assert (V1 : valid (Pos X X) p1);
     [ unfold Pos_new, bounded_new in E; destruct ((x' <? 0) || (x' >? X)) eqn:B1; [discriminate E |]; destruct ((y' <? 0) || (y' >? X)) eqn:B2; [discriminate E |]; injection E as <-; apply orb_false_iff in B1, B2; destruct B1, B2; apply valid_nums; [exact G |]; cbn [fst snd]; assert (EX : XM (Pos X X) = X) by reflexivity; assert (EY : YM (Pos X X) = X) by reflexivity; rewrite EX, EY; rewrite ?Z.gtb_ltb in *; lia |];
     destruct p1 as [a b]; destruct (square_rot t X a b DD V1) as (-> & -> & V2); cbn [bind];
     destruct (square_rot t X _ _ DD V2) as (-> & -> & V3); cbn [bind]; destruct (square_rot t X _ _ DD V3) as (-> & -> & V4); cbn [bind];
     rewrite !t_to_usize_ok, !to_usize_ok by assumption; reflexivity).
Qed.

Lemma C136_grids_proof : forall t T P, grid_type P -> cells P <= usize_MAX t ->
  (forall (g : grid T) p, valid P p -> t_grid_get t P g p = grid_get P g p /\ forall v, t_grid_set t P g p v = grid_set P g p v) /\
  (forall (g : grid T) y, 0 <= y <= YM P -> t_grid_line t P g y = grid_line P g y /\ forall l, t_grid_line_write t P g y l = grid_line_write P g y l) /\
  (forall g : grid T,
    t_grid_iter_pos t P g = grid_iter_pos P g /\ t_grid_flip_h t P g = grid_flip_h P g /\ t_grid_flip_v t P g = grid_flip_v P g /\
    (forall v, t_extend_from_vecvec t P g v = extend_from_vecvec P g v) /\
    forall items, Forall (fun it => valid P (fst it)) items -> t_grid_extend t P g items = grid_extend P g items) /\
  (forall SIZE (d : T) vec, t_grid_try_from_vecvec t P SIZE d vec = grid_try_from_vecvec P SIZE d vec) /\
  forall pad fmt (g : grid T), t_grid_display t pad P fmt g = grid_display pad P fmt g.
Proof.
  intros t T P G H. pose proof (cols_cells P G) as (C1 & C2). pose proof G as (W & _). split. { intros g p V. split; [apply t_get_same; assumption | intros v; apply t_set_same; assumption]. }
  split. { intros g y Hy. split; [apply t_line_same; assumption | intros l; apply t_line_write_same; assumption]. }
  split.
  { intros g. split. { unfold t_grid_iter_pos, grid_iter_pos. rewrite iter_list_of by exact W. cbn [bind]. apply mapM_ext_in. intros p Hp. change (all_of P true) with (all_rows P) in Hp. apply all_rows_In in Hp. rewrite t_get_same by assumption. reflexivity. }
    split; [apply t_flip_h_same; assumption |]. split; [apply t_flip_v_same; assumption |].
    split; [intros v; apply t_extend_same; assumption |]. intros items F. apply t_grid_extend_same; assumption. }
  split. { intros SIZE d vec. apply t_try_from_same; assumption. }
  intros pad fmt g. unfold t_grid_display, grid_display. pose proof (cols_pos P G). pose proof (rows_pos P G). destruct (grid_type_nums P G) as (_ & _ & HX & HY). rewrite t_width_ok, width_ok, t_height_ok, height_ok by (first [exact G | lia]). cbn [bind].
  unfold t_display_fmt_helper, display_fmt_helper, t_sub, usub. rewrite (t_arith_ok t (cols P - 1)), (t_arith_ok t (rows P - 1)), (usize_arith (cols P - 1)), (usize_arith (rows P - 1)) by (unfold cols, rows in *; lia). reflexivity.
Qed.

Lemma C136_rotations_proof : forall t T XYMAX (g : grid T), u16_dims XYMAX XYMAX -> cells (Pos XYMAX XYMAX) <= usize_MAX t ->
  t_grid_rotate_cw t XYMAX g = grid_rotate_cw XYMAX g /\ t_grid_rotate_cc t XYMAX g = grid_rotate_cc XYMAX g.
Proof.
  exact t_grid_rot_same.
Qed.

Lemma gb_same : forall t P g p, grid_type P -> cells P <= usize_MAX t -> valid P p ->
  t_gb_get t P g p = gb_get P g p /\ t_gb_set_t t P g p = gb_set_t P g p /\ t_gb_set_f t P g p = gb_set_f P g p /\ forall v, t_gb_set t P g p v = gb_set P g p v.
Proof.
  intros t P g p G H V. unfold t_gb_set, gb_set, t_gb_get, gb_get, t_gb_set_t, gb_set_t, t_gb_set_f, gb_set_f. rewrite t_to_usize_ok, to_usize_ok by assumption. repeat split.
Qed.

Lemma all_of_valid : forall P p, post_wf P -> In p (all_of P true) -> valid P p.
Proof. intros P p W Hp. change (all_of P true) with (all_rows P) in Hp. apply all_rows_In in Hp. exact Hp. Qed.

Lemma t_gb_flips_same : forall t P g, grid_type P -> cells P <= usize_MAX t -> t_gb_flip_h t P g = gb_flip_h P g /\ t_gb_flip_v t P g = gb_flip_v P g.
Proof.
  intros t P g G H. pose proof (cols_cells P G) as (C1 & C2). pose proof G as (W & _).
  assert (SW : forall g p q, valid P p -> valid P q -> (tmp <- t_gb_get t P g p ;; v2 <- t_gb_get t P g q ;; g <- t_gb_set t P g p v2 ;; t_gb_set t P g q tmp) = (tmp <- gb_get P g p ;; v2 <- gb_get P g q ;; g <- gb_set P g p v2 ;; gb_set P g q tmp)).
  { intros s p q Vp Vq. rewrite (proj1 (gb_same t P s p G H Vp)). apply bind_ext. intros tmp. rewrite (proj1 (gb_same t P s q G H Vq)). apply bind_ext. intros v2.
    rewrite (proj2 (proj2 (proj2 (gb_same t P s p G H Vp)))). apply bind_ext. intros s'. apply (proj2 (proj2 (proj2 (gb_same t P s' q G H Vq)))). }
  split.
  - unfold t_gb_flip_h, gb_flip_h. rewrite iter_y_ok by exact W. cbn [bind].
    apply foldM_ext. intros s y Hy. apply interval_In in Hy. rewrite t_width_ok, width_ok by (first [exact G | lia]). cbn [bind].
    apply foldM_ext. intros s' x Hx. apply zrange_In in Hx. pose proof (half_col P x G Hx) as Bx. rewrite !pos_new_mixed_xy by assumption. cbn [unwrap_res bind].
    assert (V : valid P (x, y)) by (split; [exact Bx | exact Hy]). rewrite flip_h_ok by assumption. apply SW; [exact V | exact (flip_h_valid P _ G V)].
  - unfold t_gb_flip_v, gb_flip_v. rewrite t_height_ok, height_ok by (first [exact G | lia]). cbn [bind].
    apply foldM_ext. intros s y Hy. apply zrange_In in Hy. rewrite iter_x_ok by exact W. cbn [bind].
    apply foldM_ext. intros s' x Hx. apply interval_In in Hx. pose proof (half_row P y G Hy) as By. rewrite !pos_new_mixed_yx by assumption. cbn [unwrap_res bind].
    assert (V : valid P (x, y)) by (split; [exact Hx | exact By]). rewrite flip_v_ok by assumption. apply SW; [exact V | exact (flip_v_valid P _ G V)].
Qed.

Lemma t_gb_iter_same : forall t P g, grid_type P -> cells P <= usize_MAX t -> t_gb_iter t P g = gb_iter P g.
Proof.
  intros t P g G H. pose proof G as (W & _). unfold t_gb_iter, gb_iter. rewrite iter_list_of by exact W. cbn [bind]. apply mapM_ext_in. intros p Hp. exact (proj1 (gb_same t P g p G H (all_of_valid P p W Hp))).
Qed.

Lemma t_gb_sets_same : forall t P g ps, grid_type P -> cells P <= usize_MAX t -> Forall (valid P) ps -> t_gb_set_iter_t t P g ps = gb_set_iter_t P g ps /\ t_gb_set_iter_f t P g ps = gb_set_iter_f P g ps.
Proof.
  intros t P g ps G H F. rewrite Forall_forall in F. split; unfold t_gb_set_iter_t, t_gb_set_iter_f, gb_set_iter_t, gb_set_iter_f; apply foldM_ext; intros s p Hp; destruct (gb_same t P s p G H (F p Hp)) as (_ & E1 & E2 & _); assumption.
Qed.

Lemma C136_gridbools_proof : forall t P, grid_type P -> cells P <= usize_MAX t ->
  (forall g p, valid P p -> t_gb_get t P g p = gb_get P g p /\ t_gb_set_t t P g p = gb_set_t P g p /\ t_gb_set_f t P g p = gb_set_f P g p /\
    forall v, t_gb_set t P g p v = gb_set P g p v) /\
  (forall g ps, Forall (valid P) ps -> t_gb_set_iter_t t P g ps = gb_set_iter_t P g ps /\ t_gb_set_iter_f t P g ps = gb_set_iter_f P g ps) /\
  forall g, t_gb_iter t P g = gb_iter P g /\ t_gb_iter_pos t P g = gb_iter_pos P g /\ t_gb_iter_t t P g = gb_iter_t P g /\ t_gb_iter_f t P g = gb_iter_f P g /\
    t_gb_flip_h t P g = gb_flip_h P g /\ t_gb_flip_v t P g = gb_flip_v P g /\ forall pad, t_gb_display t pad P g = gb_display pad P g.
Proof.
  intros t P G H. pose proof (cols_cells P G) as (C1 & C2). pose proof G as (W & _). split. { intros g p V. apply gb_same; assumption. } split. { intros g ps F. apply t_gb_sets_same; assumption. }
  intros g. split. { apply t_gb_iter_same; assumption. }
  assert (GET : forall p, In p (all_of P true) -> t_gb_get t P g p = gb_get P g p) by (intros p Hp; exact (proj1 (gb_same t P g p G H (all_of_valid P p W Hp)))).
  split. { unfold t_gb_iter_pos, gb_iter_pos. rewrite iter_list_of by exact W. cbn [bind]. apply mapM_ext_in. intros p Hp. rewrite (GET p Hp). reflexivity. }
  split. { unfold t_gb_iter_t, gb_iter_t. rewrite iter_list_of by exact W. cbn [bind]. apply filterM_ext_in. intros p Hp. exact (GET p Hp). }
  split. { unfold t_gb_iter_f, gb_iter_f. rewrite iter_list_of by exact W. cbn [bind]. apply filterM_ext_in. intros p Hp. rewrite (GET p Hp). reflexivity. }
  destruct (t_gb_flips_same t P g G H) as (F1 & F2). split; [exact F1 |]. split; [exact F2 |].
  intros pad. unfold t_gb_display, gb_display. pose proof (cols_pos P G). pose proof (rows_pos P G). destruct (grid_type_nums P G) as (_ & _ & HX & HY). rewrite t_width_ok, width_ok, t_height_ok, height_ok by (first [exact G | lia]). cbn [bind].
  rewrite t_gb_iter_same by assumption. apply bind_ext. intros bs.
  unfold t_display_fmt_helper, display_fmt_helper, t_sub, usub. rewrite (t_arith_ok t (cols P - 1)), (t_arith_ok t (rows P - 1)), (usize_arith (cols P - 1)), (usize_arith (rows P - 1)) by (unfold cols, rows in *; lia). reflexivity.
Qed.

Lemma t_gb_repeat_same : forall t X Y WORDS v, u16_dims X Y -> cells (Pos X Y) <= usize_MAX t -> 0 <= 32 * WORDS <= usize_MAX t -> t_gb_repeat t (Pos X Y) WORDS v = gb_repeat (Pos X Y) WORDS v.
Proof.
  intros t X Y WORDS v D H HW. pose proof (Pos_grid_type X Y D) as G. unfold t_gb_repeat, gb_repeat, t_asserts, gridbool_asserts, umul, usub.
  assert (EW : pt_WIDTH (Pos X Y) * pt_HEIGHT (Pos X Y) = cells (Pos X Y)) by reflexivity. pose proof (cells_pos _ G). pose proof (usize_MAX_range t) as MR. unfold COST_MAX in MR. rewrite EW.
  rewrite t_const_ok by lia. rewrite usize_arith by lia. cbn [bind]. rewrite t_const_ok by lia. rewrite usize_arith by lia. cbn [bind].
  destruct (Z.leb_spec (cells (Pos X Y)) (WORDS * 32)); [|reflexivity]. cbn [bind]. rewrite t_const_ok by lia. rewrite usize_arith by lia. reflexivity.
Qed.

Lemma C136_new_gridbools_proof : forall t XMAX YMAX WORDS, u16_dims XMAX YMAX -> cells (Pos XMAX YMAX) <= usize_MAX t -> 0 <= 32 * WORDS <= usize_MAX t ->
  let P := Pos XMAX YMAX in
  t_gb_ALL_TRUE t P WORDS = gb_ALL_TRUE P WORDS /\ t_gb_ALL_FALSE t P WORDS = gb_ALL_FALSE P WORDS /\ t_gb_default t P WORDS = gb_default P WORDS /\
  (forall ps, Forall (valid P) ps -> t_gb_from_positions t P WORDS ps = gb_from_positions P WORDS ps) /\
  forall bs, t_gb_from_bools t P WORDS bs = gb_from_bools P WORDS bs.
Proof.
  intros t XMAX YMAX WORDS D H HW P. pose proof (Pos_grid_type XMAX YMAX D) as G. pose proof G as (W & _).
  split; [apply t_gb_repeat_same; assumption |]. split; [apply t_gb_repeat_same; assumption |].
  split. { change (t_gb_default t P WORDS) with (t_gb_repeat t P WORDS false). apply t_gb_repeat_same; assumption. }
  split.
  { intros ps F. unfold t_gb_from_positions, gb_from_positions, t_gb_ALL_FALSE, gb_ALL_FALSE. unfold P at 1. rewrite t_gb_repeat_same by assumption. apply bind_ext. intros g. apply (t_gb_sets_same t P g ps G H F). }
  intros bs. unfold t_gb_from_bools, gb_from_bools, t_gb_ALL_FALSE, gb_ALL_FALSE. unfold P at 1. rewrite t_gb_repeat_same by assumption. apply bind_ext. intros g. rewrite iter_list_of by exact W. cbn [bind].
  f_equal. pose proof (fun p => all_of_valid P p W) as AV. revert AV g bs. generalize (all_of P true). intros ps. induction ps as [|p ps IH]; intros AV g bs; [reflexivity |]. cbn [t_gb_fill gb_fill].
  destruct bs as [|b bs]; [reflexivity |]. rewrite (proj2 (proj2 (proj2 (gb_same t P g p G H (AV p (or_introl eq_refl)))))). apply bind_ext. intros g'. apply IH. intros q Hq. apply AV. right. exact Hq.
Qed.

Lemma C136_gridbool_rotations_proof : forall t XYMAX g, u16_dims XYMAX XYMAX -> cells (Pos XYMAX XYMAX) <= usize_MAX t ->
  t_gb_rotate_cw t XYMAX g = gb_rotate_cw XYMAX g /\ t_gb_rotate_cc t XYMAX g = gb_rotate_cc XYMAX g.
Proof.
  intros t X g D H. pose proof (Pos_grid_type X X D) as G. pose proof D as (DX & _).
  assert (HH2 : 2 * (X / 2) <= X) by (apply Z.mul_div_le; lia).
  split; unfold t_gb_rotate_cw, gb_rotate_cw, t_gb_rotate_cc, gb_rotate_cc;
    (apply foldM_ext; intros s y Hy; apply zrange_In in Hy;
     assert (I : in_ity u16 (X - y) = true) by (apply in_ity_true; cbn [u16 imin imax]; lia);
     destruct (t_int_ok t _ _ I) as (-> & ->); cbn [bind];
     apply foldM_ext; intros s' x Hx; apply zrange_In in Hx;
     destruct (Pos_try_from_u16 X X (x, y)) as [p1 | e] eqn:E; [|reflexivity]; cbn [unwrap_res bind];
     assert (V1 : valid (Pos X X) p1);
     [ unfold Pos_try_from_u16, Pos_new, bounded_new in E; cbn [fst snd] in E; destruct ((x <? 0) || (x >? X)) eqn:B1; [discriminate E |]; destruct ((y <? 0) || (y >? X)) eqn:B2; [discriminate E |]; injection E as <-; apply orb_false_iff in B1, B2; destruct B1, B2; apply valid_nums; [exact G |]; cbn [fst snd]; assert (EX : XM (Pos X X) = X) by reflexivity; assert (EY : YM (Pos X X) = X) by reflexivity; rewrite EX, EY; rewrite ?Z.gtb_ltb in *; lia |];
     destruct p1 as [a b]; destruct (square_rot t X a b D V1) as (-> & -> & V2); cbn [bind];
     destruct (square_rot t X _ _ D V2) as (-> & -> & V3); cbn [bind]; destruct (square_rot t X _ _ D V3) as (-> & -> & V4); cbn [bind];
     assert (GET : forall g p, valid (Pos X X) p -> t_gb_get t (Pos X X) g p = gb_get (Pos X X) g p) by (intros g0 p0 V0; exact (proj1 (gb_same t _ g0 p0 G H V0)));
     assert (SET : forall g p v, valid (Pos X X) p -> t_gb_set t (Pos X X) g p v = gb_set (Pos X X) g p v) by (intros g0 p0 v0 V0; exact (proj2 (proj2 (proj2 (gb_same t _ g0 p0 G H V0))) v0));
     rewrite !GET by assumption; do 4 (apply bind_ext; intros ?); rewrite !SET by assumption; apply bind_ext; intros ?; rewrite SET by assumption; apply bind_ext; intros ?; rewrite SET by assumption; apply bind_ext; intros ?; apply SET; assumption).
Qed.

Lemma C136_sizes_proof : forall t XMAX YMAX, u16_dims XMAX YMAX -> cells (Pos XMAX YMAX) + 31 <= usize_MAX t ->
  t_grid_create_SIZE t XMAX YMAX = grid_create_SIZE XMAX YMAX /\ t_gridbool_create_WORDS t XMAX YMAX = gridbool_create_WORDS XMAX YMAX /\
  t_sqrid_create_SIZE t XMAX YMAX = sqrid_create_SIZE XMAX YMAX /\ t_sqrid_create_WORDS t XMAX YMAX = sqrid_create_WORDS XMAX YMAX /\
  t_Pos_SIZE t XMAX YMAX = Pos_SIZE XMAX YMAX.
Proof.
  intros t X Y D H. pose proof (Pos_grid_type X Y D) as G. pose proof (cols_cells _ G) as (C1 & C2). pose proof (usize_MAX_range t) as MR. unfold COST_MAX in MR. destruct D as (DX & DY).
  assert (EC : cells (Pos X Y) = (X + 1) * (Y + 1)) by reflexivity. change (cols (Pos X Y)) with (X + 1) in C1. change (rows (Pos X Y)) with (Y + 1) in C2. rewrite EC in *. clear EC.
  set (c := (X + 1) * (Y + 1)) in *. assert (Hc : 0 <= c / 32 <= c) by (split; [apply Z.div_pos; lia | apply Z.div_le_upper_bound; lia]).
  unfold t_grid_create_SIZE, grid_create_SIZE, t_gridbool_create_WORDS, gridbool_create_WORDS, t_sqrid_create_SIZE, sqrid_create_SIZE, t_sqrid_create_WORDS, sqrid_create_WORDS, uadd, umul.
  rewrite !(t_const_ok t (X + 1)), !(t_const_ok t (Y + 1)), !(usize_arith (X + 1)), !(usize_arith (Y + 1)) by lia. cbn [bind]. fold c. rewrite !(t_const_ok t c), !(usize_arith c) by lia. cbn [bind].
  rewrite (t_const_ok t (c + 31)), (usize_arith (c + 31)), (t_const_ok t (c / 32 + 1)), (usize_arith (c / 32 + 1)) by lia. do 4 (split; [reflexivity |]).
  unfold t_Pos_SIZE, Pos_SIZE, Pos_WIDTH, Pos_HEIGHT, arith. destruct (in_ity u16 (X + 1)); [|reflexivity]. destruct (in_ity u16 (Y + 1)); [|reflexivity]. cbn [bind]. unfold umul. fold c. rewrite t_const_ok, usize_arith by lia. reflexivity.
Qed.

Lemma C136_camefrom_proof : forall t M M' P (mo : mapops (option dir) M) (mo' : mapops (option dir) M') m m' f fuel orig dest,
  grid_type P -> valid P orig -> valid P dest ->
  (forall p, valid P p -> mp_get mo m p = Ret (f p)) -> (forall p, valid P p -> mp_get mo' m' p = Ret (f p)) ->
  cols P * cols P + 1 <= usize_MAX t -> 2 * (2 * (cols P + rows P - 2)) <= usize_MAX t ->
  t_camefrom_into_path t P mo fuel m orig dest = camefrom_into_path P mo' fuel m' orig dest.
Proof.
  intros t M M' P mo mo' m m' f fuel orig dest G Vo V L L' F1 F2. pose proof (grid_type_wf P G) as W. pose proof (usize_MAX_range t) as MR. unfold COST_MAX in MR. pose proof (cols_pos P G) as CP. pose proof (rows_pos P G) as RP.
  assert (LOOP : forall fuel ret p mi, valid P p -> 1 <= mi <= usize_MAX t -> t_camefrom_loop t P mo fuel m orig ret p mi = camefrom_loop P mo' fuel m' orig ret p mi).
  { intros fu. induction fu as [|fu IH]; intros ret p mi Vp Hm; [reflexivity |]. cbn [camefrom_loop t_camefrom_loop]. destruct (negb (pos_eqb p orig)); [|reflexivity].
    rewrite (L p Vp), (L' p Vp). cbn [bind]. destruct (f p) as [d|]; [|reflexivity]. destruct (dir_neg d) as [nd | | |]; [|reflexivity..]. cbn [bind].
    destruct (pos_dir_add P p d) as [p' | e] eqn:E; [|reflexivity]. destruct (add_valid P p d p' W Vp E) as (V' & _). unfold t_sub, usub. rewrite t_arith_ok by lia. rewrite usize_arith by lia. cbn [bind].
    destruct (mi - 1 =? 0) eqn:Ez; [reflexivity |]. apply Z.eqb_neq in Ez. apply IH; [exact V' | lia]. }
  unfold camefrom_into_path, t_camefrom_into_path. rewrite t_manhattan_ok by (first [assumption | lia]). rewrite manhattan_ok by assumption. fold (mdist orig dest). cbn [bind].
  assert (B : 0 <= mdist orig dest <= cols P + rows P - 2). { pose proof Vo as Vo'. pose proof V as V'. apply valid_nums in Vo', V'; try exact G. unfold mdist, cols, rows. lia. }
  unfold t_mul at 1, umul at 1. rewrite t_arith_ok by lia. rewrite usize_arith by lia. cbn [bind].
  replace (2 * mdist orig dest <=? t_IMAX t) with true by (symmetry; apply Z.leb_le; apply t_IMAX_le; lia).
  rewrite arith_ok by (unfold isize, i64; cbn [imin imax]; lia). cbn [bind]. rewrite (L dest V), (L' dest V). cbn [bind]. destruct (f dest); [|reflexivity].
  rewrite t_width_ok by (first [exact G | nia]). rewrite width_ok by exact G. cbn [bind]. unfold t_mul, umul. rewrite t_arith_ok by nia. rewrite usize_arith by nia. cbn [bind].
  unfold t_add, uadd. rewrite t_arith_ok by nia. rewrite usize_arith by nia. cbn [bind]. apply LOOP; [exact V | nia].
Qed.

(** ** Exact values for any position type, with and without overflow checks *)

Lemma t_arith_free : forall t v, t_checks t = false -> t_arith t v = Ret (v mod (usize_MAX t + 1)).
Proof.
  intros [w c] v. cbn [t_checks]. intros ->. unfold t_arith. rewrite t_MAX_eq. assert (EM : t_modulus (Target w false) = usize_MAX (Target w false) + 1) by (destruct w; reflexivity). rewrite EM. cbn [t_checks].
  destruct (Z.leb_spec 0 v) as [A | A]; [|reflexivity]. cbn [andb]. destruct (Z.leb_spec v (usize_MAX (Target w false))) as [B | B]; [|reflexivity]. rewrite Z.mod_small by lia. reflexivity.
Qed.

Lemma t_arith_strict : forall t v, t_checks t = true -> 0 <= v -> t_arith t v = if v <=? usize_MAX t then Ret v else Panic.
Proof.
  intros [w c] v. cbn [t_checks]. intros -> H. unfold t_arith. rewrite t_MAX_eq. cbn [t_checks]. rewrite (proj2 (Z.leb_le 0 v) H). reflexivity.
Qed.

Lemma t_into_no : forall t v, usize_MAX t < v \/ v < 0 -> t_into_usize t v = Panic.
Proof.
  intros t v H. unfold t_into_usize, int_try_from. rewrite t_MAX_eq. destruct (in_ity (Ity 0 (usize_MAX t)) v) eqn:E; [|reflexivity]. apply in_ity_true in E. cbn [imin imax] in E. lia.
Qed.

Lemma C137_unchecked_proof : forall t P, t_checks t = false -> 0 <= XM P <= usize_MAX t -> 0 <= YM P <= usize_MAX t ->
  let n := usize_MAX t + 1 in
  t_width t P = Ret (cols P mod n) /\ t_height t P = Ret (rows P mod n) /\ t_dimensions t P = Ret (cells P mod n) /\
  (forall it, t_piter_size_hint t P it = Ret (cells P mod n, Some (cells P mod n))) /\
  (forall it, t_prange_size_hint t P it = Ret (cells P mod n, Some (cells P mod n))) /\
  (forall st, t_in_x_size_hint t P st = Ret (rows P mod n, Some (rows P mod n))) /\
  (forall st, t_in_y_size_hint t P st = Ret (cols P mod n, Some (cols P mod n))) /\
  forall p, 0 <= fst p <= XM P -> 0 <= snd p <= YM P -> t_to_usize t P p = Ret (index_of P p mod n).
Proof.
  intros t P C HX HY n.
  assert (EW : t_width t P = Ret (cols P mod n)). { unfold t_width, t_add. fold (XM P). rewrite t_into_ok by exact HX. cbn [bind]. apply t_arith_free. exact C. }
  assert (EH : t_height t P = Ret (rows P mod n)). { unfold t_height, t_add. fold (YM P). rewrite t_into_ok by exact HY. cbn [bind]. apply t_arith_free. exact C. }
  assert (ED : t_dimensions t P = Ret (cells P mod n)). { unfold t_dimensions, t_mul. rewrite EW, EH. cbn [bind]. rewrite t_arith_free by exact C. fold n. rewrite <- Zmult_mod. reflexivity. }
  split; [exact EW |]. split; [exact EH |]. split; [exact ED |]. split. { intros it. unfold t_piter_size_hint. rewrite ED. reflexivity. }
  split. { intros it. unfold t_prange_size_hint. unfold t_dimensions in ED. rewrite EW, EH in *. cbn [bind] in *. rewrite ED. reflexivity. }
  split. { intros st. unfold t_in_x_size_hint. rewrite EH. reflexivity. } split. { intros st. unfold t_in_y_size_hint. rewrite EW. reflexivity. }
  intros p Hx Hy. unfold t_to_usize, t_mul, t_add. rewrite (t_into_ok t (snd p)), (t_into_ok t (fst p)) by lia. cbn [bind]. rewrite EW. cbn [bind]. rewrite t_arith_free by exact C. cbn [bind]. rewrite t_arith_free by exact C. fold n.
  rewrite Z.add_mod_idemp_l by (unfold n; pose proof (usize_MAX_range t); lia). rewrite Z.add_mod by (unfold n; pose proof (usize_MAX_range t); lia). rewrite Z.mul_mod_idemp_r by (unfold n; pose proof (usize_MAX_range t); lia). rewrite <- Z.add_mod by (unfold n; pose proof (usize_MAX_range t); lia). reflexivity.
Qed.

Lemma C137_checked_proof : forall t P, t_checks t = true -> 0 <= XM P <= usize_MAX t -> 0 <= YM P <= usize_MAX t ->
  let fit v := if v <=? usize_MAX t then Ret v else Panic in
  let hint v := if v <=? usize_MAX t then Ret (v, Some v) else Panic in
  t_width t P = fit (cols P) /\ t_height t P = fit (rows P) /\ t_dimensions t P = fit (cells P) /\
  (forall it, t_piter_size_hint t P it = hint (cells P)) /\ (forall it, t_prange_size_hint t P it = hint (cells P)) /\
  (forall st, t_in_x_size_hint t P st = hint (rows P)) /\ (forall st, t_in_y_size_hint t P st = hint (cols P)) /\
  forall p, 0 <= fst p <= XM P -> 0 <= snd p <= YM P ->
    t_to_usize t P p = if (cols P <=? usize_MAX t) && (index_of P p <=? usize_MAX t) then Ret (index_of P p) else Panic.
Proof.
  intros t P C HX HY fit hint. assert (HC : 1 <= cols P) by (unfold cols; lia). assert (HR : 1 <= rows P) by (unfold rows; lia).
  assert (CC : cols P <= cells P /\ rows P <= cells P) by (unfold cells; nia).
  assert (EW : t_width t P = fit (cols P)). { unfold t_width, t_add. fold (XM P). rewrite t_into_ok by exact HX. cbn [bind]. fold (cols P). apply t_arith_strict; [exact C | lia]. }
  assert (EH : t_height t P = fit (rows P)). { unfold t_height, t_add. fold (YM P). rewrite t_into_ok by exact HY. cbn [bind]. fold (rows P). apply t_arith_strict; [exact C | lia]. }
  assert (ED : t_dimensions t P = fit (cells P)).
  { unfold t_dimensions, t_mul. rewrite EW, EH. unfold fit. destruct (Z.leb_spec (cols P) (usize_MAX t)) as [A | A]; cbn [bind].
    - destruct (Z.leb_spec (rows P) (usize_MAX t)) as [B | B]; cbn [bind]; [fold (cells P); apply t_arith_strict; [exact C | lia] |]. destruct (Z.leb_spec (cells P) (usize_MAX t)); [lia | reflexivity].
    - destruct (Z.leb_spec (cells P) (usize_MAX t)); [lia | reflexivity]. }
  assert (HI : forall v, bind (fit v) (fun s => Ret (s, Some s)) = hint v) by (intros v; unfold fit, hint; destruct (v <=? usize_MAX t); reflexivity).
  split; [exact EW |]. split; [exact EH |]. split; [exact ED |]. split. { intros it. unfold t_piter_size_hint. rewrite ED. apply HI. }
  split. { intros it. rewrite <- HI, <- ED. unfold t_prange_size_hint, t_dimensions. rewrite EW, EH. destruct (fit (cols P)); [|reflexivity..]. cbn [bind]. destruct (fit (rows P)); reflexivity. }
  split. { intros st. unfold t_in_x_size_hint. rewrite EH. apply HI. } split. { intros st. unfold t_in_y_size_hint. rewrite EW. apply HI. }
  intros p Hx Hy. unfold t_to_usize, t_mul, t_add. rewrite (t_into_ok t (snd p)), (t_into_ok t (fst p)) by lia. cbn [bind]. rewrite EW. unfold fit.
  destruct (Z.leb_spec (cols P) (usize_MAX t)) as [A | A]; [|reflexivity]. cbn [bind andb]. rewrite t_arith_strict by (first [exact C | nia]).
  destruct (Z.leb_spec (snd p * cols P) (usize_MAX t)) as [B | B]; cbn [bind]; [unfold index_of; apply t_arith_strict; [exact C | nia] |].
  destruct (Z.leb_spec (index_of P p) (usize_MAX t)) as [E | E]; [unfold index_of in E; lia | reflexivity].
Qed.

Lemma C137_out_of_range_proof : forall t P,
  (usize_MAX t < XM P \/ XM P < 0 -> t_width t P = Panic /\ t_dimensions t P = Panic /\ (forall i, t_tryfrom_usize t P i = Panic) /\ (forall p, t_to_usize t P p = Panic)) /\
  (usize_MAX t < YM P \/ YM P < 0 -> t_height t P = Panic /\ t_dimensions t P = Panic) /\
  forall p, usize_MAX t < fst p \/ fst p < 0 \/ usize_MAX t < snd p \/ snd p < 0 -> t_to_usize t P p = Panic.
Proof.
  intros t P. split; [|split].
  - intros H. assert (E : t_width t P = Panic) by (unfold t_width; fold (XM P); rewrite t_into_no by exact H; reflexivity).
    split; [exact E |]. split; [unfold t_dimensions; rewrite E; reflexivity |]. split; [intros i; unfold t_tryfrom_usize; rewrite E; reflexivity |].
    intros p. unfold t_to_usize. assert (D : forall v, t_into_usize t v = Panic \/ exists u, t_into_usize t v = Ret u) by (intros v; unfold t_into_usize; destruct (int_try_from _ v); cbn; eauto).
    destruct (D (snd p)) as [-> | (u & ->)]; [reflexivity |]. cbn [bind]. destruct (D (fst p)) as [-> | (u' & ->)]; [reflexivity |]. cbn [bind]. rewrite E. reflexivity.
  - intros H. assert (E : t_height t P = Panic) by (unfold t_height; fold (YM P); rewrite t_into_no by exact H; reflexivity). split; [exact E |]. unfold t_dimensions. rewrite E.
    assert (D : t_width t P = Panic \/ exists u, t_width t P = Ret u). { unfold t_width, t_add, t_arith. unfold t_into_usize. destruct (int_try_from _ _); cbn [unwrap_res bind]; [|left; reflexivity]. destruct (_ && _); [eauto |]. destruct (t_checks t); eauto. }
    destruct D as [-> | (u & ->)]; reflexivity.
  - intros p H. unfold t_to_usize. assert (D : forall v, t_into_usize t v = Panic \/ exists u, t_into_usize t v = Ret u) by (intros v; unfold t_into_usize; destruct (int_try_from _ v); cbn; eauto).
    destruct (D (snd p)) as [-> | (u & E1)]; [reflexivity |]. destruct (D (fst p)) as [E2 | (u' & E2)]; rewrite E1, E2; [reflexivity |]. exfalso. destruct H as [H | [H | [H | H]]]; rewrite t_into_no in * by auto; discriminate.
Qed.

Lemma C137_from_index_proof : forall t P i, post_wf P -> b_min (pt_x P) <= 0 <= XM P -> b_min (pt_y P) <= 0 <= YM P -> 0 <= i <= usize_MAX t ->
  (cols P <= usize_MAX t ->
    t_tryfrom_usize t P i = Ret (if i <? cells P then Ok (i mod cols P, i / cols P) else Err OutOfBounds) /\
    forall p, 0 <= fst p <= XM P -> 0 <= snd p <= YM P -> t_tryfrom_usize t P i = Ret (Ok p) <-> index_of P p = i) /\
  (cols P = usize_MAX t + 1 -> t_tryfrom_usize t P i = Panic).
Proof.
  intros t P i W HX HY Hi. split.
  - intros HC. assert (C1 : 1 <= cols P) by (unfold cols; lia).
    assert (EW : t_width t P = Ret (cols P)). { unfold t_width, t_add. fold (XM P). rewrite t_into_ok by (unfold cols in HC; lia). cbn [bind]. fold (cols P). apply t_arith_ok. lia. }
    assert (MB : 0 <= i mod cols P < cols P) by (apply Z.mod_pos_bound; lia). assert (DP : 0 <= i / cols P) by (apply Z.div_pos; lia).
    assert (ES : (i <? cells P) = (i / cols P <=? YM P)).
    { unfold cells, rows. destruct (Z.leb_spec (i / cols P) (YM P)) as [A | A].
      - apply Z.ltb_lt. pose proof (Z.div_mod i (cols P)). nia.
      - apply Z.ltb_ge. assert (YM P + 1 <= i / cols P) by lia. pose proof (Z.mul_div_le i (cols P)). nia. }
    assert (ET : t_tryfrom_usize t P i = Ret (if i <? cells P then Ok (i mod cols P, i / cols P) else Err OutOfBounds)).
    { unfold t_tryfrom_usize. rewrite EW. cbn [bind]. destruct (Z.eqb_spec (cols P) 0); [lia |]. f_equal. rewrite ES. destruct (Z.leb_spec (i / cols P) (YM P)) as [A | A].
      - apply pos_new_ok; [exact W |]. unfold valid, in_bty. cbn [fst snd]. fold (XM P) (YM P). unfold cols in *. lia.
      - apply pos_new_err; [exact W |]. unfold valid, in_bty. cbn [fst snd]. fold (XM P) (YM P). lia. }
    split; [exact ET |]. intros [x y] Hx Hy. cbn [fst snd] in *. rewrite ET. unfold index_of. cbn [fst snd]. pose proof (Z.div_mod i (cols P) ltac:(lia)) as DM. split.
    + destruct (i <? cells P); [|discriminate]. intros E. injection E as <- <-. lia.
    + intros E. assert (Ey : i / cols P = y) by (symmetry; apply (Z.div_unique i (cols P) y x); unfold cols in *; lia). assert (Ex : i mod cols P = x) by (rewrite Ey in DM; lia).
      rewrite ES, Ey, Ex. rewrite (proj2 (Z.leb_le y (YM P))) by lia. reflexivity.
  - intros HC. assert (HM : XM P = usize_MAX t) by (unfold cols in HC; lia). unfold t_tryfrom_usize, t_width, t_add. fold (XM P). rewrite t_into_ok by lia. cbn [bind]. replace (XM P + 1) with (usize_MAX t + 1) by lia.
    destruct (t_checks t) eqn:EC.
    + rewrite t_arith_strict by (first [exact EC | pose proof (usize_MAX_range t); lia]). destruct (Z.leb_spec (usize_MAX t + 1) (usize_MAX t)); [lia | reflexivity].
    + rewrite t_arith_free by exact EC. rewrite Z_mod_same_full. reflexivity.
Qed.

(** The mirror image of a coordinate of an integer type; of a negative one, within
    the negative ones. *)
Definition mirror (ty : ity) (v : Z) : Z := if v <? 0 then imin ty - v - 1 else imax ty - v.

Lemma tuple_int : forall t ty v, t_checks t = false -> In ty int_tuple_types -> imin ty <= v <= imax ty ->
  t_int t ty (imax ty - v) = Ret (mirror ty v) /\ imin ty <= mirror ty v <= imax ty /\ mirror ty (mirror ty v) = v.
Proof.
  intros t ty v C HT Hv.
  assert (N : imin ty = 0 \/ imin ty = - imax ty - 1) by (unfold int_tuple_types in HT; cbn [In] in HT; repeat (destruct HT as [<- | HT]; [cbn; auto |]); destruct HT).
  assert (M : 0 < imax ty) by (unfold int_tuple_types in HT; cbn [In] in HT; repeat (destruct HT as [<- | HT]; [reflexivity |]); destruct HT).
  clear HT. revert N M Hv. unfold mirror, t_int, in_ity, int_wrap. rewrite C. generalize (imin ty) (imax ty). intros mn mx N M Hv.
  destruct (Z.ltb_spec v 0) as [A | A].
  - assert (E : mn = - mx - 1) by lia. rewrite (proj2 (Z.leb_gt (mx - v) mx)) by lia. rewrite andb_false_r. replace ((mx - v - mn) mod (mx - mn + 1)) with (-1 - v) by (apply (Z.mod_unique _ _ 1); lia). split; [f_equal; lia |]. split; [lia |].
    destruct (Z.ltb_spec (mn - v - 1) 0); lia.
  - rewrite (proj2 (Z.leb_le mn (mx - v))) by lia. rewrite (proj2 (Z.leb_le (mx - v) mx)) by lia. split; [reflexivity |]. split; [lia |]. destruct (Z.ltb_spec (mx - v) 0); lia.
Qed.

Lemma C137_rotations_proof : forall t,
  (t_checks t = true -> forall P p, t_rotate_cw t P p = pos_rotate_cw P p /\ t_rotate_cc t P p = pos_rotate_cc P p) /\
  (t_checks t = false -> forall ty, In ty int_tuple_types -> forall p, let P := IntTuple ty in valid P p ->
    let mirrored v := if v <? 0 then imin ty - v - 1 else imax ty - v in
    t_rotate_cw t P p = Ret (mirrored (snd p), fst p) /\ t_rotate_cc t P p = Ret (snd p, mirrored (fst p)) /\
    (q <- t_rotate_cw t P p ;; t_rotate_cc t P q) = Ret p /\ (q <- t_rotate_cc t P p ;; t_rotate_cw t P q) = Ret p /\
    (q <- t_rotate_cw t P p ;; q <- t_rotate_cw t P q ;; q <- t_rotate_cw t P q ;; t_rotate_cw t P q) = Ret p).
Proof.
  intros t. split.
  - intros C P p. unfold t_rotate_cw, pos_rotate_cw, t_rotate_cc, pos_rotate_cc. assert (E : forall ty v, t_int t ty v = arith ty v) by (intros ty v; unfold t_int, arith; rewrite C; reflexivity). rewrite !E. split; reflexivity.
  - intros C ty HT.
    assert (CW : forall p, valid (IntTuple ty) p -> t_rotate_cw t (IntTuple ty) p = Ret (mirror ty (snd p), fst p) /\ valid (IntTuple ty) (mirror ty (snd p), fst p)).
    { intros p (Vx & Vy). unfold in_bty in Vx, Vy. cbn [IntTuple pt_x pt_y b_min b_max] in Vx, Vy. destruct (tuple_int t ty (snd p) C HT Vy) as (E & B & _).
      unfold t_rotate_cw, b_into_inner. cbn [IntTuple pt_x pt_y b_max b_inner]. rewrite E. cbn [bind b_try_from]. unfold int_try_from. rewrite !(proj2 (in_ity_true ty _)) by lia. cbn [unwrap_res bind]. split; [reflexivity |]. split; unfold in_bty; cbn [IntTuple pt_x pt_y b_min b_max fst snd]; assumption. }
    assert (CC : forall p, valid (IntTuple ty) p -> t_rotate_cc t (IntTuple ty) p = Ret (snd p, mirror ty (fst p)) /\ valid (IntTuple ty) (snd p, mirror ty (fst p))).
    { intros p (Vx & Vy). unfold in_bty in Vx, Vy. cbn [IntTuple pt_x pt_y b_min b_max] in Vx, Vy. destruct (tuple_int t ty (fst p) C HT Vx) as (E & B & _).
      unfold t_rotate_cc, b_into_inner. cbn [IntTuple pt_x pt_y b_max b_inner]. cbn [b_try_from]. unfold int_try_from. rewrite (proj2 (in_ity_true ty (snd p))) by lia. cbn [unwrap_res bind]. rewrite E. cbn [bind]. rewrite !(proj2 (in_ity_true ty _)) by lia. cbn [unwrap_res bind]. split; [reflexivity |]. split; unfold in_bty; cbn [IntTuple pt_x pt_y b_min b_max fst snd]; assumption. }
    assert (MM : forall v, imin ty <= v <= imax ty -> mirror ty (mirror ty v) = v) by (intros v Hv; exact (proj2 (proj2 (tuple_int t ty v C HT Hv)))).
    intros p P V mirrored. unfold P in *. clear P. pose proof V as (Vx & Vy). unfold in_bty in Vx, Vy. cbn [IntTuple pt_x pt_y b_min b_max] in Vx, Vy. fold (mirror ty) in mirrored. change mirrored with (mirror ty). clear mirrored. destruct p as [x y]. cbn [fst snd] in *.
    destruct (CW _ V) as (E1 & V1). destruct (CC _ V) as (E2 & V2). cbn [fst snd] in *. split; [exact E1 |]. split; [exact E2 |].
    split. { rewrite E1. cbn [bind]. rewrite (proj1 (CC _ V1)). cbn [fst snd]. rewrite MM by exact Vy. reflexivity. }
    split. { rewrite E2. cbn [bind]. rewrite (proj1 (CW _ V2)). cbn [fst snd]. rewrite MM by exact Vx. reflexivity. }
    rewrite E1. cbn [bind]. destruct (CW _ V1) as (E3 & V3). rewrite E3. cbn [bind fst snd] in *. destruct (CW _ V3) as (E4 & V4). rewrite E4. cbn [bind fst snd] in *. rewrite (proj1 (CW _ V4)). cbn [fst snd]. rewrite !MM by assumption. reflexivity.
Qed.
