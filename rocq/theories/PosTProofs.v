(** PosTProofs.v -- lemmas about PosT.v. *)

From Coq Require Import ZArith List Bool Lia.
From Verif Require Import Rust BoundedInt Dir PosT Pos Spec Lib Deque BoundedIntProofs.
Import ListNotations.
Open Scope Z_scope.

(** ** Grid-like types *)

Lemma Pos_grid_type : forall X Y, u16_dims X Y -> grid_type (Pos X Y).
Proof.
  intros X Y (HX & HY). unfold grid_type, post_wf, bty_wf. cbn.
  repeat split; try lia; right; right; left; reflexivity.
Qed.

Lemma IntTuple_u8_grid_type : grid_type (IntTuple u8).
Proof. unfold grid_type, post_wf, bty_wf. cbn. repeat split; try lia; right; left; reflexivity. Qed.

Lemma IntTuple_u16_grid_type : grid_type (IntTuple u16).
Proof. unfold grid_type, post_wf, bty_wf. cbn. repeat split; try lia; right; right; left; reflexivity. Qed.

Lemma grid_type_wf : forall P, grid_type P -> post_wf P.
Proof. intros P (H & _). exact H. Qed.

(** The numeric content of [grid_type] and [valid]. *)
Lemma grid_type_nums : forall P, grid_type P ->
  b_min (pt_x P) = 0 /\ b_min (pt_y P) = 0 /\ 0 <= XM P <= 65535 /\ 0 <= YM P <= 65535.
Proof.
  intros P ((Hx & Hy) & Hx0 & Hy0 & HX & HY).
  destruct Hx as (_ & _ & Hx & _), Hy as (_ & _ & Hy & _). lia.
Qed.

Lemma valid_nums : forall P p, grid_type P -> (valid P p <-> 0 <= fst p <= XM P /\ 0 <= snd p <= YM P).
Proof.
  intros P p H. destruct (grid_type_nums P H) as (E1 & E2 & _ & _).
  unfold valid, in_bty. rewrite E1, E2. reflexivity.
Qed.

Lemma usize_arith : forall v, 0 <= v <= 18446744073709551615 -> arith usize v = Ret v.
Proof. intros v H. apply arith_ok. cbn. lia. Qed.

Lemma b_into_usize_ok : forall v, 0 <= v <= 18446744073709551615 -> b_into_usize v = Ret v.
Proof.
  intros v H. unfold b_into_usize, b_to_usize, int_try_from.
  rewrite (proj2 (in_ity_true usize v)); [reflexivity | cbn; lia].
Qed.

Lemma width_ok : forall P, grid_type P -> width P = Ret (cols P).
Proof.
  intros P H. destruct (grid_type_nums P H) as (_ & _ & HX & HY).
  unfold width, uadd, cols. rewrite b_into_usize_ok by lia. cbn [bind]. apply usize_arith. lia.
Qed.

Lemma height_ok : forall P, grid_type P -> height P = Ret (rows P).
Proof.
  intros P H. destruct (grid_type_nums P H) as (_ & _ & HX & HY).
  unfold height, uadd, rows. rewrite b_into_usize_ok by lia. cbn [bind]. apply usize_arith. lia.
Qed.

Lemma cols_pos : forall P, grid_type P -> 1 <= cols P <= 65536.
Proof. intros P H. destruct (grid_type_nums P H) as (_ & _ & HX & HY). unfold cols. lia. Qed.
Lemma rows_pos : forall P, grid_type P -> 1 <= rows P <= 65536.
Proof. intros P H. destruct (grid_type_nums P H) as (_ & _ & HX & HY). unfold rows. lia. Qed.
Lemma cells_pos : forall P, grid_type P -> 1 <= cells P <= 4294967296.
Proof.
  intros P H. pose proof (cols_pos P H). pose proof (rows_pos P H). unfold cells. nia.
Qed.

Lemma dimensions_ok : forall P, grid_type P -> dimensions P = Ret (cells P).
Proof.
  intros P H. unfold dimensions. rewrite width_ok, height_ok by exact H. cbn [bind].
  unfold umul. fold (cells P). apply usize_arith. pose proof (cells_pos P H). lia.
Qed.

(** ** Index *)

Lemma index_bound : forall P p, grid_type P -> valid P p -> 0 <= index_of P p < cells P.
Proof.
  intros P p H Hv. apply valid_nums in Hv; [|exact H]. unfold index_of, cells, cols, rows in *. nia.
Qed.

Lemma to_usize_ok : forall P p, grid_type P -> valid P p -> to_usize P p = Ret (index_of P p).
Proof.
  intros P p H Hv. pose proof (index_bound P p H Hv). pose proof (cells_pos P H).
  apply valid_nums in Hv; [|exact H]. destruct (grid_type_nums P H) as (_ & _ & HX & HY).
  unfold to_usize. rewrite !b_into_usize_ok by lia. cbn [bind]. rewrite width_ok by exact H. cbn [bind].
  unfold umul, uadd. pose proof (cols_pos P H). rewrite usize_arith by nia. cbn [bind].
  fold (index_of P p). apply usize_arith. lia.
Qed.

Lemma index_inj : forall P p q, grid_type P -> valid P p -> valid P q ->
  index_of P p = index_of P q -> p = q.
Proof.
  intros P [x y] [x' y'] H Hp Hq E. apply valid_nums in Hp, Hq; [|exact H..].
  unfold index_of, cols in *. cbn in *.
  assert (y = y') by nia. subst y'. f_equal. nia.
Qed.

Lemma pos_new_ok : forall P s t x y, post_wf P -> valid P (x, y) ->
  pos_new P (FromInt s) (FromInt t) x y = Ok (x, y).
Proof.
  intros P s t x y (Hx & Hy) (Vx & Vy). unfold pos_new. cbn in Vx, Vy.
  rewrite (proj1 (b_try_from_spec _ s x Hx)) by exact Vx. cbn [res_bind].
  rewrite (proj1 (b_try_from_spec _ t y Hy)) by exact Vy. reflexivity.
Qed.

Lemma in_bty_dec : forall b v, in_bty b v \/ ~ in_bty b v.
Proof. intros. unfold in_bty. lia. Qed.

Lemma valid_dec : forall P p, valid P p \/ ~ valid P p.
Proof. intros P p. unfold valid, in_bty. lia. Qed.

Lemma pos_new_err : forall P s t x y, post_wf P -> ~ valid P (x, y) ->
  pos_new P (FromInt s) (FromInt t) x y = Err OutOfBounds.
Proof.
  intros P s t x y (Hx & Hy) Hv. unfold pos_new.
  destruct (in_bty_dec (pt_x P) x) as [Vx | Vx].
  - rewrite (proj1 (b_try_from_spec _ s x Hx)) by exact Vx. cbn [res_bind].
    rewrite (proj2 (b_try_from_spec _ t y Hy)); [reflexivity |].
    intros Vy. apply Hv. split; assumption.
  - rewrite (proj2 (b_try_from_spec _ s x Hx)) by exact Vx. reflexivity.
Qed.

Lemma pos_new_mixed_xy : forall P s x y, post_wf P -> in_bty (pt_x P) x ->
  pos_new P (FromInt s) FromSelf x y = Ok (x, y).
Proof.
  intros P s x y (Hx & _) Vx. unfold pos_new.
  rewrite (proj1 (b_try_from_spec _ s x Hx)) by exact Vx. reflexivity.
Qed.

Lemma pos_new_mixed_yx : forall P s x y, post_wf P -> in_bty (pt_y P) y ->
  pos_new P FromSelf (FromInt s) x y = Ok (x, y).
Proof.
  intros P s x y (_ & Hy) Vy. unfold pos_new. cbn [res_bind].
  change (b_try_from (pt_x P) FromSelf x) with (Ok x). cbn [res_bind].
  rewrite (proj1 (b_try_from_spec _ s y Hy)) by exact Vy. reflexivity.
Qed.

Lemma index_div_mod : forall P p, grid_type P -> valid P p ->
  index_of P p mod cols P = fst p /\ index_of P p / cols P = snd p.
Proof.
  intros P p H Hv. apply valid_nums in Hv; [|exact H]. unfold index_of, cols in *. split.
  - rewrite Z.add_comm, Z.mod_add by lia. apply Z.mod_small. lia.
  - rewrite Z.div_add_l by lia. rewrite Z.div_small by lia. lia.
Qed.

Lemma index_of_div_mod : forall P i, grid_type P -> index_of P (i mod cols P, i / cols P) = i.
Proof.
  intros P i H. pose proof (cols_pos P H). unfold index_of. cbn.
  rewrite Z.mul_comm. symmetry. apply Z.div_mod. lia.
Qed.

Lemma valid_div_mod : forall P i, grid_type P -> 0 <= i ->
  (valid P (i mod cols P, i / cols P) <-> i < cells P).
Proof.
  intros P i H Hi. rewrite valid_nums by exact H. cbn.
  pose proof (cols_pos P H) as Hc. pose proof (rows_pos P H) as Hr.
  pose proof (Z.mod_pos_bound i (cols P)) as Hm.
  pose proof (Z.div_mod i (cols P)) as Hd.
  assert (0 <= i / cols P) by (apply Z.div_pos; lia).
  unfold cells, rows in *. set (c := cols P) in *.
  assert (XM P = c - 1) by (subst c; unfold cols; lia). nia.
Qed.

Lemma tryfrom_usize_eq : forall P i, grid_type P ->
  tryfrom_usize P i = Ret (pos_new P (FromInt usize) (FromInt usize) (i mod cols P) (i / cols P)).
Proof. intros P i H. unfold tryfrom_usize. rewrite width_ok by exact H. reflexivity. Qed.

Lemma tryfrom_usize_ok : forall P i, grid_type P -> 0 <= i < cells P ->
  tryfrom_usize P i = Ret (Ok (i mod cols P, i / cols P)) /\ valid P (i mod cols P, i / cols P).
Proof.
  intros P i H Hi. rewrite tryfrom_usize_eq by exact H.
  assert (V : valid P (i mod cols P, i / cols P)) by (apply valid_div_mod; [exact H | lia | lia]).
  rewrite pos_new_ok; [auto | apply grid_type_wf; exact H | exact V].
Qed.

Lemma index_bijection : forall P, grid_type P ->
  (forall p, valid P p ->
     to_usize P p = Ret (index_of P p) /\ 0 <= index_of P p < cells P /\
     tryfrom_usize P (index_of P p) = Ret (Ok p)) /\
  (forall i, 0 <= i < cells P ->
     exists p, valid P p /\ tryfrom_usize P i = Ret (Ok p) /\ to_usize P p = Ret i) /\
  (forall i, cells P <= i -> tryfrom_usize P i = Ret (Err OutOfBounds)).
Proof.
  intros P H. repeat split.
  - apply to_usize_ok; assumption.
  - apply index_bound; assumption.
  - apply index_bound; assumption.
  - destruct (tryfrom_usize_ok P (index_of P p) H) as [E _]; [apply index_bound; assumption |].
    rewrite E. destruct (index_div_mod P p H H0) as [-> ->]. destruct p; reflexivity.
  - intros i Hi. destruct (tryfrom_usize_ok P i H Hi) as [E V].
    exists (i mod cols P, i / cols P). split; [exact V | split; [exact E |]].
    rewrite to_usize_ok by assumption. rewrite index_of_div_mod by exact H. reflexivity.
  - intros i Hi. rewrite tryfrom_usize_eq by exact H. rewrite pos_new_err; [reflexivity | |].
    + apply grid_type_wf; exact H.
    + pose proof (cells_pos P H). rewrite valid_div_mod by (exact H || lia). lia.
Qed.

(** ** next / prev *)

Lemma pos_next_inner : forall P x y, post_wf P -> in_bty (pt_x P) x -> x < XM P ->
  pos_next P (x, y) = Some (x + 1, y) /\ pos_prev P (x + 1, y) = Some (x, y).
Proof.
  intros P x y (Hx & Hy) Vx Hlt. unfold pos_next, pos_prev. cbn.
  rewrite b_inc_some by assumption.
  rewrite b_dec_some; [|assumption | unfold in_bty in *; lia | unfold in_bty in *; lia].
  replace (x + 1 - 1) with x by lia. auto.
Qed.

Lemma pos_next_wrap : forall P y, post_wf P -> in_bty (pt_y P) y -> y < YM P ->
  pos_next P (XM P, y) = Some (b_min (pt_x P), y + 1) /\
  pos_prev P (b_min (pt_x P), y + 1) = Some (XM P, y).
Proof.
  intros P y (Hx & Hy) Vy Hlt. unfold pos_next, pos_prev. cbn.
  rewrite b_inc_none, b_dec_none by assumption.
  rewrite b_inc_some by assumption.
  rewrite b_dec_some; [|assumption | unfold in_bty in *; lia | unfold in_bty in *; lia].
  cbn. replace (y + 1 - 1) with y by lia. auto.
Qed.

Lemma pos_next_last : forall P, post_wf P -> pos_next P (XM P, YM P) = None.
Proof.
  intros P (Hx & Hy). unfold pos_next. cbn. rewrite !b_inc_none by assumption. reflexivity.
Qed.

Lemma pos_prev_first : forall P, post_wf P -> pos_prev P (b_min (pt_x P), b_min (pt_y P)) = None.
Proof.
  intros P (Hx & Hy). unfold pos_prev. cbn. rewrite !b_dec_none by assumption. reflexivity.
Qed.

Lemma pos_next_y_inner : forall P x y, post_wf P -> in_bty (pt_y P) y -> y < YM P ->
  pos_next_y P (x, y) = Some (x, y + 1) /\ pos_prev_y P (x, y + 1) = Some (x, y).
Proof.
  intros P x y (Hx & Hy) Vy Hlt. unfold pos_next_y, pos_prev_y. cbn.
  rewrite b_inc_some by assumption.
  rewrite b_dec_some; [|assumption | unfold in_bty in *; lia | unfold in_bty in *; lia].
  replace (y + 1 - 1) with y by lia. auto.
Qed.

Lemma pos_next_y_wrap : forall P x, post_wf P -> in_bty (pt_x P) x -> x < XM P ->
  pos_next_y P (x, YM P) = Some (x + 1, b_min (pt_y P)) /\
  pos_prev_y P (x + 1, b_min (pt_y P)) = Some (x, YM P).
Proof.
  intros P x (Hx & Hy) Vx Hlt. unfold pos_next_y, pos_prev_y. cbn.
  rewrite b_inc_none, b_dec_none by assumption.
  rewrite b_inc_some by assumption.
  rewrite b_dec_some; [|assumption | unfold in_bty in *; lia | unfold in_bty in *; lia].
  cbn. replace (x + 1 - 1) with x by lia. auto.
Qed.

Lemma pos_next_y_last : forall P, post_wf P -> pos_next_y P (XM P, YM P) = None.
Proof.
  intros P (Hx & Hy). unfold pos_next_y. cbn. rewrite !b_inc_none by assumption. reflexivity.
Qed.

Lemma pos_prev_y_first : forall P, post_wf P -> pos_prev_y P (b_min (pt_x P), b_min (pt_y P)) = None.
Proof.
  intros P (Hx & Hy). unfold pos_prev_y. cbn. rewrite !b_dec_none by assumption. reflexivity.
Qed.

(** Exact successor in index order, both orientations. *)
Lemma next_by_index : forall P p, grid_type P -> valid P p ->
  (index_of P p + 1 < cells P ->
     exists q, pos_next P p = Some q /\ valid P q /\ index_of P q = index_of P p + 1) /\
  (index_of P p + 1 = cells P -> pos_next P p = None).
Proof.
  intros P [x y] H Hv. pose proof (grid_type_wf P H) as Hw.
  pose proof Hv as (Vx & Vy). cbn in Vx, Vy.
  destruct (grid_type_nums P H) as (Ex & Ey & HX & HY).
  rewrite valid_nums in Hv by exact H. cbn in Hv.
  unfold index_of, cells, cols, rows. cbn.
  split; intros Hi.
  - destruct (Z.eq_dec x (XM P)) as [-> | Hne].
    + assert (y < YM P) by nia.
      exists (b_min (pt_x P), y + 1). destruct (pos_next_wrap P y Hw Vy) as [-> _]; [assumption |].
      split; [reflexivity |]. rewrite Ex. rewrite valid_nums by exact H. cbn. split; nia.
    + exists (x + 1, y). destruct (pos_next_inner P x y Hw Vx) as [-> _]; [lia |].
      split; [reflexivity |]. rewrite valid_nums by exact H. cbn. split; nia.
  - assert (x = XM P /\ y = YM P) as [-> ->] by nia. apply pos_next_last. exact Hw.
Qed.

Lemma prev_by_index : forall P p, grid_type P -> valid P p ->
  (0 < index_of P p ->
     exists q, pos_prev P p = Some q /\ valid P q /\ index_of P q = index_of P p - 1) /\
  (index_of P p = 0 -> pos_prev P p = None).
Proof.
  intros P [x y] H Hv. pose proof (grid_type_wf P H) as Hw.
  pose proof Hv as (Vx & Vy). cbn in Vx, Vy.
  destruct (grid_type_nums P H) as (Ex & Ey & HX & HY).
  rewrite valid_nums in Hv by exact H. cbn in Hv.
  unfold index_of, cells, cols, rows. cbn.
  split; intros Hi.
  - destruct (Z.eq_dec x 0) as [-> | Hne].
    + assert (0 < y) by nia.
      exists (XM P, y - 1).
      destruct (pos_next_wrap P (y - 1) Hw) as [_ E]; [unfold in_bty; lia | lia |].
      rewrite Ex in E. replace (y - 1 + 1) with y in E by lia. rewrite E.
      split; [reflexivity |]. rewrite valid_nums by exact H. cbn. split; nia.
    + exists (x - 1, y).
      destruct (pos_next_inner P (x - 1) y Hw) as [_ E]; [unfold in_bty; lia | lia |].
      replace (x - 1 + 1) with x in E by lia. rewrite E.
      split; [reflexivity |]. rewrite valid_nums by exact H. cbn. split; nia.
  - assert (x = 0 /\ y = 0) as [-> ->] by nia. pose proof (pos_prev_first P Hw) as E.
    rewrite Ex, Ey in E. exact E.
Qed.

Lemma next_y_by_index : forall P p, grid_type P -> valid P p ->
  (index_col P p + 1 < cells P ->
     exists q, pos_next_y P p = Some q /\ valid P q /\ index_col P q = index_col P p + 1) /\
  (index_col P p + 1 = cells P -> pos_next_y P p = None).
Proof.
  intros P [x y] H Hv. pose proof (grid_type_wf P H) as Hw.
  pose proof Hv as (Vx & Vy). cbn in Vx, Vy.
  destruct (grid_type_nums P H) as (Ex & Ey & HX & HY).
  rewrite valid_nums in Hv by exact H. cbn in Hv.
  unfold index_col, cells, cols, rows. cbn.
  split; intros Hi.
  - destruct (Z.eq_dec y (YM P)) as [-> | Hne].
    + assert (x < XM P) by nia.
      exists (x + 1, b_min (pt_y P)). destruct (pos_next_y_wrap P x Hw Vx) as [-> _]; [assumption |].
      split; [reflexivity |]. rewrite Ey. rewrite valid_nums by exact H. cbn. split; nia.
    + exists (x, y + 1). destruct (pos_next_y_inner P x y Hw Vy) as [-> _]; [lia |].
      split; [reflexivity |]. rewrite valid_nums by exact H. cbn. split; nia.
  - assert (x = XM P /\ y = YM P) as [-> ->] by nia. apply pos_next_y_last. exact Hw.
Qed.

Lemma prev_y_by_index : forall P p, grid_type P -> valid P p ->
  (0 < index_col P p ->
     exists q, pos_prev_y P p = Some q /\ valid P q /\ index_col P q = index_col P p - 1) /\
  (index_col P p = 0 -> pos_prev_y P p = None).
Proof.
  intros P [x y] H Hv. pose proof (grid_type_wf P H) as Hw.
  pose proof Hv as (Vx & Vy). cbn in Vx, Vy.
  destruct (grid_type_nums P H) as (Ex & Ey & HX & HY).
  rewrite valid_nums in Hv by exact H. cbn in Hv.
  unfold index_col, cells, cols, rows. cbn.
  split; intros Hi.
  - destruct (Z.eq_dec y 0) as [-> | Hne].
    + assert (0 < x) by nia.
      exists (x - 1, YM P).
      destruct (pos_next_y_wrap P (x - 1) Hw) as [_ E]; [unfold in_bty; lia | lia |].
      rewrite Ey in E. replace (x - 1 + 1) with x in E by lia. rewrite E.
      split; [reflexivity |]. rewrite valid_nums by exact H. cbn. split; nia.
    + exists (x, y - 1).
      destruct (pos_next_y_inner P x (y - 1) Hw) as [_ E]; [unfold in_bty; lia | lia |].
      replace (y - 1 + 1) with y in E by lia. rewrite E.
      split; [reflexivity |]. rewrite valid_nums by exact H. cbn. split; nia.
  - assert (x = 0 /\ y = 0) as [-> ->] by nia. pose proof (pos_prev_y_first P Hw) as E.
    rewrite Ex, Ey in E. exact E.
Qed.

Lemma index_col_inj : forall P p q, grid_type P -> valid P p -> valid P q ->
  index_col P p = index_col P q -> p = q.
Proof.
  intros P [x y] [x' y'] H Hp Hq E. apply valid_nums in Hp, Hq; [|exact H..].
  unfold index_col, rows in *. cbn in *.
  assert (x = x') by nia. subst x'. f_equal. nia.
Qed.

Lemma index_col_bound : forall P p, grid_type P -> valid P p -> 0 <= index_col P p < cells P.
Proof.
  intros P p H Hv. apply valid_nums in Hv; [|exact H]. unfold index_col, cells, cols, rows in *. nia.
Qed.

Lemma next_prev_inverse : forall P p q, grid_type P -> valid P p -> valid P q ->
  (pos_next P p = Some q <-> pos_prev P q = Some p) /\
  (pos_next_y P p = Some q <-> pos_prev_y P q = Some p).
Proof.
  intros P p q H Hp Hq.
  destruct (next_by_index P p H Hp) as [N1 N2]. destruct (prev_by_index P q H Hq) as [Q1 Q2].
  destruct (next_y_by_index P p H Hp) as [M1 M2]. destruct (prev_y_by_index P q H Hq) as [R1 R2].
  pose proof (index_bound P p H Hp). pose proof (index_bound P q H Hq).
  pose proof (index_col_bound P p H Hp). pose proof (index_col_bound P q H Hq).
  repeat split; intros E.
  - destruct (Z.eq_dec (index_of P p + 1) (cells P)) as [e | ne]; [rewrite N2 in E by exact e; discriminate |].
    destruct N1 as (q' & E' & _ & Ei); [lia |]. rewrite E' in E. inv E.
    destruct Q1 as (p' & -> & Vp & Ep); [lia |]. f_equal. apply (index_inj P); auto; lia.
  - destruct (Z.eq_dec (index_of P q) 0) as [e | ne]; [rewrite Q2 in E by exact e; discriminate |].
    destruct Q1 as (p' & E' & _ & Ei); [lia |]. rewrite E' in E. inv E.
    destruct N1 as (q' & -> & Vp & Ep); [lia |]. f_equal. apply (index_inj P); auto; lia.
  - destruct (Z.eq_dec (index_col P p + 1) (cells P)) as [e | ne]; [rewrite M2 in E by exact e; discriminate |].
    destruct M1 as (q' & E' & _ & Ei); [lia |]. rewrite E' in E. inv E.
    destruct R1 as (p' & -> & Vp & Ep); [lia |]. f_equal. apply (index_col_inj P); auto; lia.
  - destruct (Z.eq_dec (index_col P q) 0) as [e | ne]; [rewrite R2 in E by exact e; discriminate |].
    destruct R1 as (p' & E' & _ & Ei); [lia |]. rewrite E' in E. inv E.
    destruct M1 as (q' & -> & Vp & Ep); [lia |]. f_equal. apply (index_col_inj P); auto; lia.
Qed.

(** ** Iteration over all positions *)

Lemma map_interval_chain : forall (nxt prv : pos -> option pos) (f : Z -> pos) b,
  forall n lo, Z.of_nat n = b - lo + 1 ->
  (forall i, lo <= i < b -> nxt (f i) = Some (f (i + 1)) /\ prv (f (i + 1)) = Some (f i)) ->
  chain nxt prv (map f (interval lo b)).
Proof.
  intros nxt prv f b n. induction n as [|n IH]; intros lo Hn Hs.
  - unfold interval. rewrite zrange_nil by lia. exact I.
  - rewrite interval_cons by lia. cbn [map].
    destruct (Z.eq_dec lo b) as [-> | Hne].
    + unfold interval. rewrite zrange_nil by lia. exact I.
    + rewrite (interval_cons (lo + 1)) by lia. cbn [map chain].
      split; [|split]; [apply Hs; lia | apply Hs; lia |].
      specialize (IH (lo + 1)). rewrite (interval_cons (lo + 1)) in IH by lia. apply IH; [lia |].
      intros i Hi. apply Hs. lia.
Qed.

Lemma prod_chain : forall (nxt prv : pos -> option pos) (mk : Z -> Z -> pos) a b d,
  a <= b -> forall n c, Z.of_nat n = d - c + 1 ->
  (forall i j, a <= i < b -> c <= j <= d ->
     nxt (mk i j) = Some (mk (i + 1) j) /\ prv (mk (i + 1) j) = Some (mk i j)) ->
  (forall j, c <= j < d -> nxt (mk b j) = Some (mk a (j + 1)) /\ prv (mk a (j + 1)) = Some (mk b j)) ->
  chain nxt prv (flat_map (fun j => map (fun i => mk i j) (interval a b)) (interval c d)).
Proof.
  intros nxt prv mk a b d Hab n. induction n as [|n IH]; intros c Hn Hin Hout.
  - unfold interval at 2. rewrite zrange_nil by lia. exact I.
  - rewrite (interval_cons c d) by lia. cbn [flat_map]. apply chain_app.
    + apply (map_interval_chain _ _ _ b (Z.to_nat (b - a + 1))); [lia |].
      intros i Hi. apply Hin; lia.
    + apply IH; [lia | |].
      * intros i j Hi Hj. apply Hin; lia.
      * intros j Hj. apply Hout. lia.
    + intros p q l1 l2 E1 E2.
      rewrite interval_snoc, map_app in E1 by exact Hab. cbn in E1.
      apply app_inj_tail in E1. destruct E1 as [_ <-].
      destruct (Z.eq_dec c d) as [-> | Hne].
      * unfold interval at 2 in E2. rewrite zrange_nil in E2 by lia. discriminate.
      * rewrite (interval_cons (c + 1)) in E2 by lia. cbn [flat_map] in E2.
        rewrite (interval_cons a) in E2 by exact Hab. cbn in E2. inv E2. apply Hout. lia.
Qed.

Lemma all_rows_chain : forall P, post_wf P -> chain (pos_next P) (pos_prev P) (all_rows P).
Proof.
  intros P Hw. pose proof Hw as ((_ & _ & Hx & _) & (_ & _ & Hy & _)).
  unfold all_rows, rect_rows.
  apply (prod_chain (pos_next P) (pos_prev P) (fun x y => (x, y)) _ _ _ Hx
           (Z.to_nat (YM P - b_min (pt_y P) + 1))); [lia | |].
  - intros i j Hi Hj. apply pos_next_inner; [exact Hw | unfold in_bty; lia | lia].
  - intros j Hj. apply pos_next_wrap; [exact Hw | unfold in_bty; lia | lia].
Qed.

Lemma all_cols_chain : forall P, post_wf P -> chain (pos_next_y P) (pos_prev_y P) (all_cols P).
Proof.
  intros P Hw. pose proof Hw as ((_ & _ & Hx & _) & (_ & _ & Hy & _)).
  unfold all_cols, rect_cols.
  apply (prod_chain (pos_next_y P) (pos_prev_y P) (fun y x => (x, y)) _ _ _ Hy
           (Z.to_nat (XM P - b_min (pt_x P) + 1))); [lia | |].
  - intros i j Hi Hj. apply pos_next_y_inner; [exact Hw | unfold in_bty; lia | lia].
  - intros j Hj. apply pos_next_y_wrap; [exact Hw | unfold in_bty; lia | lia].
Qed.

Lemma state_of_ends : forall (l : list pos) a m b m',
  l = a :: m -> l = m' ++ [b] -> state_of l = (Some a, Some b).
Proof.
  intros l a m b m' E1 E2. assert (Es : state_of l = (Some a, Some (List.last l a))) by (subst l; reflexivity).
  rewrite Es, E2, List.last_last. reflexivity.
Qed.

Lemma flat_map_app' : forall {A B} (f : A -> list B) l1 l2,
  flat_map f (l1 ++ l2) = flat_map f l1 ++ flat_map f l2.
Proof.
  intros A B f l1 l2. induction l1 as [|a l1 IH]; [reflexivity |]. cbn. rewrite IH, app_assoc. reflexivity.
Qed.

Lemma map_interval_snoc : forall {A} (f : Z -> A) a b, a <= b ->
  map f (interval a b) = map f (interval a (b - 1)) ++ [f b].
Proof. intros A f a b H. rewrite interval_snoc, map_app by exact H. reflexivity. Qed.

Lemma piter_new_rows : forall P, post_wf P -> piter_new P = state_of (all_rows P).
Proof.
  intros P ((_ & _ & Hx & _) & (_ & _ & Hy & _)). symmetry.
  unfold piter_new, pos_first, pos_last, all_rows, rect_rows.
  eapply state_of_ends.
  - rewrite (interval_cons _ (YM P)) by exact Hy. cbn [flat_map].
    rewrite (interval_cons _ (XM P)) by exact Hx. cbn [map app]. reflexivity.
  - rewrite (interval_snoc _ (YM P)) by exact Hy. rewrite flat_map_app'. cbn [flat_map].
    rewrite app_nil_r.
    rewrite (map_interval_snoc (fun x => (x, YM P)) _ (XM P)) by exact Hx.
    rewrite app_assoc. reflexivity.
Qed.

Lemma piter_new_cols : forall P, post_wf P -> piter_new P = state_of (all_cols P).
Proof.
  intros P ((_ & _ & Hx & _) & (_ & _ & Hy & _)). symmetry.
  unfold piter_new, pos_first, pos_last, all_cols, rect_cols.
  eapply state_of_ends.
  - rewrite (interval_cons _ (XM P)) by exact Hx. cbn [flat_map].
    rewrite (interval_cons _ (YM P)) by exact Hy. cbn [map app]. reflexivity.
  - rewrite (interval_snoc _ (XM P)) by exact Hx. rewrite flat_map_app'. cbn [flat_map].
    rewrite app_nil_r.
    rewrite (map_interval_snoc (fun y => (XM P, y)) _ (YM P)) by exact Hy.
    rewrite app_assoc. reflexivity.
Qed.

(** The order in which an orientation visits the positions. *)
Definition all_of (P : post) (XFIRST : bool) : list pos := if XFIRST then all_rows P else all_cols P.

Definition succ_of (P : post) (XFIRST : bool) := if XFIRST then pos_next P else pos_next_y P.
Definition pred_of (P : post) (XFIRST : bool) := if XFIRST then pos_prev P else pos_prev_y P.

Lemma all_of_chain : forall P X, post_wf P -> chain (succ_of P X) (pred_of P X) (all_of P X).
Proof. intros P [|] H; [apply all_rows_chain | apply all_cols_chain]; exact H. Qed.

Lemma all_of_NoDup : forall P X, NoDup (all_of P X).
Proof. intros P [|]; [apply rect_rows_NoDup | apply rect_cols_NoDup]. Qed.

Lemma piter_new_of : forall P X, post_wf P -> piter_new P = state_of (all_of P X).
Proof. intros P [|] H; [apply piter_new_rows | apply piter_new_cols]; exact H. Qed.

Lemma all_of_length : forall P X, post_wf P ->
  Z.of_nat (length (all_of P X)) = (XM P - b_min (pt_x P) + 1) * (YM P - b_min (pt_y P) + 1).
Proof.
  intros P X ((_ & _ & Hx & _) & (_ & _ & Hy & _)).
  destruct X; [apply rect_rows_length | apply rect_cols_length]; lia.
Qed.

Lemma piter_next_g : forall P X it, piter_next P X it = gnext pos_eqb (succ_of P X) it.
Proof.
  intros P X [cur en]. destruct X, cur, en; reflexivity.
Qed.

Lemma piter_next_back_g : forall P X it, piter_next_back P X it = gnext_back pos_eqb (pred_of P X) it.
Proof.
  intros P X [cur en]. destruct X, cur, en; reflexivity.
Qed.

Lemma piter_calls : forall P X cs, post_wf P ->
  run_calls (piter_next P X) (piter_next_back P X) cs (piter_new P) =
  run_calls pop_front pop_back cs (all_of P X).
Proof.
  intros P X cs H. rewrite (piter_new_of P X) by exact H.
  rewrite (run_calls_ext _ (gnext pos_eqb (succ_of P X)) _ (gnext_back pos_eqb (pred_of P X))).
  - apply run_calls_spec; [apply pos_eqb_eq | apply all_of_NoDup | apply all_of_chain; exact H].
  - intros s. apply piter_next_g.
  - intros s. apply piter_next_back_g.
Qed.

Lemma piter_fuel_ok : forall P X, post_wf P -> (length (all_of P X) < piter_fuel P)%nat.
Proof.
  intros P X H. pose proof (all_of_length P X H). unfold piter_fuel. lia.
Qed.

Lemma iter_list_of : forall P X, post_wf P -> iter_list P X = Ret (all_of P X).
Proof.
  intros P X H. unfold iter_list. rewrite (piter_new_of P X) by exact H.
  rewrite (drain_ext _ (fun it => Ret (gnext pos_eqb (succ_of P X) it))).
  - apply (drain_spec pos_eqb (succ_of P X) (pred_of P X));
      [apply pos_eqb_eq | apply all_of_NoDup | apply all_of_chain; exact H | apply piter_fuel_ok; exact H].
  - intros s. rewrite piter_next_g. reflexivity.
Qed.

Lemma iter_list_rev_of : forall P X, post_wf P -> iter_list_rev P X = Ret (rev (all_of P X)).
Proof.
  intros P X H. unfold iter_list_rev. rewrite (piter_new_of P X) by exact H.
  rewrite (drain_ext _ (fun it => Ret (gnext_back pos_eqb (pred_of P X) it))).
  - apply (drain_back_spec pos_eqb (succ_of P X) (pred_of P X));
      [apply pos_eqb_eq | apply all_of_NoDup | apply all_of_chain; exact H | apply piter_fuel_ok; exact H].
  - intros s. rewrite piter_next_back_g. reflexivity.
Qed.

Lemma iter_list_rows : forall P, post_wf P -> iter_list P true = Ret (all_rows P).
Proof. intros P H. apply (iter_list_of P true H). Qed.

Lemma all_rows_In : forall P p, In p (all_rows P) <-> valid P p.
Proof. intros P p. unfold all_rows. rewrite rect_rows_In. reflexivity. Qed.

Lemma all_cols_In : forall P p, In p (all_cols P) <-> valid P p.
Proof. intros P p. unfold all_cols. rewrite rect_cols_In. reflexivity. Qed.

Lemma all_rows_length : forall P, grid_type P -> Z.of_nat (length (all_rows P)) = cells P.
Proof.
  intros P H. change (all_rows P) with (all_of P true). rewrite (all_of_length P true) by (apply grid_type_wf; exact H).
  destruct (grid_type_nums P H) as (-> & -> & _ & _). unfold cells, cols, rows. lia.
Qed.

Lemma iter_x_ok : forall P, post_wf P -> iter_x P = Ret (interval (b_min (pt_x P)) (XM P)).
Proof. intros P (Hx & _). apply b_iter_list_spec. exact Hx. Qed.
Lemma iter_y_ok : forall P, post_wf P -> iter_y P = Ret (interval (b_min (pt_y P)) (YM P)).
Proof. intros P (_ & Hy). apply b_iter_list_spec. exact Hy. Qed.

(** The n-th position of an enumeration is the one with index n. *)
Lemma flat_map_nth_error : forall {A B} (f : A -> list B) (l : list A) w,
  (forall a, In a l -> length (f a) = w) -> (0 < w)%nat ->
  forall n, nth_error (flat_map f l) n =
    match nth_error l (n / w) with Some a => nth_error (f a) (n mod w) | None => None end.
Proof.
  intros A B f l w Hl Hw. induction l as [|a l IH]; intros n.
  - cbn [flat_map]. destruct n, (Nat.div _ w); reflexivity.
  - cbn [flat_map]. assert (La : length (f a) = w) by (apply Hl; left; reflexivity).
    destruct (Nat.lt_ge_cases n w) as [Hlt | Hge].
    + rewrite nth_error_app1 by lia. rewrite Nat.div_small, Nat.mod_small by exact Hlt. reflexivity.
    + rewrite nth_error_app2 by lia. rewrite La, IH by (intros; apply Hl; right; assumption).
      assert (E1 : (n / w = S ((n - w) / w))%nat).
      { replace n with (n - w + 1 * w)%nat at 1 by lia. rewrite Nat.div_add by lia. lia. }
      assert (E2 : (n mod w = (n - w) mod w)%nat).
      { replace n with (n - w + 1 * w)%nat at 1 by lia. rewrite Nat.mod_add by lia. reflexivity. }
      rewrite E1, E2. reflexivity.
Qed.

Lemma all_rows_nth : forall P p, grid_type P -> valid P p ->
  nth_error (all_rows P) (Z.to_nat (index_of P p)) = Some p.
Proof.
  intros P [x y] H Hv. destruct (grid_type_nums P H) as (Ex & Ey & HX & HY).
  pose proof (proj1 (valid_nums P _ H) Hv) as V. cbn in V.
  unfold all_rows, rect_rows. rewrite Ex, Ey.
  rewrite flat_map_nth_error with (w := Z.to_nat (cols P)).
  - assert (E1 : (Z.to_nat (index_of P (x, y)) / Z.to_nat (cols P))%nat = Z.to_nat y).
    { rewrite <- Z2Nat.inj_div; [|unfold index_of, cols; cbn; nia | unfold cols; lia].
      f_equal. apply (index_div_mod P (x, y) H Hv). }
    assert (E2 : (Z.to_nat (index_of P (x, y)) mod Z.to_nat (cols P))%nat = Z.to_nat x).
    { rewrite <- Z2Nat.inj_mod; [|unfold index_of, cols; cbn; nia | unfold cols; lia].
      f_equal. apply (index_div_mod P (x, y) H Hv). }
    rewrite E1, E2. unfold interval. rewrite zrange_nth_error by lia.
    rewrite nth_error_map, zrange_nth_error by lia. cbn. f_equal. f_equal; lia.
  - intros a _. rewrite map_length. unfold cols. pose proof (interval_length 0 (XM P)). lia.
  - unfold cols. lia.
Qed.

Lemma all_cols_nth : forall P p, grid_type P -> valid P p ->
  nth_error (all_cols P) (Z.to_nat (index_col P p)) = Some p.
Proof.
  intros P [x y] H Hv. destruct (grid_type_nums P H) as (Ex & Ey & HX & HY).
  pose proof (proj1 (valid_nums P _ H) Hv) as V. cbn in V.
  unfold all_cols, rect_cols. rewrite Ex, Ey.
  rewrite flat_map_nth_error with (w := Z.to_nat (rows P)).
  - assert (E0 : index_col P (x, y) = y + x * rows P) by (unfold index_col; cbn; lia).
    assert (E1 : (Z.to_nat (index_col P (x, y)) / Z.to_nat (rows P))%nat = Z.to_nat x).
    { rewrite <- Z2Nat.inj_div; [|unfold index_col, rows; cbn; nia | unfold rows; lia].
      f_equal. rewrite E0. unfold rows. rewrite Z.div_add by lia. rewrite Z.div_small by lia. lia. }
    assert (E2 : (Z.to_nat (index_col P (x, y)) mod Z.to_nat (rows P))%nat = Z.to_nat y).
    { rewrite <- Z2Nat.inj_mod; [|unfold index_col, rows; cbn; nia | unfold rows; lia].
      f_equal. rewrite E0. unfold rows. rewrite Z.mod_add by lia. apply Z.mod_small. lia. }
    rewrite E1, E2. unfold interval. rewrite zrange_nth_error by lia.
    rewrite nth_error_map, zrange_nth_error by lia. cbn. f_equal. f_equal; lia.
  - intros a _. rewrite map_length. unfold rows. pose proof (interval_length 0 (YM P)). lia.
  - unfold rows. lia.
Qed.
