(** PropAnyPosProofs.v -- proofs of the statements of PropAnyPos.v. *)

From Coq Require Import ZArith List Bool Lia.
From Verif Require Import Rust BoundedInt Dir PosT Pos Spec Lib Deque BoundedIntProofs PosTProofs PosTProofs2 PropDirProofs.
Import ListNotations.
Open Scope Z_scope.

Lemma into_usize : forall v, b_into_usize v = if (0 <=? v) && (v <=? imax usize) then Ret v else Panic.
Proof. intros v. unfold b_into_usize, b_to_usize, int_try_from, in_ity. change (imin usize) with 0. destruct (_ && _); reflexivity. Qed.

Lemma arith_usize : forall v, arith usize v = if (0 <=? v) && (v <=? imax usize) then Ret v else Panic.
Proof. intros v. unfold arith, in_ity. change (imin usize) with 0. reflexivity. Qed.

Ltac tt_ E := replace E with true by (symmetry; rewrite ?andb_true_iff, ?Z.leb_le; lia).

Ltac ff_ E := replace E with false by (symmetry; rewrite ?andb_false_iff, ?Z.leb_gt; lia).

Lemma C142_flips_proof : forall P p, post_wf P ->
  (in_bty (pt_x P) (XM P - fst p) -> pos_flip_h P p = Ret (XM P - fst p, snd p)) /\
  (~ in_bty (pt_x P) (XM P - fst p) -> pos_flip_h P p = Panic) /\
  (in_bty (pt_y P) (YM P - snd p) -> pos_flip_v P p = Ret (fst p, YM P - snd p)) /\
  (~ in_bty (pt_y P) (YM P - snd p) -> pos_flip_v P p = Panic).
Proof.
  intros P p (Wx & Wy). unfold pos_flip_h, pos_flip_v. repeat split; intros H.
  - rewrite b_checked_sub_some by assumption. reflexivity.
  - rewrite b_checked_sub_none by assumption. reflexivity.
  - rewrite b_checked_sub_some by assumption. reflexivity.
  - rewrite b_checked_sub_none by assumption. reflexivity.
Qed.

Lemma C142_mirrors_proof : forall P, post_wf P ->
  ((forall p, valid P p -> pos_flip_h P p = Ret (b_min (pt_x P) + XM P - fst p, snd p)) <-> b_min (pt_x P) = 0) /\
  ((forall p, valid P p -> pos_flip_v P p = Ret (fst p, b_min (pt_y P) + YM P - snd p)) <-> b_min (pt_y P) = 0).
Proof.
  intros P W. pose proof W as ((_ & _ & LX & _) & (_ & _ & LY & _)).
  assert (VL : valid P (XM P, YM P)) by (unfold valid, in_bty; cbn; lia). split; split.
  - intros H. specialize (H _ VL). cbn [fst snd] in H.
    destruct (C142_flips_proof P (XM P, YM P) W) as (A & B & _). cbn [fst snd] in A, B.
    destruct (in_bty_dec (pt_x P) (XM P - XM P)) as [D | D].
    + rewrite (A D) in H. injection H as H. lia.
    + rewrite (B D) in H. discriminate.
  - intros E [x y] (Vx & Vy). cbn [fst snd] in *. destruct (C142_flips_proof P (x, y) W) as (A & _). cbn [fst snd] in A.
    rewrite A by (unfold in_bty in *; lia). rewrite E. reflexivity.
  - intros H. specialize (H _ VL). cbn [fst snd] in H.
    destruct (C142_flips_proof P (XM P, YM P) W) as (_ & _ & A & B). cbn [fst snd] in A, B.
    destruct (in_bty_dec (pt_y P) (YM P - YM P)) as [D | D].
    + rewrite (A D) in H. injection H as H. lia.
    + rewrite (B D) in H. discriminate.
  - intros E [x y] (Vx & Vy). cbn [fst snd] in *. destruct (C142_flips_proof P (x, y) W) as (_ & _ & A & _). cbn [fst snd] in A.
    rewrite A by (unfold in_bty in *; lia). rewrite E. reflexivity.
Qed.

Lemma abs_diff : forall b x y, bty_wf b ->
  (if x >? y then unwrap_opt (b_checked_sub b x y) else unwrap_opt (b_checked_sub b y x)) =
  if (b_min b <=? Z.abs (x - y)) && (Z.abs (x - y) <=? b_max b) then Ret (Z.abs (x - y)) else Panic.
Proof.
  intros b x y W. destruct ((b_min b <=? Z.abs (x - y)) && (Z.abs (x - y) <=? b_max b)) eqn:E; bool2prop.
  - destruct (x >? y) eqn:F; bool2prop; (rewrite b_checked_sub_some; [cbn; f_equal; lia | exact W | unfold in_bty; lia]).
  - destruct (x >? y) eqn:F; bool2prop; (rewrite b_checked_sub_none; [reflexivity | exact W | unfold in_bty; lia]).
Qed.

Lemma C142_manhattan_proof : forall P p q, post_wf P ->
  let dx := Z.abs (fst p - fst q) in
  let dy := Z.abs (snd p - snd q) in
  (in_bty (pt_x P) dx /\ in_bty (pt_y P) dy /\ dx + dy < 2 ^ 64 -> manhattan P p q = Ret (dx + dy)) /\
  (~ (in_bty (pt_x P) dx /\ in_bty (pt_y P) dy /\ dx + dy < 2 ^ 64) -> manhattan P p q = Panic).
Proof.
  intros P p q (Wx & Wy) dx dy. assert (Hx : 0 <= dx) by (unfold dx; lia). assert (Hy : 0 <= dy) by (unfold dy; lia).
  change (2 ^ 64) with 18446744073709551616. unfold manhattan. rewrite (abs_diff _ _ _ Wx), (abs_diff _ _ _ Wy). fold dx dy. unfold in_bty, uadd.
  split; intros H.
  - tt_ ((b_min (pt_x P) <=? dx) && (dx <=? XM P)). tt_ ((b_min (pt_y P) <=? dy) && (dy <=? YM P)). cbn [bind].
    rewrite !into_usize. change (imax usize) with 18446744073709551615.
    tt_ ((0 <=? dx) && (dx <=? 18446744073709551615)). tt_ ((0 <=? dy) && (dy <=? 18446744073709551615)). cbn [bind].
    rewrite arith_usize. change (imax usize) with 18446744073709551615. tt_ ((0 <=? dx + dy) && (dx + dy <=? 18446744073709551615)). reflexivity.
  - destruct ((b_min (pt_x P) <=? dx) && (dx <=? XM P)) eqn:E; [|reflexivity]. cbn [bind].
    destruct ((b_min (pt_y P) <=? dy) && (dy <=? YM P)) eqn:F; [|reflexivity]. cbn [bind]. bool2prop.
    rewrite !into_usize. change (imax usize) with 18446744073709551615.
    destruct ((0 <=? dx) && (dx <=? 18446744073709551615)); [|reflexivity]. cbn [bind].
    destruct ((0 <=? dy) && (dy <=? 18446744073709551615)); [|reflexivity]. cbn [bind].
    rewrite arith_usize. change (imax usize) with 18446744073709551615. ff_ ((0 <=? dx + dy) && (dx + dy <=? 18446744073709551615)). reflexivity.
Qed.

Lemma C142_manhattan_total_proof : forall P, post_wf P ->
  (forall p q, valid P p -> valid P q -> manhattan P p q <> Panic) <->
  b_min (pt_x P) = 0 /\ b_min (pt_y P) = 0 /\ XM P + YM P < 2 ^ 64.
Proof.
  intros P W. pose proof W as ((_ & _ & LX & _) & (_ & _ & LY & _)). change (2 ^ 64) with 18446744073709551616.
  assert (VF : valid P (b_min (pt_x P), b_min (pt_y P))) by (unfold valid, in_bty; cbn; lia).
  assert (VL : valid P (XM P, YM P)) by (unfold valid, in_bty; cbn; lia). split.
  - intros H.
    assert (Z0 : in_bty (pt_x P) 0 /\ in_bty (pt_y P) 0).
    { destruct (in_bty_dec (pt_x P) 0) as [DX | DX]; destruct (in_bty_dec (pt_y P) 0) as [DY | DY]; [tauto | exfalso..];
      apply (H _ _ VF VF); apply (C142_manhattan_proof P _ _ W); cbn [fst snd]; rewrite !Z.sub_diag; cbn [Z.abs]; tauto. }
    unfold in_bty in Z0. specialize (H _ _ VL VF).
    destruct (C142_manhattan_proof P (XM P, YM P) (b_min (pt_x P), b_min (pt_y P)) W) as (_ & B). cbn [fst snd] in B.
    change (2 ^ 64) with 18446744073709551616 in B. unfold in_bty in B.
    destruct (Z.eq_dec (b_min (pt_x P)) 0) as [EX | NX]; [|exfalso; apply H, B; lia].
    destruct (Z.eq_dec (b_min (pt_y P)) 0) as [EY | NY]; [|exfalso; apply H, B; lia].
    destruct (Z_lt_dec (XM P + YM P) 18446744073709551616); [tauto |]. exfalso; apply H, B; lia.
  - intros (EX & EY & L) [x y] [x' y'] (Vx & Vy) (Vx' & Vy'). cbn [fst snd] in *. unfold in_bty in *.
    destruct (C142_manhattan_proof P (x, y) (x', y') W) as (A & _). cbn [fst snd] in A.
    rewrite A; [discriminate |]. change (2 ^ 64) with 18446744073709551616. unfold in_bty. lia.
Qed.

Lemma C142_rotations_proof : forall P p, post_wf P ->
  let inner b v := imin (b_inner b) <= v <= imax (b_inner b) in
  let cw := (YM P - snd p, fst p) in
  let cc := (snd p, XM P - fst p) in
  (valid P cw /\ inner (pt_y P) (YM P - snd p) -> pos_rotate_cw P p = Ret cw) /\
  (~ (valid P cw /\ inner (pt_y P) (YM P - snd p)) -> pos_rotate_cw P p = Panic) /\
  (valid P cc /\ inner (pt_x P) (XM P - fst p) -> pos_rotate_cc P p = Ret cc) /\
  (~ (valid P cc /\ inner (pt_x P) (XM P - fst p)) -> pos_rotate_cc P p = Panic).
Proof.
  intros P p (Wx & Wy) inner cw cc. pose proof Wy as (Iy & Iy' & _ & Iy''). pose proof Wx as (Ix & Ix' & _ & Ix'').
  unfold valid, in_bty, pos_rotate_cw, pos_rotate_cc, b_into_inner. unfold cw, cc. cbn [fst snd]. repeat split; intros H.
  - rewrite arith_ok by (unfold inner in H; tauto). cbn [bind]. rewrite (b_try_from_res _ _ _ Wx), (b_try_from_res _ _ _ Wy).
    tt_ ((b_min (pt_x P) <=? YM P - snd p) && (YM P - snd p <=? XM P)). tt_ ((b_min (pt_y P) <=? fst p) && (fst p <=? YM P)). reflexivity.
  - destruct (in_ity_dec (b_inner (pt_y P)) (YM P - snd p)) as [[D _] | [D _]].
    + rewrite arith_ok by exact D. cbn [bind]. rewrite (b_try_from_res _ _ _ Wx), (b_try_from_res _ _ _ Wy).
      destruct ((b_min (pt_x P) <=? YM P - snd p) && (YM P - snd p <=? XM P)) eqn:E; [|reflexivity].
      destruct ((b_min (pt_y P) <=? fst p) && (fst p <=? YM P)) eqn:F; [|reflexivity]. exfalso. bool2prop. apply H. unfold inner. lia.
    + rewrite arith_panic by exact D. reflexivity.
  - rewrite (b_try_from_res _ _ _ Wx). tt_ ((b_min (pt_x P) <=? snd p) && (snd p <=? XM P)). cbn [bind].
    rewrite arith_ok by (unfold inner in H; tauto). cbn [bind]. rewrite (b_try_from_res _ _ _ Wy). tt_ ((b_min (pt_y P) <=? XM P - fst p) && (XM P - fst p <=? YM P)). reflexivity.
  - rewrite (b_try_from_res _ _ _ Wx). destruct ((b_min (pt_x P) <=? snd p) && (snd p <=? XM P)) eqn:E; [|reflexivity]. cbn [bind].
    destruct (in_ity_dec (b_inner (pt_x P)) (XM P - fst p)) as [[D _] | [D _]].
    + rewrite arith_ok by exact D. cbn [bind]. rewrite (b_try_from_res _ _ _ Wy).
      destruct ((b_min (pt_y P) <=? XM P - fst p) && (XM P - fst p <=? YM P)) eqn:F; [|reflexivity]. exfalso. bool2prop. apply H. unfold inner. lia.
    + rewrite arith_panic by exact D. reflexivity.
Qed.

Lemma C142_index_proof : forall P, post_wf P ->
  let fits := 0 <= XM P < 2 ^ 64 - 1 in
  (fits -> width P = Ret (XM P + 1)) /\ (~ fits -> width P = Panic) /\
  (forall x y, valid P (x, y) ->
     let i := y * (XM P + 1) + x in
     (0 <= x /\ 0 <= y /\ XM P < 2 ^ 64 - 1 /\ i < 2 ^ 64 -> to_usize P (x, y) = Ret i /\ tryfrom_usize P i = Ret (Ok (x, y))) /\
     (~ (0 <= x /\ 0 <= y /\ XM P < 2 ^ 64 - 1 /\ i < 2 ^ 64) -> to_usize P (x, y) = Panic)) /\
  (forall i, 0 <= i < 2 ^ 64 ->
     let p := (i mod (XM P + 1), i / (XM P + 1)) in
     (fits -> valid P p -> tryfrom_usize P i = Ret (Ok p)) /\
     (fits -> ~ valid P p -> tryfrom_usize P i = Ret (Err OutOfBounds)) /\
     (~ fits -> tryfrom_usize P i = Panic)).
Proof.
  intros P W fits. pose proof W as ((_ & _ & LX & _) & (_ & _ & LY & _)). change (2 ^ 64) with 18446744073709551616 in *.
  assert (A : fits -> width P = Ret (XM P + 1)).
  { intros H. unfold fits in H. unfold width, uadd. rewrite into_usize. change (imax usize) with 18446744073709551615.
    tt_ ((0 <=? XM P) && (XM P <=? 18446744073709551615)). cbn [bind]. rewrite arith_usize. change (imax usize) with 18446744073709551615. tt_ ((0 <=? XM P + 1) && (XM P + 1 <=? 18446744073709551615)). reflexivity. }
  assert (B : ~ fits -> width P = Panic).
  { intros H. unfold fits in H. unfold width, uadd. rewrite into_usize. change (imax usize) with 18446744073709551615.
    destruct ((0 <=? XM P) && (XM P <=? 18446744073709551615)) eqn:E; [|reflexivity]. cbn [bind]. bool2prop. rewrite arith_usize. change (imax usize) with 18446744073709551615. ff_ ((0 <=? XM P + 1) && (XM P + 1 <=? 18446744073709551615)). reflexivity. }
  assert (C : forall i, 0 <= i < 18446744073709551616 -> let p := (i mod (XM P + 1), i / (XM P + 1)) in
     (fits -> valid P p -> tryfrom_usize P i = Ret (Ok p)) /\ (fits -> ~ valid P p -> tryfrom_usize P i = Ret (Err OutOfBounds)) /\ (~ fits -> tryfrom_usize P i = Panic)).
  { intros i Hi p. unfold tryfrom_usize. split; [|split].
    - intros F V. rewrite (A F). cbn [bind]. rewrite pos_new_ok by assumption. reflexivity.
    - intros F V. rewrite (A F). cbn [bind]. rewrite pos_new_err by assumption. reflexivity.
    - intros F. rewrite (B F). reflexivity. }
  split; [exact A |]. split; [exact B |]. split; [|exact C].
  intros x y V i. pose proof V as (Vx & Vy). cbn [fst snd] in *. unfold in_bty in *. split.
  - intros (Hx & Hy & HX & Hi). assert (F : fits) by (unfold fits; lia). unfold i in *. assert (0 <= y * (XM P + 1)) by nia. split.
    + unfold to_usize, umul, uadd. cbn [fst snd]. rewrite !into_usize. change (imax usize) with 18446744073709551615.
      assert (y <= y * (XM P + 1)) by nia.
      tt_ ((0 <=? y) && (y <=? 18446744073709551615)). tt_ ((0 <=? x) && (x <=? 18446744073709551615)). cbn [bind]. rewrite (A F). cbn [bind].
      rewrite arith_usize. change (imax usize) with 18446744073709551615. tt_ ((0 <=? y * (XM P + 1)) && (y * (XM P + 1) <=? 18446744073709551615)). cbn [bind].
      rewrite arith_usize. change (imax usize) with 18446744073709551615. tt_ ((0 <=? y * (XM P + 1) + x) && (y * (XM P + 1) + x <=? 18446744073709551615)). reflexivity.
    + destruct (C (y * (XM P + 1) + x)) as (C1 & _); [lia |]. cbn zeta in C1.
      assert (E1 : (y * (XM P + 1) + x) mod (XM P + 1) = x). { rewrite Z.add_comm, Z.mod_add by lia. apply Z.mod_small. lia. }
      assert (E2 : (y * (XM P + 1) + x) / (XM P + 1) = y). { rewrite Z.add_comm, Z.div_add by lia. rewrite Z.div_small by lia. lia. }
      rewrite E1, E2 in C1. apply C1; assumption.
  - intros H. unfold i in *. unfold to_usize, umul, uadd. cbn [fst snd]. rewrite !into_usize. change (imax usize) with 18446744073709551615.
    destruct ((0 <=? y) && (y <=? 18446744073709551615)) eqn:EY; [|reflexivity]. cbn [bind].
    destruct ((0 <=? x) && (x <=? 18446744073709551615)) eqn:EX; [|reflexivity]. cbn [bind]. bool2prop.
    destruct (Z_lt_dec (XM P) 18446744073709551615) as [D | D]; [|rewrite B by (unfold fits; lia); reflexivity].
    rewrite A by (unfold fits; lia). cbn [bind]. assert (0 <= y * (XM P + 1)) by nia.
    rewrite arith_usize. change (imax usize) with 18446744073709551615.
    destruct ((0 <=? y * (XM P + 1)) && (y * (XM P + 1) <=? 18446744073709551615)) eqn:E; [|reflexivity]. cbn [bind]. bool2prop.
    rewrite arith_usize. change (imax usize) with 18446744073709551615. ff_ ((0 <=? y * (XM P + 1) + x) && (y * (XM P + 1) + x <=? 18446744073709551615)). reflexivity.
Qed.

Lemma chain_nth : forall {A} (succ pred : A -> option A) l, chain succ pred l ->
  forall i x y, nth_error l i = Some x -> nth_error l (S i) = Some y -> succ x = Some y /\ pred y = Some x.
Proof.
  intros A succ pred l. induction l as [|a l IH]; intros H i x y E F; [destruct i; discriminate |].
  destruct l as [|b l]; [destruct i; discriminate |]. cbn [chain] in H. destruct H as (H1 & H2 & H3). destruct i as [|i].
  - cbn in E, F. injection E as <-. injection F as <-. tauto.
  - apply (IH H3 i); assumption.
Qed.

Lemma nth_last : forall {A} (l : list A) i x d, nth_error l i = Some x -> nth_error l (S i) = None -> List.last l d = x.
Proof.
  intros A l. induction l as [|a l IH]; intros i x d E F; [destruct i; discriminate |]. destruct i as [|i].
  - cbn in E. injection E as <-. destruct l; [reflexivity | discriminate].
  - destruct l as [|b l]; [destruct i; discriminate |]. exact (IH i x d E F).
Qed.

Lemma C142_steps_proof : forall P XFIRST, post_wf P ->
  exists l, iter_list P XFIRST = Ret l /\
    (forall p, valid P p <-> In p l) /\
    (forall i p, nth_error l i = Some p ->
       (if XFIRST then pos_next P p else pos_next_y P p) = nth_error l (S i) /\
       (if XFIRST then pos_prev P p else pos_prev_y P p) = match i with O => None | S j => nth_error l j end).
Proof.
  intros P XF W. exists (all_of P XF). split; [apply iter_list_of; exact W |]. split.
  { intros p. destruct p as [x y]. unfold valid, in_bty. cbn [fst snd]. destruct XF; unfold all_of, all_rows, all_cols, rect_rows, rect_cols; rewrite in_flat_map; split.
    - intros (Hx & Hy). exists y. split; [apply interval_In; lia |]. apply in_map_iff. exists x. split; [reflexivity | apply interval_In; lia].
    - intros (y' & Hy & H). apply in_map_iff in H. destruct H as (x' & [= <- <-] & Hx). apply interval_In in Hx, Hy. lia.
    - intros (Hx & Hy). exists x. split; [apply interval_In; lia |]. apply in_map_iff. exists y. split; [reflexivity | apply interval_In; lia].
    - intros (x' & Hx & H). apply in_map_iff in H. destruct H as (y' & [= <- <-] & Hy). apply interval_In in Hx, Hy. lia. }
  intros i p N. replace (if XF then pos_next P p else pos_next_y P p) with (succ_of P XF p) by (destruct XF; reflexivity).
  replace (if XF then pos_prev P p else pos_prev_y P p) with (pred_of P XF p) by (destruct XF; reflexivity).
  pose proof (all_of_chain P XF W) as CH. pose proof (piter_new_of P XF W) as EN. unfold piter_new in EN.
  pose proof W as (Wx & Wy). split.
  - destruct (nth_error (all_of P XF) (S i)) as [q|] eqn:F.
    + apply (chain_nth _ _ _ CH i p q N F).
    + destruct (all_of P XF) as [|a l] eqn:EA; [destruct i; discriminate |].
      pose proof (nth_last _ i p a N F) as L. assert (E2 : pos_last P = p) by (unfold state_of in EN; congruence). rewrite <- E2. unfold pos_last.
      destruct XF; cbn [succ_of]; [apply pos_next_last | apply pos_next_y_last]; exact W.
  - destruct i as [|j].
    + destruct (all_of P XF) as [|a l] eqn:EA; [discriminate |]. cbn in N. injection N as <-. assert (E1 : pos_first P = a) by (unfold state_of in EN; congruence). rewrite <- E1. unfold pos_first.
      destruct XF; cbn [pred_of]; [apply pos_prev_first | apply pos_prev_y_first]; exact W.
    + destruct (nth_error (all_of P XF) j) as [q|] eqn:F.
      * apply (chain_nth _ _ _ CH j q p F N).
      * exfalso. apply nth_error_None in F. assert (S j < length (all_of P XF))%nat by (apply nth_error_Some; congruence). lia.
Qed.

Lemma C142_border_proof : forall P p, post_wf P -> valid P p ->
  (is_side P p = true <-> exists d, In d [dN; dE; dS; dW] /\ pos_dir_add_ok P p d = None) /\
  (is_corner P p = true <->
     (exists d, In d [dE; dW] /\ pos_dir_add_ok P p d = None) /\ (exists d, In d [dN; dS] /\ pos_dir_add_ok P p d = None)).
Proof.
  intros P [x y] W V. pose proof V as (Vx & Vy). unfold in_bty in *. cbn [fst snd] in *.
  assert (A : forall d, pos_dir_add_ok P (x, y) d = None <-> ~ valid P (step (x, y) d)).
  { intros d. destruct (C25_pos_dir_add_proof P (x, y) d W V) as (B & C). split.
    - intros E H. destruct (B H) as (_ & F & _). congruence.
    - intros H. apply C. exact H. }
  assert (N : ~ valid P (step (x, y) dN) <-> y = b_min (pt_y P)) by (unfold valid, in_bty, step; cbn; lia).
  assert (S : ~ valid P (step (x, y) dS) <-> y = YM P) by (unfold valid, in_bty, step; cbn; lia).
  assert (E : ~ valid P (step (x, y) dE) <-> x = XM P) by (unfold valid, in_bty, step; cbn; lia).
  assert (W' : ~ valid P (step (x, y) dW) <-> x = b_min (pt_x P)) by (unfold valid, in_bty, step; cbn; lia).
  unfold is_side, is_corner. rewrite andb_true_iff, !orb_true_iff, !Z.eqb_eq. cbn [fst snd].
  rewrite <- A in N, S, E, W'. split; split.
  - intros [[[H | H] | H] | H]; [exists dW | exists dE | exists dN | exists dS]; (split; [cbn; tauto | tauto]).
  - intros (d & I & H). cbn [In] in I. destruct I as [<- | [<- | [<- | [<- | []]]]]; tauto.
  - intros (H1 & H2). split.
    + destruct H1 as [H | H]; [exists dW | exists dE]; (split; [cbn; tauto | tauto]).
    + destruct H2 as [H | H]; [exists dN | exists dS]; (split; [cbn; tauto | tauto]).
  - intros ((d & I & H) & (d' & I' & H')). cbn [In] in I, I'. destruct I as [<- | [<- | []]]; destruct I' as [<- | [<- | []]]; tauto.
Qed.
