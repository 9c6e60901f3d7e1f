(** PropGridProofs.v -- proofs of the statements of PropGrid.v. *)

From Coq Require Import ZArith List Bool Lia Permutation.
From Verif Require Import Rust BoundedInt Dir PosT Pos Grid Spec Lib Deque BoundedIntProofs PosTProofs PosTProofs2 GridProofs GridRotProofs GridProofs2.
Import ListNotations.
Open Scope Z_scope.

Lemma C29_grid_get_set_proof : forall (T : Type) P (g : list T) p v, grid_type P -> proper P g -> valid P p ->
  (exists w, grid_get P g p = Ret w /\ nth_error g (Z.to_nat (index_of P p)) = Some w) /\
  exists g', grid_set P g p v = Ret g' /\ proper P g' /\
    grid_get P g' p = Ret v /\
    (forall q, valid P q -> q <> p -> grid_get P g' q = grid_get P g q).
Proof.
  intros T P g p v G HP V. split; [apply get_ok; assumption | apply get_set_laws; assumption].
Qed.

Lemma C29_grid_fresh_proof : forall (T : Type) P (v : T) p, grid_type P -> valid P p ->
  proper P (grid_repeat (cells P) v) /\ grid_get P (grid_repeat (cells P) v) p = Ret v /\
  proper P (grid_default (cells P) v) /\ grid_get P (grid_default (cells P) v) p = Ret v.
Proof.
  intros T P v p G V. destruct (repeat_proper P v G) as [H1 H2]. destruct (repeat_get P v p G V) as [H3 H4].
  auto.
Qed.

Lemma C29_grid_equality_proof : forall (T : Type) P (g h : list T), grid_type P -> proper P g -> proper P h ->
  (g = h <-> forall p, valid P p -> grid_get P g p = grid_get P h p).
Proof.
  intros T P g h G H1 H2. split; [intros ->; reflexivity | apply grid_ext; assumption].
Qed.

Lemma C30_grid_size_refuted_proof : exists P SIZE p, grid_type P /\ valid P p /\
  grid_asserts P SIZE = Ret false /\ grid_get P (grid_repeat SIZE 7) p = UB /\
  grid_set P (grid_repeat SIZE 7) p 8 = UB.
Proof.
  exists (Pos 1 1), 1, (1, 1). split; [apply Pos_grid_type; unfold u16_dims; lia |].
  vm_compute. intuition discriminate.
Qed.

Lemma C66_grid_size_exact_proof : forall (T : Type) P (g : list T) p v, grid_type P -> valid P p ->
  (index_of P p < Z.of_nat (length g) ->
     (exists w, grid_get P g p = Ret w) /\ (exists g', grid_set P g p v = Ret g' /\ length g' = length g)) /\
  (Z.of_nat (length g) <= index_of P p -> grid_get P g p = UB /\ grid_set P g p v = UB).
Proof.
  intros T P g p v G V. pose proof (index_bound P p G V) as B. rewrite get_nth by assumption.
  unfold grid_set. rewrite to_usize_ok by assumption. cbn [bind]. split; intros H.
  - destruct (nth_error_some g (index_of P p)) as (w & E); [lia |]. rewrite E. split; [eauto |].
    rewrite array_set_unchecked_ok by lia. eexists. split; [reflexivity | apply list_set_length].
  - rewrite (proj2 (nth_error_None g (Z.to_nat (index_of P p)))) by lia. split; [reflexivity |].
    unfold array_set_unchecked. replace (index_of P p <? Z.of_nat (length g)) with false by lia.
    rewrite andb_false_r. reflexivity.
Qed.

Lemma C31_grid_flips_proof : forall (T : Type) P (g : list T), grid_type P -> proper P g ->
  exists gh gv, grid_flip_h P g = Ret gh /\ grid_flip_v P g = Ret gv /\
    proper P gh /\ proper P gv /\ Permutation g gh /\ Permutation g gv /\
    (forall x y, valid P (x, y) -> pos_flip_h P (x, y) = Ret (XM P - x, y) /\
       grid_get P gh (XM P - x, y) = grid_get P g (x, y)) /\
    (forall x y, valid P (x, y) -> pos_flip_v P (x, y) = Ret (x, YM P - y) /\
       grid_get P gv (x, YM P - y) = grid_get P g (x, y)) /\
    grid_flip_h P gh = Ret g /\ grid_flip_v P gv = Ret g.
Proof.
  intros T P g G HP.
  destruct (grid_flip_h_ok P G g HP) as (gh & Eh & Ph & Qh & Oh).
  destruct (grid_flip_v_ok P G g HP) as (gv & Ev & Pv & Qv & Ov).
  exists gh, gv. do 6 (split; [assumption |]).
  split.
  { intros x y V. split; [apply (flip_h_ok P (x, y) G V) |].
    change (XM P - x, y) with (mirror_h P (x, y)).
    rewrite Oh by (apply flip_h_valid; assumption). rewrite mirror_h_inv. reflexivity. }
  split.
  { intros x y V. split; [apply (flip_v_ok P (x, y) G V) |].
    change (x, YM P - y) with (mirror_v P (x, y)).
    rewrite Ov by (apply flip_v_valid; assumption). rewrite mirror_v_inv. reflexivity. }
  split.
  - destruct (grid_flip_h_ok P G gh Ph) as (g2 & E2 & P2 & _ & O2). rewrite E2. f_equal.
    apply (grid_ext P G); try assumption. intros p V. rewrite O2 by exact V.
    rewrite Oh by (apply flip_h_valid; assumption). rewrite mirror_h_inv. reflexivity.
  - destruct (grid_flip_v_ok P G gv Pv) as (g2 & E2 & P2 & _ & O2). rewrite E2. f_equal.
    apply (grid_ext P G); try assumption. intros p V. rewrite O2 by exact V.
    rewrite Ov by (apply flip_v_valid; assumption). rewrite mirror_v_inv. reflexivity.
Qed.

Lemma C32_grid_rotations_proof : forall (T : Type) W (g : list T), u16_dims W W -> proper (Pos W W) g ->
  let P := Pos W W in
  exists gw gc, grid_rotate_cw W g = Ret gw /\ grid_rotate_cc W g = Ret gc /\
    proper P gw /\ proper P gc /\ Permutation g gw /\ Permutation g gc /\
    (forall x y, valid P (x, y) -> pos_rotate_cw P (x, y) = Ret (W - y, x) /\
       grid_get P gw (W - y, x) = grid_get P g (x, y)) /\
    (forall x y, valid P (x, y) -> pos_rotate_cc P (x, y) = Ret (y, W - x) /\
       grid_get P gc (y, W - x) = grid_get P g (x, y)) /\
    grid_rotate_cc W gw = Ret g /\ grid_rotate_cw W gc = Ret g.
Proof.
  intros T W g (HW & _) HP P. pose proof (Pos_grid_type W W (conj HW HW)) as G. fold P in G.
  destruct (grid_rotate_cw_ok W HW g HP) as (gw & Ew & Pw & Qw & Ow).
  destruct (grid_rotate_cc_ok W HW g HP) as (gc & Ec & Pc & Qc & Oc).
  fold P in Pw, Pc, Ow, Oc.
  exists gw, gc. do 6 (split; [assumption |]).
  split; [|split; [|split]].
  - intros x y V. split; [apply (rotate_cw_sq W HW (x, y) V) |]. change (W - y, x) with (turn_cw W (x, y)).
    rewrite Ow by (apply (valid_cw W HW); exact V). rewrite turn_cc_cw. reflexivity.
  - intros x y V. split; [apply (rotate_cc_sq W HW (x, y) V) |]. change (y, W - x) with (turn_cc W (x, y)).
    rewrite Oc by (apply (valid_cc W HW); exact V). rewrite turn_cw_cc. reflexivity.
  - destruct (grid_rotate_cc_ok W HW gw Pw) as (g2 & E2 & P2 & _ & O2). rewrite E2. f_equal.
    apply (grid_ext P G); try assumption. intros p V. rewrite O2 by exact V.
    fold P. rewrite Ow by (apply (valid_cw W HW); exact V). rewrite turn_cc_cw. reflexivity.
  - destruct (grid_rotate_cw_ok W HW gc Pc) as (g2 & E2 & P2 & _ & O2). rewrite E2. f_equal.
    apply (grid_ext P G); try assumption. intros p V. rewrite O2 by exact V.
    fold P. rewrite Oc by (apply (valid_cc W HW); exact V). rewrite turn_cw_cc. reflexivity.
Qed.

Lemma C32_grid_four_turns_proof : forall (T : Type) W (g : list T), u16_dims W W -> proper (Pos W W) g ->
  exists g1 g2 g3, grid_rotate_cw W g = Ret g1 /\ grid_rotate_cw W g1 = Ret g2 /\
    grid_rotate_cw W g2 = Ret g3 /\ grid_rotate_cw W g3 = Ret g /\
    bind (grid_rotate_cc W g) (grid_rotate_cc W) = Ret g2.
Proof.
  intros T W g (HW & _) HP. pose proof (Pos_grid_type W W (conj HW HW)) as G.
  destruct (grid_rotate_cw_ok W HW g HP) as (g1 & E1 & P1 & _ & O1).
  destruct (grid_rotate_cw_ok W HW g1 P1) as (g2 & E2 & P2 & _ & O2).
  destruct (grid_rotate_cw_ok W HW g2 P2) as (g3 & E3 & P3 & _ & O3).
  destruct (grid_rotate_cw_ok W HW g3 P3) as (g4 & E4 & P4 & _ & O4).
  destruct (grid_rotate_cc_ok W HW g HP) as (c1 & F1 & R1 & _ & S1).
  destruct (grid_rotate_cc_ok W HW c1 R1) as (c2 & F2 & R2 & _ & S2).
  exists g1, g2, g3. do 3 (split; [assumption |]). split.
  - rewrite E4. f_equal. apply (grid_ext _ G); try assumption. intros p V.
    rewrite O4, O3, O2, O1 by (repeat apply (valid_cc W HW); exact V). f_equal.
    rewrite (turn_cc_3 W p) at 1. rewrite !turn_cc_cw. reflexivity.
  - rewrite F1. cbn [bind]. rewrite F2. f_equal. apply (grid_ext _ G); try assumption. intros p V.
    rewrite S2, S1 by (repeat apply (valid_cw W HW); exact V).
    rewrite O2, O1 by (repeat apply (valid_cc W HW); exact V). reflexivity.
Qed.

Lemma C33_grid_collect_proof : forall (T : Type) P (d : T) it, grid_type P ->
  (Z.of_nat (length it) = cells P ->
     exists g, grid_from_iter (cells P) d it = Ret g /\ proper P g /\ grid_iter g = it /\
       forall p v, valid P p ->
         (grid_get P g p = Ret v <-> nth_error it (Z.to_nat (index_of P p)) = Some v)) /\
  (Z.of_nat (length it) <> cells P -> grid_from_iter (cells P) d it = Panic).
Proof.
  intros T P d it G. pose proof (cells_pos P G) as HC.
  destruct (from_iter_ok (cells P) d it) as [A B]; [lia |]. split; [|exact B].
  intros L. exists it. split; [apply A; exact L |]. split; [exact L |]. split; [reflexivity |].
  intros p v V. rewrite get_nth by assumption.
  destruct (nth_error it (Z.to_nat (index_of P p))); split; intros E; congruence.
Qed.

Lemma C33_grid_iterators_proof : forall (T : Type) P (d : T) (neg : T -> T) (g : list T),
  grid_type P -> proper P g ->
  grid_from_iter (cells P) d (grid_iter g) = Ret g /\
  (exists l, grid_iter_pos P g = Ret l /\ map fst l = all_rows P /\ map snd l = grid_iter g /\
     forall p v, In (p, v) l <-> valid P p /\ grid_get P g p = Ret v) /\
  (exists n, grid_neg (cells P) d neg g = Ret n /\ proper P n /\
     forall p v, valid P p -> grid_get P g p = Ret v -> grid_get P n p = Ret (neg v)).
Proof.
  intros T P d neg g G HP. pose proof (cells_pos P G) as HC. pose proof (grid_type_wf P G) as W.
  split; [apply from_iter_ok; [lia | exact HP] |]. split.
  - destruct (iter_pos_ok P g G HP) as (l & E & F & S). exists l. split; [exact E |]. split; [exact F |]. split; [exact S |].
    assert (N : forall p v, In (p, v) l -> valid P p /\ nth_error g (Z.to_nat (index_of P p)) = Some v).
    { intros p v Hin. apply In_nth_error in Hin. destruct Hin as (n & Hn).
      assert (Hp : nth_error (all_rows P) n = Some p) by (rewrite <- F; apply (map_nth_error fst n l Hn)).
      assert (Hv : nth_error g n = Some v) by (rewrite <- S; apply (map_nth_error snd n l Hn)).
      assert (V : valid P p) by (apply all_rows_In; eapply nth_error_In; exact Hp).
      split; [exact V |]. replace (Z.to_nat (index_of P p)) with n; [exact Hv |].
      apply (proj1 (NoDup_nth_error (all_rows P)) (all_of_NoDup P true)).
      - apply nth_error_Some. congruence.
      - rewrite Hp. symmetry. apply all_rows_nth; assumption. }
    intros p v. split.
    + intros Hin. destruct (N p v Hin) as [V Hv]. split; [exact V |].
      rewrite get_nth by assumption. rewrite Hv. reflexivity.
    + intros (V & Hg). assert (Hp : In p (map fst l)) by (rewrite F; apply all_rows_In; exact V).
      apply in_map_iff in Hp. destruct Hp as ([q w] & Eq & Hin). cbn in Eq. subst q.
      destruct (N p w Hin) as [_ Hw]. rewrite get_nth in Hg by assumption. rewrite Hw in Hg.
      injection Hg as ->. exact Hin.
  - exists (map neg g). unfold grid_neg, grid_iter.
    assert (L : proper P (map neg g)) by (unfold proper; rewrite map_length; exact HP).
    split; [apply from_iter_ok; [lia | exact L] |]. split; [exact L |].
    intros p v V E. rewrite get_nth in * by assumption.
    destruct (nth_error g (Z.to_nat (index_of P p))) eqn:En; [|discriminate]. injection E as ->.
    rewrite (map_nth_error neg _ _ En). reflexivity.
Qed.

Lemma C34_grid_try_from_vecvec_proof : forall (T : Type) P (d : T) (v : list (list T)), grid_type P ->
  let fits := Z.of_nat (length v) <= rows P /\ (forall row, In row v -> Z.of_nat (length row) <= cols P) in
  (fits -> exists g, grid_try_from_vecvec P (cells P) d v = Ret (Ok g) /\ proper P g /\
     forall p, valid P p -> grid_get P g p = Ret (match cell_at v p with Some c => c | None => d end)) /\
  (~ fits -> grid_try_from_vecvec P (cells P) d v = Ret (Err OutOfBounds)).
Proof.
  intros T P d v G. apply try_from_vecvec_ok. exact G.
Qed.

Lemma C35_extend_from_vecvec_refuted_proof : exists P (v : list (list Z)) p c g', grid_type P /\
  cell_at v p = Some c /\ ~ valid P p /\
  extend_from_vecvec P (grid_repeat (cells P) 0) v = Ret (g', Ok tt) /\ g' <> grid_repeat (cells P) 0.
Proof.
  exists (Pos 0 0), (repeat [] (Z.to_nat 65536) ++ [[7]]), (0, 65536), 7, [7].
  split; [apply Pos_grid_type; unfold u16_dims; lia |].
  split; [vm_compute; reflexivity |]. split; [vm_compute; intuition discriminate |].
  split; [vm_compute; reflexivity | discriminate].
Qed.

Lemma wrap_small : forall (T : Type) (v : list (list T)),
  Z.of_nat (length v) <= 65536 -> (forall row, In row v -> Z.of_nat (length row) <= 65536) ->
  map wrap (vecvec_cells 0 v) = vecvec_cells 0 v.
Proof.
  intros T v L1 L2. rewrite <- map_id. apply map_ext_in. intros [[x y] c] H.
  apply vecvec_cells_In in H. cbn [fst snd] in H. destruct H as (Hy & Hx & H). rewrite Z.sub_0_r in H.
  unfold cell_at in H. cbn [fst snd] in H. destruct (nth_error v (Z.to_nat y)) as [row|] eqn:E; [|discriminate].
  assert (Z.to_nat y < length v)%nat by (apply nth_error_Some; congruence).
  assert (Z.to_nat x < length row)%nat by (apply nth_error_Some; congruence).
  specialize (L2 row (nth_error_In _ _ E)). unfold wrap. cbn [fst snd]. rewrite !Z.mod_small by lia. reflexivity.
Qed.

Lemma C35_extend_from_vecvec_partial_proof : forall (T : Type) P (g : list T) (v : list (list T)),
  grid_type P -> proper P g ->
  Z.of_nat (length v) <= 65536 -> (forall row, In row v -> Z.of_nat (length row) <= 65536) ->
  let inside := forall p c, 0 <= fst p -> 0 <= snd p -> cell_at v p = Some c -> valid P p in
  (inside -> exists g', extend_from_vecvec P g v = Ret (g', Ok tt) /\ proper P g' /\
     forall p, valid P p -> grid_get P g' p = match cell_at v p with Some c => Ret c | None => grid_get P g p end) /\
  (~ inside -> exists g', extend_from_vecvec P g v = Ret (g', Err OutOfBounds) /\ proper P g').
Proof.
  intros T P g v G HP L1 L2 inside. unfold extend_from_vecvec.
  rewrite extend_rows_ok by assumption. rewrite wrap_small by assumption.
  assert (NN : forall c, In c (vecvec_cells 0 v) -> 0 <= fst (fst c) /\ 0 <= snd (fst c)).
  { intros [p c] H. apply vecvec_cells_In in H. cbn [fst snd]. lia. }
  assert (F : forallb (inb P) (vecvec_cells 0 v) = true <-> inside).
  { rewrite forallb_forall. unfold inside. split.
    - intros H p c H1 H2 E. apply (inb_valid P G (p, c) H1 H2). apply H.
      apply vecvec_cells_In. rewrite Z.sub_0_r, <- surjective_pairing. auto.
    - intros H [p c] Hin. destruct (NN _ Hin) as [N1 N2]. apply (inb_valid P G (p, c) N1 N2).
      apply vecvec_cells_In in Hin. rewrite Z.sub_0_r, <- surjective_pairing in Hin.
      apply (H p c); tauto. }
  destruct (extend_ok P G (prefix_in P (vecvec_cells 0 v)) g HP) as (g' & E & HP' & O).
  { apply prefix_valid; assumption. }
  rewrite E. cbn [bind]. split; intros H.
  - rewrite (proj2 F H). exists g'. split; [reflexivity |]. split; [exact HP' |].
    intros p V. rewrite O by exact V. rewrite prefix_in_all by (apply F; exact H).
    assert (V' := V). apply valid_nums in V'; [|exact G].
    destruct (cell_at v p) as [c|] eqn:Ec.
    + rewrite (proj2 (last_given_keys (vecvec_cells 0 v) p c (vecvec_cells_keys v 0))); [reflexivity |].
      apply vecvec_cells_In. rewrite Z.sub_0_r, <- surjective_pairing. split; [lia | split; [lia | exact Ec]].
    + rewrite (proj2 (last_given_None (vecvec_cells 0 v) p)); [reflexivity |].
      intros Hin. apply in_map_iff in Hin. destruct Hin as ([q c] & Eq & Hin). cbn in Eq. subst q.
      apply vecvec_cells_In in Hin. rewrite Z.sub_0_r, <- surjective_pairing in Hin.
      destruct Hin as (_ & _ & Hin). congruence.
  - destruct (forallb (inb P) (vecvec_cells 0 v)) eqn:Ef; [destruct H; apply F; reflexivity |].
    exists g'. split; [reflexivity | exact HP'].
Qed.

Lemma prefix_in_split : forall (T : Type) P (l : list (pos * T)),
  exists pre rest, l = pre ++ rest /\ prefix_in P l = pre /\ forallb (inb P) pre = true /\
    match rest with [] => True | c :: _ => inb P c = false end.
Proof.
  intros T P l. induction l as [|c l (pre & rest & E1 & E2 & E3 & E4)].
  - exists [], []. repeat split.
  - cbn [prefix_in]. destruct (inb P c) eqn:E.
    + exists (c :: pre), rest. cbn. rewrite E, E3, E2, <- E1. repeat split. exact E4.
    + exists [], (c :: l). repeat split. exact E.
Qed.

Lemma C67_extend_from_vecvec_exact_proof : forall (T : Type) P (g : list T) (v : list (list T)),
  grid_type P -> proper P g ->
  exists pre rest g' r,
    map (fun c => ((fst (fst c) mod 65536, snd (fst c) mod 65536), snd c)) (vecvec_cells 0 v) = pre ++ rest /\
    extend_from_vecvec P g v = Ret (g', r) /\ proper P g' /\
    (forall p, valid P p -> grid_get P g' p =
       match last_given pre p with Some c => Ret c | None => grid_get P g p end) /\
    Forall (fun c => valid P (fst c)) pre /\
    match rest with [] => r = Ok tt | c :: _ => r = Err OutOfBounds /\ ~ valid P (fst c) end.
Proof.
  intros T P g v G HP. set (cs := map (fun c => ((fst (fst c) mod 65536, snd (fst c) mod 65536), snd c)) (vecvec_cells 0 v)).
  assert (NN : forall c, In c cs -> 0 <= fst (fst c) /\ 0 <= snd (fst c)) by (apply wrap_nonneg).
  destruct (prefix_in_split T P cs) as (pre & rest & E1 & E2 & E3 & E4).
  destruct (extend_ok P G (prefix_in P cs) g HP) as (g' & E & HP' & O).
  { apply prefix_valid; assumption. }
  exists pre, rest, g', (if forallb (inb P) cs then Ok tt else Err OutOfBounds).
  split; [exact E1 |]. split; [|split; [exact HP' |]].
  - unfold extend_from_vecvec. rewrite extend_rows_ok by assumption. change (map wrap (vecvec_cells 0 v)) with cs.
    rewrite E. reflexivity.
  - rewrite <- E2. split; [exact O |]. rewrite E2. split.
    + apply Forall_forall. intros c Hc. rewrite forallb_forall in E3.
      assert (Hin : In c cs) by (rewrite E1; apply in_or_app; left; exact Hc).
      destruct (NN c Hin) as [N1 N2]. apply (inb_valid P G c N1 N2). apply E3. exact Hc.
    + rewrite E1, forallb_app, E3. destruct rest as [|c rest]; [reflexivity |].
      cbn. rewrite E4. split; [reflexivity |].
      assert (Hin : In c cs) by (rewrite E1; apply in_or_app; right; left; reflexivity).
      destruct (NN c Hin) as [N1 N2]. intros V. apply (inb_valid P G c N1 N2) in V. congruence.
Qed.

Lemma C36_grid_lines_proof : forall (T : Type) P (g : list T) y, grid_type P -> proper P g -> 0 <= y <= YM P ->
  (exists l, grid_line P g y = Ret l /\ Z.of_nat (length l) = cols P /\
     forall x, 0 <= x <= XM P -> exists v, nth_error l (Z.to_nat x) = Some v /\ grid_get P g (x, y) = Ret v) /\
  (forall l, Z.of_nat (length l) = cols P ->
     exists g', grid_line_write P g y l = Ret g' /\ proper P g' /\
       (forall x, 0 <= x <= XM P -> exists v, nth_error l (Z.to_nat x) = Some v /\ grid_get P g' (x, y) = Ret v) /\
       (forall p, valid P p -> snd p <> y -> grid_get P g' p = grid_get P g p)).
Proof.
  intros T P g y G HP Hy. split; [apply line_ok; assumption |].
  intros l L. apply line_write_ok; assumption.
Qed.

Lemma C36_grid_extend_proof : forall (T : Type) P (g : list T) items, grid_type P -> proper P g ->
  (forall p v, In (p, v) items -> valid P p) ->
  exists g', grid_extend P g items = Ret g' /\ proper P g' /\
    forall p, valid P p -> grid_get P g' p =
      match last_given items p with Some v => Ret v | None => grid_get P g p end.
Proof.
  intros T P g items G. apply extend_ok. exact G.
Qed.
