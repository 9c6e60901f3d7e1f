(** PropGridboolProofs.v -- proofs of the statements of PropGridbool.v. *)

From Coq Require Import ZArith List Bool Lia Sorted.
From Verif Require Import Rust BoundedInt Dir PosT Pos Grid Gridbool Spec Lib Deque BoundedIntProofs PosTProofs PosTProofs2 GridProofs GridRotProofs GridboolProofs GridboolRotProofs.
Import ListNotations.
Open Scope Z_scope.

Lemma asserts_pos : forall X Y WORDS, u16_dims X Y -> 0 <= WORDS <= 576460752303423487 ->
  gridbool_asserts (Pos X Y) WORDS =
  if cells (Pos X Y) <=? WORDS * 32 then (if WORDS =? 0 then Panic else Ret (cells (Pos X Y) >=? WORDS * 32 - 32)) else Ret false.
Proof.
  intros X Y WORDS D HW. pose proof (cells_pos _ (Pos_grid_type X Y D)) as HC.
  unfold gridbool_asserts. change (pt_WIDTH (Pos X Y)) with (cols (Pos X Y)). change (pt_HEIGHT (Pos X Y)) with (rows (Pos X Y)).
  unfold umul, usub. fold (cells (Pos X Y)). rewrite !usize_arith by lia. cbn [bind].
  destruct (cells (Pos X Y) <=? WORDS * 32) eqn:E; [|reflexivity].
  destruct (Z.eqb_spec WORDS 0) as [-> | N]; [lia |]. rewrite usize_arith by lia. reflexivity.
Qed.

Lemma repeat_roomy : forall P WORDS (v : bool), 0 <= WORDS -> cells P <= WORDS * 32 ->
  roomy P (repeat (if v then WORD_TRUE else WORD_FALSE) (Z.to_nat WORDS)).
Proof.
  intros P WORDS v HW HC. split; [|rewrite repeat_length; lia].
  unfold u32_words. apply Forall_forall. intros w Hw. apply repeat_spec in Hw. subst w.
  destruct v; unfold WORD_TRUE, WORD_FALSE; lia.
Qed.

Lemma repeat_bit : forall WORDS (v : bool) i, 0 <= i < 32 * WORDS ->
  bit_at (repeat (if v then WORD_TRUE else WORD_FALSE) (Z.to_nat WORDS)) i = v.
Proof.
  intros WORDS v i Hi. unfold bit_at. rewrite nth_error_nth with (x := if v then WORD_TRUE else WORD_FALSE).
  - destruct v; [apply ones32; lia | apply Z.bits_0].
  - apply nth_error_repeat. lia.
Qed.

Lemma umul_big : forall W, 0 <= W -> 576460752303423487 < W -> umul W 32 = Panic.
Proof.
  intros W H1 H2. unfold umul, arith.
  destruct (in_ity usize (W * 32)) eqn:E; [|reflexivity]. apply in_ity_true in E. cbn in E. lia.
Qed.

Lemma C37_gridbool_get_set_proof : forall P g p v, grid_type P -> roomy P g -> valid P p ->
  (exists w, gb_get P g p = Ret w) /\
  exists g', gb_set P g p v = Ret g' /\ roomy P g' /\ length g' = length g /\
    (if v then gb_set_t P g p else gb_set_f P g p) = Ret g' /\
    gb_get P g' p = Ret v /\
    (forall q, valid P q -> q <> p -> gb_get P g' q = gb_get P g q).
Proof.
  intros P g p v G R V. split; [rewrite gb_get_ok by assumption; eauto |].
  destruct (gb_set_laws P G g p v R V) as (g' & E & F & H). exists g'. split; [exact E |].
  split; [apply F |]. split; [apply F |]. split; [exact E |].
  split; [rewrite H by exact V; rewrite pos_eqb_refl; reflexivity |].
  intros q Vq N. rewrite H by exact Vq. rewrite (proj2 (pos_eqb_neq p q)) by congruence. reflexivity.
Qed.

Lemma C37_gridbool_repeat_proof : forall X Y WORDS v, u16_dims X Y -> in_ity usize WORDS = true ->
  let P := Pos X Y in
  (cells P <= 32 * WORDS <= cells P + 32 ->
    exists g, gb_repeat P WORDS v = Ret g /\ roomy P g /\ Z.of_nat (length g) = WORDS /\
      (forall p, valid P p -> gb_get P g p = Ret v) /\
      (v = true -> gb_ALL_TRUE P WORDS = Ret g) /\
      (v = false -> gb_ALL_FALSE P WORDS = Ret g /\ gb_default P WORDS = Ret g)) /\
  (~ (cells P <= 32 * WORDS <= cells P + 32) -> gb_repeat P WORDS v = Panic).
Proof.
  intros X Y WORDS v D HW P. apply in_ity_true in HW. cbn in HW. pose proof (Pos_grid_type X Y D) as G.
  pose proof (cells_pos _ G) as HC. fold P in G, HC. unfold gb_repeat. split.
  - intros H. unfold P. rewrite asserts_pos by (assumption || (fold P; lia)). fold P.
    replace (cells P <=? WORDS * 32) with true by lia. replace (WORDS =? 0) with false by lia. cbn [bind].
    replace (cells P >=? WORDS * 32 - 32) with true by lia.
    assert (R : roomy P (repeat (if v then WORD_TRUE else WORD_FALSE) (Z.to_nat WORDS))) by (apply repeat_roomy; lia).
    eexists. split; [reflexivity |]. split; [exact R |]. split; [rewrite repeat_length; lia |].
    split; [intros p V; rewrite gb_get_ok by assumption; rewrite repeat_bit; [reflexivity |]; pose proof (index_bound P p G V); lia |].
    unfold gb_ALL_TRUE, gb_default, gb_ALL_FALSE, gb_repeat, P. rewrite asserts_pos by (assumption || (fold P; lia)). fold P.
    replace (cells P <=? WORDS * 32) with true by lia. replace (WORDS =? 0) with false by lia. cbn [bind].
    replace (cells P >=? WORDS * 32 - 32) with true by lia.
    split; intros ->; [reflexivity | split; reflexivity].
  - intros H. destruct (Z_le_dec WORDS 576460752303423487) as [L | L].
    + unfold P. rewrite asserts_pos by (assumption || lia). fold P.
      destruct (cells P <=? WORDS * 32) eqn:E1; [|reflexivity].
      destruct (Z.eqb_spec WORDS 0); [reflexivity |]. cbn [bind].
      destruct (cells P >=? WORDS * 32 - 32) eqn:E2; [lia | reflexivity].
    + unfold gridbool_asserts. rewrite (umul_big WORDS) by lia.
      destruct (umul (pt_WIDTH P) (pt_HEIGHT P)) eqn:E; try reflexivity; unfold umul, arith in E; destruct (in_ity _ _); discriminate.
Qed.

Lemma C68_gridbool_int_tuple_refuted_proof : exists P WORDS g p, grid_type P /\ valid P p /\
  gb_repeat P WORDS false = Ret g /\ gb_get P g p = Panic /\ gb_set P g p true = Panic.
Proof.
  exists (IntTuple u8), 2033, (repeat 0 (Z.to_nat 2033)), (255, 255).
  split; [apply IntTuple_u8_grid_type |]. vm_compute. intuition discriminate.
Qed.

Lemma array_get_out : forall {A} (l : list A) i, Z.of_nat (length l) <= i -> array_get l i = Panic.
Proof.
  intros A l i H. unfold array_get. destruct (0 <=? i); [|reflexivity]. destruct (nth_error l (Z.to_nat i)) eqn:E; [|reflexivity].
  assert (X : nth_error l (Z.to_nat i) <> None) by congruence. apply nth_error_Some in X. lia.
Qed.

Lemma C68_gridbool_assert_partial_proof : forall P WORDS v g p u, grid_type P -> in_ity usize WORDS = true ->
  gb_repeat P WORDS v = Ret g -> valid P p ->
  pt_WIDTH P * pt_HEIGHT P <= 32 * WORDS <= pt_WIDTH P * pt_HEIGHT P + 32 /\
  (index_of P p < 32 * WORDS -> gb_get P g p = Ret v /\ exists g', gb_set P g p u = Ret g') /\
  (32 * WORDS <= index_of P p -> gb_get P g p = Panic /\ gb_set P g p u = Panic).
Proof.
  intros P WORDS v g p u G HW E V. apply in_ity_true in HW. cbn in HW. unfold gb_repeat in E.
  destruct (gridbool_asserts P WORDS) as [ok | | |] eqn:Ea; cbn [bind] in E; try discriminate. destruct ok; [|discriminate]. inv E.
  set (g := repeat (if v then WORD_TRUE else WORD_FALSE) (Z.to_nat WORDS)).
  assert (Lg : Z.of_nat (length g) = WORDS) by (unfold g; rewrite repeat_length; lia).
  split.
  - unfold gridbool_asserts, umul, usub, arith in Ea. destruct (in_ity usize (pt_WIDTH P * pt_HEIGHT P)); [|discriminate]. cbn [bind] in Ea.
    destruct (in_ity usize (WORDS * 32)); [|discriminate]. cbn [bind] in Ea. destruct (pt_WIDTH P * pt_HEIGHT P <=? WORDS * 32) eqn:E1; [|discriminate].
    destruct (in_ity usize (WORDS * 32 - 32)); [|discriminate]. cbn [bind] in Ea. injection Ea as Ea. lia.
  - pose proof (index_bound P p G V) as B. split; intros H.
    + assert (A : array_get g (index_of P p / 32) = Ret (if v then WORD_TRUE else WORD_FALSE)).
      { apply array_get_ok; [lia |]. unfold g. apply nth_error_repeat. lia. }
      split.
      * unfold gb_get. rewrite to_usize_ok by assumption. cbn [bind]. unfold byte_bit. rewrite A. cbn [bind]. rewrite bit_pow by lia. rewrite land_bit by lia.
        f_equal. destruct v; [apply ones32; lia | apply Z.bits_0].
      * destruct u; cbn [gb_set]; unfold gb_set_t, gb_set_f; rewrite to_usize_ok by assumption; cbn [bind]; unfold byte_bit; rewrite A; cbn [bind];
          rewrite array_set_ok by lia; eauto.
    + assert (A : array_get g (index_of P p / 32) = Panic) by (apply array_get_out; lia).
      split; [unfold gb_get | destruct u; cbn [gb_set]; unfold gb_set_t, gb_set_f]; rewrite to_usize_ok by assumption; cbn [bind]; unfold byte_bit; rewrite A; reflexivity.
Qed.

Lemma C38_macro_sizes_proof : forall X Y, u16_dims X Y ->
  let n := (X + 1) * (Y + 1) in
  sqrid_create_SIZE X Y = Ret n /\ grid_create_SIZE X Y = Ret n /\
  grid_asserts (Pos X Y) n = Ret true /\ cells (Pos X Y) = n /\
  exists w1 w2, sqrid_create_WORDS X Y = Ret w1 /\ gridbool_create_WORDS X Y = Ret w2 /\
    gridbool_asserts (Pos X Y) w1 = Ret true /\ gridbool_asserts (Pos X Y) w2 = Ret true /\
    n <= 32 * w2 /\ 32 * (w2 - 1) < n /\ w2 <= w1 <= w2 + 1.
Proof.
  intros X Y D n. pose proof (Pos_grid_type X Y D) as G. pose proof (cells_pos _ G) as HC.
  change (cells (Pos X Y)) with n in HC. destruct D as (HX & HY).
  unfold sqrid_create_SIZE, grid_create_SIZE, sqrid_create_WORDS, gridbool_create_WORDS, uadd, umul.
  rewrite !(usize_arith (X + 1)), !(usize_arith (Y + 1)) by lia. cbn [bind]. fold n.
  rewrite !(usize_arith n) by lia. cbn [bind].
  split; [reflexivity |]. split; [reflexivity |]. split.
  { unfold grid_asserts. change (pt_WIDTH (Pos X Y) * pt_HEIGHT (Pos X Y)) with n. unfold umul.
    change (pt_WIDTH (Pos X Y) * pt_HEIGHT (Pos X Y)) with n. rewrite usize_arith by lia. cbn [bind]. rewrite Z.eqb_refl. reflexivity. }
  split; [reflexivity |]. exists (n / 32 + 1), ((n + 31) / 32).
  rewrite !usize_arith by lia. cbn [bind]. split; [reflexivity |]. split; [reflexivity |].
  rewrite !asserts_pos by (try (split; assumption); lia). change (cells (Pos X Y)) with n.
  replace (n <=? (n / 32 + 1) * 32) with true by lia. replace (n <=? (n + 31) / 32 * 32) with true by lia.
  replace (n / 32 + 1 =? 0) with false by lia. replace ((n + 31) / 32 =? 0) with false by lia.
  replace (n >=? (n / 32 + 1) * 32 - 32) with true by lia. replace (n >=? (n + 31) / 32 * 32 - 32) with true by lia.
  split; [reflexivity |]. split; [reflexivity |]. lia.
Qed.

Lemma all_rows_index : forall P n p, grid_type P -> nth_error (all_rows P) n = Some p -> index_of P p = Z.of_nat n.
Proof.
  intros P n p G E. assert (V : valid P p) by (apply all_rows_In; eapply nth_error_In; exact E).
  pose proof (all_rows_nth P p G V) as N. pose proof (index_bound P p G V) as B.
  assert (H : Z.to_nat (index_of P p) = n); [|lia].
  pose proof (all_of_NoDup P true) as ND. change (all_of P true) with (all_rows P) in ND.
  rewrite NoDup_nth_error in ND. apply ND; [apply nth_error_Some; congruence | congruence].
Qed.

Lemma sorted_nth : forall {A} (R : A -> A -> Prop) l,
  (forall i j a b, (i < j)%nat -> nth_error l i = Some a -> nth_error l j = Some b -> R a b) -> StronglySorted R l.
Proof.
  intros A R l. induction l as [|x l IH]; intros H; constructor.
  - apply IH. intros i j a b L Ea Eb. apply (H (S i) (S j)); [lia | exact Ea | exact Eb].
  - apply Forall_forall. intros y Hy. apply In_nth_error in Hy. destruct Hy as (n & E).
    apply (H O (S n)); [lia | reflexivity | exact E].
Qed.

Lemma all_rows_sorted : forall P, grid_type P -> StronglySorted (fun p q => index_of P p < index_of P q) (all_rows P).
Proof.
  intros P G. apply sorted_nth. intros i j a b L Ea Eb. apply all_rows_index in Ea, Eb; [lia | exact G..].
Qed.

Lemma filter_sorted : forall {A} (R : A -> A -> Prop) f l, StronglySorted R l -> StronglySorted R (filter f l).
Proof.
  intros A R f l H. induction H as [|x l H IH F]; [constructor |]. cbn. destruct (f x); [|exact IH].
  constructor; [exact IH |]. rewrite Forall_forall in *. intros y Hy. apply filter_In in Hy. apply F, Hy.
Qed.

Lemma filterM_pure : forall {A} (f : A -> exec bool) (g : A -> bool) l,
  (forall x, In x l -> f x = Ret (g x)) -> filterM f l = Ret (filter g l).
Proof.
  intros A f g l. induction l as [|x l IH]; intros H; [reflexivity |].
  cbn [filterM filter]. rewrite H by (left; reflexivity). cbn [bind]. rewrite IH; [reflexivity |].
  intros y Hy. apply H. right. exact Hy.
Qed.

Lemma gb_iter_ok : forall P g, grid_type P -> roomy P g ->
  gb_iter P g = Ret (map (fun p => bit_at g (index_of P p)) (all_rows P)).
Proof.
  intros P g G R. unfold gb_iter. rewrite (iter_list_of P true (grid_type_wf P G)). cbn [bind].
  apply mapM_pure. intros p Hp. apply all_rows_In in Hp. apply gb_get_ok; assumption.
Qed.

Lemma C39_gridbool_iter_proof : forall P g, grid_type P -> roomy P g ->
  exists bs, gb_iter P g = Ret bs /\ Z.of_nat (length bs) = cells P /\
    (forall p, valid P p -> exists b, gb_get P g p = Ret b /\ nth_error bs (Z.to_nat (index_of P p)) = Some b) /\
    gb_iter_pos P g = Ret (combine (all_rows P) bs).
Proof.
  intros P g G R. rewrite gb_iter_ok by assumption. eexists. split; [reflexivity |].
  split; [rewrite map_length; apply all_rows_length; exact G |]. split.
  - intros p V. exists (bit_at g (index_of P p)). split; [apply gb_get_ok; assumption |].
    rewrite (map_nth_error _ _ _ (all_rows_nth P p G V)). reflexivity.
  - unfold gb_iter_pos. rewrite (iter_list_of P true (grid_type_wf P G)). cbn [bind].
    change (all_of P true) with (all_rows P).
    rewrite mapM_pure with (g := fun p => (p, bit_at g (index_of P p))).
    + f_equal. generalize (all_rows P). intros l. induction l as [|x l IH]; [reflexivity |]. cbn. rewrite IH. reflexivity.
    + intros p Hp. apply all_rows_In in Hp. rewrite gb_get_ok by assumption. reflexivity.
Qed.

Lemma C39_gridbool_iter_tf_proof : forall P g, grid_type P -> roomy P g ->
  exists lt lf, gb_iter_t P g = Ret lt /\ gb_iter_f P g = Ret lf /\
    (forall p, In p lt <-> valid P p /\ gb_get P g p = Ret true) /\
    (forall p, In p lf <-> valid P p /\ gb_get P g p = Ret false) /\
    StronglySorted (fun p q => index_of P p < index_of P q) lt /\
    StronglySorted (fun p q => index_of P p < index_of P q) lf.
Proof.
  intros P g G R. unfold gb_iter_t, gb_iter_f. rewrite (iter_list_of P true (grid_type_wf P G)). cbn [bind].
  change (all_of P true) with (all_rows P).
  rewrite filterM_pure with (g := fun p => bit_at g (index_of P p)) by (intros p Hp; apply all_rows_In in Hp; apply gb_get_ok; assumption).
  rewrite filterM_pure with (g := fun p => negb (bit_at g (index_of P p)))
    by (intros p Hp; apply all_rows_In in Hp; rewrite gb_get_ok by assumption; reflexivity).
  eexists. eexists. split; [reflexivity |]. split; [reflexivity |].
  split; [|split; [|split; apply filter_sorted, all_rows_sorted, G]].
  - intros p. rewrite filter_In, all_rows_In. split; intros (V & H); (split; [exact V |]);
      rewrite gb_get_ok in * by assumption; congruence.
  - intros p. rewrite filter_In, all_rows_In, negb_true_iff. split; intros (V & H); (split; [exact V |]);
      rewrite gb_get_ok in * by assumption; congruence.
Qed.

Lemma set_iter_ok : forall P v ps g, grid_type P -> roomy P g -> (forall p, In p ps -> valid P p) ->
  exists g', foldM (fun g p => gb_set P g p v) ps g = Ret g' /\ frame P g g' /\
    (forall p, valid P p -> In p ps -> gb_get P g' p = Ret v) /\
    (forall p, valid P p -> ~ In p ps -> gb_get P g' p = gb_get P g p).
Proof.
  intros P v ps. induction ps as [|q ps IH]; intros g G R H.
  - exists g. split; [reflexivity |]. split; [apply frame_refl; exact R |]. split; [intros p _ [] | reflexivity].
  - destruct (gb_set_laws P G g q v R) as (g1 & E1 & F1 & H1); [apply H; left; reflexivity |].
    destruct (IH g1 G (proj1 F1)) as (g2 & E2 & F2 & H2 & H3); [intros p Hp; apply H; right; exact Hp |].
    exists g2. cbn [foldM]. rewrite E1. cbn [bind]. split; [exact E2 |].
    split; [eapply frame_trans; eassumption |]. split.
    + intros p V Hin. destruct (in_dec pos_eq_dec p ps) as [I | I]; [apply H2; assumption |].
      destruct Hin as [<- | Hin]; [|contradiction]. rewrite H3, H1, pos_eqb_refl by assumption. reflexivity.
    + intros p V Hn. cbn [In] in Hn. rewrite H3, H1 by (assumption || intuition congruence).
      rewrite (proj2 (pos_eqb_neq q p)) by intuition congruence. reflexivity.
Qed.

Lemma C39_gridbool_set_iter_proof : forall P g ps, grid_type P -> roomy P g -> (forall p, In p ps -> valid P p) ->
  (exists g', gb_set_iter_t P g ps = Ret g' /\ roomy P g' /\ length g' = length g /\
    forall p, valid P p -> (In p ps -> gb_get P g' p = Ret true) /\ (~ In p ps -> gb_get P g' p = gb_get P g p)) /\
  (exists g', gb_set_iter_f P g ps = Ret g' /\ roomy P g' /\ length g' = length g /\
    forall p, valid P p -> (In p ps -> gb_get P g' p = Ret false) /\ (~ In p ps -> gb_get P g' p = gb_get P g p)).
Proof.
  intros P g ps G R H. split.
  - destruct (set_iter_ok P true ps g G R H) as (g' & E & F & H1 & H2). exists g'.
    split; [exact E |]. split; [apply F |]. split; [apply F |]. auto.
  - destruct (set_iter_ok P false ps g G R H) as (g' & E & F & H1 & H2). exists g'.
    split; [exact E |]. split; [apply F |]. split; [apply F |]. auto.
Qed.

Lemma C39_gridbool_from_positions_proof : forall X Y WORDS g0 ps, u16_dims X Y -> in_ity usize WORDS = true ->
  let P := Pos X Y in
  gb_repeat P WORDS false = Ret g0 -> (forall p, In p ps -> valid P p) ->
  exists g, gb_from_positions P WORDS ps = Ret g /\ roomy P g /\
    forall p, valid P p -> (gb_get P g p = Ret true <-> In p ps) /\ (gb_get P g p = Ret false <-> ~ In p ps).
Proof.
  intros X Y WORDS g0 ps D HW P E0 H. pose proof (Pos_grid_type X Y D) as G. fold P in G.
  destruct (C37_gridbool_repeat_proof X Y WORDS false D HW) as (R1 & R2). fold P in R1, R2.
  assert (C : cells P <= 32 * WORDS <= cells P + 32).
  { destruct (Z_le_dec (cells P) (32 * WORDS)), (Z_le_dec (32 * WORDS) (cells P + 32)); try lia;
      rewrite R2 in E0 by lia; discriminate. }
  destruct (R1 C) as (g1 & E1 & RO & _ & Hf & _ & Hd). rewrite E0 in E1. inv E1.
  unfold gb_from_positions. destruct (Hd eq_refl) as (-> & _). cbn [bind].
  destruct (set_iter_ok P true ps g1 G RO H) as (g & E & F & H1 & H2).
  exists g. split; [exact E |]. split; [apply F |]. intros p V.
  destruct (in_dec pos_eq_dec p ps) as [I | I].
  - rewrite H1 by assumption. split; split; intros; try congruence; auto; contradiction.
  - rewrite H2, Hf by assumption. split; split; intros; try congruence; auto; contradiction.
Qed.

Lemma gb_fill_ok : forall P ps it g, grid_type P -> roomy P g -> (forall p, In p ps -> valid P p) -> NoDup ps ->
  ((length it < length ps)%nat -> gb_fill P g ps it = Panic) /\
  ((length ps <= length it)%nat -> exists g', gb_fill P g ps it = Ret (g', skipn (length ps) it) /\ frame P g g' /\
    (forall n p, nth_error ps n = Some p -> exists b, nth_error it n = Some b /\ gb_get P g' p = Ret b) /\
    (forall p, valid P p -> ~ In p ps -> gb_get P g' p = gb_get P g p)).
Proof.
  intros P ps. induction ps as [|q ps IH]; intros it g G R H ND.
  - split; [cbn; lia |]. intros _. exists g. split; [reflexivity |]. split; [apply frame_refl; exact R |].
    split; [intros [|n] p E; discriminate | reflexivity].
  - inversion ND as [|? ? N1 N2]; subst. destruct it as [|v it]; cbn [gb_fill length].
    + split; [reflexivity | lia].
    + destruct (gb_set_laws P G g q v R) as (g1 & E1 & F1 & H1); [apply H; left; reflexivity |]. rewrite E1. cbn [bind].
      destruct (IH it g1 G (proj1 F1)) as (IH1 & IH2); [intros p Hp; apply H; right; exact Hp | exact N2 |].
      split; [intros L; apply IH1; lia |]. intros L. destruct IH2 as (g2 & E2 & F2 & H2 & H3); [lia |].
      exists g2. cbn [skipn]. split; [exact E2 |]. split; [eapply frame_trans; eassumption |]. split.
      * intros [|n] p E; cbn in E.
        -- inv E. exists v. split; [reflexivity |]. assert (V : valid P p) by (apply H; left; reflexivity).
           rewrite H3, H1, pos_eqb_refl by assumption. reflexivity.
        -- apply (H2 n p E).
      * intros p V Hn. cbn [In] in Hn. rewrite H3, H1 by (assumption || intuition congruence).
        rewrite (proj2 (pos_eqb_neq q p)) by intuition congruence. reflexivity.
Qed.

Lemma C39_gridbool_from_bools_proof : forall X Y WORDS g0 it, u16_dims X Y -> in_ity usize WORDS = true ->
  let P := Pos X Y in
  gb_repeat P WORDS false = Ret g0 ->
  (Z.of_nat (length it) = cells P ->
    exists g, gb_from_bools P WORDS it = Ret g /\ roomy P g /\ gb_iter P g = Ret it) /\
  (Z.of_nat (length it) <> cells P -> gb_from_bools P WORDS it = Panic).
Proof.
  intros X Y WORDS g0 it D HW P E0. pose proof (Pos_grid_type X Y D) as G. fold P in G.
  destruct (C37_gridbool_repeat_proof X Y WORDS false D HW) as (R1 & R2). fold P in R1, R2.
  assert (C : cells P <= 32 * WORDS <= cells P + 32).
  { destruct (Z_le_dec (cells P) (32 * WORDS)), (Z_le_dec (32 * WORDS) (cells P + 32)); try lia;
      rewrite R2 in E0 by lia; discriminate. }
  destruct (R1 C) as (g1 & E1 & RO & _ & Hf & _ & Hd). rewrite E0 in E1. inv E1.
  unfold gb_from_bools. destruct (Hd eq_refl) as (-> & _). cbn [bind].
  rewrite (iter_list_of P true (grid_type_wf P G)). cbn [bind]. change (all_of P true) with (all_rows P).
  pose proof (all_rows_length P G) as LA.
  destruct (gb_fill_ok P (all_rows P) it g1 G RO) as (F1 & F2).
  { intros p Hp. apply all_rows_In. exact Hp. }
  { exact (all_of_NoDup P true). }
  split.
  - intros L. destruct F2 as (g & E & F & H1 & _); [lia |]. rewrite E. cbn [bind].
    rewrite skipn_all2 by lia. exists g. split; [reflexivity |]. split; [apply F |].
    rewrite gb_iter_ok by (assumption || apply F). f_equal. apply nth_error_ext. intros n.
    destruct (nth_error (all_rows P) n) as [p|] eqn:En.
    + rewrite (map_nth_error _ n _ En). destruct (H1 n p En) as (b & Eb & Hb). rewrite Eb.
      assert (V : valid P p) by (apply all_rows_In; eapply nth_error_In; exact En).
      rewrite gb_get_ok in Hb by (assumption || apply F). congruence.
    + apply nth_error_None in En. rewrite (proj2 (nth_error_None it n)) by lia.
      apply nth_error_None. rewrite map_length. lia.
  - intros L. destruct (Z_lt_dec (Z.of_nat (length it)) (cells P)) as [Lt | Ge].
    + rewrite F1 by lia. reflexivity.
    + destruct F2 as (g & E & _); [lia |]. rewrite E. cbn [bind].
      destruct (skipn (length (all_rows P)) it) eqn:Es; [|reflexivity].
      apply (f_equal (@length bool)) in Es. rewrite skipn_length in Es. cbn in Es. lia.
Qed.

Lemma frame_ext : forall P g g' g'', grid_type P -> roomy P g -> frame P g g' -> frame P g' g'' ->
  (forall p, valid P p -> gb_get P g'' p = gb_get P g p) -> g'' = g.
Proof.
  intros P g g' g'' G R F1 F2 H. pose proof (frame_trans P _ _ _ F1 F2) as (R2 & L & B).
  apply gb_eqb_eq. apply (eq_bits P G); try assumption. split; [exact H |].
  intros i Hi. apply B. rewrite <- L. exact Hi.
Qed.

Lemma C40_gridbool_flips_proof : forall P g, grid_type P -> roomy P g ->
  exists gh gv, gb_flip_h P g = Ret gh /\ gb_flip_v P g = Ret gv /\ roomy P gh /\ roomy P gv /\
    (forall x y, valid P (x, y) -> gb_get P gh (XM P - x, y) = gb_get P g (x, y)) /\
    (forall x y, valid P (x, y) -> gb_get P gv (x, YM P - y) = gb_get P g (x, y)) /\
    gb_flip_h P gh = Ret g /\ gb_flip_v P gv = Ret g.
Proof.
  intros P g G R.
  destruct (gb_flip_h_ok P G g R) as (gh & Eh & Fh & Oh).
  destruct (gb_flip_v_ok P G g R) as (gv & Ev & Fv & Ov).
  exists gh, gv. do 2 (split; [assumption |]). split; [apply Fh |]. split; [apply Fv |].
  split.
  { intros x y V. change (XM P - x, y) with (mirror_h P (x, y)).
    rewrite Oh by (apply flip_h_valid; assumption). rewrite mirror_h_inv. reflexivity. }
  split.
  { intros x y V. change (x, YM P - y) with (mirror_v P (x, y)).
    rewrite Ov by (apply flip_v_valid; assumption). rewrite mirror_v_inv. reflexivity. }
  split.
  - destruct (gb_flip_h_ok P G gh (proj1 Fh)) as (g2 & E2 & F2 & O2). rewrite E2. f_equal.
    apply (frame_ext P g gh); try assumption. intros p V. rewrite O2 by exact V.
    rewrite Oh by (apply flip_h_valid; assumption). rewrite mirror_h_inv. reflexivity.
  - destruct (gb_flip_v_ok P G gv (proj1 Fv)) as (g2 & E2 & F2 & O2). rewrite E2. f_equal.
    apply (frame_ext P g gv); try assumption. intros p V. rewrite O2 by exact V.
    rewrite Ov by (apply flip_v_valid; assumption). rewrite mirror_v_inv. reflexivity.
Qed.

Lemma C41_gridbool_rotation_refuted_proof : exists W g x y, u16_dims W W /\ roomy (Pos W W) g /\ valid (Pos W W) (x, y) /\
  (exists gw, gb_rotate_cw W g = Ret gw /\ gb_get (Pos W W) gw (W - y, x) <> gb_get (Pos W W) g (x, y)) /\
  (exists gc, gb_rotate_cc W g = Ret gc /\ gb_get (Pos W W) gc (y, W - x) <> gb_get (Pos W W) g (x, y)).
Proof.
  exists 1, [2147483648], 0, 0. split; [unfold u16_dims; lia |].
  split; [split; [repeat constructor; lia | cbn; lia] |].
  split; [vm_compute; intuition discriminate |].
  split; exists [2147483648]; (split; [reflexivity | discriminate]).
Qed.

Lemma C41_gridbool_rotation_partial_proof : forall W g, u16_dims W W -> W mod 2 = 0 -> roomy (Pos W W) g ->
  let P := Pos W W in
  exists gw gc, gb_rotate_cw W g = Ret gw /\ gb_rotate_cc W g = Ret gc /\ roomy P gw /\ roomy P gc /\
    (forall x y, valid P (x, y) -> gb_get P gw (W - y, x) = gb_get P g (x, y)) /\
    (forall x y, valid P (x, y) -> gb_get P gc (y, W - x) = gb_get P g (x, y)) /\
    gb_rotate_cc W gw = Ret g /\ gb_rotate_cw W gc = Ret g.
Proof.
  intros W g (HW & _) HE R P. pose proof (Pos_grid_type W W (conj HW HW)) as G. fold P in G.
  assert (NM : forall p, ~ middle W p) by (intros p (H & _); lia).
  destruct (gb_rotate_cw_ok W HW g R) as (gw & Ew & Fw & Ow & _).
  destruct (gb_rotate_cc_ok W HW g R) as (gc & Ec & Fc & Oc & _).
  fold P in Fw, Fc, Ow, Oc.
  exists gw, gc. do 2 (split; [assumption |]). split; [apply Fw |]. split; [apply Fc |].
  split; [|split; [|split]].
  - intros x y V. change (W - y, x) with (turn_cw W (x, y)).
    rewrite Ow by (apply NM || (apply (valid_cw W HW); exact V)). rewrite turn_cc_cw. reflexivity.
  - intros x y V. change (y, W - x) with (turn_cc W (x, y)).
    rewrite Oc by (apply NM || (apply (valid_cc W HW); exact V)). rewrite turn_cw_cc. reflexivity.
  - destruct (gb_rotate_cc_ok W HW gw (proj1 Fw)) as (g2 & E2 & F2 & O2 & _). rewrite E2. f_equal.
    apply (frame_ext P g gw); try assumption. intros p V. rewrite O2 by (exact V || apply NM).
    fold P. rewrite Ow by (apply NM || (apply (valid_cw W HW); exact V)). rewrite turn_cc_cw. reflexivity.
  - destruct (gb_rotate_cw_ok W HW gc (proj1 Fc)) as (g2 & E2 & F2 & O2 & _). rewrite E2. f_equal.
    apply (frame_ext P g gc); try assumption. intros p V. rewrite O2 by (exact V || apply NM).
    fold P. rewrite Oc by (apply NM || (apply (valid_cc W HW); exact V)). rewrite turn_cw_cc. reflexivity.
Qed.

Lemma middle_cw : forall W p, middle W p <-> middle W (turn_cw W p).
Proof. intros W [x y]. unfold middle, turn_cw. cbn [fst snd]. lia. Qed.

Lemma middle_cc : forall W p, middle W p <-> middle W (turn_cc W p).
Proof. intros W [x y]. unfold middle, turn_cc. cbn [fst snd]. lia. Qed.

Lemma C69_gridbool_rotation_exact_proof : forall W g, u16_dims W W -> roomy (Pos W W) g ->
  let P := Pos W W in
  let central p := W mod 2 = 1 /\ W / 2 <= fst p <= W / 2 + 1 /\ W / 2 <= snd p <= W / 2 + 1 in
  exists gw gc, gb_rotate_cw W g = Ret gw /\ gb_rotate_cc W g = Ret gc /\ roomy P gw /\ roomy P gc /\
    (forall p, valid P p -> central p -> gb_get P gw p = gb_get P g p /\ gb_get P gc p = gb_get P g p) /\
    (forall x y, valid P (x, y) -> ~ central (x, y) -> gb_get P gw (W - y, x) = gb_get P g (x, y)) /\
    (forall x y, valid P (x, y) -> ~ central (x, y) -> gb_get P gc (y, W - x) = gb_get P g (x, y)) /\
    gb_rotate_cc W gw = Ret g /\ gb_rotate_cw W gc = Ret g.
Proof.
  intros W g (HW & _) R P central. pose proof (Pos_grid_type W W (conj HW HW)) as G. fold P in G.
  assert (MD : forall p, middle W p \/ ~ middle W p) by (intros p; unfold middle; lia).
  destruct (gb_rotate_cw_ok W HW g R) as (gw & Ew & Fw & Ow & Mw).
  destruct (gb_rotate_cc_ok W HW g R) as (gc & Ec & Fc & Oc & Mc).
  fold P in Fw, Fc, Ow, Oc, Mw, Mc.
  exists gw, gc. do 2 (split; [assumption |]). split; [apply Fw |]. split; [apply Fc |].
  split; [intros p V C; split; [apply Mw | apply Mc]; assumption |].
  split; [|split; [|split]].
  - intros x y V C. change (W - y, x) with (turn_cw W (x, y)).
    rewrite Ow; [rewrite turn_cc_cw; reflexivity | apply (valid_cw W HW); exact V | rewrite <- middle_cw; exact C].
  - intros x y V C. change (y, W - x) with (turn_cc W (x, y)).
    rewrite Oc; [rewrite turn_cw_cc; reflexivity | apply (valid_cc W HW); exact V | rewrite <- middle_cc; exact C].
  - destruct (gb_rotate_cc_ok W HW gw (proj1 Fw)) as (g2 & E2 & F2 & O2 & M2). rewrite E2. f_equal.
    apply (frame_ext P g gw); try assumption. intros p V. destruct (MD p) as [M | M].
    + rewrite M2 by assumption. apply Mw; assumption.
    + rewrite O2 by assumption. fold P. rewrite Ow; [rewrite turn_cc_cw; reflexivity | apply (valid_cw W HW); exact V | rewrite <- middle_cw; exact M].
  - destruct (gb_rotate_cw_ok W HW gc (proj1 Fc)) as (g2 & E2 & F2 & O2 & M2). rewrite E2. f_equal.
    apply (frame_ext P g gc); try assumption. intros p V. destruct (MD p) as [M | M].
    + rewrite M2 by assumption. apply Mc; assumption.
    + rewrite O2 by assumption. fold P. rewrite Oc; [rewrite turn_cw_cc; reflexivity | apply (valid_cc W HW); exact V | rewrite <- middle_cc; exact M].
Qed.

Lemma C42_gridbool_eq_refuted_proof : exists P WORDS a b, grid_type P /\
  gb_ALL_TRUE P WORDS = Ret a /\ gb_from_positions P WORDS (all_rows P) = Ret b /\
  (forall p, valid P p -> gb_get P a p = gb_get P b p) /\ gb_eqb a b = false.
Proof.
  exists (Pos 1 1), 1, [4294967295], [4026531840].
  assert (G : grid_type (Pos 1 1)) by (apply Pos_grid_type; unfold u16_dims; lia).
  split; [exact G |]. split; [reflexivity |]. split; [vm_compute; reflexivity |]. split; [|reflexivity].
  intros [x y] V. apply (proj1 (valid_nums _ _ G)) in V. change (XM (Pos 1 1)) with 1 in V. change (YM (Pos 1 1)) with 1 in V.
  cbn [fst snd] in V. assert (x = 0 \/ x = 1) as [-> | ->] by lia; assert (y = 0 \/ y = 1) as [-> | ->] by lia; reflexivity.
Qed.

Lemma sets_ok : forall P items g, grid_type P -> roomy P g -> (forall p v, In (p, v) items -> valid P p) ->
  exists g', foldM (fun g pv => gb_set P g (fst pv) (snd pv)) items g = Ret g' /\ frame P g g'.
Proof.
  intros P items. induction items as [|[q v] items IH]; intros g G R H.
  - exists g. split; [reflexivity | apply frame_refl; exact R].
  - destruct (gb_set_laws P G g q v R) as (g1 & E1 & F1 & _); [apply (H q v); left; reflexivity |].
    cbn [foldM fst snd]. rewrite E1. cbn [bind].
    destruct (IH g1 G (proj1 F1)) as (g2 & E2 & F2); [intros p w Hp; apply (H p w); right; exact Hp |].
    exists g2. split; [exact E2 | eapply frame_trans; eassumption].
Qed.

Lemma C42_gridbool_eq_partial_proof : forall P, grid_type P ->
  (forall g items1 items2, roomy P g ->
    (forall p v, In (p, v) (items1 ++ items2) -> valid P p) ->
    exists a b, foldM (fun g pv => gb_set P g (fst pv) (snd pv)) items1 g = Ret a /\
      foldM (fun g pv => gb_set P g (fst pv) (snd pv)) items2 g = Ret b /\
      (gb_eqb a b = true <-> forall p, valid P p -> gb_get P a p = gb_get P b p)) /\
  (forall a b, roomy P a -> roomy P b -> 32 * Z.of_nat (length a) = cells P -> length b = length a ->
    (gb_eqb a b = true <-> forall p, valid P p -> gb_get P a p = gb_get P b p)).
Proof.
  intros P G. split.
  - intros g i1 i2 R H.
    destruct (sets_ok P i1 g G R) as (a & Ea & Ra & La & Ba); [intros p v Hp; apply (H p v), in_or_app; auto |].
    destruct (sets_ok P i2 g G R) as (b & Eb & Rb & Lb & Bb); [intros p v Hp; apply (H p v), in_or_app; auto |].
    exists a, b. split; [exact Ea |]. split; [exact Eb |].
    rewrite (eq_bits P G) by (assumption || congruence). split; [intros (K & _); exact K |]. intros K. split; [exact K |].
    intros i Hi. rewrite La in Hi. rewrite Ba, Bb by exact Hi. reflexivity.
  - intros a b Ra Rb La Lb. rewrite (eq_bits P G) by (assumption || congruence).
    split; [intros (K & _); exact K |]. intros K. split; [exact K | intros i Hi; lia].
Qed.

Lemma C70_gridbool_eq_exact_proof : forall P a b, grid_type P -> roomy P a -> roomy P b -> length a = length b ->
  (gb_eqb a b = true <->
    (forall p, valid P p -> gb_get P a p = gb_get P b p) /\
    (forall i, cells P <= i < 32 * Z.of_nat (length a) -> bit_at a i = bit_at b i)).
Proof.
  intros P a b G. apply (eq_bits P G).
Qed.

Lemma C70_gridbool_spare_bits_proof : forall P g g', grid_type P -> roomy P g ->
  (exists p v, valid P p /\ gb_set P g p v = Ret g') \/
  gb_flip_h P g = Ret g' \/ gb_flip_v P g = Ret g' \/
  (exists W, u16_dims W W /\ P = Pos W W /\ (gb_rotate_cw W g = Ret g' \/ gb_rotate_cc W g = Ret g')) ->
  length g' = length g /\
  forall i, cells P <= i < 32 * Z.of_nat (length g) -> bit_at g' i = bit_at g i.
Proof.
  intros P g g' G R H.
  assert (F : frame P g g'); [|destruct F as (_ & F1 & F2); split; [exact F1 | exact F2]].
  destruct H as [(p & v & V & E) | [E | [E | (W & (HW & _) & -> & [E | E])]]].
  - destruct (gb_set_laws P G g p v R V) as (g1 & E1 & F & _). congruence.
  - destruct (gb_flip_h_ok P G g R) as (g1 & E1 & F & _). congruence.
  - destruct (gb_flip_v_ok P G g R) as (g1 & E1 & F & _). congruence.
  - destruct (gb_rotate_cw_ok W HW g R) as (g1 & E1 & F & _). congruence.
  - destruct (gb_rotate_cc_ok W HW g R) as (g1 & E1 & F & _). congruence.
Qed.

Lemma C70_gridbool_repeat_bits_proof : forall X Y WORDS v g, u16_dims X Y -> in_ity usize WORDS = true ->
  gb_repeat (Pos X Y) WORDS v = Ret g -> forall i, 0 <= i < 32 * Z.of_nat (length g) -> bit_at g i = v.
Proof.
  intros X Y WORDS v g D HW E i Hi. unfold gb_repeat in E.
  destruct (gridbool_asserts (Pos X Y) WORDS) as [[|] | | | ]; cbn [bind] in E; try discriminate. inv E.
  rewrite repeat_length in Hi. apply repeat_bit. lia.
Qed.
