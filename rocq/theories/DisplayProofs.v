(** DisplayProofs.v -- lemmas about the Display implementations. *)

From Coq Require Import ZArith List Bool Lia.
From Verif Require Import Rust BoundedInt Dir PosT Pos Grid Gridbool Display Spec SpecDisplay Lib BoundedIntProofs PosTProofs.
Import ListNotations.
Open Scope Z_scope.

(** ** Numerals *)

Lemma value_from_app : forall s t acc, value_from acc (s ++ t) = value_from (value_from acc s) t.
Proof. induction s as [|c s IH]; intros t acc; cbn; [reflexivity | apply IH]. Qed.

Lemma dec_digits_spec : forall fuel i, (0 < fuel)%nat -> 0 <= i < 10 ^ Z.of_nat fuel ->
  numeral i (dec_digits fuel i) /\ i < 10 ^ Z.of_nat (length (dec_digits fuel i)) /\
  ((1 < length (dec_digits fuel i))%nat -> 10 ^ (Z.of_nat (length (dec_digits fuel i)) - 1) <= i).
Proof.
  induction fuel as [|fuel IH]; intros i Hf Hi; [lia |]. cbn [dec_digits]. destruct (i <? 10) eqn:E; bool2prop.
  - split; [|cbn [length]; change (10 ^ Z.of_nat 1) with 10; split; lia]. split; [discriminate |]. split; [intros c [<- | []]; lia |]. split; [cbn [length]; lia |]. cbn [value_from]. lia.
  - rewrite Nat2Z.inj_succ, Z.pow_succ_r in Hi by lia. pose proof (Z.div_mod i 10 ltac:(lia)) as DM. pose proof (Z.mod_pos_bound i 10 ltac:(lia)) as MB.
    assert (Hq : 1 <= i / 10 < 10 ^ Z.of_nat fuel) by (split; [apply Z.div_le_lower_bound; lia | apply Z.div_lt_upper_bound; lia]).
    assert (F : (0 < fuel)%nat) by (destruct fuel; [cbn in Hq; lia | lia]).
    destruct (IH (i / 10) F ltac:(lia)) as ((N1 & N2 & N3 & N4) & L1 & L2).
    set (s := dec_digits fuel (i / 10)) in *. rewrite app_length. cbn [length].
    assert (Ls : (1 <= length s)%nat) by (destruct s; [congruence | cbn; lia]).
    assert (HD : hd 48 (s ++ [48 + i mod 10]) <> 48).
    { destruct s as [|c s']; [congruence |]. cbn [app hd]. destruct s' as [|c' s'].
      - cbn [value_from] in N4. lia.
      - apply N3. cbn. lia. }
    split; [|split].
    + split; [destruct s; discriminate |]. split; [|split; [intros _; exact HD |]].
      * intros c Hc. apply in_app_or in Hc. destruct Hc as [Hc | [<- | []]]; [apply N2; exact Hc | lia].
      * rewrite value_from_app, N4. cbn [value_from]. lia.
    + rewrite Nat2Z.inj_add. change (Z.of_nat 1) with 1. rewrite Z.pow_add_r by lia. lia.
    + intros _. rewrite Nat2Z.inj_add. change (Z.of_nat 1) with 1. replace (Z.of_nat (length s) + 1 - 1) with (Z.succ (Z.of_nat (length s) - 1)) by lia.
      rewrite Z.pow_succ_r by lia. destruct (Nat.eq_dec (length s) 1) as [e | ne]; [rewrite e; change (10 ^ (Z.of_nat 1 - 1)) with 1; lia |]. specialize (L2 ltac:(lia)). lia.
Qed.

Lemma fmt_dec_spec : forall i, 0 <= i -> numeral i (fmt_dec i) /\ i < 10 ^ Z.of_nat (length (fmt_dec i)) /\
  ((1 < length (fmt_dec i))%nat -> 10 ^ (Z.of_nat (length (fmt_dec i)) - 1) <= i).
Proof.
  intros i Hi. unfold fmt_dec. pose proof (Z.log2_nonneg i). apply dec_digits_spec; [lia |]. split; [exact Hi |].
  rewrite Z2Nat.id by lia. destruct (Z.eq_dec i 0) as [-> | N]; [reflexivity |].
  apply Z.lt_le_trans with (2 ^ (Z.log2 i + 1)); [apply (Z.log2_spec i); lia |]. apply Z.pow_le_mono_l. lia.
Qed.

Lemma fmt_dec_length : forall i j, 0 <= i <= j -> (length (fmt_dec i) <= length (fmt_dec j))%nat.
Proof.
  intros i j H. destruct (fmt_dec_spec i ltac:(lia)) as ((N1 & _) & _ & L1). destruct (fmt_dec_spec j ltac:(lia)) as ((N2 & _) & L2 & _).
  destruct (Nat.le_gt_cases (length (fmt_dec i)) (length (fmt_dec j))) as [L | L]; [exact L | exfalso].
  assert (1 <= length (fmt_dec j))%nat by (destruct (fmt_dec j); [congruence | cbn; lia]). specialize (L1 ltac:(lia)).
  assert (10 ^ Z.of_nat (length (fmt_dec j)) <= 10 ^ (Z.of_nat (length (fmt_dec i)) - 1)) by (apply Z.pow_le_mono_r; lia). lia.
Qed.

(** A number has only one numeral. *)
Lemma value_bound : forall s acc, 0 <= acc -> (forall c, In c s -> 48 <= c <= 57) ->
  acc * 10 ^ Z.of_nat (length s) <= value_from acc s < (acc + 1) * 10 ^ Z.of_nat (length s).
Proof.
  induction s as [|c s IH]; intros acc Ha H; [cbn; lia |]. cbn [value_from length]. rewrite Nat2Z.inj_succ, Z.pow_succ_r by lia.
  pose proof (H c (or_introl eq_refl)). destruct (IH (10 * acc + (c - 48)) ltac:(lia)) as (L1 & L2); [intros; apply H; right; assumption |].
  assert (0 < 10 ^ Z.of_nat (length s)) by (apply Z.pow_pos_nonneg; lia). nia.
Qed.

Lemma value_inj : forall s t, length s = length t -> (forall c, In c s -> 48 <= c <= 57) -> (forall c, In c t -> 48 <= c <= 57) ->
  forall a b, 0 <= a -> 0 <= b -> value_from a s = value_from b t -> a = b /\ s = t.
Proof.
  induction s as [|c s IH]; intros [|c' t] L Hs Ht a b Ha Hb E; try discriminate; [cbn in E; auto |].
  cbn [value_from] in E. pose proof (Hs c (or_introl eq_refl)). pose proof (Ht c' (or_introl eq_refl)).
  destruct (IH t ltac:(cbn in L; lia) (fun x Hx => Hs x (or_intror Hx)) (fun x Hx => Ht x (or_intror Hx)) (10 * a + (c - 48)) (10 * b + (c' - 48)) ltac:(lia) ltac:(lia) E) as (E1 & ->).
  assert (a = b /\ c = c') as (-> & ->) by lia. auto.
Qed.

Lemma numeral_unique : forall n s t, numeral n s -> numeral n t -> s = t.
Proof.
  assert (K : forall n s, numeral n s -> 0 <= n < 10 ^ Z.of_nat (length s) /\ ((1 < length s)%nat -> 10 ^ (Z.of_nat (length s) - 1) <= n)).
  { intros n s (N1 & N2 & N3 & <-). pose proof (value_bound s 0 ltac:(lia) N2) as B. split; [lia |]. intros L. specialize (N3 L).
    destruct s as [|c s]; [congruence |]. cbn [hd] in N3. pose proof (N2 c (or_introl eq_refl)). cbn [value_from length].
    destruct (value_bound s (10 * 0 + (c - 48)) ltac:(lia)) as (L1 & _); [intros; apply N2; right; assumption |].
    replace (Z.of_nat (S (length s)) - 1) with (Z.of_nat (length s)) by lia.
    assert (0 < 10 ^ Z.of_nat (length s)) by (apply Z.pow_pos_nonneg; lia). nia. }
  assert (Q : forall n s t, numeral n s -> numeral n t -> (length s <= length t)%nat).
  { intros n s t Hs Ht. destruct (Nat.le_gt_cases (length s) (length t)) as [L | L]; [exact L | exfalso].
    destruct (K n s Hs) as (_ & K1). destruct (K n t Ht) as (K2 & _). destruct Ht as (N & _).
    assert (1 <= length t)%nat by (destruct t; [congruence | cbn; lia]). specialize (K1 ltac:(lia)).
    assert (10 ^ Z.of_nat (length t) <= 10 ^ (Z.of_nat (length s) - 1)) by (apply Z.pow_le_mono_r; lia). lia. }
  intros n s t Hs Ht. assert (L : length s = length t) by (pose proof (Q n s t Hs Ht); pose proof (Q n t s Ht Hs); lia).
  destruct Hs as (_ & Hs & _ & Es). destruct Ht as (_ & Ht & _ & Et). apply (value_inj s t L Hs Ht 0 0); lia.
Qed.

(** ** Grids *)

Lemma zrange_interval : forall w, zrange 0 w = interval 0 (w - 1).
Proof. intros w. unfold interval. f_equal. lia. Qed.

Section Picture.
  Context (pad : str -> str).

  Lemma fmt_dec_width_aligned : forall i w, fmt_dec_width i w = aligned w (fmt_dec i).
  Proof. reflexivity. Qed.

  Lemma aligned_length : forall w s, (length s <= w)%nat -> length (aligned w s) = w.
  Proof using. clear pad. intros w s L. unfold aligned. rewrite app_length, repeat_length. lia. Qed.

  Lemma headerfooter_ok : forall w h, 1 <= w ->
    headerfooter pad (length (fmt_dec (w - 1))) (length (fmt_dec (h - 1)))
      (map (fun i => fmt_dec_width i (length (fmt_dec (w - 1)))) (zrange 0 w)) = Ret (label_block pad fmt_dec w h).
  Proof.
    intros w h Hw. unfold headerfooter, label_block. set (nx := length (fmt_dec (w - 1))). set (ny := length (fmt_dec (h - 1))).
    rewrite mapM_pure with (g := fun k => repeat 32 ny ++ [32] ++
      concat (map (fun x => pad [nth (Z.to_nat k) (aligned nx (fmt_dec x)) 0]) (interval 0 (w - 1))) ++ [10]).
    - cbn [bind]. f_equal. f_equal. unfold zrange. rewrite map_map. replace (Z.to_nat (Z.of_nat nx - 0)) with nx by lia.
      apply map_ext. intros k. replace (Z.to_nat (0 + Z.of_nat k)) with k by lia. reflexivity.
    - intros k Hk. apply zrange_In in Hk.
      rewrite mapM_pure with (g := fun cell : str => pad [nth (Z.to_nat k) cell 0]).
      + cbn [bind]. rewrite map_map, zrange_interval. reflexivity.
      + intros s Hs. apply in_map_iff in Hs. destruct Hs as (x & <- & Hx). apply zrange_In in Hx.
        rewrite fmt_dec_width_aligned. rewrite (array_get_ok _ _ (nth (Z.to_nat k) (aligned nx (fmt_dec x)) 0)); [reflexivity | lia |].
        apply nth_error_nth'. rewrite aligned_length; [lia |]. apply fmt_dec_length. lia.
  Qed.

  Lemma display_cells : forall ny y l it out, (length l <= length it)%nat ->
    foldM (display_cell pad ny y) l (out, y, it) = Ret (out ++ concat (map pad (firstn (length l) it)), y, skipn (length l) it).
  Proof.
    intros ny y l. induction l as [|x l IH]; intros it out L; [cbn; rewrite app_nil_r; reflexivity |].
    destruct it as [|s it]; [cbn in L; lia |]. cbn [foldM]. unfold display_cell at 1. rewrite Z.eqb_refl. cbn [negb bind].
    rewrite IH by (cbn in L; lia). cbn [length firstn map concat skipn]. rewrite <- app_assoc. reflexivity.
  Qed.

  Lemma display_row : forall ny y last l it out, l <> [] -> last <> y -> (length l <= length it)%nat ->
    foldM (display_cell pad ny y) l (out, last, it) =
    Ret (out ++ (if y >? 0 then [10] else []) ++ aligned ny (fmt_dec y) ++ [32] ++ concat (map pad (firstn (length l) it)), y,
         skipn (length l) it).
  Proof.
    intros ny y last [|x l] it out Nl N L; [congruence |]. destruct it as [|s it]; [cbn in L; lia |]. cbn [foldM]. unfold display_cell at 1.
    destruct (y =? last) eqn:E; [bool2prop; congruence |]. cbn [negb bind]. rewrite display_cells by (cbn in L; lia).
    cbn [length firstn map concat skipn]. rewrite !fmt_dec_width_aligned. f_equal. f_equal. f_equal. rewrite <- !app_assoc. reflexivity.
  Qed.

  Context (text : pos -> str) (w h : Z) (Hw : 1 <= w).

  Definition row_text (y : Z) : str :=
    aligned (length (fmt_dec (h - 1))) (fmt_dec y) ++ [32] ++ concat (map (fun x => pad (text (x, y))) (interval 0 (w - 1))).

  Lemma display_rows : forall n a last out, last <> Z.of_nat a -> last < Z.of_nat a \/ Z.of_nat a + Z.of_nat n <= last ->
    exists last', foldM (fun st y => foldM (display_cell pad (length (fmt_dec (h - 1))) y) (zrange 0 w) st) (map Z.of_nat (seq a n))
      (out, last, flat_map (fun y => map (fun x => text (x, y)) (interval 0 (w - 1))) (map Z.of_nat (seq a n))) =
    Ret (out ++ concat (map (fun y => (if y >? 0 then [10] else []) ++ row_text y) (map Z.of_nat (seq a n))), last', []).
  Proof.
    induction n as [|n IH]; intros a last out N L; [exists last; cbn; rewrite app_nil_r; reflexivity |].
    cbn [seq map flat_map foldM].
    assert (NE : zrange 0 w <> []).
    { intros E. assert (H : In 0 (zrange 0 w)) by (apply zrange_In; lia). rewrite E in H. exact H. }
    assert (LEN : length (zrange 0 w) = length (map (fun x => text (x, Z.of_nat a)) (interval 0 (w - 1)))) by (rewrite map_length, zrange_interval; reflexivity).
    rewrite display_row; [|exact NE | exact N | rewrite app_length, <- LEN; lia].
    cbn [bind]. rewrite LEN, firstn_app, skipn_app, Nat.sub_diag, firstn_all, skipn_all, firstn_O, skipn_O, app_nil_r, app_nil_l.
    rewrite (map_map _ pad). destruct (IH (S a) (Z.of_nat a) (out ++ (if Z.of_nat a >? 0 then [10] else []) ++ row_text (Z.of_nat a)) ltac:(lia) ltac:(lia)) as (last' & E).
    exists last'. unfold row_text in *. etransitivity; [exact E |]. cbn [concat map]. rewrite <- !app_assoc. reflexivity.
  Qed.

  Lemma newlines : forall (f : Z -> str) l, concat (map (fun y => [10] ++ f y) l) ++ [10] = [10] ++ concat (map (fun y => f y ++ [10]) l).
  Proof.
    intros f. induction l as [|y l IH]; [reflexivity |]. cbn [map concat]. rewrite <- app_assoc, IH. cbn [app]. rewrite <- !app_assoc. reflexivity.
  Qed.

  Lemma rows_newlines : forall (f : Z -> str) n, (0 < n)%nat ->
    concat (map (fun y => (if y >? 0 then [10] else []) ++ f y) (map Z.of_nat (seq 0 n))) ++ [10] =
    concat (map (fun y => f y ++ [10]) (map Z.of_nat (seq 0 n))).
  Proof.
    intros f [|n] Hn; [lia |]. cbn [seq map concat app]. change (Z.of_nat 0 >? 0) with false. cbn [app].
    rewrite (map_ext_in (fun y => (if y >? 0 then [10] else []) ++ f y) (fun y => [10] ++ f y)).
    - rewrite <- app_assoc, newlines. rewrite <- app_assoc. reflexivity.
    - intros y Hy. apply in_map_iff in Hy. destruct Hy as (k & <- & Hk). apply in_seq in Hk.
      destruct (Z.of_nat k >? 0) eqn:E; [reflexivity |]. rewrite Z.gtb_ltb in E. bool2prop. lia.
  Qed.

  Lemma display_helper_ok : 1 <= h -> w <= 65536 -> h <= 65536 ->
    display_fmt_helper pad w h (flat_map (fun y => map (fun x => text (x, y)) (interval 0 (w - 1))) (interval 0 (h - 1))) =
    Ret (picture pad fmt_dec w h text).
  Proof.
    intros Hh Hw2 Hh2. unfold display_fmt_helper, usub. rewrite !usize_arith by lia. cbn [bind].
    rewrite headerfooter_ok by exact Hw. cbn [bind].
    assert (EI : interval 0 (h - 1) = map Z.of_nat (seq 0 (Z.to_nat h))).
    { rewrite <- zrange_interval. unfold zrange. rewrite Z.sub_0_r. apply map_ext. intros k. lia. }
    rewrite zrange_interval with (w := h). unfold picture. rewrite EI.
    destruct (display_rows (Z.to_nat h) 0 h (label_block pad fmt_dec w h) ltac:(lia) ltac:(lia)) as (last' & E).
    rewrite E. cbn [bind]. f_equal. rewrite <- app_assoc. f_equal. rewrite app_assoc. rewrite rows_newlines by lia.
    f_equal. f_equal. apply map_ext. intros y. unfold row_text. rewrite <- !app_assoc. reflexivity.
  Qed.
End Picture.

(** The cells of a grid, row by row. *)
Lemma all_rows_cells : forall {T} P (l : list T) (cell : pos -> T), grid_type P -> Z.of_nat (length l) = cells P ->
  (forall p, valid P p -> nth_error l (Z.to_nat (index_of P p)) = Some (cell p)) ->
  l = flat_map (fun y => map (fun x => cell (x, y)) (interval 0 (cols P - 1))) (interval 0 (rows P - 1)).
Proof.
  intros T P l cell G L H. pose proof (grid_type_nums P G) as (X0 & Y0 & _ & _).
  assert (E : flat_map (fun y => map (fun x => cell (x, y)) (interval 0 (cols P - 1))) (interval 0 (rows P - 1)) = map cell (all_rows P)).
  { unfold all_rows, rect_rows. rewrite X0, Y0. unfold cols, rows. rewrite !Z.add_simpl_r. generalize (interval 0 (YM P)). intros ys.
    induction ys as [|y ys IH]; [reflexivity |]. cbn [flat_map]. rewrite map_app, map_map, IH. reflexivity. }
  rewrite E. apply nth_error_ext. intros n. pose proof (all_rows_length P G) as LR.
  destruct (nth_error (all_rows P) n) as [p|] eqn:En.
  - rewrite (map_nth_error cell _ _ En). assert (V : valid P p) by (apply all_rows_In; eapply nth_error_In; exact En).
    rewrite <- (H p V). f_equal. apply (proj1 (NoDup_nth_error (all_rows P)) (all_of_NoDup P true)).
    + apply nth_error_Some. rewrite En. discriminate.
    + rewrite En. symmetry. apply all_rows_nth; assumption.
  - apply nth_error_None in En. rewrite (proj2 (nth_error_None l n)) by lia. symmetry. apply nth_error_None. rewrite map_length. exact En.
Qed.
