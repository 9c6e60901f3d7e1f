(** PropViewsProofs.v -- proofs of the statements of PropViews.v. *)

From Coq Require Import ZArith List Bool Lia.
From Verif Require Import Rust BoundedInt Dir PosT Pos Grid Gridbool Display Views Spec SpecDisplay SpecHistory Lib BoundedIntProofs PosTProofs GridProofs GridboolProofs PropGridProofs PropGridboolProofs DisplayProofs PropDisplayProofs PropHistoryProofs.
Import ListNotations.
Open Scope Z_scope.

Lemma C98_grid_array_proof : forall (T : Type) P (g : list T), grid_type P -> proper P g ->
  (forall p v, valid P p ->
    (nth_error (grid_as_array g) (Z.to_nat (snd p * cols P + fst p)) = Some v <-> grid_get P g p = Ret v) /\
    (nth_error (grid_into_inner g) (Z.to_nat (snd p * cols P + fst p)) = Some v <-> grid_get P g p = Ret v)) /\
  (forall p v, valid P p -> exists g', grid_write_slot g (snd p * cols P + fst p) v = Ret g' /\ proper P g' /\
    grid_get P g' p = Ret v /\ forall q, valid P q -> q <> p -> grid_get P g' q = grid_get P g q) /\
  (forall i v, ~ (0 <= i < cells P) -> grid_write_slot g i v = Panic) /\
  (forall f p v, valid P p -> grid_get P g p = Ret v -> grid_get P (grid_iter_mut f g) p = Ret (f v)) /\
  (forall f, proper P (grid_iter_mut f g)).
Proof.
  intros T P g G PR.
  assert (A : forall p v, valid P p -> (nth_error g (Z.to_nat (index_of P p)) = Some v <-> grid_get P g p = Ret v)).
  { intros p v V. destruct (get_ok P G g p PR V) as (w & E1 & E2). rewrite E1, E2. split; intros E; inversion E; reflexivity. }
  assert (M : forall f, grid_iter_mut f g = map f g) by (intros f; clear; induction g as [|x l IH]; cbn; [reflexivity | rewrite IH; reflexivity]).
  assert (PM : forall f, proper P (grid_iter_mut f g)) by (intros f; unfold proper; rewrite M, map_length; exact PR).
  split; [intros p v V; split; apply A; exact V |]. split.
  { intros p v V. destruct (get_set_laws P G g p v PR V) as (g' & E & H). exists g'. split; [|exact H].
    unfold grid_set in E. rewrite (to_usize_ok P p G V) in E. cbn [bind] in E. pose proof (index_bound P p G V) as B. unfold proper in PR.
    rewrite array_set_unchecked_ok in E by lia. unfold grid_write_slot. change (snd p * cols P + fst p) with (index_of P p). rewrite array_set_ok by lia. exact E. }
  split.
  { intros i v B. unfold grid_write_slot, array_set. unfold proper in PR.
    destruct (0 <=? i) eqn:E1, (i <? Z.of_nat (length g)) eqn:E2; cbn [andb]; try reflexivity. bool2prop. lia. }
  split; [|exact PM]. intros f p v V E. apply A in E; [|exact V]. destruct (get_ok P G (grid_iter_mut f g) p (PM f) V) as (w & E1 & E2).
  rewrite E1. rewrite M, nth_error_map, E in E2. cbn [option_map] in E2. inversion E2. reflexivity.
Qed.

Lemma C99_gridbool_bitmap_proof : forall P g, grid_type P -> roomy P g ->
  (forall p, valid P p -> let i := snd p * cols P + fst p in
    exists w, nth_error (gb_as_inner g) (Z.to_nat (i / 32)) = Some w /\ nth_error (gb_into_inner g) (Z.to_nat (i / 32)) = Some w /\
      gb_get P g p = Ret (Z.testbit w (31 - i mod 32))) /\
  (forall k w, 0 <= k < Z.of_nat (length g) -> 0 <= w <= 4294967295 -> exists g', gb_write_word g k w = Ret g' /\ roomy P g' /\ length g' = length g /\
    forall p, valid P p -> let i := snd p * cols P + fst p in
      gb_get P g' p = if i / 32 =? k then Ret (Z.testbit w (31 - i mod 32)) else gb_get P g p).
Proof.
  intros P g G R. split.
  - intros p V. cbv zeta. change (snd p * cols P + fst p) with (index_of P p). pose proof (index_bound P p G V) as B. destruct R as (R1 & R2).
    destruct (nth_error_some g (index_of P p / 32)) as (w & E); [lia |]. exists w. split; [exact E |]. split; [exact E |].
    rewrite (gb_get_ok P G g p (conj R1 R2) V). unfold bit_at. rewrite (nth_error_nth _ _ _ E). reflexivity.
  - intros k w K Wd. exists (list_set g (Z.to_nat k) w). unfold gb_write_word. rewrite array_set_ok by exact K.
    assert (R' : roomy P (list_set g (Z.to_nat k) w)).
    { destruct R as (R1 & R2). split; [apply list_set_words; [exact R1 | lia] | rewrite list_set_length; exact R2]. }
    split; [reflexivity |]. split; [exact R' |]. split; [apply list_set_length |].
    intros p V. cbv zeta. change (snd p * cols P + fst p) with (index_of P p). pose proof (index_bound P p G V) as B.
    rewrite !(gb_get_ok P G) by assumption. unfold bit_at. rewrite nth_list_set by lia.
    destruct (Z.eqb_spec (index_of P p / 32) k) as [-> | N]; [rewrite Nat.eqb_refl; reflexivity |].
    replace (Nat.eqb (Z.to_nat k) (Z.to_nat (index_of P p / 32))) with false; [reflexivity |].
    symmetry. apply Nat.eqb_neq. lia.
Qed.

Lemma array_cmp_first : forall (T : Type) (cmp : T -> T -> comparison) i a b x y,
  nth_error a i = Some x -> nth_error b i = Some y -> cmp x y <> Eq ->
  (forall j, (j < i)%nat -> exists u v, nth_error a j = Some u /\ nth_error b j = Some v /\ cmp u v = Eq) ->
  array_cmp cmp a b = cmp x y.
Proof.
  intros T cmp i. induction i as [|i IH]; intros [|u a] [|v b] x y E1 E2 N H; try discriminate.
  - inversion E1; inversion E2; subst. cbn [array_cmp]. destruct (cmp x y); congruence.
  - cbn [array_cmp]. destruct (H 0%nat) as (u' & v' & F1 & F2 & F3); [lia |]. inversion F1; inversion F2; subst. rewrite F3.
    apply IH; [exact E1 | exact E2 | exact N |]. intros j Hj. exact (H (S j) ltac:(lia)).
Qed.

Lemma array_cmp_cases : forall (T : Type) (cmp : T -> T -> comparison) a b, length a = length b ->
  (array_cmp cmp a b = Eq /\ forall i x y, nth_error a i = Some x -> nth_error b i = Some y -> cmp x y = Eq) \/
  (exists i x y, nth_error a i = Some x /\ nth_error b i = Some y /\ cmp x y <> Eq /\ array_cmp cmp a b = cmp x y /\
    forall j u v, (j < i)%nat -> nth_error a j = Some u -> nth_error b j = Some v -> cmp u v = Eq).
Proof.
  intros T cmp a. induction a as [|x a IH]; intros [|y b] L; try discriminate.
  - left. split; [reflexivity |]. intros [|i] x y E; discriminate.
  - cbn [array_cmp]. destruct (cmp x y) eqn:E.
    2,3: right; exists 0%nat, x, y; (split; [reflexivity |]); (split; [reflexivity |]); (split; [congruence |]); (split; [congruence |]); intros j u v Hj; lia.
    destruct (IH b) as [(E1 & H) | (i & u & v & E1 & E2 & N & E3 & H)]; [cbn in L; lia | |].
    + left. split; [exact E1 |]. intros [|i] u v F1 F2; [inversion F1; inversion F2; subst; exact E |]. eapply H; eassumption.
    + right. exists (S i), u, v. repeat (split; [assumption |]). intros [|j] u' v' Hj F1 F2; [inversion F1; inversion F2; subst; exact E |].
      eapply H; [| eassumption | eassumption]. lia.
Qed.

Lemma index_order : forall P p q, grid_type P -> valid P p -> valid P q ->
  (index_of P q < index_of P p <-> snd q < snd p \/ (snd q = snd p /\ fst q < fst p)).
Proof.
  intros P p q G V1 V2. apply valid_nums in V1, V2; [|exact G..]. unfold index_of, cols in *. cbn in *. nia.
Qed.

Lemma C100_grid_order_proof : forall (T : Type) P (cmp : T -> T -> comparison) (a b : list T) (ca cb : pos -> T), grid_type P -> proper P a -> proper P b ->
  (forall p, valid P p -> grid_get P a p = Ret (ca p)) -> (forall p, valid P p -> grid_get P b p = Ret (cb p)) ->
  (grid_cmp cmp a b = Eq <-> forall p, valid P p -> cmp (ca p) (cb p) = Eq) /\
  forall c, c <> Eq ->
    (grid_cmp cmp a b = c <-> exists p, valid P p /\ cmp (ca p) (cb p) = c /\
      forall q, valid P q -> snd q < snd p \/ (snd q = snd p /\ fst q < fst p) -> cmp (ca q) (cb q) = Eq).
Proof.
  intros T P cmp a b ca cb G Pa Pb Ha Hb. rewrite (grid_cells T P a ca G Pa Ha), (grid_cells T P b cb G Pb Hb). unfold grid_cmp. clear a b Pa Pb Ha Hb.
  assert (N : forall f : pos -> T, forall i x, nth_error (map f (all_rows P)) i = Some x -> exists p, valid P p /\ index_of P p = Z.of_nat i /\ x = f p).
  { intros f i x E. rewrite nth_error_map in E. destruct (nth_error (all_rows P) i) as [p|] eqn:E'; cbn in E; inversion E; subst.
    exists p. split; [apply all_rows_In; eapply nth_error_In; exact E' |]. split; [eapply all_rows_index; eassumption | reflexivity]. }
  assert (M : forall (f : pos -> T) p, valid P p -> nth_error (map f (all_rows P)) (Z.to_nat (index_of P p)) = Some (f p)).
  { intros f p V. apply map_nth_error. apply all_rows_nth; assumption. }
  destruct (array_cmp_cases T cmp (map ca (all_rows P)) (map cb (all_rows P))) as [(E & H) | (i & x & y & E1 & E2 & NE & E & H)]; [rewrite !map_length; reflexivity | |].
  - assert (A : forall p, valid P p -> cmp (ca p) (cb p) = Eq) by (intros p V; eapply H; apply M; exact V).
    split; [split; [intros _; exact A | intros _; exact E] |]. intros c Hc. rewrite E. split; [congruence |].
    intros (p & V & E' & _). rewrite A in E' by exact V. exact E'.
  - destruct (N _ _ _ E1) as (p & V & Ip & ->). destruct (N _ _ _ E2) as (p' & V' & Ip' & ->).
    assert (p' = p) by (apply (index_inj P); [exact G | exact V' | exact V | lia]). subst p'. clear V' Ip'.
    split.
    + rewrite E. split; [congruence |]. intros A. contradict NE. apply A. exact V.
    + intros c Hc. rewrite E. split.
      * intros <-. exists p. split; [exact V |]. split; [reflexivity |]. intros q Vq L. apply (index_order P p q G V Vq) in L.
        pose proof (index_bound P q G Vq). apply (H (Z.to_nat (index_of P q))); [lia | apply M; exact Vq..].
      * intros (q & Vq & Eq' & Hq). destruct (Z.lt_trichotomy (index_of P p) (index_of P q)) as [L | [L | L]].
        -- apply (index_order P q p G Vq V) in L. contradict NE. apply Hq; assumption.
        -- apply (index_inj P) in L; [subst q; exact Eq' | assumption..].
        -- pose proof (index_bound P q G Vq). rewrite (H (Z.to_nat (index_of P q)) (ca q) (cb q)) in Eq'; [congruence | lia | apply M; exact Vq..].
Qed.

Lemma testbit_lt : forall a b m, 0 <= a -> 0 <= b -> 0 <= m -> (forall k, m < k -> Z.testbit a k = Z.testbit b k) ->
  Z.testbit a m = false -> Z.testbit b m = true -> a < b.
Proof.
  intros a b m Ha Hb Hm H A B.
  assert (E : Z.shiftr a (m + 1) = Z.shiftr b (m + 1)).
  { apply Z.bits_inj'. intros n Hn. rewrite !Z.shiftr_spec by exact Hn. apply H. lia. }
  rewrite !Z.shiftr_div_pow2, Z.pow_add_r, <- !Z.div_div in E by lia. change (2 ^ 1) with 2 in E.
  apply Z.testbit_false in A; [|exact Hm]. apply Z.testbit_true in B; [|exact Hm].
  assert (0 < 2 ^ m) by (apply Z.pow_pos_nonneg; lia).
  assert (L : a / 2 ^ m < b / 2 ^ m) by (generalize dependent (a / 2 ^ m); generalize dependent (b / 2 ^ m); intros; lia).
  destruct (Z_lt_le_dec a b) as [|Ge]; [assumption |]. pose proof (Z.div_le_mono b a (2 ^ m)). lia.
Qed.

Lemma word_first_bit : forall a b, 0 <= a < 4294967296 -> 0 <= b < 4294967296 -> a < b ->
  exists j, 0 <= j < 32 /\ Z.testbit a (31 - j) = false /\ Z.testbit b (31 - j) = true /\ forall k, 0 <= k < j -> Z.testbit a (31 - k) = Z.testbit b (31 - k).
Proof.
  intros a b Ha Hb L.
  assert (D : forall n : nat, (n <= 32)%nat -> (forall k, 0 <= k < Z.of_nat n -> Z.testbit a (31 - k) = Z.testbit b (31 - k)) \/
     exists j, 0 <= j < Z.of_nat n /\ Z.testbit a (31 - j) <> Z.testbit b (31 - j) /\ forall k, 0 <= k < j -> Z.testbit a (31 - k) = Z.testbit b (31 - k)).
  { induction n as [|n IH]; intros Hn; [left; intros; lia |]. destruct IH as [H | (j & J & N & H)]; [lia | | right; exists j; split; [lia | auto]].
    destruct (bool_dec (Z.testbit a (31 - Z.of_nat n)) (Z.testbit b (31 - Z.of_nat n))) as [E | N].
    - left. intros k Hk. destruct (Z.eq_dec k (Z.of_nat n)) as [-> | ]; [exact E | apply H; lia].
    - right. exists (Z.of_nat n). split; [lia |]. split; [exact N | exact H]. }
  destruct (D 32%nat) as [H | (j & J & N & H)]; [lia | |].
  - exfalso. assert (a = b); [|lia]. apply word_ext; [exact Ha | exact Hb |]. intros m Hm. replace m with (31 - (31 - m)) by lia. apply H. lia.
  - exists j. split; [lia |].
    assert (X : forall k, 31 - j < k -> Z.testbit a k = Z.testbit b k).
    { intros k Hk. destruct (Z_lt_dec k 32); [|rewrite !high_bits by (assumption || lia); reflexivity].
      replace k with (31 - (31 - k)) by lia. apply H. lia. }
    destruct (Z.testbit a (31 - j)) eqn:Ea, (Z.testbit b (31 - j)) eqn:Eb; try congruence; [|auto].
    assert (b < a); [|lia]. apply (testbit_lt b a (31 - j)); try lia; [|assumption..]. intros k Hk. symmetry. apply X. exact Hk.
Qed.

Lemma gb_cmp_lt : forall a b, length a = length b -> u32_words a -> u32_words b -> gb_cmp a b = Lt ->
  exists i, 0 <= i < 32 * Z.of_nat (length a) /\ bit_at a i = false /\ bit_at b i = true /\ forall j, 0 <= j < i -> bit_at a j = bit_at b j.
Proof.
  intros a b L Wa Wb E. unfold gb_cmp in E.
  destruct (array_cmp_cases Z Z.compare a b L) as [(E' & _) | (n & x & y & E1 & E2 & NE & E' & H)]; [congruence |].
  rewrite E in E'. symmetry in E'. apply Z.compare_lt_iff in E'.
  pose proof (nth_word a n Wa) as Bx. pose proof (nth_word b n Wb) as By. rewrite (nth_error_nth _ _ _ E1) in Bx. rewrite (nth_error_nth _ _ _ E2) in By.
  destruct (word_first_bit x y Bx By E') as (j & J & F1 & F2 & F3).
  assert (Ln : (n < length a)%nat) by (apply nth_error_Some; congruence).
  exists (32 * Z.of_nat n + j). split; [lia |]. unfold bit_at.
  replace ((32 * Z.of_nat n + j) / 32) with (Z.of_nat n) by lia. replace ((32 * Z.of_nat n + j) mod 32) with j by lia.
  rewrite Nat2Z.id, (nth_error_nth _ _ _ E1), (nth_error_nth _ _ _ E2). split; [exact F1 |]. split; [exact F2 |].
  intros k Hk. destruct (Z.eq_dec (k / 32) (Z.of_nat n)) as [Ek | Nk].
  - rewrite Ek, Nat2Z.id, (nth_error_nth _ _ _ E1), (nth_error_nth _ _ _ E2). apply F3. lia.
  - assert (Z.to_nat (k / 32) < n)%nat by lia. f_equal. apply Z.compare_eq_iff.
    apply (H (Z.to_nat (k / 32))); [lia | apply nth_error_nth'; lia | apply nth_error_nth'; lia].
Qed.

Lemma gb_cmp_opp : forall a b, gb_cmp b a = CompOpp (gb_cmp a b).
Proof.
  unfold gb_cmp. induction a as [|x a IH]; intros [|y b]; cbn [array_cmp CompOpp]; try reflexivity.
  rewrite (Z.compare_antisym x y). destruct (x ?= y); cbn [CompOpp]; auto.
Qed.

Lemma gb_cmp_eq : forall a b, gb_cmp a b = Eq <-> a = b.
Proof.
  unfold gb_cmp. induction a as [|x a IH]; intros [|y b]; cbn [array_cmp]; try (split; congruence).
  destruct (x ?= y) eqn:E.
  - apply Z.compare_eq_iff in E. subst y. rewrite IH. split; [intros -> | intros F; inversion F]; reflexivity.
  - split; [discriminate |]. intros F. inversion F. subst. rewrite Z.compare_refl in E. discriminate.
  - split; [discriminate |]. intros F. inversion F. subst. rewrite Z.compare_refl in E. discriminate.
Qed.

Lemma gb_cmp_lt_iff : forall a b, length a = length b -> u32_words a -> u32_words b ->
  (gb_cmp a b = Lt <-> exists i, 0 <= i < 32 * Z.of_nat (length a) /\ bit_at a i = false /\ bit_at b i = true /\ forall j, 0 <= j < i -> bit_at a j = bit_at b j).
Proof.
  intros a b L Wa Wb. split; [apply gb_cmp_lt; assumption |]. intros (i & B & A1 & A2 & H). destruct (gb_cmp a b) eqn:E; [|reflexivity |].
  - apply gb_cmp_eq in E. subst b. congruence.
  - assert (E' : gb_cmp b a = Lt) by (rewrite gb_cmp_opp, E; reflexivity).
    destruct (gb_cmp_lt b a (eq_sym L) Wb Wa E') as (k & K & A3 & A4 & H').
    destruct (Z.lt_trichotomy i k) as [T | [T | T]]; [rewrite H' in A2 by lia; congruence | subst k; congruence | rewrite H in A4 by lia; congruence].
Qed.

Lemma C101_gridbool_order_refuted_proof : exists P WORDS a b, grid_type P /\
  gb_ALL_TRUE P WORDS = Ret a /\ gb_from_positions P WORDS (all_rows P) = Ret b /\
  (forall p, valid P p -> gb_get P a p = gb_get P b p) /\ gb_cmp a b = Gt.
Proof.
  exists (Pos 0 0), 1, [4294967295], [2147483648]. split; [apply Pos_grid_type; unfold u16_dims; lia |].
  split; [vm_compute; reflexivity |]. split; [vm_compute; reflexivity |]. split; [|reflexivity].
  intros [x y] [V1 V2]. cbn in V1, V2. unfold in_bty in *. cbn in V1, V2. assert (x = 0) by lia. assert (y = 0) by lia. subst. vm_compute. reflexivity.
Qed.

Lemma C101_gridbool_order_partial_proof : forall P a b (ca cb : pos -> bool), grid_type P -> roomy P a -> roomy P b -> length a = length b ->
  (forall i, cells P <= i < 32 * Z.of_nat (length a) -> bit_at a i = bit_at b i) ->
  (forall p, valid P p -> gb_get P a p = Ret (ca p)) -> (forall p, valid P p -> gb_get P b p = Ret (cb p)) ->
  (gb_cmp a b = Eq <-> forall p, valid P p -> ca p = cb p) /\
  (gb_cmp a b = Lt <-> exists p, valid P p /\ ca p = false /\ cb p = true /\
    forall q, valid P q -> snd q < snd p \/ (snd q = snd p /\ fst q < fst p) -> ca q = cb q) /\
  (gb_cmp a b = Gt <-> exists p, valid P p /\ ca p = true /\ cb p = false /\
    forall q, valid P q -> snd q < snd p \/ (snd q = snd p /\ fst q < fst p) -> ca q = cb q).
Proof.
  assert (K : forall P a b (ca cb : pos -> bool), grid_type P -> roomy P a -> roomy P b -> length a = length b ->
    (forall i, cells P <= i < 32 * Z.of_nat (length a) -> bit_at a i = bit_at b i) ->
    (forall p, valid P p -> gb_get P a p = Ret (ca p)) -> (forall p, valid P p -> gb_get P b p = Ret (cb p)) ->
    (gb_cmp a b = Lt <-> exists p, valid P p /\ ca p = false /\ cb p = true /\
      forall q, valid P q -> snd q < snd p \/ (snd q = snd p /\ fst q < fst p) -> ca q = cb q)).
  { intros P a b ca cb G Ra Rb L SP Ha Hb. rewrite gb_cmp_lt_iff; [|exact L | apply Ra | apply Rb].
    assert (Ba : forall p, valid P p -> bit_at a (index_of P p) = ca p) by (intros p V; specialize (Ha p V); rewrite (gb_get_ok P G a p Ra V) in Ha; inversion Ha; reflexivity).
    assert (Bb : forall p, valid P p -> bit_at b (index_of P p) = cb p) by (intros p V; specialize (Hb p V); rewrite (gb_get_ok P G b p Rb V) in Hb; inversion Hb; reflexivity).
    assert (NP : forall i, 0 <= i < cells P -> exists p, valid P p /\ index_of P p = i).
    { intros i Hi. pose proof (all_rows_length P G). destruct (nth_error_some (all_rows P) i) as (p & E); [lia |]. exists p.
      split; [apply all_rows_In; eapply nth_error_In; exact E |]. rewrite (all_rows_index P _ p G E). lia. }
    destruct Ra as (_ & Ra). split.
    - intros (i & B & A1 & A2 & H). assert (C : i < cells P) by (destruct (Z_lt_dec i (cells P)); [assumption | rewrite SP in A1 by lia; congruence]).
      destruct (NP i) as (p & V & <-); [lia |]. exists p. split; [exact V |]. rewrite <- Ba, <- Bb by exact V. split; [exact A1 |]. split; [exact A2 |].
      intros q Vq O. apply (index_order P p q G V Vq) in O. rewrite <- Ba, <- Bb by exact Vq. apply H. pose proof (index_bound P q G Vq). lia.
    - intros (p & V & A1 & A2 & H). exists (index_of P p). pose proof (index_bound P p G V). split; [lia |]. rewrite Ba, Bb by exact V.
      split; [exact A1 |]. split; [exact A2 |]. intros j Hj. destruct (NP j) as (q & Vq & <-); [lia |]. rewrite Ba, Bb by exact Vq.
      apply H; [exact Vq |]. apply (index_order P p q G V Vq). lia. }
  intros P a b ca cb G Ra Rb L SP Ha Hb. split; [|split].
  - rewrite gb_cmp_eq, <- gb_eqb_eq. rewrite (C70_gridbool_eq_exact_proof P a b G Ra Rb L). split.
    + intros (H & _) p V. specialize (H p V). rewrite Ha, Hb in H by exact V. inversion H. reflexivity.
    + intros H. split; [|exact SP]. intros p V. rewrite Ha, Hb by exact V. f_equal. apply H. exact V.
  - apply K; assumption.
  - assert (O : gb_cmp a b = Gt <-> gb_cmp b a = Lt) by (rewrite (gb_cmp_opp a b); destruct (gb_cmp a b); cbn; split; congruence).
    rewrite O. rewrite (K P b a cb ca G Rb Ra (eq_sym L)); [|intros i Hi; symmetry; apply SP; lia | exact Hb | exact Ha].
    split; intros (p & V & A1 & A2 & H); exists p; (split; [exact V |]); (split; [assumption |]); (split; [assumption |]); intros q Vq O'; symmetry; apply H; assumption.
Qed.

Lemma C101_gridbool_order_exact_proof : forall P a b, grid_type P -> roomy P a -> roomy P b -> length a = length b ->
  (gb_cmp a b = Lt <-> exists i, 0 <= i < 32 * Z.of_nat (length a) /\ bit_at a i = false /\ bit_at b i = true /\ forall j, 0 <= j < i -> bit_at a j = bit_at b j) /\
  (gb_cmp a b = Eq <-> gb_eqb a b = true) /\ gb_cmp b a = CompOpp (gb_cmp a b).
Proof.
  intros P a b G (Wa & _) (Wb & _) L. split; [apply gb_cmp_lt_iff; assumption |]. split; [rewrite gb_cmp_eq, gb_eqb_eq; reflexivity | apply gb_cmp_opp].
Qed.

Lemma numeral_head : forall n s, numeral n s -> hd 0 s <> 45.
Proof.
  intros n s (N & C & _). destruct s as [|c s]; [congruence |]. cbn. specialize (C c (or_introl eq_refl)). lia.
Qed.

Lemma C112_gridbool_history_order_proof : forall X Y g f es es', u16_dims X Y -> roomy (Pos X Y) g -> Forall (edit_ok X Y) es -> Forall (edit_ok X Y) es' ->
  let P := Pos X Y in
  (forall p, valid P p -> gb_get P g p = Ret (f p)) ->
  exists a b, gb_edits X Y g es = Ret a /\ gb_edits X Y g es' = Ret b /\
    (gb_cmp a b = Lt <-> exists p, valid P p /\ gb_drawing X Y f es p = false /\ gb_drawing X Y f es' p = true /\
      forall q, valid P q -> snd q < snd p \/ (snd q = snd p /\ fst q < fst p) -> gb_drawing X Y f es q = gb_drawing X Y f es' q).
Proof.
  intros X Y g f es es' D R EO EO' P H. pose proof (Pos_grid_type X Y D) as G. fold P in G.
  destruct (C112_gridbool_history_exact_proof X Y g f es D R EO H) as (a & Ea & A1 & A2 & Ka & A3).
  destruct (C112_gridbool_history_exact_proof X Y g f es' D R EO' H) as (b & Eb & B1 & B2 & Kb & B3). fold P in A1, A3, B1, B3, Ka, Kb.
  exists a, b. split; [exact Ea |]. split; [exact Eb |].
  apply (C101_gridbool_order_partial_proof P a b (gb_drawing X Y f es) (gb_drawing X Y f es') G A1 B1); [congruence | | exact Ka | exact Kb].
  intros i Hi. rewrite A2 in Hi. rewrite A3, B3 by exact Hi. reflexivity.
Qed.

Lemma C102_bounded_text_proof : forall v,
  (0 <= v -> numeral v (bounded_display v)) /\
  (v < 0 -> exists s, numeral (- v) s /\ bounded_display v = [45] ++ s) /\
  bounded_debug v = bounded_display v /\
  forall w, bounded_display v = bounded_display w -> v = w.
Proof.
  assert (A : forall v, 0 <= v -> numeral v (bounded_display v)).
  { intros v Hv. unfold bounded_display, fmt_int, b_into_inner. replace (v <? 0) with false by (symmetry; apply Z.ltb_ge; lia). apply fmt_dec_spec. exact Hv. }
  assert (B : forall v, v < 0 -> exists s, numeral (- v) s /\ bounded_display v = [45] ++ s).
  { intros v Hv. unfold bounded_display, fmt_int, b_into_inner. replace (v <? 0) with true by (symmetry; apply Z.ltb_lt; lia). eexists. split; [|reflexivity]. apply fmt_dec_spec. lia. }
  assert (V : forall n m s, numeral n s -> numeral m s -> n = m) by (intros n m s (_ & _ & _ & E1) (_ & _ & _ & E2); congruence).
  intros v. split; [apply A |]. split; [apply B |]. split; [reflexivity |]. intros w E.
  destruct (Z_lt_le_dec v 0) as [Hv | Hv], (Z_lt_le_dec w 0) as [Hw | Hw].
  - destruct (B v Hv) as (s & N1 & E1). destruct (B w Hw) as (t & N2 & E2). rewrite E1, E2 in E. inversion E. subst t. specialize (V _ _ _ N1 N2). lia.
  - destruct (B v Hv) as (s & N1 & E1). specialize (A w Hw). rewrite <- E, E1 in A. apply numeral_head in A. cbn in A. congruence.
  - destruct (B w Hw) as (s & N1 & E1). specialize (A v Hv). rewrite E, E1 in A. apply numeral_head in A. cbn in A. congruence.
  - pose proof (A v Hv) as N1. rewrite E in N1. exact (V _ _ _ N1 (A w Hw)).
Qed.

Lemma C102_error_text_proof : forall e f, (error_display e = error_display f -> e = f) /\ error_display e <> [] /\ ~ In 10 (error_display e).
Proof.
  intros e f. split; [destruct e, f; try reflexivity; intros H; vm_compute in H; discriminate |].
  split; [destruct e; vm_compute; discriminate |]. destruct e; vm_compute; intuition discriminate.
Qed.
