(** GridboolProofs.v -- lemmas about the Gridbool model. *)

From Coq Require Import ZArith List Bool Lia.
From Verif Require Import Rust BoundedInt Dir PosT Pos Gridbool Spec Lib Deque BoundedIntProofs PosTProofs PosTProofs2 GridProofs GridRotProofs.
Import ListNotations.
Open Scope Z_scope.

(** ** Bits *)

Lemma bit_pow : forall k, 0 <= k < 32 -> Z.shiftr 2147483648 k = 2 ^ (31 - k).
Proof.
  intros k H. change 2147483648 with (2 ^ 31). rewrite Z.shiftr_div_pow2 by lia.
  rewrite Z.pow_sub_r by lia. reflexivity.
Qed.

Lemma land_bit : forall w n, 0 <= n -> negb (Z.land w (2 ^ n) =? 0) = Z.testbit w n.
Proof.
  intros w n H. destruct (Z.testbit w n) eqn:E.
  - destruct (Z.eqb_spec (Z.land w (2 ^ n)) 0) as [E2 | E2]; [|reflexivity].
    assert (B : Z.testbit (Z.land w (2 ^ n)) n = false) by (rewrite E2; apply Z.bits_0).
    rewrite Z.land_spec, E, Z.pow2_bits_true in B by exact H. discriminate.
  - replace (Z.land w (2 ^ n)) with 0; [reflexivity |]. symmetry. apply Z.bits_inj_0. intros m.
    rewrite Z.land_spec. destruct (Z.eq_dec n m) as [<- | N].
    + rewrite E. reflexivity.
    + rewrite Z.pow2_bits_false by congruence. apply andb_false_r.
Qed.

Lemma lor_bit : forall w n m, 0 <= n -> Z.testbit (Z.lor w (2 ^ n)) m = (n =? m) || Z.testbit w m.
Proof.
  intros w n m H. rewrite Z.lor_spec, Z.pow2_bits_eqb by exact H. apply orb_comm.
Qed.

Lemma ones32 : forall m, 0 <= m < 32 -> Z.testbit 4294967295 m = true.
Proof.
  intros m H. change 4294967295 with (Z.ones 32). apply Z.ones_spec_low. lia.
Qed.

Lemma clear_bit : forall w n m, 0 <= n -> 0 <= m < 32 ->
  Z.testbit (Z.land w (u32_not (2 ^ n))) m = negb (n =? m) && Z.testbit w m.
Proof.
  intros w n m H Hm. unfold u32_not. rewrite Z.land_spec, Z.lxor_spec, Z.pow2_bits_eqb by exact H.
  rewrite ones32 by exact Hm. rewrite xorb_true_l. apply andb_comm.
Qed.

Lemma u32_log : forall w, 0 <= w -> (w < 4294967296 <-> w = 0 \/ Z.log2 w < 32).
Proof.
  intros w H. change 4294967296 with (2 ^ 32). destruct (Z.eq_dec w 0) as [-> | N].
  - split; [auto | intros _; reflexivity].
  - rewrite <- Z.log2_lt_pow2 by lia. split; [auto | intros [E | E]; [congruence | exact E]].
Qed.

Lemma u32_bound : forall w, 0 <= w -> Z.log2 w < 32 -> w < 4294967296.
Proof. intros w H L. apply u32_log; auto. Qed.

Lemma u32_log2 : forall w, 0 <= w < 4294967296 -> Z.log2 w < 32.
Proof.
  intros w H. destruct (Z.eq_dec w 0) as [-> | N]; [cbn; lia |].
  destruct (proj1 (u32_log w (proj1 H)) (proj2 H)); [contradiction | assumption].
Qed.

Lemma lor_range : forall w n, 0 <= w < 4294967296 -> 0 <= n < 32 -> 0 <= Z.lor w (2 ^ n) < 4294967296.
Proof.
  intros w n Hw Hn. pose proof (Z.pow_pos_nonneg 2 n). assert (N : 0 <= Z.lor w (2 ^ n)) by (apply Z.lor_nonneg; lia).
  split; [exact N |]. apply u32_bound; [exact N |]. rewrite Z.log2_lor by lia.
  rewrite Z.log2_pow2 by lia. pose proof (u32_log2 w Hw). lia.
Qed.

Lemma land_range : forall w v, 0 <= w < 4294967296 -> 0 <= Z.land w v < 4294967296.
Proof.
  intros w v Hw. assert (N : 0 <= Z.land w v) by (apply Z.land_nonneg; lia). split; [exact N |].
  destruct (Z_lt_dec v 0) as [Hv | Hv].
  - replace (Z.land w v) with (Z.ldiff w (Z.lnot v)).
    + apply u32_bound; [apply Z.ldiff_nonneg; lia |].
      pose proof (u32_log2 w Hw).
      assert (Z.ldiff w (Z.lnot v) <= w) by (apply Z.ldiff_le; [lia | apply Z.bits_inj_0; intros m; rewrite !Z.ldiff_spec; destruct (Z.testbit w m), (Z.testbit (Z.lnot v) m); reflexivity]).
      pose proof (Z.log2_le_mono (Z.ldiff w (Z.lnot v)) w). lia.
    + apply Z.bits_inj'. intros m Hm. rewrite Z.ldiff_spec, Z.land_spec, Z.lnot_spec by exact Hm.
      rewrite negb_involutive. reflexivity.
  - apply u32_bound; [exact N |]. pose proof (Z.log2_land w v). pose proof (u32_log2 w Hw). lia.
Qed.

Lemma high_bits : forall w m, 0 <= w < 4294967296 -> 32 <= m -> Z.testbit w m = false.
Proof.
  intros w m Hw Hm. rewrite <- (Z.mod_small w (2 ^ 32)) by exact Hw. apply Z.mod_pow2_bits_high. lia.
Qed.

Lemma word_ext : forall a b, 0 <= a < 4294967296 -> 0 <= b < 4294967296 ->
  (forall m, 0 <= m < 32 -> Z.testbit a m = Z.testbit b m) -> a = b.
Proof.
  intros a b Ha Hb H. apply Z.bits_inj'. intros m Hm. destruct (Z_lt_dec m 32); [apply H; lia |].
  rewrite !high_bits by (assumption || lia). reflexivity.
Qed.

Lemma nth_word : forall g i, u32_words g -> 0 <= nth i g 0 < 4294967296.
Proof.
  intros g i H. unfold u32_words in H. rewrite Forall_forall in H.
  destruct (nth_in_or_default i g 0) as [Hin | ->]; [apply H; exact Hin | lia].
Qed.

Lemma list_set_words : forall g i w, u32_words g -> 0 <= w < 4294967296 -> u32_words (list_set g i w).
Proof.
  intros g. induction g as [|x g IH]; intros i w H Hw; [destruct i; exact H |].
  inversion H as [|? ? H1 H2]; subst. destruct i; cbn; constructor; auto. apply IH; assumption.
Qed.

Lemma nth_list_set : forall (g : list Z) i j w, (i < length g)%nat ->
  nth j (list_set g i w) 0 = if Nat.eqb i j then w else nth j g 0.
Proof.
  intros g i j w H. destruct (Nat.eqb_spec i j) as [<- | N].
  - apply nth_error_nth. apply list_set_nth_same. exact H.
  - destruct (lt_dec j (length g)) as [L | L].
    + apply nth_error_nth. rewrite list_set_nth_other by exact N. apply nth_error_nth'. exact L.
    + rewrite !nth_overflow by (rewrite ?list_set_length; lia). reflexivity.
Qed.

(** Same bits, same words: derived equality. *)
Lemma gb_eqb_eq : forall a b, gb_eqb a b = true <-> a = b.
Proof.
  intros a. induction a as [|x a IH]; intros [|y b]; cbn; try (split; congruence).
  rewrite andb_true_iff, Z.eqb_eq, IH. split; [intros [-> ->]; reflexivity | intros E; inv E; auto].
Qed.

Lemma words_ext : forall a b, length a = length b -> u32_words a -> u32_words b ->
  (forall i, 0 <= i < 32 * Z.of_nat (length a) -> bit_at a i = bit_at b i) -> a = b.
Proof.
  intros a b L Ha Hb H. apply nth_ext with (d := 0) (d' := 0); [exact L |].
  intros n Hn. apply word_ext; try (apply nth_word; assumption).
  intros m Hm. specialize (H (32 * Z.of_nat n + (31 - m))). unfold bit_at in H.
  replace ((32 * Z.of_nat n + (31 - m)) / 32) with (Z.of_nat n) in H by lia.
  replace ((32 * Z.of_nat n + (31 - m)) mod 32) with (31 - m) in H by lia.
  rewrite Nat2Z.id in H. replace (31 - (31 - m)) with m in H by lia. apply H. lia.
Qed.

(** ** Reading and writing *)

Section Access.
  Context (P : post) (G : grid_type P).

  (** [g] is [g0] except possibly at bits of positions. *)
  Definition frame (g0 g : list Z) : Prop :=
    roomy P g /\ length g = length g0 /\
    forall i, cells P <= i < 32 * Z.of_nat (length g0) -> bit_at g i = bit_at g0 i.

  Lemma frame_refl : forall g, roomy P g -> frame g g.
  Proof. intros g H. split; [exact H |]. split; reflexivity. Qed.

  Lemma frame_trans : forall a b c, frame a b -> frame b c -> frame a c.
  Proof.
    intros a b c (H1 & H2 & H3) (K1 & K2 & K3). split; [exact K1 |]. split; [congruence |].
    intros i Hi. rewrite K3 by (rewrite H2; exact Hi). apply H3. exact Hi.
  Qed.

  Lemma byte_ok : forall g p, roomy P g -> valid P p ->
    to_usize P p = Ret (index_of P p) /\
    byte_bit (index_of P p) = (index_of P p / 32, 2 ^ (31 - index_of P p mod 32)) /\
    0 <= index_of P p / 32 < Z.of_nat (length g) /\
    array_get g (index_of P p / 32) = Ret (nth (Z.to_nat (index_of P p / 32)) g 0).
  Proof.
    intros g p (HW & HR) V. pose proof (index_bound P p G V) as B.
    split; [apply to_usize_ok; assumption |].
    split; [unfold byte_bit; rewrite bit_pow by lia; reflexivity |].
    assert (L : 0 <= index_of P p / 32 < Z.of_nat (length g)) by lia.
    split; [exact L |]. apply array_get_ok; [lia |]. apply nth_error_nth'. lia.
  Qed.

  Lemma gb_get_ok : forall g p, roomy P g -> valid P p -> gb_get P g p = Ret (bit_at g (index_of P p)).
  Proof.
    intros g p HR V. destruct (byte_ok g p HR V) as (E1 & E2 & L & E3).
    unfold gb_get. rewrite E1. cbn [bind]. rewrite E2. rewrite E3. cbn [bind].
    rewrite land_bit by lia. reflexivity.
  Qed.

  Lemma bit_update : forall g i w j, 0 <= i < 32 * Z.of_nat (length g) -> 0 <= j ->
    bit_at (list_set g (Z.to_nat (i / 32)) w) j =
    if i / 32 =? j / 32 then Z.testbit w (31 - j mod 32) else bit_at g j.
  Proof.
    intros g i w j Hi Hj. unfold bit_at. rewrite nth_list_set by lia.
    destruct (Z.eqb_spec (i / 32) (j / 32)) as [-> | N]; [rewrite Nat.eqb_refl; reflexivity |].
    replace (Nat.eqb (Z.to_nat (i / 32)) (Z.to_nat (j / 32))) with false; [reflexivity |].
    symmetry. apply Nat.eqb_neq. lia.
  Qed.

  Lemma gb_set_ok : forall g p v, roomy P g -> valid P p ->
    exists g', gb_set P g p v = Ret g' /\ frame g g' /\
    (forall j, 0 <= j -> bit_at g' j = if index_of P p =? j then v else bit_at g j).
  Proof.
    intros g p v HR V. destruct (byte_ok g p HR V) as (E1 & E2 & L & E3).
    pose proof (index_bound P p G V) as B. set (i := index_of P p) in *.
    set (w := nth (Z.to_nat (i / 32)) g 0) in *.
    assert (Hw : 0 <= w < 4294967296) by (apply nth_word; apply HR).
    set (w' := if v then Z.lor w (2 ^ (31 - i mod 32)) else Z.land w (u32_not (2 ^ (31 - i mod 32)))).
    assert (E : gb_set P g p v = Ret (list_set g (Z.to_nat (i / 32)) w')).
    { unfold gb_set, gb_set_t, gb_set_f, w'. destruct v; rewrite E1; cbn [bind]; rewrite E2, E3; cbn [bind];
        rewrite array_set_ok by exact L; reflexivity. }
    assert (Hw' : 0 <= w' < 4294967296) by (unfold w'; destruct v; [apply lor_range; lia | apply land_range; exact Hw]).
    assert (HB : forall j, 0 <= j -> bit_at (list_set g (Z.to_nat (i / 32)) w') j = if i =? j then v else bit_at g j).
    { intros j Hj. rewrite bit_update by lia.
      destruct (Z.eqb_spec (i / 32) (j / 32)) as [Ej | Nj].
      - unfold bit_at. rewrite <- Ej. fold w. unfold w'.
        assert (Q : (31 - i mod 32 =? 31 - j mod 32) = (i =? j)).
        { destruct (Z.eqb_spec i j) as [-> | N]; [apply Z.eqb_refl |]. apply Z.eqb_neq. lia. }
        destruct v; [rewrite lor_bit by lia | rewrite clear_bit by lia]; rewrite Q; destruct (i =? j); reflexivity.
      - destruct (Z.eqb_spec i j) as [-> | N]; [congruence | reflexivity]. }
    exists (list_set g (Z.to_nat (i / 32)) w'). split; [exact E |]. split; [|exact HB].
    split; [|split].
    - split; [apply list_set_words; [apply HR | exact Hw'] |]. rewrite list_set_length. apply HR.
    - apply list_set_length.
    - intros j Hj. rewrite HB by lia. destruct (Z.eqb_spec i j); [lia | reflexivity].
  Qed.

  Lemma gb_set_laws : forall g p v, roomy P g -> valid P p ->
    exists g', gb_set P g p v = Ret g' /\ frame g g' /\
    forall q, valid P q -> gb_get P g' q = if pos_eqb p q then Ret v else gb_get P g q.
  Proof.
    intros g p v HR V. destruct (gb_set_ok g p v HR V) as (g' & E & F & HB).
    exists g'. split; [exact E |]. split; [exact F |]. intros q Vq.
    rewrite !gb_get_ok by (assumption || apply F). pose proof (index_bound P q G Vq) as B.
    rewrite HB by lia. destruct (pos_eqb p q) eqn:Epq.
    - apply pos_eqb_eq in Epq. subst q. rewrite Z.eqb_refl. reflexivity.
    - apply pos_eqb_neq in Epq. destruct (Z.eqb_spec (index_of P p) (index_of P q)) as [Ei | _]; [|reflexivity].
      apply index_inj in Ei; congruence.
  Qed.

  (** Equality in terms of contents and padding. *)
  Lemma eq_bits : forall a b, roomy P a -> roomy P b -> length a = length b ->
    (gb_eqb a b = true <->
     (forall p, valid P p -> gb_get P a p = gb_get P b p) /\
     (forall i, cells P <= i < 32 * Z.of_nat (length a) -> bit_at a i = bit_at b i)).
  Proof.
    intros a b Ha Hb L. rewrite gb_eqb_eq. split; [intros ->; split; reflexivity |].
    intros (H1 & H2). apply words_ext; [exact L | apply Ha | apply Hb |].
    intros i Hi. destruct (Z_lt_dec i (cells P)) as [Lt | Ge]; [|apply H2; lia].
    destruct (index_bijection P G) as (_ & B & _). destruct (B i) as (p & V & _ & E); [lia |].
    rewrite to_usize_ok in E by assumption. injection E as E.
    specialize (H1 p V). rewrite !gb_get_ok in H1 by assumption. rewrite E in H1. congruence.
  Qed.

  (** ** Orbit steps built from get and set *)

  (** Swapping two positions. *)
  Lemma gb_swap_step : forall g0 g p1 p2, frame g0 g -> valid P p1 -> valid P p2 ->
    exists g', (tmp <- gb_get P g p1 ;; v2 <- gb_get P g p2 ;; g <- gb_set P g p1 v2 ;; gb_set P g p2 tmp) = Ret g' /\
    frame g0 g' /\ forall p, valid P p -> gb_get P g' p = gb_get P g (swapped p1 p2 p).
  Proof.
    intros g0 g p1 p2 F V1 V2. assert (R := proj1 F).
    rewrite (gb_get_ok g p1), (gb_get_ok g p2) by assumption. cbn [bind].
    destruct (gb_set_laws g p1 (bit_at g (index_of P p2)) R V1) as (g1 & E1 & F1 & H1). rewrite E1. cbn [bind].
    destruct (gb_set_laws g1 p2 (bit_at g (index_of P p1)) (proj1 F1) V2) as (g2 & E2 & F2 & H2).
    exists g2. split; [exact E2 |]. split; [eapply frame_trans; [exact F | eapply frame_trans; eassumption] |].
    intros p V. rewrite H2, H1 by exact V. unfold swapped.
    destruct (pos_eqb p2 p) eqn:D2, (pos_eqb p1 p) eqn:D1; try reflexivity.
    - apply pos_eqb_eq in D1, D2. subst. rewrite gb_get_ok by assumption. reflexivity.
    - rewrite gb_get_ok by assumption. reflexivity.
    - rewrite gb_get_ok by assumption. reflexivity.
  Qed.

  (** Writing four values at four positions. *)
  Lemma gb_set4 : forall g0 g p1 p2 p3 p4 v1 v2 v3 v4, frame g0 g ->
    valid P p1 -> valid P p2 -> valid P p3 -> valid P p4 ->
    p1 <> p2 -> p1 <> p3 -> p1 <> p4 -> p2 <> p3 -> p2 <> p4 -> p3 <> p4 ->
    exists g', (g <- gb_set P g p1 v1 ;; g <- gb_set P g p2 v2 ;; g <- gb_set P g p3 v3 ;; gb_set P g p4 v4) = Ret g' /\
    frame g0 g' /\
    gb_get P g' p1 = Ret v1 /\ gb_get P g' p2 = Ret v2 /\ gb_get P g' p3 = Ret v3 /\ gb_get P g' p4 = Ret v4 /\
    forall p, valid P p -> ~ In p [p1; p2; p3; p4] -> gb_get P g' p = gb_get P g p.
  Proof.
    intros g0 g p1 p2 p3 p4 v1 v2 v3 v4 F V1 V2 V3 V4 N12 N13 N14 N23 N24 N34.
    destruct (gb_set_laws g p1 v1 (proj1 F) V1) as (g1 & E1 & F1 & H1). rewrite E1. cbn [bind].
    destruct (gb_set_laws g1 p2 v2 (proj1 F1) V2) as (g2 & E2 & F2 & H2). rewrite E2. cbn [bind].
    destruct (gb_set_laws g2 p3 v3 (proj1 F2) V3) as (g3 & E3 & F3 & H3). rewrite E3. cbn [bind].
    destruct (gb_set_laws g3 p4 v4 (proj1 F3) V4) as (g4 & E4 & F4 & H4).
    exists g4. split; [exact E4 |].
    split; [eapply frame_trans; [exact F | eapply frame_trans; [exact F1 | eapply frame_trans; [exact F2 |
      eapply frame_trans; eassumption]]] |].
    assert (NE : forall a b, a <> b -> pos_eqb a b = false) by (intros a b; apply pos_eqb_neq).
    split; [rewrite H4, H3, H2, H1, !NE, pos_eqb_refl by (assumption || congruence); reflexivity |].
    split; [rewrite H4, H3, H2, (NE p4 p2), (NE p3 p2), pos_eqb_refl by (assumption || congruence); reflexivity |].
    split; [rewrite H4, H3, (NE p4 p3), pos_eqb_refl by (assumption || congruence); reflexivity |].
    split; [rewrite H4, pos_eqb_refl by assumption; reflexivity |].
    intros p V N. cbn [In] in N.
    rewrite H4, H3, H2, H1, (NE p4 p), (NE p3 p), (NE p2 p), (NE p1 p) by (assumption || intuition congruence). reflexivity.
  Qed.
End Access.
