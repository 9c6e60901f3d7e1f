(** PropAnyStoreProofs.v -- proofs of the statements of PropAnyStore.v. *)

From Coq Require Import ZArith List Bool Lia.
From Verif Require Import Rust BoundedInt Dir PosT Pos Grid Gridbool Spec Lib Deque BoundedIntProofs PosTProofs PosTProofs2 GridProofs GridboolProofs PropAnyPosProofs.
Import ListNotations.
Open Scope Z_scope.

Lemma grid_cell : forall (T : Type) P (g : list T) p i, to_usize P p = Ret i -> 0 <= i ->
  (i < Z.of_nat (length g) -> grid_get P g p = match nth_error g (Z.to_nat i) with Some a => Ret a | None => UB end /\
     forall v, grid_set P g p v = Ret (list_set g (Z.to_nat i) v)) /\
  (Z.of_nat (length g) <= i -> grid_get P g p = UB /\ forall v, grid_set P g p v = UB).
Proof.
  intros T P g p i E N. unfold grid_get, grid_set. rewrite E. cbn [bind]. split; intros L.
  - split.
    + unfold array_get_unchecked. replace (0 <=? i) with true by lia. reflexivity.
    + intros v. apply array_set_unchecked_ok. lia.
  - split.
    + unfold array_get_unchecked. rewrite (proj2 (nth_error_None g (Z.to_nat i))) by lia. destruct (0 <=? i); reflexivity.
    + intros v. unfold array_set_unchecked. replace (i <? Z.of_nat (length g)) with false by lia. rewrite andb_false_r. reflexivity.
Qed.

Lemma index_apart : forall P x y u v, valid P (x, y) -> valid P (u, v) ->
  0 <= x -> 0 <= u -> y * (XM P + 1) + x = v * (XM P + 1) + u -> (x, y) = (u, v).
Proof.
  intros P x y u v V U X0 U0 E. unfold valid, in_bty in *. cbn [fst snd] in *.
  assert (y = v) by nia. subst v. f_equal. lia.
Qed.

Lemma C143_grid_proof : forall (T : Type) P (g : list T) x y w, post_wf P -> valid P (x, y) ->
  let i := y * (XM P + 1) + x in
  let has := 0 <= x /\ 0 <= y /\ XM P < 2 ^ 64 - 1 /\ i < 2 ^ 64 in
  (~ has -> grid_get P g (x, y) = Panic /\ grid_set P g (x, y) w = Panic) /\
  (has -> Z.of_nat (length g) <= i -> grid_get P g (x, y) = UB /\ grid_set P g (x, y) w = UB) /\
  (has -> i < Z.of_nat (length g) ->
     (exists a, nth_error g (Z.to_nat i) = Some a /\ grid_get P g (x, y) = Ret a) /\
     exists g', grid_set P g (x, y) w = Ret g' /\ length g' = length g /\ grid_get P g' (x, y) = Ret w /\
       forall q, valid P q -> q <> (x, y) -> grid_get P g' q = grid_get P g q).
Proof.
  intros T P g x y w W V. cbn zeta. destruct (C142_index_proof P W) as (_ & _ & I & _).
  set (i := y * (XM P + 1) + x). set (has := 0 <= x /\ 0 <= y /\ XM P < 2 ^ 64 - 1 /\ i < 2 ^ 64).
  destruct (I x y V) as (A & B). fold i in A, B. fold has in A, B. split; [|split].
  - intros H. unfold grid_get, grid_set. rewrite (B H). split; reflexivity.
  - intros H L. destruct (A H) as (E & _). destruct H as (X0 & Y0 & _).
    assert (N : 0 <= i) by (unfold i; unfold valid, in_bty in V; cbn in V; nia).
    destruct (grid_cell T P g (x, y) i E N) as (_ & C). destruct (C L) as (C1 & C2). auto.
  - intros H L. destruct (A H) as (E & _). destruct H as (X0 & Y0 & _).
    assert (N : 0 <= i) by (unfold i; unfold valid, in_bty in V; cbn in V; nia).
    destruct (grid_cell T P g (x, y) i E N) as (C & _). destruct (C L) as (C1 & C2).
    destruct (nth_error_some g i) as (a & Ea); [lia |]. split.
    + exists a. split; [exact Ea |]. rewrite C1, Ea. reflexivity.
    + exists (list_set g (Z.to_nat i) w). split; [apply C2 |]. split; [apply list_set_length |]. split.
      * unfold grid_get. rewrite E. cbn [bind]. unfold array_get_unchecked. replace (0 <=? i) with true by lia.
        rewrite list_set_nth_same by lia. reflexivity.
      * intros (u, v) U Q. unfold grid_get.
        destruct (I u v U) as (A2 & B2). set (j := v * (XM P + 1) + u) in *.
        destruct (Z_le_dec 0 u) as [U0 |]; [|rewrite B2 by lia; reflexivity].
        destruct (Z_le_dec 0 v) as [V0 |]; [|rewrite B2 by lia; reflexivity].
        destruct (Z_lt_dec (XM P) (2 ^ 64 - 1)) as [F |]; [|rewrite B2 by lia; reflexivity].
        destruct (Z_lt_dec j (2 ^ 64)) as [J |]; [|rewrite B2 by lia; reflexivity].
        destruct A2 as (E2 & _); [lia |]. rewrite E2. cbn [bind]. unfold array_get_unchecked.
        destruct (Z.leb_spec 0 j) as [J0 |]; [|reflexivity].
        rewrite list_set_nth_other; [reflexivity |]. intros K. apply Q. symmetry.
        apply (index_apart P); try assumption. fold i j. lia.
Qed.

Lemma C143_gridbool_proof : forall P g x y w, post_wf P -> valid P (x, y) -> u32_words g ->
  let i := y * (XM P + 1) + x in
  let has := 0 <= x /\ 0 <= y /\ XM P < 2 ^ 64 - 1 /\ i < 2 ^ 64 in
  (~ (has /\ i < 32 * Z.of_nat (length g)) -> gb_get P g (x, y) = Panic /\ gb_set P g (x, y) w = Panic) /\
  (has /\ i < 32 * Z.of_nat (length g) ->
     (exists a, gb_get P g (x, y) = Ret a) /\
     exists g', gb_set P g (x, y) w = Ret g' /\ length g' = length g /\ u32_words g' /\ gb_get P g' (x, y) = Ret w /\
       forall q, valid P q -> q <> (x, y) -> gb_get P g' q = gb_get P g q).
Proof.
  intros P g x y w W V HW. cbn zeta. destruct (C142_index_proof P W) as (_ & _ & I & _).
  set (i := y * (XM P + 1) + x). set (has := 0 <= x /\ 0 <= y /\ XM P < 2 ^ 64 - 1 /\ i < 2 ^ 64).
  destruct (I x y V) as (A & B). fold i in A, B. fold has in A, B.
  assert (D : {has} + {~ has}).
  { unfold has. destruct (Z_le_dec 0 x); [|right; lia]. destruct (Z_le_dec 0 y); [|right; lia].
    destruct (Z_lt_dec (XM P) (2 ^ 64 - 1)); [|right; lia]. destruct (Z_lt_dec i (2 ^ 64)); [left | right]; lia. }
  assert (RD : forall l q j, to_usize P q = Ret j -> 0 <= j -> gb_get P l q =
    if j <? 32 * Z.of_nat (length l) then Ret (bit_at l j) else Panic).
  { intros l q j E N. unfold gb_get. rewrite E. cbn [bind]. unfold byte_bit. rewrite bit_pow by lia.
    destruct (Z.ltb_spec j (32 * Z.of_nat (length l))) as [L | L].
    - rewrite (array_get_ok l (j / 32) (nth (Z.to_nat (j / 32)) l 0)); [|lia | apply nth_error_nth'; lia].
      cbn [bind]. rewrite land_bit by lia. reflexivity.
    - unfold array_get. rewrite (proj2 (nth_error_None l (Z.to_nat (j / 32)))) by lia. destruct (0 <=? j / 32); reflexivity. }
  split.
  - intros H. destruct D as [D | D].
    + destruct (A D) as (E & _). destruct D as (X0 & Y0 & D).
      assert (N : 0 <= i) by (unfold i; unfold valid, in_bty in V; cbn in V; nia).
      assert (L : 32 * Z.of_nat (length g) <= i) by (unfold has in H; lia).
      split.
      * rewrite (RD g _ i E N). replace (i <? _) with false by lia. reflexivity.
      * unfold gb_set, gb_set_t, gb_set_f. rewrite E. cbn [bind]. unfold byte_bit.
        assert (Q : array_get g (i / 32) = Panic).
        { unfold array_get. rewrite (proj2 (nth_error_None g (Z.to_nat (i / 32)))) by lia. destruct (0 <=? i / 32); reflexivity. }
        rewrite Q. destruct w; reflexivity.
    + unfold gb_get, gb_set, gb_set_t, gb_set_f. rewrite (B D). split; [reflexivity | destruct w; reflexivity].
  - intros (H & L). destruct (A H) as (E & _). destruct H as (X0 & Y0 & F & _).
    assert (N : 0 <= i) by (unfold i; unfold valid, in_bty in V; cbn in V; nia).
    split; [exists (bit_at g i); rewrite (RD g _ i E N); replace (i <? _) with true by lia; reflexivity |].
    set (c := nth (Z.to_nat (i / 32)) g 0).
    assert (Hc : 0 <= c < 4294967296) by (apply nth_word; exact HW).
    set (c' := if w then Z.lor c (2 ^ (31 - i mod 32)) else Z.land c (u32_not (2 ^ (31 - i mod 32)))).
    assert (Hc' : 0 <= c' < 4294967296) by (unfold c'; destruct w; [apply lor_range; lia | apply land_range; exact Hc]).
    assert (ES : gb_set P g (x, y) w = Ret (list_set g (Z.to_nat (i / 32)) c')).
    { assert (Q : array_get g (i / 32) = Ret c) by (apply array_get_ok; [lia |]; apply nth_error_nth'; lia).
      unfold gb_set, gb_set_t, gb_set_f, c'. destruct w; rewrite E; cbn [bind]; unfold byte_bit; rewrite bit_pow by lia; rewrite Q; cbn [bind];
        rewrite array_set_ok by lia; reflexivity. }
    assert (HB : forall j, 0 <= j -> bit_at (list_set g (Z.to_nat (i / 32)) c') j = if i =? j then w else bit_at g j).
    { intros j Hj. rewrite bit_update by lia. destruct (Z.eqb_spec (i / 32) (j / 32)) as [Ej | Nj].
      - unfold bit_at. rewrite <- Ej. fold c. unfold c'.
        assert (Q : (31 - i mod 32 =? 31 - j mod 32) = (i =? j)).
        { destruct (Z.eqb_spec i j) as [-> | NN]; [apply Z.eqb_refl |]. apply Z.eqb_neq. lia. }
        destruct w; [rewrite lor_bit by lia | rewrite clear_bit by lia]; rewrite Q; destruct (i =? j); reflexivity.
      - destruct (Z.eqb_spec i j) as [-> | NN]; [congruence | reflexivity]. }
    exists (list_set g (Z.to_nat (i / 32)) c'). split; [exact ES |]. split; [apply list_set_length |].
    split; [apply list_set_words; assumption |]. split.
    + rewrite (RD _ _ i E N). rewrite list_set_length. replace (i <? _) with true by lia. rewrite HB by lia. rewrite Z.eqb_refl. reflexivity.
    + intros (u, v) U Q. destruct (I u v U) as (A2 & B2). set (j := v * (XM P + 1) + u) in *.
      assert (NO : to_usize P (u, v) = Panic -> gb_get P (list_set g (Z.to_nat (i / 32)) c') (u, v) = gb_get P g (u, v)).
      { intros K. unfold gb_get. rewrite K. reflexivity. }
      destruct (Z_le_dec 0 u) as [U0 |]; [|apply NO, B2; lia].
      destruct (Z_le_dec 0 v) as [V0 |]; [|apply NO, B2; lia].
      destruct (Z_lt_dec j (2 ^ 64)) as [J |]; [|apply NO, B2; lia].
      destruct A2 as (E2 & _); [lia |].
      assert (J0 : 0 <= j) by (unfold j; unfold valid, in_bty in U; cbn in U; nia).
      rewrite !(RD _ _ j E2 J0), list_set_length, HB by exact J0.
      destruct (Z.eqb_spec i j) as [K | _]; [|reflexivity].
      exfalso. apply Q. symmetry. apply (index_apart P); assumption.
Qed.

Lemma C143_safe_proof : forall (T : Type) P (g : list T) w, post_wf P -> 0 <= XM P < 2 ^ 64 - 1 -> 0 <= YM P ->
  (XM P + 1) * (YM P + 1) <= 2 ^ 64 ->
  ((forall p, valid P p -> grid_get P g p <> UB) <-> (XM P + 1) * (YM P + 1) <= Z.of_nat (length g)) /\
  ((forall p, valid P p -> grid_set P g p w <> UB) <-> (XM P + 1) * (YM P + 1) <= Z.of_nat (length g)).
Proof.
  intros T P g w W HX HY HM.
  assert (OK : (XM P + 1) * (YM P + 1) <= Z.of_nat (length g) -> forall p, valid P p -> grid_get P g p <> UB /\ grid_set P g p w <> UB).
  { intros L (x, y) V. destruct (C143_grid_proof T P g x y w W V) as (A & B & C). cbn zeta in *.
    set (i := y * (XM P + 1) + x) in *.
    assert (K : ~ (0 <= x /\ 0 <= y) \/ (0 <= x /\ 0 <= y)) by lia. destruct K as [K | K].
    - destruct A as (-> & ->); [lia |]. split; discriminate.
    - assert (i < (XM P + 1) * (YM P + 1)) by (unfold i; unfold valid, in_bty in V; cbn in V; nia).
      destruct C as ((a & _ & ->) & (g' & -> & _)); [lia | lia |]. split; discriminate. }
  assert (BAD : Z.of_nat (length g) < (XM P + 1) * (YM P + 1) -> valid P (XM P, YM P) /\ grid_get P g (XM P, YM P) = UB /\ grid_set P g (XM P, YM P) w = UB).
  { intros L. assert (V : valid P (XM P, YM P)).
    { destruct W as (W1 & W2). unfold bty_wf in W1, W2. unfold valid, in_bty. cbn. lia. }
    split; [exact V |]. destruct (C143_grid_proof T P g (XM P) (YM P) w W V) as (_ & B & _). cbn zeta in B. apply B; nia. }
  split; (split; [intros H; apply Z.nlt_ge; intros L; destruct (BAD L) as (V & E1 & E2); apply (H _ V); assumption | intros L p V; apply (OK L p V)]).
Qed.

Lemma C143_declared_proof : forall t, In t [u8; u16; u32] ->
  let P := IntTuple t in let last := (imax t, imax t) in
  valid P last /\
  (forall (T : Type) (g : list T) SIZE w, grid_asserts P SIZE = Ret true -> Z.of_nat (length g) = SIZE ->
     grid_get P g last = UB /\ grid_set P g last w = UB) /\
  (forall WORDS v g w, gb_repeat P WORDS v = Ret g ->
     gb_get P g last = Panic /\ gb_set P g last w = Panic /\ gb_get P g (0, 0) = Ret v).
Proof.
  intros t I. cbn zeta.
  assert (H : exists m, m < 2 ^ 64 /\ imin t = 0 /\ imax t = m - 1 /\ pt_WIDTH (IntTuple t) = m - 1 /\ pt_HEIGHT (IntTuple t) = m - 1 /\ 256 <= m /\ m * m <= 2 ^ 64).
  { cbn [In] in I. destruct I as [<- | [<- | [<- | []]]]; [exists 256 | exists 65536 | exists 4294967296]; repeat split; vm_compute; congruence. }
  destruct H as (m & Hm0 & H0 & Hm & EW & EH & Hm1 & Hm2).
  assert (W : post_wf (IntTuple t)).
  { assert (A : In t all_ity) by (cbn [In] in I; destruct I as [<- | [<- | [<- | []]]]; cbn; tauto).
    unfold post_wf, bty_wf, IntTuple. cbn [pt_x pt_y b_inner b_min b_max]. repeat split; try exact A; lia. }
  assert (V : valid (IntTuple t) (imax t, imax t)).
  { unfold valid, in_bty, IntTuple. cbn [pt_x pt_y b_inner b_min b_max fst snd]. lia. }
  assert (V0 : valid (IntTuple t) (0, 0)).
  { unfold valid, in_bty, IntTuple. cbn [pt_x pt_y b_inner b_min b_max fst snd]. lia. }
  split; [exact V |]. split.
  - intros T g SIZE w EA L. unfold grid_asserts in EA. rewrite EW, EH in EA. unfold umul in EA. rewrite arith_usize in EA.
    destruct (_ && _); cbn [bind] in EA; [|discriminate]. injection EA as EA. apply Z.eqb_eq in EA.
    destruct (C143_grid_proof T (IntTuple t) g (imax t) (imax t) w W V) as (_ & B & _). cbn zeta in B.
    change (XM (IntTuple t)) with (imax t) in B. rewrite Hm in *. apply B; nia.
  - intros WORDS v g w E. unfold gb_repeat in E. destruct (gridbool_asserts (IntTuple t) WORDS) as [ok | | |] eqn:EA; cbn [bind] in E; try discriminate.
    destruct ok; [|discriminate]. injection E as E.
    assert (L : 32 * WORDS - 32 <= (m - 1) * (m - 1) <= 32 * WORDS).
    { unfold gridbool_asserts in EA. rewrite EW, EH in EA. unfold umul, usub in EA. rewrite !arith_usize in EA.
      destruct ((0 <=? (m - 1) * (m - 1)) && _); cbn [bind] in EA; [|discriminate]. rewrite ?arith_usize in EA.
      destruct ((0 <=? WORDS * 32) && _); cbn [bind] in EA; [|discriminate].
      destruct (Z.leb_spec ((m - 1) * (m - 1)) (WORDS * 32)); [|discriminate]. rewrite ?arith_usize in EA.
      destruct ((0 <=? WORDS * 32 - 32) && _); cbn [bind] in EA; [|discriminate]. injection EA as EA. lia. }
    assert (LG : Z.of_nat (length g) = WORDS) by (subst g; rewrite repeat_length; lia).
    assert (HW : u32_words g).
    { subst g. unfold u32_words. apply Forall_forall. intros c Hc. apply repeat_spec in Hc. subst c. destruct v; unfold WORD_TRUE, WORD_FALSE; lia. }
    destruct (C143_gridbool_proof (IntTuple t) g (imax t) (imax t) w W V HW) as (A & _). cbn zeta in A.
    change (XM (IntTuple t)) with (imax t) in A. destruct A as (A1 & A2); [rewrite Hm; nia |].
    split; [exact A1 |]. split; [exact A2 |].
    destruct (C142_index_proof (IntTuple t) W) as (_ & _ & I0 & _). destruct (I0 0 0 V0) as ((E0 & _) & _).
    { change (XM (IntTuple t)) with (imax t). lia. }
    replace (0 * (XM (IntTuple t) + 1) + 0) with 0 in E0 by lia.
    unfold gb_get. rewrite E0. cbn [bind]. unfold byte_bit. rewrite bit_pow by lia.
    rewrite (array_get_ok g (0 / 32) (if v then WORD_TRUE else WORD_FALSE)); [|cbn; lia |].
    + cbn [bind]. destruct v; reflexivity.
    + subst g. change (Z.to_nat (0 / 32)) with 0%nat. destruct (Z.to_nat WORDS) eqn:EN; [nia | reflexivity].
Qed.
