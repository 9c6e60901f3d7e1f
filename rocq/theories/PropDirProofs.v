(** PropDirProofs.v -- proofs of the statements of PropDir.v. *)

From Coq Require Import ZArith List Bool Lia.
From Verif Require Import Rust BoundedInt Dir PosT Pos Spec Lib BoundedIntProofs PosTProofs PosTProofs2.
Import ListNotations.
Open Scope Z_scope.

Lemma C21_dir_rotation_proof : forall a b, exists c n,
  dir_add a b = Ret c /\ dir_rotate a b = Ret c /\ heading c = (heading a + heading b) mod 8 /\
  dir_neg a = Ret n /\ dir_flip a = Ret n /\ heading n = (heading a + 4) mod 8 /\
  delta_x n = - delta_x a /\ delta_y n = - delta_y a.
Proof.
  intros [] []; do 2 eexists; vm_compute; repeat split.
Qed.

Lemma C21_dir_group_proof : forall a b c,
  dir_add a b = dir_add b a /\
  dir_add dN a = Ret a /\ dir_default = dN /\
  (bind (dir_add a b) (fun ab => dir_add ab c) = bind (dir_add b c) (fun bc => dir_add a bc)) /\
  (exists i, dir_add a i = Ret dN) /\
  bind (dir_neg a) dir_neg = Ret a /\ dir_neg a = dir_add a dS /\
  (is_diagonal a = true <-> In a [dNE; dSE; dSW; dNW]) /\
  (forall s, dir_add a b = Ret s -> is_diagonal s = xorb (is_diagonal a) (is_diagonal b)).
Proof.
  intros a b c.
  split; [destruct a, b; reflexivity |]. split; [destruct a; reflexivity |]. split; [reflexivity |].
  split; [destruct a, b, c; reflexivity |].
  split; [destruct a; (exists dN; reflexivity) || (exists dNE; reflexivity) || (exists dE; reflexivity) ||
    (exists dSE; reflexivity) || (exists dS; reflexivity) || (exists dSW; reflexivity) ||
    (exists dW; reflexivity) || (exists dNW; reflexivity) |].
  split; [destruct a; reflexivity |]. split; [destruct a; reflexivity |].
  split; [destruct a; cbn; intuition discriminate |].
  intros s E. destruct a, b; vm_compute in E; injection E as <-; reflexivity.
Qed.

Lemma C22_dir_tuple_proof : forall d x y,
  dir_to_tuple d = (delta_x d, delta_y d) /\
  dir_try_from_tuple (dir_to_tuple d) = Ok d /\
  (dir_try_from_tuple (x, y) = Ok d <-> (x, y) = (delta_x d, delta_y d)) /\
  ((-1 <= x <= 1 /\ -1 <= y <= 1 /\ (x, y) <> (0, 0)) -> exists e, dir_try_from_tuple (x, y) = Ok e) /\
  (~ (-1 <= x <= 1 /\ -1 <= y <= 1 /\ (x, y) <> (0, 0)) -> dir_try_from_tuple (x, y) = Err InvalidDirection).
Proof.
  assert (T : forall x y, -1 <= x <= 1 -> -1 <= y <= 1 ->
    (x = -1 \/ x = 0 \/ x = 1) /\ (y = -1 \/ y = 0 \/ y = 1)) by lia.
  assert (N : forall x y, ~ (-1 <= x <= 1 /\ -1 <= y <= 1 /\ (x, y) <> (0, 0)) ->
            dir_try_from_tuple (x, y) = Err InvalidDirection).
  { intros x y H. unfold dir_try_from_tuple.
    destruct x as [|[]|[]], y as [|[]|[]]; try reflexivity; exfalso; apply H; repeat split; try lia; discriminate. }
  intros d x y. split; [destruct d; reflexivity |]. split; [destruct d; reflexivity |].
  split; [|split].
  - split; [|intros E; inv E; destruct d; reflexivity]. intros E.
    destruct (Z_lt_dec x (-1)); [rewrite N in E; [discriminate | lia] |].
    destruct (Z_lt_dec 1 x); [rewrite N in E; [discriminate | lia] |].
    destruct (Z_lt_dec y (-1)); [rewrite N in E; [discriminate | lia] |].
    destruct (Z_lt_dec 1 y); [rewrite N in E; [discriminate | lia] |].
    destruct (T x y) as [[-> | [-> | ->]] [-> | [-> | ->]]]; try lia; cbn in E; inv E; reflexivity.
  - intros (Hx & Hy & H). destruct (T x y Hx Hy) as [[-> | [-> | ->]] [-> | [-> | ->]]];
      try (eexists; reflexivity). congruence.
  - apply N.
Qed.

Lemma C22_dir_tuple_neg_proof : forall d n, dir_neg d = Ret n ->
  dir_to_tuple n = (- fst (dir_to_tuple d), - snd (dir_to_tuple d)).
Proof.
  intros d n E. destruct d; vm_compute in E; injection E as <-; reflexivity.
Qed.

Lemma char_spelling : forall c d, dir_try_from_char c = Ok d <-> In c (spellings d).
Proof.
  intros c d. split.
  - intros E. unfold dir_try_from_char in E.
    repeat match type of E with
    | context [match ?x with _ => _ end] => destruct x; try discriminate
    end; inv E; cbn; tauto.
  - destruct d; cbn; intros H; repeat (destruct H as [<- | H]; [reflexivity |]); destruct H.
Qed.

Lemma char_other : forall c, (forall d, ~ In c (spellings d)) -> dir_try_from_char c = Err DirParseError.
Proof.
  intros c H. destruct (dir_try_from_char c) as [d|e] eqn:E.
  - apply char_spelling in E. destruct (H d E).
  - unfold dir_try_from_char in E.
    repeat match type of E with
    | context [match ?x with _ => _ end] => destruct x; try discriminate
    end; inv E; reflexivity.
Qed.

Lemma C23_dir_text_refuted_proof : exists d s, dir_display d = Ret s /\ dir_from_str s = Err DirParseError.
Proof.
  exists dNE, [78; 69]. split; reflexivity.
Qed.

Lemma C23_dir_text_partial_proof : forall d s,
  (dir_from_str s = Ok d <-> exists c, s = [c] /\ In c (spellings d)) /\
  ((forall d c, s = [c] -> ~ In c (spellings d)) -> dir_from_str s = Err DirParseError) /\
  (exists u a uc ac, name_utf8 d = Ret u /\ dir_from_str u = Ok d /\
     name_ascii d = Ret a /\ dir_from_str a = Ok d /\
     name_utf8_char d = Ret uc /\ dir_try_from_char uc = Ok d /\ u = [uc] /\
     name_ascii_char d = Ret ac /\ dir_try_from_char ac = Ok d /\ a = [ac]) /\
  (is_diagonal d = false -> exists t, dir_display d = Ret t /\ dir_from_str t = Ok d).
Proof.
  intros d s. split; [|split; [|split]].
  - split.
    + intros E. destruct s as [|c [|]]; cbn in E; try discriminate. exists c. split; [reflexivity |].
      apply char_spelling. exact E.
    + intros (c & -> & H). cbn [dir_from_str]. apply char_spelling. exact H.
  - intros H. destruct s as [|c [|]]; try reflexivity. cbn [dir_from_str]. apply char_other.
    intros e. apply H. reflexivity.
  - destruct d; do 4 eexists; vm_compute; repeat split.
  - destruct d; intros E; try discriminate; eexists; vm_compute; split; reflexivity.
Qed.

Lemma C64_dir_text_exact_proof : forall d c,
  dir_display d = Ret (compass d) /\ name_cardinal d = Ret (compass d) /\
  (delta_x d = 0 \/ delta_y d = 0 -> dir_from_str (compass d) = Ok d) /\
  (delta_x d <> 0 /\ delta_y d <> 0 -> dir_from_str (compass d) = Err DirParseError) /\
  (dir_try_from_char c = Ok d <-> In c (spellings d)) /\
  ((forall e, ~ In c (spellings e)) -> dir_try_from_char c = Err DirParseError).
Proof.
  intros d c. split; [destruct d; reflexivity |]. split; [destruct d; reflexivity |].
  split; [destruct d; cbn; intros; reflexivity || lia |].
  split; [destruct d; cbn; intros; reflexivity || lia |].
  split; [apply char_spelling | apply char_other].
Qed.

Lemma C24_dir_next_refuted_proof : exists D d, dir_next D d = Panic.
Proof.
  exists false, dNW. reflexivity.
Qed.

Lemma C24_dir_iteration_partial_proof :
  (forall D, dir_iter_list D = Ret (if D then [dN; dNE; dE; dSE; dS; dSW; dW; dNW] else [dN; dE; dS; dW])) /\
  (forall D n, next_calls (dir_iter_next D) n dir_iter =
     Ret (items_then_none (if D then [dN; dNE; dE; dSE; dS; dSW; dW; dNW] else [dN; dE; dS; dW]) n)) /\
  (forall D d, allowed D d ->
     let k := if D then 1 else 2 in
     (heading d + k < 8 -> exists e, dir_next D d = Ret (Some e) /\ heading e = heading d + k) /\
     (8 <= heading d + k -> dir_next D d = Ret None)).
Proof.
  split; [intros []; reflexivity |]. split.
  - intros D n.
    apply (yields_calls (dir_iter_next D) _ dir_iter None None); try reflexivity.
    destruct D; cbn [yields]; repeat (eexists; split; [reflexivity |]); reflexivity.
  - intros D d A k. subst k. unfold allowed in A.
    destruct D, d; cbn in *; split; intros H; try lia; try reflexivity;
      try (eexists; split; [reflexivity | reflexivity]);
      destruct A as [A | [A | A]]; discriminate.
Qed.

Lemma C65_dir_next_exact_proof : forall d,
  (heading d < 7 -> exists e, dir_next true d = Ret (Some e) /\ heading e = heading d + 1) /\
  (heading d = 7 -> dir_next true d = Ret None /\ dir_next false d = Panic) /\
  (heading d < 6 -> exists e, dir_next false d = Ret (Some e) /\ heading e = heading d + 2) /\
  (heading d = 6 -> dir_next false d = Ret None) /\
  nth_error ALL8 (Z.to_nat (heading d)) = Some d /\ Z.of_nat (length ALL8) = dir_SIZE /\
  (delta_x d = 0 \/ delta_y d = 0 -> nth_error ALL4 (Z.to_nat (heading d / 2)) = Some d) /\
  length ALL4 = 4%nat.
Proof.
  intros d. destruct d; cbn; repeat split; intros; try lia; try reflexivity;
    try (eexists; split; reflexivity).
Qed.

Lemma inc_case : forall b x, bty_wf b -> in_bty b x -> b_inc b x = if x + 1 <=? b_max b then Some (x + 1) else None.
Proof.
  intros b x W V. unfold in_bty in V. destruct (Z.leb_spec (x + 1) (b_max b)).
  - apply b_inc_some; [exact W | split; lia | lia].
  - replace x with (b_max b) by lia. apply b_inc_none; exact W.
Qed.

Lemma dec_case : forall b x, bty_wf b -> in_bty b x -> b_dec b x = if b_min b <=? x - 1 then Some (x - 1) else None.
Proof.
  intros b x W V. unfold in_bty in V. destruct (Z.leb_spec (b_min b) (x - 1)).
  - apply b_dec_some; [exact W | split; lia | lia].
  - replace x with (b_min b) by lia. apply b_dec_none; exact W.
Qed.

Lemma C25_pos_dir_add_proof : forall P p d, post_wf P -> valid P p ->
  (valid P (step p d) ->
     pos_dir_add P p d = Ok (step p d) /\ pos_dir_add_ok P p d = Some (step p d) /\
     tuple_dir_add (pt_x P) (pt_y P) p d = Ok (step p d)) /\
  (~ valid P (step p d) ->
     pos_dir_add P p d = Err OutOfBounds /\ pos_dir_add_ok P p d = None /\
     tuple_dir_add (pt_x P) (pt_y P) p d = Err OutOfBounds).
Proof.
  intros P [x y] d W V. pose proof W as (Wx & Wy). pose proof V as (Vx & Vy). cbn [fst snd] in Vx, Vy.
  assert (E : (valid P (step (x, y) d) -> tuple_dir_add (pt_x P) (pt_y P) (x, y) d = Ok (step (x, y) d)) /\
              (~ valid P (step (x, y) d) -> tuple_dir_add (pt_x P) (pt_y P) (x, y) d = Err OutOfBounds)).
  { unfold tuple_dir_add, valid, step, in_bty in *. cbn [fst snd] in *.
    destruct d; cbn [delta_x delta_y]; rewrite ?inc_case, ?dec_case by (assumption || (unfold in_bty; lia));
    split; intros H;
    repeat match goal with |- context [Z.leb ?a ?b] => destruct (Z.leb_spec a b) end;
    cbn [ok_or res_bind]; try reflexivity; try (exfalso; lia); do 2 f_equal; lia. }
  unfold pos_dir_add_ok, pos_dir_add. destruct E as [E1 E2]. split; intros H.
  - rewrite E1 by exact H. repeat split.
  - rewrite E2 by exact H. repeat split.
Qed.

Lemma C25_pos_dir_reversible_proof : forall P p d q, post_wf P -> valid P p -> pos_dir_add P p d = Ok q ->
  valid P q /\ exists n, dir_neg d = Ret n /\ pos_dir_add P q n = Ok p.
Proof.
  intros P p d q W V E. destruct (C25_pos_dir_add_proof P p d W V) as [A B].
  destruct (valid_dec P (step p d)) as [Vs | Vs].
  - destruct (A Vs) as (E1 & _). rewrite E in E1. inv E1. split; [exact Vs |].
    destruct (C21_dir_rotation_proof d d) as (_ & n & _ & _ & _ & En & _ & _ & Dx & Dy).
    exists n. split; [exact En |].
    assert (S : step (step p d) n = p).
    { unfold step. rewrite Dx, Dy. destruct p. cbn. f_equal; lia. }
    destruct (C25_pos_dir_add_proof P (step p d) n W Vs) as [A' _].
    rewrite S in A'. apply A'. exact V.
  - destruct (B Vs) as (E1 & _). congruence.
Qed.

Lemma direction_to_spec : forall D p q,
  (p = q -> direction_to D p q = None) /\
  (p <> q -> exists d, direction_to D p q = Some d /\ allowed D d /\
     (D = true -> delta_x d = Z.sgn (fst q - fst p) /\ delta_y d = Z.sgn (snd q - snd p)) /\
     (D = false -> (delta_x d = 0 /\ delta_y d = Z.sgn (snd q - snd p) /\ snd q <> snd p) \/
                   (delta_y d = 0 /\ delta_x d = Z.sgn (fst q - fst p) /\ fst q <> fst p))).
Proof.
  intros D [x y] [x' y']. unfold direction_to, allowed. cbn [fst snd].
  split; [intros E; inv E; rewrite !Z.compare_refl; destruct D; reflexivity |].
  intros N. destruct D; destruct (Z.compare_spec x x'), (Z.compare_spec y y'); subst;
    try congruence; eexists; (split; [reflexivity |]); cbn [delta_x delta_y];
    (split; [tauto |]); (split; intros; try discriminate); lia.
Qed.

Lemma C26_direction_to_proof : forall P p q, post_wf P -> valid P p -> valid P q ->
  (forall D, direction_to D p q = None <-> p = q) /\
  leads (direction_to false) (pos_dir_add_ok P)
    (Z.to_nat (Z.abs (fst p - fst q) + Z.abs (snd p - snd q))) p q /\
  leads (direction_to true) (pos_dir_add_ok P)
    (Z.to_nat (Z.max (Z.abs (fst p - fst q)) (Z.abs (snd p - snd q)))) p q /\
  (forall d, direction_to false p q = Some d -> is_diagonal d = false).
Proof.
  intros P p q W V Vq. split; [|split; [|split]].
  - intros D. destruct (direction_to_spec D p q) as [A B]. split; [|exact A].
    intros E. destruct (pos_eq_dec p q) as [| N]; [assumption |].
    destruct (B N) as (d & E' & _). congruence.
  - remember (Z.to_nat (Z.abs (fst p - fst q) + Z.abs (snd p - snd q))) as k eqn:Ek.
    revert p V Ek. induction k as [|k IH]; intros p V Ek.
    + assert (E : p = q) by (destruct p, q; cbn [fst snd] in Ek; f_equal; lia).
      split; [exact E | apply direction_to_spec; exact E].
    + assert (N : p <> q) by (intros ->; lia).
      destruct (direction_to_spec false p q) as [_ B]. destruct (B N) as (d & E & _ & _ & Bf).
      specialize (Bf eq_refl).
      assert (Vs : valid P (step p d)).
      { destruct V as (V1 & V2), Vq as (Q1 & Q2). unfold valid, step, in_bty in *. cbn [fst snd].
        destruct Bf as [(B1 & B2 & B3) | (B1 & B2 & B3)]; rewrite B1, B2; lia. }
      exists d, (step p d). split; [exact E |]. split; [apply C25_pos_dir_add_proof; assumption |].
      apply IH; [exact Vs |]. unfold step. cbn [fst snd].
      destruct Bf as [(B1 & B2 & B3) | (B1 & B2 & B3)]; rewrite B1, B2; lia.
  - remember (Z.to_nat (Z.max (Z.abs (fst p - fst q)) (Z.abs (snd p - snd q)))) as k eqn:Ek.
    revert p V Ek. induction k as [|k IH]; intros p V Ek.
    + assert (E : p = q) by (destruct p, q; cbn [fst snd] in Ek; f_equal; lia).
      split; [exact E | apply direction_to_spec; exact E].
    + assert (N : p <> q) by (intros ->; lia).
      destruct (direction_to_spec true p q) as [_ B]. destruct (B N) as (d & E & _ & Bt & _).
      destruct (Bt eq_refl) as (B1 & B2).
      assert (Vs : valid P (step p d)).
      { destruct V as (V1 & V2), Vq as (Q1 & Q2). unfold valid, step, in_bty in *. cbn [fst snd].
        rewrite B1, B2; lia. }
      exists d, (step p d). split; [exact E |]. split; [apply C25_pos_dir_add_proof; assumption |].
      apply IH; [exact Vs |]. unfold step. cbn [fst snd]. rewrite B1, B2. lia.
  - intros d E. destruct (pos_eq_dec p q) as [Eq | N].
    + rewrite (proj1 (direction_to_spec false p q) Eq) in E. discriminate.
    + destruct (proj2 (direction_to_spec false p q) N) as (e & E' & A & _). rewrite E in E'. inv E'.
      destruct A as [A | A]; [discriminate |]. destruct e; cbn in *; lia || reflexivity.
Qed.

Lemma follow_dist : forall P path p q, post_wf P -> valid P p ->
  follow (pos_dir_add_ok P) p path = Some q ->
  Z.max (Z.abs (fst p - fst q)) (Z.abs (snd p - snd q)) <= Z.of_nat (length path) /\
  (Forall (allowed false) path -> Z.abs (fst p - fst q) + Z.abs (snd p - snd q) <= Z.of_nat (length path)).
Proof.
  intros P path. induction path as [|d path IH]; intros p q W V E; cbn [follow] in E.
  - inv E. cbn [length]. lia.
  - destruct (C25_pos_dir_add_proof P p d W V) as [A B].
    destruct (valid_dec P (step p d)) as [Vs | Vs].
    + destruct (A Vs) as (_ & E1 & _). rewrite E1 in E. destruct (IH _ _ W Vs E) as [I1 I2].
      cbn [length]. unfold step in *. cbn [fst snd] in *.
      assert (-1 <= delta_x d <= 1 /\ -1 <= delta_y d <= 1) by (destruct d; cbn; lia).
      split; [lia |]. intros F. inversion F as [|? ? F1 F2]; subst. specialize (I2 F2).
      destruct F1 as [F1 | F1]; [discriminate |]. lia.
    + destruct (B Vs) as (_ & E1 & _). rewrite E1 in E. discriminate.
Qed.

Lemma C26_no_shorter_walk_proof : forall P p q path, post_wf P -> valid P p -> valid P q ->
  follow (pos_dir_add_ok P) p path = Some q ->
  Z.max (Z.abs (fst p - fst q)) (Z.abs (snd p - snd q)) <= Z.of_nat (length path) /\
  (Forall (allowed false) path -> Z.abs (fst p - fst q) + Z.abs (snd p - snd q) <= Z.of_nat (length path)).
Proof.
  intros P p q path W V _. apply follow_dist; assumption.
Qed.
