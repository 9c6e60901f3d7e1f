(** PropDisplayProofs.v -- proofs of the statements of PropDisplay.v. *)

From Coq Require Import ZArith List Bool Lia.
From Verif Require Import Rust BoundedInt Dir PosT Pos Grid Gridbool Display Spec SpecDisplay Lib BoundedIntProofs PosTProofs PropGridProofs PropGridboolProofs DisplayProofs.
Import ListNotations.
Open Scope Z_scope.

Lemma C58_grid_display_proof : forall (T : Type) pad P (fmt : T -> str) (g : list T) (cell : pos -> T), grid_type P -> proper P g ->
  (forall p, valid P p -> grid_get P g p = Ret (cell p)) ->
  exists num : Z -> str, (forall n, 0 <= n -> numeral n (num n)) /\
    (forall x, 0 <= x < cols P -> (length (num x) <= length (num (cols P - 1)%Z))%nat) /\
    (forall y, 0 <= y < rows P -> (length (num y) <= length (num (rows P - 1)%Z))%nat) /\
    grid_display pad P fmt g = Ret (picture pad num (cols P) (rows P) (fun p => fmt (cell p))).
Proof.
  intros T pad P fmt g cell G PR HC. pose proof (cols_pos P G). pose proof (rows_pos P G).
  exists fmt_dec. split; [intros n Hn; apply (fmt_dec_spec n Hn) |]. split; [intros x Hx; apply fmt_dec_length; lia |].
  split; [intros y Hy; apply fmt_dec_length; lia |].
  unfold grid_display. rewrite width_ok, height_ok by exact G. cbn [bind].
  rewrite <- display_helper_ok by lia. f_equal. apply (all_rows_cells P (map fmt (grid_iter g)) (fun p => fmt (cell p)) G).
  - unfold grid_iter. rewrite map_length. exact PR.
  - intros p V. unfold grid_iter. apply map_nth_error.
    destruct (C29_grid_get_set_proof T P g p (cell p) G PR V) as ((v & E & N) & _). rewrite (HC p V) in E. inv E. exact N.
Qed.

Lemma C58_gridbool_display_proof : forall pad P (g : list Z) (cell : pos -> bool), grid_type P -> roomy P g ->
  (forall p, valid P p -> gb_get P g p = Ret (cell p)) ->
  exists num : Z -> str, (forall n, 0 <= n -> numeral n (num n)) /\
    gb_display pad P g = Ret (picture pad num (cols P) (rows P) (fun p => if cell p then [35] else [46])).
Proof.
  intros pad P g cell G R HC. pose proof (cols_pos P G). pose proof (rows_pos P G).
  exists fmt_dec. split; [intros n Hn; apply (fmt_dec_spec n Hn) |].
  unfold gb_display. rewrite width_ok, height_ok by exact G. cbn [bind].
  destruct (C39_gridbool_iter_proof P g G R) as (bs & E & L & N & _). rewrite E. cbn [bind].
  rewrite <- display_helper_ok by lia. f_equal. apply (all_rows_cells P _ (fun p => if cell p then [35] else [46]) G).
  - rewrite map_length. exact L.
  - intros p V. destruct (N p V) as (b & Eb & Nb). rewrite (HC p V) in Eb. inv Eb. apply (map_nth_error (fun b : bool => if b then [35] else [46]) _ _ Nb).
Qed.

Lemma C58_numeral_unique_proof : forall n s t, numeral n s -> numeral n t -> s = t.
Proof.
  exact numeral_unique.
Qed.

Lemma C78_pos_display_proof : forall P p, grid_type P -> valid P p ->
  (exists sx sy, numeral (fst p) sx /\ numeral (snd p) sy /\ pos_display p = [40] ++ sx ++ [44] ++ sy ++ [41]) /\
  forall q, valid P q -> pos_display p = pos_display q -> p = q.
Proof.
  intros P p G V. pose proof (proj1 (valid_nums _ _ G) V) as Vn. split.
  - exists (fmt_dec (fst p)), (fmt_dec (snd p)). split; [apply fmt_dec_spec; lia |]. split; [apply fmt_dec_spec; lia | reflexivity].
  - intros q Vq E. pose proof (proj1 (valid_nums _ _ G) Vq) as Vqn. unfold pos_display, Pos_x, Pos_y, b_into_inner in E.
    destruct (fmt_dec_spec (fst p) ltac:(lia)) as ((_ & D1 & _ & V1) & _). destruct (fmt_dec_spec (snd p) ltac:(lia)) as ((_ & D2 & _ & V2) & _).
    destruct (fmt_dec_spec (fst q) ltac:(lia)) as ((_ & D3 & _ & V3) & _). destruct (fmt_dec_spec (snd q) ltac:(lia)) as ((_ & D4 & _ & V4) & _).
    assert (K : forall c (a b t u : str), (forall d, In d a -> 48 <= d <= 57) -> (forall d, In d b -> 48 <= d <= 57) -> c < 48 ->
      a ++ [c] ++ t = b ++ [c] ++ u -> a = b /\ t = u).
    { clear. intros c. induction a as [|d a IH]; intros [|e b] t u Ha Hb Hc E; cbn in E.
      - injection E as E. auto.
      - injection E as E _. pose proof (Hb e (or_introl eq_refl)). lia.
      - injection E as E _. pose proof (Ha d (or_introl eq_refl)). lia.
      - injection E as E1 E2. destruct (IH b t u) as (-> & ->); auto; [intros x Hx; apply Ha; right; exact Hx | intros x Hx; apply Hb; right; exact Hx |]. subst. auto. }
    cbn [app] in E. injection E as E. apply (K 44) in E; [|exact D1 | exact D3 | lia]. destruct E as (E1 & E2).
    apply (K 41 _ _ [] []) in E2; [|exact D2 | exact D4 | lia]. destruct E2 as (E2 & _).
    rewrite E1 in V1. rewrite E2 in V2. destruct p, q. cbn in *. congruence.
Qed.

Lemma C79_gridbool_rectangle_proof : forall P g, grid_type P -> roomy P g ->
  exists text lines ndigits_x ndigits_y, gb_display (fun s => s) P g = Ret text /\
    text = concat (map (fun l => l ++ [10]) lines) /\
    (exists s, numeral (cols P - 1) s /\ length s = ndigits_x) /\ (exists s, numeral (rows P - 1) s /\ length s = ndigits_y) /\
    Z.of_nat (length lines) = Z.of_nat ndigits_x + rows P + Z.of_nat ndigits_x /\
    forall l, In l lines -> Z.of_nat (length l) = Z.of_nat ndigits_y + 1 + cols P /\ ~ In 10 l.
Proof.
  intros P g G R. pose proof (cols_pos P G). pose proof (rows_pos P G).
  pose (cell := fun p => match gb_get P g p with Ret b => b | _ => false end).
  assert (HC : forall p, valid P p -> gb_get P g p = Ret (cell p)).
  { intros p V. destruct (C39_gridbool_iter_proof P g G R) as (bs & _ & _ & N & _). destruct (N p V) as (b & E & _). unfold cell. rewrite E. reflexivity. }
  assert (ED : gb_display (fun s => s) P g = Ret (picture (fun s => s) fmt_dec (cols P) (rows P) (fun p => if cell p then [35] else [46]))).
  { unfold gb_display. rewrite width_ok, height_ok by exact G. cbn [bind].
    destruct (C39_gridbool_iter_proof P g G R) as (bs & E & L & N & _). rewrite E. cbn [bind].
    rewrite <- display_helper_ok by lia. f_equal. apply (all_rows_cells P _ (fun p => if cell p then [35] else [46]) G).
    - rewrite map_length. exact L.
    - intros p V. destruct (N p V) as (b & Eb & Nb). rewrite (HC p V) in Eb. inv Eb. apply (map_nth_error (fun b : bool => if b then [35] else [46]) _ _ Nb). }
  set (nx := length (fmt_dec (cols P - 1))). set (ny := length (fmt_dec (rows P - 1))).
  assert (DIG : forall n c, 0 <= n -> In c (fmt_dec n) -> 48 <= c <= 57) by (intros n c Hn; apply (fmt_dec_spec n Hn)).
  assert (NL : forall k n, 0 <= n -> ~ In 10 (aligned k (fmt_dec n))).
  { intros k n Hn Hin. apply in_app_or in Hin. destruct Hin as [Hin | Hin]; [apply repeat_spec in Hin; discriminate | apply DIG in Hin; lia]. }
  set (lab := map (fun k => repeat 32 ny ++ [32] ++ concat (map (fun x => [nth k (aligned nx (fmt_dec x)) 0]) (interval 0 (cols P - 1)))) (seq 0 nx)).
  set (mid := map (fun y => aligned ny (fmt_dec y) ++ [32] ++ concat (map (fun x => if cell (x, y) then [35] else [46]) (interval 0 (cols P - 1)))) (interval 0 (rows P - 1))).
  exists (concat (map (fun l => l ++ [10]) (lab ++ mid ++ lab))), (lab ++ mid ++ lab), nx, ny.
  assert (SING : forall (f : Z -> str) l, (forall x, length (f x) = 1%nat) -> length (concat (map f l)) = length l).
  { intros f l Hf. induction l as [|x l IH]; [reflexivity |]. cbn [map concat length]. rewrite app_length, IH, Hf. reflexivity. }
  assert (LC : Z.of_nat (length (interval 0 (cols P - 1))) = cols P) by (unfold interval, zrange; rewrite map_length, seq_length; lia).
  assert (LR : Z.of_nat (length (interval 0 (rows P - 1))) = rows P) by (unfold interval, zrange; rewrite map_length, seq_length; lia).
  split; [|split; [reflexivity | split; [|split; [|split]]]].
  - rewrite ED. f_equal. unfold picture, label_block. fold nx ny. rewrite !map_app, !concat_app. unfold lab, mid. rewrite !map_map.
    apply (f_equal2 (@app Z)); [|apply (f_equal2 (@app Z))]; apply f_equal; apply map_ext; intros; rewrite <- !app_assoc; reflexivity.
  - exists (fmt_dec (cols P - 1)). split; [apply fmt_dec_spec; lia | reflexivity].
  - exists (fmt_dec (rows P - 1)). split; [apply fmt_dec_spec; lia | reflexivity].
  - rewrite !app_length. unfold lab, mid. rewrite !map_length, seq_length. lia.
  - assert (LAB : forall l, In l lab -> Z.of_nat (length l) = Z.of_nat ny + 1 + cols P /\ ~ In 10 l).
    { intros l Hl. apply in_map_iff in Hl. destruct Hl as (k & <- & Hk). apply in_seq in Hk. split.
      - rewrite !app_length, repeat_length, SING by reflexivity. cbn [length]. lia.
      - intros Hin. apply in_app_or in Hin. destruct Hin as [Hin | Hin]; [apply repeat_spec in Hin; discriminate |].
        destruct Hin as [Hin | Hin]; [discriminate |]. apply in_concat in Hin. destruct Hin as (s & Hs & Hin).
        apply in_map_iff in Hs. destruct Hs as (x & <- & Hx). apply interval_In in Hx. destruct Hin as [Hin | []].
        apply (NL nx x ltac:(lia)). rewrite <- Hin. apply nth_In. rewrite aligned_length; [lia |]. apply fmt_dec_length. lia. }
    intros l Hl. apply in_app_or in Hl. destruct Hl as [Hl | Hl]; [apply LAB; exact Hl |].
    apply in_app_or in Hl. destruct Hl as [Hl | Hl]; [|apply LAB; exact Hl].
    apply in_map_iff in Hl. destruct Hl as (y & <- & Hy). apply interval_In in Hy. split.
    + rewrite !app_length, aligned_length by (apply fmt_dec_length; lia). rewrite SING by (intros x; destruct (cell (x, y)); reflexivity). cbn [length]. lia.
    + intros Hin. apply in_app_or in Hin. destruct Hin as [Hin | Hin]; [apply (NL ny y ltac:(lia)) in Hin; exact Hin |].
      destruct Hin as [Hin | Hin]; [discriminate |]. apply in_concat in Hin. destruct Hin as (s & Hs & Hin).
      apply in_map_iff in Hs. destruct Hs as (x & <- & _). destruct (cell (x, y)); destruct Hin as [Hin | []]; discriminate.
Qed.
