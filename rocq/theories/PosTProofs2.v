(** PosTProofs2.v -- more lemmas about PosT.v: ranges, geometry, order. *)

From Coq Require Import ZArith List Bool Lia.
From Verif Require Import Rust BoundedInt Dir PosT Pos Spec Lib Deque BoundedIntProofs PosTProofs.
Import ListNotations.
Open Scope Z_scope.

(** ** Single-ended iterators *)

(** From state [s] the iterator delivers [l] and is then in state [s']. *)
Fixpoint yields {A St} (next : St -> exec (option A * St)) (s : St) (l : list A) (s' : St) : Prop :=
  match l with
  | [] => s = s'
  | x :: l' => exists s1, next s = Ret (Some x, s1) /\ yields next s1 l' s'
  end.

Lemma yields_app : forall {A St} (next : St -> exec (option A * St)) l1 l2 s s1 s2,
  yields next s l1 s1 -> yields next s1 l2 s2 -> yields next s (l1 ++ l2) s2.
Proof.
  intros A St next l1. induction l1 as [|x l1 IH]; intros l2 s s1 s2 H1 H2.
  - cbn in H1. subst s1. exact H2.
  - destruct H1 as (s' & E & H1). exists s'. split; [exact E |]. apply (IH l2 s' s1 s2); assumption.
Qed.

Lemma yields_drain : forall {A St} (next : St -> exec (option A * St)) l s s' s'' fuel,
  yields next s l s' -> next s' = Ret (None, s'') -> (length l < fuel)%nat ->
  drain next fuel s = Ret l.
Proof.
  intros A St next l. induction l as [|x l IH]; intros s s' s'' fuel H HN Hf;
    (destruct fuel as [|fuel]; [cbn in Hf; lia |]).
  - cbn in H. subst s'. cbn. rewrite HN. reflexivity.
  - destruct H as (s1 & E & H). cbn [drain]. rewrite E. cbn [bind].
    rewrite (IH s1 s' s'' fuel H HN); [reflexivity | cbn in Hf; lia].
Qed.

Lemma none_calls : forall {A St} (next : St -> exec (option A * St)) s n,
  next s = Ret (None, s) -> next_calls next n s = Ret (repeat None n).
Proof.
  intros A St next s n H. induction n as [|n IH]; [reflexivity |].
  cbn. rewrite H. cbn. rewrite IH. reflexivity.
Qed.

Lemma yields_calls : forall {A St} (next : St -> exec (option A * St)) l s s' s'',
  yields next s l s' -> next s' = Ret (None, s'') -> next s'' = Ret (None, s'') -> forall n,
  next_calls next n s = Ret (items_then_none l n).
Proof.
  intros A St next l. induction l as [|x l IH]; intros s s' s'' H HN HN' n.
  - cbn in H. subst s'. unfold items_then_none. rewrite firstn_nil. cbn [map app length].
    rewrite Nat.sub_0_r. destruct n as [|n]; [reflexivity |]. cbn. rewrite HN. cbn.
    rewrite (none_calls next s'' n HN'). reflexivity.
  - destruct H as (s1 & E & H). destruct n as [|n]; [reflexivity |].
    cbn [next_calls]. rewrite E. cbn [bind]. rewrite (IH s1 s' s'' H HN HN' n). reflexivity.
Qed.

(** *** iter_range *)

Section Range.
  Context (P : post) (Hw : post_wf P) (tl br : pos).
  Context (Htl : valid P tl) (Hbr : valid P br) (Hx : fst tl <= fst br) (Hy : snd tl <= snd br).

  Let nxt (it : prange) : exec (option pos * prange) := Ret (prange_next P it).

  (** The bottom-right corner is lost when the rectangle touches the last row but
      not the last column. *)
  Definition range_items : list pos :=
    if (snd br =? YM P) && (fst br <? XM P)
    then removelast (rect_rows (fst tl) (snd tl) (fst br) (snd br))
    else rect_rows (fst tl) (snd tl) (fst br) (snd br).

  Lemma prange_inner : forall x y, fst tl <= x < fst br -> snd tl <= y <= snd br ->
    prange_next P (PRange tl br (Some (x, y))) = (Some (x, y), PRange tl br (Some (x + 1, y))).
  Proof.
    intros x y Hx' Hy'. cbn [prange_next].
    destruct Htl as (T1 & T2), Hbr as (B1 & B2). unfold in_bty in *.
    destruct (pos_next_inner P x y Hw) as [-> _]; [unfold in_bty; lia | lia |]. cbn [fst snd].
    replace (x + 1 <? fst tl) with false by (symmetry; apply Z.ltb_ge; lia).
    replace (x + 1 >? fst br) with false by (symmetry; rewrite Z.gtb_ltb; apply Z.ltb_ge; lia).
    replace (y <=? snd br) with true by (symmetry; apply Z.leb_le; lia). reflexivity.
  Qed.

  Lemma prange_wrap : forall y, snd tl <= y < snd br ->
    prange_next P (PRange tl br (Some (fst br, y))) =
    (Some (fst br, y), PRange tl br (Some (fst tl, y + 1))).
  Proof.
    intros y Hy'. cbn [prange_next].
    destruct Htl as (T1 & T2), Hbr as (B1 & B2). unfold in_bty in *.
    destruct (Z.eq_dec (fst br) (XM P)) as [E | Hne].
    - rewrite E. destruct (pos_next_wrap P y Hw) as [-> _]; [unfold in_bty; lia | lia |]. cbn [fst snd].
      destruct (b_min (pt_x P) <? fst tl) eqn:E1; bool2prop.
      + change (res_ok (pos_new P FromSelf FromSelf (fst tl) (y + 1))) with (Some (fst tl, y + 1)).
        cbn [fst snd].
        replace (y + 1 <=? snd br) with true by (symmetry; apply Z.leb_le; lia). reflexivity.
      + replace (b_min (pt_x P) >? XM P) with false by (symmetry; rewrite Z.gtb_ltb; apply Z.ltb_ge; lia).
        replace (y + 1 <=? snd br) with true by (symmetry; apply Z.leb_le; lia).
        replace (b_min (pt_x P)) with (fst tl) by lia. reflexivity.
    - destruct (pos_next_inner P (fst br) y Hw) as [-> _]; [unfold in_bty; lia | lia |]. cbn [fst snd].
      replace (fst br + 1 <? fst tl) with false by (symmetry; apply Z.ltb_ge; lia).
      replace (fst br + 1 >? fst br) with true by (symmetry; rewrite Z.gtb_ltb; apply Z.ltb_lt; lia).
      rewrite b_inc_some; [|apply Hw | unfold in_bty; lia | lia].
      change (res_ok (pos_new P FromSelf FromSelf (fst tl) (y + 1))) with (Some (fst tl, y + 1)).
      cbn [fst snd].
      replace (y + 1 <=? snd br) with true by (symmetry; apply Z.leb_le; lia). reflexivity.
  Qed.

  Lemma prange_last : 
    prange_next P (PRange tl br (Some br)) =
    ((if (snd br =? YM P) && (fst br <? XM P) then None else Some br), PRange tl br None).
  Proof.
    destruct br as [bx by_]. cbn [fst snd] in *. cbn [prange_next].
    destruct Htl as (T1 & T2), Hbr as (B1 & B2). unfold in_bty in *. cbn [fst snd] in *.
    destruct (fst (bx, by_) <? XM P) eqn:E; cbn [fst] in E; rewrite ?E; bool2prop.
    - destruct (pos_next_inner P bx by_ Hw) as [-> _]; [unfold in_bty; lia | lia |]. cbn [fst snd].
      replace (bx + 1 <? fst tl) with false by (symmetry; apply Z.ltb_ge; lia).
      replace (bx + 1 >? bx) with true by (symmetry; rewrite Z.gtb_ltb; apply Z.ltb_lt; lia).
      destruct (by_ =? YM P) eqn:E2; bool2prop.
      + subst by_. rewrite b_inc_none by apply Hw. reflexivity.
      + rewrite b_inc_some; [|apply Hw | unfold in_bty; lia | lia].
        change (res_ok (pos_new P FromSelf FromSelf (fst tl) (by_ + 1))) with (Some (fst tl, by_ + 1)).
        cbn [fst snd].
        replace (by_ + 1 <=? by_) with false by (symmetry; apply Z.leb_gt; lia). reflexivity.
    - rewrite andb_false_r. assert (bx = XM P) by lia. subst bx.
      destruct (Z.eq_dec by_ (YM P)) as [-> | Hne].
      + rewrite pos_next_last by exact Hw. reflexivity.
      + destruct (pos_next_wrap P by_ Hw) as [-> _]; [unfold in_bty; lia | lia |]. cbn [fst snd].
        destruct (b_min (pt_x P) <? fst tl) eqn:E1; bool2prop.
        * change (res_ok (pos_new P FromSelf FromSelf (fst tl) (by_ + 1))) with (Some (fst tl, by_ + 1)).
          cbn [fst snd].
          replace (by_ + 1 <=? by_) with false by (symmetry; apply Z.leb_gt; lia). reflexivity.
        * replace (b_min (pt_x P) >? XM P) with false by (symmetry; rewrite Z.gtb_ltb; apply Z.ltb_ge; lia).
          replace (by_ + 1 <=? by_) with false by (symmetry; apply Z.leb_gt; lia). reflexivity.
  Qed.

  (** A row, up to but excluding its last element. *)
  Lemma row_init : forall y, snd tl <= y <= snd br -> forall n x, Z.of_nat n = fst br - x -> fst tl <= x ->
    yields nxt (PRange tl br (Some (x, y))) (map (fun x => (x, y)) (zrange x (fst br)))
      (PRange tl br (Some (fst br, y))).
  Proof.
    intros y Hy' n. induction n as [|n IH]; intros x Hn Hlo.
    - assert (x = fst br) by lia. subst x. rewrite zrange_nil by lia. reflexivity.
    - rewrite zrange_cons by lia. cbn [map yields].
      exists (PRange tl br (Some (x + 1, y))). split.
      + unfold nxt. rewrite prange_inner by lia. reflexivity.
      + apply IH; lia.
  Qed.

  Lemma row_full : forall y, snd tl <= y < snd br ->
    yields nxt (PRange tl br (Some (fst tl, y))) (map (fun x => (x, y)) (interval (fst tl) (fst br)))
      (PRange tl br (Some (fst tl, y + 1))).
  Proof.
    intros y Hy'. rewrite map_interval_snoc by lia. unfold interval.
    replace (fst br - 1 + 1) with (fst br) by lia.
    apply (yields_app _ _ _ _ (PRange tl br (Some (fst br, y)))).
    - apply (row_init y ltac:(lia) (Z.to_nat (fst br - fst tl))); lia.
    - cbn [yields]. eexists. split; [unfold nxt; rewrite prange_wrap by lia; reflexivity | reflexivity].
  Qed.

  (** All rows but the last. *)
  Lemma rows_init : forall n y, Z.of_nat n = snd br - y -> snd tl <= y ->
    yields nxt (PRange tl br (Some (fst tl, y)))
      (flat_map (fun y => map (fun x => (x, y)) (interval (fst tl) (fst br))) (zrange y (snd br)))
      (PRange tl br (Some (fst tl, snd br))).
  Proof.
    induction n as [|n IH]; intros y Hn Hlo.
    - assert (y = snd br) by lia. subst y. rewrite zrange_nil by lia. reflexivity.
    - rewrite (zrange_cons y) by lia. cbn [flat_map].
      apply (yields_app _ _ _ _ (PRange tl br (Some (fst tl, y + 1)))).
      + apply row_full. lia.
      + apply IH; lia.
  Qed.

  Lemma rect_split :
    rect_rows (fst tl) (snd tl) (fst br) (snd br) =
    (flat_map (fun y => map (fun x => (x, y)) (interval (fst tl) (fst br))) (zrange (snd tl) (snd br)) ++
     map (fun x => (x, snd br)) (zrange (fst tl) (fst br))) ++ [br].
  Proof.
    unfold rect_rows. rewrite (interval_snoc (snd tl)) by exact Hy. unfold interval at 2.
    replace (snd br - 1 + 1) with (snd br) by lia.
    rewrite flat_map_app'. cbn [flat_map]. rewrite app_nil_r.
    rewrite (map_interval_snoc (fun x => (x, snd br))) by exact Hx.
    unfold interval at 2. replace (fst br - 1 + 1) with (fst br) by lia.
    rewrite app_assoc. destruct br as [bx by_]. reflexivity.
  Qed.

  Lemma range_yields : exists s, yields nxt (prange_new tl br) range_items s /\
    nxt s = Ret (None, PRange tl br None).
  Proof.
    assert (Y : yields nxt (prange_new tl br)
      (flat_map (fun y => map (fun x => (x, y)) (interval (fst tl) (fst br))) (zrange (snd tl) (snd br)) ++
       map (fun x => (x, snd br)) (zrange (fst tl) (fst br))) (PRange tl br (Some br))).
    { apply (yields_app _ _ _ _ (PRange tl br (Some (fst tl, snd br)))).
      - replace (prange_new tl br) with (PRange tl br (Some (fst tl, snd tl)))
          by (unfold prange_new; destruct tl; reflexivity).
        apply (rows_init (Z.to_nat (snd br - snd tl))); lia.
      - replace (Some br) with (Some (fst br, snd br)) by (destruct br; reflexivity).
        apply (row_init (snd br) ltac:(lia) (Z.to_nat (fst br - fst tl))); lia. }
    unfold range_items. rewrite rect_split.
    destruct ((snd br =? YM P) && (fst br <? XM P)) eqn:E.
    - rewrite removelast_last. exists (PRange tl br (Some br)). split; [exact Y |].
      unfold nxt. rewrite prange_last, E. reflexivity.
    - exists (PRange tl br None). split; [|reflexivity].
      apply (yields_app _ _ _ _ (PRange tl br (Some br))); [exact Y |].
      cbn [yields]. eexists. split; [unfold nxt; rewrite prange_last, E; reflexivity | reflexivity].
  Qed.

  Lemma range_items_length : (length range_items < piter_fuel P)%nat.
  Proof.
    assert (L : (length range_items <= length (rect_rows (fst tl) (snd tl) (fst br) (snd br)))%nat).
    { unfold range_items. destruct (_ && _); [|lia]. rewrite rect_split, removelast_last, !app_length. lia. }
    pose proof (rect_rows_length (fst tl) (snd tl) (fst br) (snd br)) as LR.
    destruct Htl as (T1 & T2), Hbr as (B1 & B2). unfold in_bty in *.
    unfold piter_fuel.
    assert ((fst br - fst tl + 1) * (snd br - snd tl + 1) <=
            (XM P - b_min (pt_x P) + 1) * (YM P - b_min (pt_y P) + 1)) by (apply Z.mul_le_mono_nonneg; lia).
    lia.
  Qed.

  Lemma range_calls : forall n, next_calls nxt n (prange_new tl br) = Ret (items_then_none range_items n).
  Proof.
    destruct range_yields as (s & Y & N). apply (yields_calls nxt _ _ s (PRange tl br None) Y N). reflexivity.
  Qed.

  Lemma range_list : prange_list P tl br = Ret range_items.
  Proof.
    destruct range_yields as (s & Y & N).
    apply (yields_drain nxt _ _ s (PRange tl br None) _ Y N range_items_length).
  Qed.
End Range.

Lemma in_rect_iff : forall P tl br, post_wf P -> valid P tl -> valid P br -> fst tl <= fst br -> snd tl <= snd br ->
  (snd br < YM P \/ fst br = XM P) ->
  prange_list P tl br = Ret (rect_rows (fst tl) (snd tl) (fst br) (snd br)) /\
  forall n, next_calls (fun it => Ret (prange_next P it)) n (prange_new tl br) =
            Ret (items_then_none (rect_rows (fst tl) (snd tl) (fst br) (snd br)) n).
Proof.
  intros P tl br Hw Ht Hb Hx Hy Hc.
  assert (E : range_items P tl br = rect_rows (fst tl) (snd tl) (fst br) (snd br)).
  { unfold range_items. destruct Hb as (B1 & B2). unfold in_bty in *.
    destruct (snd br =? YM P) eqn:E1, (fst br <? XM P) eqn:E2; cbn; bool2prop; try reflexivity. lia. }
  rewrite <- E. split; [apply range_list | apply range_calls]; assumption.
Qed.

Lemma range_loses_corner : forall P tl br, post_wf P -> valid P tl -> valid P br -> fst tl <= fst br -> snd tl <= snd br ->
  snd br = YM P -> fst br < XM P ->
  exists l, rect_rows (fst tl) (snd tl) (fst br) (snd br) = l ++ [br] /\
  prange_list P tl br = Ret l /\
  forall n, next_calls (fun it => Ret (prange_next P it)) n (prange_new tl br) =
            Ret (items_then_none l n).
Proof.
  intros P tl br Hw Ht Hb Hx Hy E1 E2. exists (range_items P tl br). split; [|split].
  - unfold range_items. replace (snd br =? YM P) with true by (symmetry; apply Z.eqb_eq; exact E1).
    replace (fst br <? XM P) with true by (symmetry; apply Z.ltb_lt; exact E2). cbn.
    rewrite (rect_split P tl br Hb Hx Hy). rewrite removelast_last. reflexivity.
  - apply range_list; assumption.
  - apply range_calls; assumption.
Qed.

(** *** iter_in_x, iter_in_y *)

Lemma in_x_yields : forall P x, post_wf P -> forall n y, Z.of_nat n = YM P - y + 1 ->
  b_min (pt_y P) <= y <= YM P ->
  yields (fun it => Ret (in_x_next P it)) (Some (x, y)) (map (fun y => (x, y)) (interval y (YM P))) None.
Proof.
  intros P x Hw n. induction n as [|n IH]; intros y Hn Hy; [lia |].
  rewrite interval_cons by lia. cbn [map yields].
  destruct (Z.eq_dec y (YM P)) as [-> | Hne].
  - exists None. cbn [in_x_next snd]. rewrite b_inc_none by apply Hw.
    unfold interval. rewrite zrange_nil by lia. split; reflexivity.
  - exists (Some (x, y + 1)). cbn [in_x_next snd fst].
    rewrite b_inc_some; [|apply Hw | unfold in_bty; lia | lia].
    split; [reflexivity |]. apply IH; lia.
Qed.

Lemma in_y_yields : forall P y, post_wf P -> forall n x, Z.of_nat n = XM P - x + 1 ->
  b_min (pt_x P) <= x <= XM P ->
  yields (fun it => Ret (in_y_next P it)) (Some (x, y)) (map (fun x => (x, y)) (interval x (XM P))) None.
Proof.
  intros P y Hw n. induction n as [|n IH]; intros x Hn Hx; [lia |].
  rewrite interval_cons by lia. cbn [map yields].
  destruct (Z.eq_dec x (XM P)) as [-> | Hne].
  - exists None. cbn [in_y_next snd fst]. rewrite b_inc_none by apply Hw.
    unfold interval. rewrite zrange_nil by lia. split; reflexivity.
  - exists (Some (x + 1, y)). cbn [in_y_next snd fst].
    rewrite b_inc_some; [|apply Hw | unfold in_bty; lia | lia].
    split; [reflexivity |]. apply IH; lia.
Qed.

(** The starting point is 0 whatever the type's minimum. *)
Lemma in_x_items : forall P x, post_wf P -> in_bty (pt_y P) 0 ->
  in_x_list P x = Ret (map (fun y => (x, y)) (interval 0 (YM P))) /\
  forall n, next_calls (fun it => Ret (in_x_next P it)) n (in_x_new P x) =
            Ret (items_then_none (map (fun y => (x, y)) (interval 0 (YM P))) n).
Proof.
  intros P x Hw H0. unfold in_bty in H0.
  assert (Y := in_x_yields P x Hw (Z.to_nat (YM P + 1)) 0 ltac:(lia) H0). split.
  - unfold in_x_list. apply (yields_drain _ _ _ None None); [exact Y | reflexivity |].
    rewrite map_length. unfold piter_fuel. pose proof (interval_length 0 (YM P)).
    destruct Hw as ((_ & _ & Hx & _) & (_ & _ & Hy & _)). nia.
  - intros n. apply (yields_calls _ _ _ None None); [exact Y | reflexivity | reflexivity].
Qed.

Lemma in_y_items : forall P y, post_wf P -> in_bty (pt_x P) 0 ->
  in_y_list P y = Ret (map (fun x => (x, y)) (interval 0 (XM P))) /\
  forall n, next_calls (fun it => Ret (in_y_next P it)) n (in_y_new P y) =
            Ret (items_then_none (map (fun x => (x, y)) (interval 0 (XM P))) n).
Proof.
  intros P y Hw H0. unfold in_bty in H0.
  assert (Y := in_y_yields P y Hw (Z.to_nat (XM P + 1)) 0 ltac:(lia) H0). split.
  - unfold in_y_list. apply (yields_drain _ _ _ None None); [exact Y | reflexivity |].
    rewrite map_length. unfold piter_fuel. pose proof (interval_length 0 (XM P)).
    destruct Hw as ((_ & _ & Hx & _) & (_ & _ & Hy & _)). nia.
  - intros n. apply (yields_calls _ _ _ None None); [exact Y | reflexivity | reflexivity].
Qed.

Lemma row_col_items : forall P, grid_type P ->
  (forall x,
     in_x_list P x = Ret (map (fun y => (x, y)) (interval 0 (YM P))) /\
     forall n, next_calls (fun it => Ret (in_x_next P it)) n (in_x_new P x) =
               Ret (items_then_none (map (fun y => (x, y)) (interval 0 (YM P))) n)) /\
  (forall y,
     in_y_list P y = Ret (map (fun x => (x, y)) (interval 0 (XM P))) /\
     forall n, next_calls (fun it => Ret (in_y_next P it)) n (in_y_new P y) =
               Ret (items_then_none (map (fun x => (x, y)) (interval 0 (XM P))) n)).
Proof.
  intros P H. destruct (grid_type_nums P H) as (Ex & Ey & HX & HY). split; intros.
  - apply in_x_items; [apply grid_type_wf; exact H | unfold in_bty; lia].
  - apply in_y_items; [apply grid_type_wf; exact H | unfold in_bty; lia].
Qed.

(** ** tlbr_of *)

Lemma tlbr_fold : forall l tl br,
  let r := fold_left tlbr_step l (tl, br) in
  fst tl <= fst br -> snd tl <= snd br ->
  (fst (fst r) <= fst tl /\ snd (fst r) <= snd tl /\ fst br <= fst (snd r) /\ snd br <= snd (snd r)) /\
  (forall p, In p l -> fst (fst r) <= fst p <= fst (snd r) /\ snd (fst r) <= snd p <= snd (snd r)) /\
  (fst (fst r) = fst tl \/ exists p, In p l /\ fst p = fst (fst r)) /\
  (snd (fst r) = snd tl \/ exists p, In p l /\ snd p = snd (fst r)) /\
  (fst (snd r) = fst br \/ exists p, In p l /\ fst p = fst (snd r)) /\
  (snd (snd r) = snd br \/ exists p, In p l /\ snd p = snd (snd r)).
Proof.
  induction l as [|q l IH]; intros tl br r Hx Hy.
  - subst r. cbn. repeat split; try lia; try (intros p []); auto.
  - cbn [fold_left] in r.
    pose (tl' := (if fst q <? fst tl then fst q else fst tl, if snd q <? snd tl then snd q else snd tl) : pos).
    pose (br' := (if fst q >? fst br then fst q else fst br, if snd q >? snd br then snd q else snd br) : pos).
    assert (Es : tlbr_step (tl, br) q = (tl', br')) by reflexivity.
    subst r. rewrite Es.
    assert (B : fst tl' <= fst q /\ fst tl' <= fst tl /\ snd tl' <= snd q /\ snd tl' <= snd tl /\
                fst q <= fst br' /\ fst br <= fst br' /\ snd q <= snd br' /\ snd br <= snd br').
    { subst tl' br'. cbn [fst snd].
      destruct (fst q <? fst tl) eqn:E1, (snd q <? snd tl) eqn:E2,
        (fst q >? fst br) eqn:E3, (snd q >? snd br) eqn:E4; bool2prop; lia. }
    assert (C : (fst tl' = fst tl \/ fst q = fst tl') /\ (snd tl' = snd tl \/ snd q = snd tl') /\
                (fst br' = fst br \/ fst q = fst br') /\ (snd br' = snd br \/ snd q = snd br')).
    { subst tl' br'. cbn [fst snd].
      destruct (fst q <? fst tl), (snd q <? snd tl), (fst q >? fst br), (snd q >? snd br); auto. }
    clearbody tl' br'. specialize (IH tl' br'). cbv zeta in IH.
    destruct IH as (I1 & I2 & I3 & I4 & I5 & I6); [lia | lia |].
    set (r := fold_left tlbr_step l (tl', br')) in *. clearbody r.
    split; [lia |]. split.
    { intros p [<- | Hp]; [lia |]. apply I2. exact Hp. }
    destruct C as (C1 & C2 & C3 & C4).
    assert (Hq : In q (q :: l)) by (left; reflexivity).
    repeat split.
    + destruct I3 as [E | (p & Hp & E)]; [|right; exists p; split; [right; exact Hp | exact E]].
      destruct C1; [left; congruence | right; exists q; split; [exact Hq | congruence]].
    + destruct I4 as [E | (p & Hp & E)]; [|right; exists p; split; [right; exact Hp | exact E]].
      destruct C2; [left; congruence | right; exists q; split; [exact Hq | congruence]].
    + destruct I5 as [E | (p & Hp & E)]; [|right; exists p; split; [right; exact Hp | exact E]].
      destruct C3; [left; congruence | right; exists q; split; [exact Hq | congruence]].
    + destruct I6 as [E | (p & Hp & E)]; [|right; exists p; split; [right; exact Hp | exact E]].
      destruct C4; [left; congruence | right; exists q; split; [exact Hq | congruence]].
Qed.

Lemma tlbr_of_tight : forall l : list pos,
  (l = [] -> tlbr_of l = Err Empty) /\
  (l <> [] -> exists tl br, tlbr_of l = Ok (tl, br) /\
     (forall p, In p l -> fst tl <= fst p <= fst br /\ snd tl <= snd p <= snd br) /\
     (exists p, In p l /\ fst p = fst tl) /\ (exists p, In p l /\ snd p = snd tl) /\
     (exists p, In p l /\ fst p = fst br) /\ (exists p, In p l /\ snd p = snd br)).
Proof.
  intros l. split; [intros ->; reflexivity |]. intros Hne.
  destruct l as [|q l]; [contradiction |]. cbn [tlbr_of].
  pose proof (tlbr_fold l q q) as F. cbv zeta in F.
  destruct F as (F1 & F2 & F3 & F4 & F5 & F6); [lia | lia |].
  destruct (fold_left tlbr_step l (q, q)) as [tl br]. cbn [fst snd] in *.
  exists tl, br. split; [reflexivity |].
  assert (Hq : In q (q :: l)) by (left; reflexivity).
  split; [intros p [<- | Hp]; [lia | apply F2; exact Hp] |].
  repeat split.
  - destruct F3 as [E | (p & Hp & E)]; [exists q; auto | exists p; split; [right; exact Hp | exact E]].
  - destruct F4 as [E | (p & Hp & E)]; [exists q; auto | exists p; split; [right; exact Hp | exact E]].
  - destruct F5 as [E | (p & Hp & E)]; [exists q; auto | exists p; split; [right; exact Hp | exact E]].
  - destruct F6 as [E | (p & Hp & E)]; [exists q; auto | exists p; split; [right; exact Hp | exact E]].
Qed.

(** ** Geometry *)

Lemma b_sub_abs : forall b x y, bty_wf b -> b_min b = 0 -> b_max b <= 65535 -> in_bty b x -> in_bty b y ->
  (if x >? y then unwrap_opt (b_checked_sub b x y) else unwrap_opt (b_checked_sub b y x)) = Ret (Z.abs (x - y)).
Proof.
  intros b x y Hb H0 H1 Vx Vy. unfold in_bty in *.
  destruct (x >? y) eqn:E; bool2prop; (rewrite b_checked_sub_some; [cbn; f_equal; lia | exact Hb | unfold in_bty; lia]).
Qed.

Lemma manhattan_ok : forall P p q, grid_type P -> valid P p -> valid P q ->
  manhattan P p q = Ret (Z.abs (fst p - fst q) + Z.abs (snd p - snd q)).
Proof.
  intros P p q H Hp Hq. pose proof H as ((Wx & Wy) & Ex & Ey & HX & HY).
  destruct Hp as (Px & Py), Hq as (Qx & Qy). unfold manhattan.
  rewrite (b_sub_abs _ _ _ Wx Ex HX Px Qx). cbn [bind].
  rewrite (b_sub_abs _ _ _ Wy Ey HY Py Qy). cbn [bind]. unfold in_bty in *.
  rewrite b_into_usize_ok by lia. cbn [bind]. rewrite b_into_usize_ok by lia. cbn [bind].
  unfold uadd. apply usize_arith. lia.
Qed.

Lemma inside_ok : forall p a b,
  inside p a b = true <->
  Z.min (fst a) (fst b) <= fst p <= Z.max (fst a) (fst b) /\
  Z.min (snd a) (snd b) <= snd p <= Z.max (snd a) (snd b).
Proof.
  intros p a b. unfold inside.
  destruct (fst a <? fst b) eqn:E1, (snd a <? snd b) eqn:E2; bool2prop;
    rewrite !andb_true_iff, !Z.leb_le; lia.
Qed.

Lemma flip_h_ok : forall P p, grid_type P -> valid P p -> pos_flip_h P p = Ret (XM P - fst p, snd p).
Proof.
  intros P p H (Vx & Vy). destruct (grid_type_nums P H) as (Ex & Ey & HX & HY).
  unfold pos_flip_h. rewrite b_checked_sub_some; [reflexivity | apply H |]. unfold in_bty in *. lia.
Qed.

Lemma flip_v_ok : forall P p, grid_type P -> valid P p -> pos_flip_v P p = Ret (fst p, YM P - snd p).
Proof.
  intros P p H (Vx & Vy). destruct (grid_type_nums P H) as (Ex & Ey & HX & HY).
  unfold pos_flip_v. rewrite b_checked_sub_some; [reflexivity | apply H |]. unfold in_bty in *. lia.
Qed.

Lemma flip_h_valid : forall P p, grid_type P -> valid P p -> valid P (XM P - fst p, snd p).
Proof. intros P p H Hv. rewrite valid_nums in * by exact H. cbn. lia. Qed.
Lemma flip_v_valid : forall P p, grid_type P -> valid P p -> valid P (fst p, YM P - snd p).
Proof. intros P p H Hv. rewrite valid_nums in * by exact H. cbn. lia. Qed.

Lemma is_corner_iff : forall P p, grid_type P ->
  (is_corner P p = true <-> (fst p = 0 \/ fst p = XM P) /\ (snd p = 0 \/ snd p = YM P)).
Proof.
  intros P p H. destruct (grid_type_nums P H) as (Ex & Ey & _ & _). unfold is_corner. rewrite Ex, Ey.
  rewrite andb_true_iff, !orb_true_iff, !Z.eqb_eq. reflexivity.
Qed.

Lemma is_side_iff : forall P p, grid_type P ->
  (is_side P p = true <-> fst p = 0 \/ fst p = XM P \/ snd p = 0 \/ snd p = YM P).
Proof.
  intros P p H. destruct (grid_type_nums P H) as (Ex & Ey & _ & _). unfold is_side. rewrite Ex, Ey.
  rewrite !orb_true_iff, !Z.eqb_eq. tauto.
Qed.

Lemma b_try_from_res : forall b s v, bty_wf b ->
  unwrap_res (b_try_from b (FromInt s) v) = if (b_min b <=? v) && (v <=? b_max b) then Ret v else Panic.
Proof.
  intros b s v Hb. destruct (b_try_from_spec b s v Hb) as [H1 H2]. unfold in_bty in *.
  destruct ((b_min b <=? v) && (v <=? b_max b)) eqn:E; bool2prop.
  - rewrite H1 by lia. reflexivity.
  - rewrite H2 by lia. reflexivity.
Qed.

Lemma rotate_cw_ok : forall P p, grid_type P -> valid P p ->
  (valid P (YM P - snd p, fst p) -> pos_rotate_cw P p = Ret (YM P - snd p, fst p)) /\
  (~ valid P (YM P - snd p, fst p) -> pos_rotate_cw P p = Panic).
Proof.
  intros P p H Hv. pose proof H as ((Wx & Wy) & Ex & Ey & HX & HY).
  pose proof Wy as (_ & _ & _ & HYi). pose proof Hv as (Vx & Vy).
  pose proof Wy as (Iy & Iy2 & _). pose proof (all_ity_bounds _ Iy) as (By & _).
  rewrite (valid_nums P (YM P - snd p, fst p)) by exact H. cbn [fst snd].
  unfold pos_rotate_cw, b_into_inner. unfold in_bty in *.
  rewrite arith_ok by lia. cbn [bind].
  rewrite (b_try_from_res _ _ _ Wx), (b_try_from_res _ _ _ Wy), Ex, Ey.
  split; intros HV.
  - replace ((0 <=? YM P - snd p) && (YM P - snd p <=? XM P)) with true
      by (symmetry; apply andb_true_iff; rewrite !Z.leb_le; lia).
    replace ((0 <=? fst p) && (fst p <=? YM P)) with true
      by (symmetry; apply andb_true_iff; rewrite !Z.leb_le; lia). reflexivity.
  - destruct ((0 <=? YM P - snd p) && (YM P - snd p <=? XM P)) eqn:E1; [|reflexivity].
    destruct ((0 <=? fst p) && (fst p <=? YM P)) eqn:E2; [|reflexivity]. bool2prop. lia.
Qed.

Lemma rotate_cc_ok : forall P p, grid_type P -> valid P p ->
  (valid P (snd p, XM P - fst p) -> pos_rotate_cc P p = Ret (snd p, XM P - fst p)) /\
  (~ valid P (snd p, XM P - fst p) -> pos_rotate_cc P p = Panic).
Proof.
  intros P p H Hv. pose proof H as ((Wx & Wy) & Ex & Ey & HX & HY).
  pose proof Wx as (_ & _ & _ & HXi). pose proof Hv as (Vx & Vy).
  pose proof Wx as (Ix & Ix2 & _). pose proof (all_ity_bounds _ Ix) as (Bx & _).
  rewrite (valid_nums P (snd p, XM P - fst p)) by exact H. cbn [fst snd].
  unfold pos_rotate_cc, b_into_inner. unfold in_bty in *.
  rewrite (b_try_from_res _ _ _ Wx), Ex.
  split; intros HV.
  - replace ((0 <=? snd p) && (snd p <=? XM P)) with true
      by (symmetry; apply andb_true_iff; rewrite !Z.leb_le; lia). cbn [bind].
    rewrite arith_ok by lia. cbn [bind]. rewrite (b_try_from_res _ _ _ Wy), Ey.
    replace ((0 <=? XM P - fst p) && (XM P - fst p <=? YM P)) with true
      by (symmetry; apply andb_true_iff; rewrite !Z.leb_le; lia). reflexivity.
  - destruct ((0 <=? snd p) && (snd p <=? XM P)) eqn:E1; [|reflexivity]. cbn [bind].
    rewrite arith_ok by lia. cbn [bind]. rewrite (b_try_from_res _ _ _ Wy), Ey.
    destruct ((0 <=? XM P - fst p) && (XM P - fst p <=? YM P)) eqn:E2; [|reflexivity]. bool2prop. lia.
Qed.

Lemma tryfrom_pos_ok : forall P Q p, post_wf P -> 
  (valid P p -> tryfrom_pos P Q p = Ok p) /\ (~ valid P p -> tryfrom_pos P Q p = Err OutOfBounds).
Proof.
  intros P Q [x y] Hw. unfold tryfrom_pos, b_into_inner. cbn [fst snd].
  split; intros H; [apply pos_new_ok | apply pos_new_err]; assumption.
Qed.

(** ** Order *)

Lemma pos_ltb_iff : forall p q, pos_ltb p q = true <-> fst p < fst q \/ (fst p = fst q /\ snd p < snd q).
Proof.
  intros p q. unfold pos_ltb. rewrite orb_true_iff, andb_true_iff, !Z.ltb_lt, Z.eqb_eq. reflexivity.
Qed.

Lemma index_col_lt : forall P p q, grid_type P -> valid P p -> valid P q ->
  (pos_ltb p q = true <-> index_col P p < index_col P q).
Proof.
  intros P [x y] [x' y'] H Hp Hq. rewrite pos_ltb_iff. rewrite valid_nums in * by exact H.
  unfold index_col, rows. cbn in *. split; intros HH; nia.
Qed.

(** ** What is left after some calls *)

Lemma piter_left : forall P X cs, post_wf P -> exists l,
  drain (fun it => Ret (piter_next P X it)) (piter_fuel P)
    (state_after (piter_next P X) (piter_next_back P X) cs (piter_new P)) = Ret l /\
  length l = (length (all_of P X) - length cs)%nat.
Proof.
  intros P X cs H.
  rewrite (state_after_ext _ (gnext pos_eqb (succ_of P X)) _ (gnext_back pos_eqb (pred_of P X)))
    by (intros; apply piter_next_g || apply piter_next_back_g).
  rewrite (piter_new_of P X H).
  destruct (state_after_spec pos_eqb (succ_of P X) (pred_of P X) pos_eqb_eq cs (all_of P X)
              (all_of_NoDup P X) (all_of_chain P X H)) as (l' & E & N & C & L).
  exists l'. split; [|exact L]. rewrite E.
  rewrite (drain_ext _ (fun it => Ret (gnext pos_eqb (succ_of P X) it)))
    by (intros; rewrite piter_next_g; reflexivity).
  apply (drain_spec pos_eqb (succ_of P X) (pred_of P X)); auto; [apply pos_eqb_eq |].
  pose proof (piter_fuel_ok P X H). lia.
Qed.

Lemma iter_S : forall {A} (f : A -> A) n x, Nat.iter (S n) f x = f (Nat.iter n f x).
Proof. reflexivity. Qed.

Lemma iter_S_r : forall {A} (f : A -> A) n x, Nat.iter (S n) f x = Nat.iter n f (f x).
Proof.
  intros A f n x. induction n as [|n IH]; [reflexivity |].
  rewrite iter_S, IH. reflexivity.
Qed.

Lemma yields_iter : forall {A St} (next : St -> option A * St) l s s' s'',
  yields (fun s => Ret (next s)) s l s' -> next s' = (None, s'') -> next s'' = (None, s'') ->
  forall n fuel, (length l < fuel)%nat ->
  drain (fun s => Ret (next s)) fuel (Nat.iter n (fun s => snd (next s)) s) = Ret (skipn n l).
Proof.
  intros A St next l. induction l as [|x l IH]; intros s s' s'' H HN HN' n fuel Hf.
  - cbn in H. subst s'. rewrite skipn_nil.
    assert (G : forall m, next (Nat.iter m (fun s => snd (next s)) s'') = (None, s'')).
    { induction m as [|m IHm]; [exact HN' |]. rewrite iter_S, IHm. exact HN'. }
    destruct fuel as [|fuel]; [cbn in Hf; lia |]. destruct n as [|n].
    + cbn. rewrite HN. reflexivity.
    + replace (Nat.iter (S n) (fun s => snd (next s)) s) with (Nat.iter n (fun s => snd (next s)) s'').
      * cbn [drain]. rewrite G. reflexivity.
      * rewrite iter_S_r. rewrite HN. reflexivity.
  - destruct n as [|n].
    + cbn [skipn]. change (Nat.iter 0 (fun s0 => snd (next s0)) s) with s.
      apply (yields_drain _ (x :: l) s s' s''); [exact H | rewrite HN; reflexivity | exact Hf].
    + destruct H as (s1 & E & H). rewrite iter_S_r. injection E as E. rewrite E. cbn [snd skipn].
      apply (IH s1 s' s''); auto. cbn in Hf. lia.
Qed.
