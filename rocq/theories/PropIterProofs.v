(** PropIterProofs.v -- proofs of the statements of PropIter.v. *)

From Coq Require Import ZArith List Bool Lia.
From Verif Require Import Rust BoundedInt Dir PosT Pos Grid Gridbool SetMap CameFrom Bf Heap Astar Ucs Spec Lib Deque BoundedIntProofs PosTProofs PosTProofs2.
Import ListNotations.
Open Scope Z_scope.

Lemma between_chain : forall b lo hi, bty_wf b -> in_bty b lo -> in_bty b hi ->
  chain (b_inc b) (b_dec b) (interval lo hi).
Proof.
  intros b lo hi W L H.
  remember (Z.to_nat (hi - lo + 1)) as n eqn:N. revert lo L N. induction n as [|n IH]; intros lo L N; unfold in_bty in *.
  - unfold interval. rewrite zrange_nil by lia. exact I.
  - rewrite interval_cons by lia. destruct (Z.eq_dec lo hi) as [-> | D].
    + unfold interval. rewrite zrange_nil by lia. exact I.
    + rewrite (interval_cons (lo + 1)) by lia. cbn [chain]. split; [|split].
      * apply b_inc_some; [exact W | unfold in_bty; lia | lia].
      * rewrite b_dec_some; [f_equal; lia | exact W | unfold in_bty; lia | lia].
      * specialize (IH (lo + 1)). rewrite (interval_cons (lo + 1)) in IH by lia. apply IH; lia.
Qed.

Lemma between_state : forall lo hi, lo <= hi -> biter_new lo hi = state_of (interval lo hi).
Proof.
  intros lo hi H. unfold biter_new. rewrite interval_cons by lia.
  cbn [state_of]. rewrite <- interval_cons by lia. rewrite interval_last by lia. reflexivity.
Qed.

(** ** BoundedIntIterator::new *)

Lemma C138_between_proof : forall b lo hi, bty_wf b -> in_bty b lo -> in_bty b hi -> lo <= hi ->
  (forall cs, run_calls (biter_next b) (biter_next_back b) cs (biter_new lo hi) =
              run_calls pop_front pop_back cs (interval lo hi)) /\
  (forall n, next_calls (fun it => Ret (biter_next b it)) n (biter_new lo hi) =
             Ret (items_then_none (interval lo hi) n)).
Proof.
  intros b lo hi W L H O. assert (A : forall cs, run_calls (biter_next b) (biter_next_back b) cs (biter_new lo hi) = run_calls pop_front pop_back cs (interval lo hi)).
  { intros cs. rewrite between_state by exact O.
    rewrite (run_calls_ext _ (gnext Z.eqb (b_inc b)) _ (gnext_back Z.eqb (b_dec b))).
    - apply run_calls_spec; [apply Z.eqb_eq | apply interval_NoDup | apply between_chain; assumption].
    - intros s. apply biter_next_g.
    - intros s. apply biter_next_back_g. }
  split; [exact A |].
  assert (G : forall {St} (nx bk : St -> option Z * St) n s, next_calls (fun it => Ret (nx it)) n s = Ret (run_calls nx bk (repeat Front n) s)).
  { intros St nx bk n. induction n as [|n IH]; intros s; [reflexivity |]. cbn [next_calls repeat run_calls]. cbn [bind].
    destruct (nx s) as [o s']. rewrite IH. reflexivity. }
  assert (Q : forall n (l : list Z), run_calls pop_front pop_back (repeat Front n) l = items_then_none l n).
  { induction n as [|n IH]; intros [|x l]; [reflexivity.. | |].
    - cbn [repeat run_calls pop_front]. rewrite IH. unfold items_then_none. rewrite !firstn_nil. cbn [map app length]. rewrite !Nat.sub_0_r. reflexivity.
    - cbn [repeat run_calls pop_front]. rewrite IH. reflexivity. }
  intros n. rewrite (G biter (biter_next b) (biter_next_back b)), A, Q. reflexivity.
Qed.

Definition front_list (b : bty) (st : option Z) : list Z := match st with Some s => interval s (b_max b) | None => [] end.

Definition back_list (b : bty) (en : option Z) : list Z := match en with Some e => interval (b_min b) e | None => [] end.

Definition apart (b : bty) (st en : option Z) : Prop :=
  (forall s, st = Some s -> in_bty b s) /\ (forall e, en = Some e -> in_bty b e) /\ (forall s e, st = Some s -> en = Some e -> e < s).

Lemma apart_next : forall b st en, bty_wf b -> apart b st en ->
  exists st', biter_next b (st, en) = (fst (pop_front (front_list b st)), (st', en)) /\
    front_list b st' = snd (pop_front (front_list b st)) /\ apart b st' en.
Proof.
  intros b st en W (S & T & O). destruct st as [s|]; cbn [front_list biter_next].
  - specialize (S s eq_refl). unfold in_bty in S. rewrite interval_cons by lia. cbn [pop_front fst snd].
    assert (E : opt_eqb (Some s) en = false). { destruct en as [e|]; [|reflexivity]. cbn. apply Z.eqb_neq. specialize (O s e eq_refl eq_refl). lia. }
    rewrite E. destruct (Z.eq_dec s (b_max b)) as [-> | D].
    + rewrite b_inc_none by exact W. exists None. split; [reflexivity |]. split; [unfold interval; rewrite zrange_nil by lia; reflexivity |].
      split; [discriminate |]. split; [exact T | discriminate].
    + rewrite b_inc_some by (first [exact W | unfold in_bty; lia | lia]). exists (Some (s + 1)). split; [reflexivity |]. split; [reflexivity |].
      split; [intros s' [= <-]; unfold in_bty; lia |]. split; [exact T |]. intros s' e [= <-] Ee. specialize (O s e eq_refl Ee). lia.
  - exists None. cbn [pop_front fst snd]. split; [|split; [reflexivity | split; [discriminate | split; [exact T | discriminate]]]].
    destruct en as [e|]; reflexivity.
Qed.

Lemma apart_back : forall b st en, bty_wf b -> apart b st en ->
  exists en', biter_next_back b (st, en) = (fst (pop_back (back_list b en)), (st, en')) /\
    back_list b en' = snd (pop_back (back_list b en)) /\ apart b st en'.
Proof.
  intros b st en W (S & T & O). destruct en as [e|]; cbn [back_list biter_next_back].
  - specialize (T e eq_refl). unfold in_bty in T. unfold pop_back. rewrite interval_snoc by lia. rewrite rev_app_distr. cbn [rev app fst snd]. rewrite rev_involutive.
    assert (E : opt_eqb st (Some e) = false). { destruct st as [s|]; [|reflexivity]. cbn. apply Z.eqb_neq. specialize (O s e eq_refl eq_refl). lia. }
    rewrite E. destruct (Z.eq_dec e (b_min b)) as [-> | D].
    + rewrite b_dec_none by exact W. exists None. split; [reflexivity |]. split; [unfold interval; rewrite zrange_nil by lia; reflexivity |].
      split; [exact S |]. split; discriminate.
    + rewrite b_dec_some by (first [exact W | unfold in_bty; lia | lia]). exists (Some (e - 1)). split; [reflexivity |]. split; [reflexivity |].
      split; [exact S |]. split; [intros e' [= <-]; unfold in_bty; lia |]. intros s e' Es [= <-]. specialize (O s e Es eq_refl). lia.
  - exists None. unfold pop_back. cbn [rev fst snd]. split; [|split; [reflexivity | split; [exact S | split; discriminate]]].
    destruct st as [s|]; reflexivity.
Qed.

Lemma C138_crossed_proof : forall b lo hi, bty_wf b -> in_bty b lo -> in_bty b hi -> hi < lo ->
  forall cs, run_calls (biter_next b) (biter_next_back b) cs (biter_new lo hi) =
    run_calls (fun '(up, down) => let '(o, up') := pop_front up in (o, (up', down)))
              (fun '(up, down) => let '(o, down') := pop_back down in (o, (up, down')))
              cs (interval lo (b_max b), interval (b_min b) hi).
Proof.
  intros b lo hi W L H O.
  assert (G : forall cs st en, apart b st en ->
    run_calls (biter_next b) (biter_next_back b) cs (st, en) =
    run_calls (fun '(up, down) => let '(o, up') := pop_front up in (o, (up', down)))
              (fun '(up, down) => let '(o, down') := pop_back down in (o, (up, down')))
              cs (front_list b st, back_list b en)).
  { induction cs as [|[|] cs IH]; intros st en A; [reflexivity | |].
    - cbn [run_calls]. destruct (apart_next b st en W A) as (st' & -> & E & A'). destruct (pop_front (front_list b st)) as [o up'] eqn:EP. cbn [fst snd] in *.
      f_equal. rewrite (IH _ _ A'), E. reflexivity.
    - cbn [run_calls]. destruct (apart_back b st en W A) as (en' & -> & E & A'). destruct (pop_back (back_list b en)) as [o down'] eqn:EP. cbn [fst snd] in *.
      f_equal. rewrite (IH _ _ A'), E. reflexivity. }
  intros cs. unfold biter_new. rewrite G; [reflexivity |].
  split; [intros s [= <-]; exact L |]. split; [intros e [= <-]; exact H |]. intros s e [= <-] [= <-]. exact O.
Qed.

(** ** iter_range with corners in the wrong order *)

Lemma crossed_step : forall P tl br y, post_wf P -> valid P tl -> valid P br -> fst br < fst tl -> in_bty (pt_y P) y -> y < YM P ->
  prange_next P (PRange tl br (Some (fst tl, y))) =
  (Some (fst tl, y), PRange tl br (if y + 1 <=? snd br then Some (fst tl, y + 1) else None)).
Proof.
  intros P tl br y W (T1 & T2) (B1 & B2) X V L. unfold in_bty in *. cbn [prange_next].
  destruct (Z.eq_dec (fst tl) (XM P)) as [E | D].
  - rewrite E. destruct (pos_next_wrap P y W) as [-> _]; [unfold in_bty; lia | lia |]. cbn [fst snd].
    replace (b_min (pt_x P) <? XM P) with true by (symmetry; apply Z.ltb_lt; lia).
    change (res_ok (pos_new P FromSelf FromSelf (XM P) (y + 1))) with (Some (XM P, y + 1)). reflexivity.
  - destruct (pos_next_inner P (fst tl) y W) as [-> _]; [unfold in_bty; lia | lia |]. cbn [fst snd].
    replace (fst tl + 1 <? fst tl) with false by (symmetry; apply Z.ltb_ge; lia).
    replace (fst tl + 1 >? fst br) with true by (symmetry; rewrite Z.gtb_ltb; apply Z.ltb_lt; lia).
    rewrite b_inc_some by (first [apply W | unfold in_bty; lia | lia]).
    change (res_ok (pos_new P FromSelf FromSelf (fst tl) (y + 1))) with (Some (fst tl, y + 1)). reflexivity.
Qed.

Lemma crossed_end : forall P tl br, post_wf P -> valid P tl -> valid P br -> fst br <= fst tl ->
  prange_next P (PRange tl br (Some (fst tl, YM P))) =
  ((if fst tl <? XM P then None else Some (fst tl, YM P)), PRange tl br None).
Proof.
  intros P tl br W (T1 & T2) (B1 & B2) X. unfold in_bty in *. cbn [prange_next].
  destruct (fst tl <? XM P) eqn:E; bool2prop.
  - destruct (pos_next_inner P (fst tl) (YM P) W) as [-> _]; [unfold in_bty; lia | lia |]. cbn [fst snd].
    replace (fst tl + 1 <? fst tl) with false by (symmetry; apply Z.ltb_ge; lia).
    replace (fst tl + 1 >? fst br) with true by (symmetry; rewrite Z.gtb_ltb; apply Z.ltb_lt; lia).
    rewrite b_inc_none by apply W. reflexivity.
  - replace (fst tl) with (XM P) by lia. rewrite pos_next_last by exact W. reflexivity.
Qed.

Lemma C139_right_of_proof : forall P tl br, post_wf P -> valid P tl -> valid P br -> fst br < fst tl -> snd tl <= snd br ->
  let lost := (snd br =? YM P) && (fst tl <? XM P) in
  let l := map (fun y => (fst tl, y)) (interval (snd tl) (if lost then snd br - 1 else snd br)) in
  prange_list P tl br = Ret l /\
  forall n, next_calls (fun it => Ret (prange_next P it)) n (prange_new tl br) = Ret (items_then_none l n).
Proof.
  intros P tl br W V V' X Y lost l. pose proof V as (T1 & T2). pose proof V' as (B1 & B2). unfold in_bty in *.
  set (nxt := fun it => Ret (prange_next P it)).
  assert (A : forall n y, Z.of_nat n = snd br - y -> snd tl <= y ->
    yields nxt (PRange tl br (Some (fst tl, y))) (map (fun y => (fst tl, y)) (interval y (snd br - 1))) (PRange tl br (Some (fst tl, snd br)))).
  { induction n as [|n IH]; intros y N L.
    - unfold interval. rewrite zrange_nil by lia. cbn. f_equal. f_equal. f_equal. lia.
    - rewrite interval_cons by lia. cbn [map yields]. eexists. split.
      + unfold nxt. rewrite crossed_step by (first [assumption | unfold in_bty; lia | lia]).
        replace (y + 1 <=? snd br) with true by (symmetry; apply Z.leb_le; lia). reflexivity.
      + apply IH; lia. }
  specialize (A (Z.to_nat (snd br - snd tl)) (snd tl) ltac:(lia) ltac:(lia)).
  replace (Some (fst tl, snd tl)) with (Some tl) in A by (destruct tl; reflexivity). fold (prange_new tl br) in A.
  assert (B : exists s s', yields nxt (prange_new tl br) l s /\ nxt s = Ret (None, s') /\ nxt s' = Ret (None, s')).
  { unfold l, lost. destruct (snd br =? YM P) eqn:E; bool2prop; cbn [andb].
    - pose proof (crossed_end P tl br W V V' ltac:(lia)) as C. rewrite <- E in C.
      destruct (fst tl <? XM P) eqn:F.
      + exists (PRange tl br (Some (fst tl, snd br))), (PRange tl br None). split; [exact A |]. unfold nxt. rewrite C. split; reflexivity.
      + exists (PRange tl br None), (PRange tl br None). split; [|split; reflexivity].
        rewrite interval_snoc by lia. rewrite map_app. apply (yields_app _ _ _ _ _ _ A). cbn [map yields]. eexists. split; [|reflexivity].
        unfold nxt. rewrite C. reflexivity.
    - exists (PRange tl br None), (PRange tl br None). split; [|split; reflexivity].
      rewrite interval_snoc by lia. rewrite map_app. apply (yields_app _ _ _ _ _ _ A). cbn [map yields]. eexists. split; [|reflexivity].
      unfold nxt. rewrite crossed_step by (first [assumption | unfold in_bty; lia | lia]).
      replace (snd br + 1 <=? snd br) with false by (symmetry; apply Z.leb_gt; lia). reflexivity. }
  destruct B as (s & s' & B & N & N'). split.
  - apply (yields_drain nxt _ _ _ _ _ B N). unfold l. rewrite map_length.
    pose proof (interval_length (snd tl) (if lost then snd br - 1 else snd br)) as L. unfold piter_fuel.
    assert ((snd br - snd tl + 1) * 1 <= (XM P - b_min (pt_x P) + 1) * (YM P - b_min (pt_y P) + 1)) by (rewrite Z.mul_comm; apply Z.mul_le_mono_nonneg; lia).
    destruct lost; lia.
  - apply (yields_calls nxt _ _ _ _ B N N').
Qed.

Lemma C139_below_proof : forall P tl br, post_wf P -> valid P tl -> valid P br -> snd br < snd tl ->
  let lost := (snd tl =? YM P) && (fst tl <? XM P) && (fst br <=? fst tl) in
  let l := if lost then [] else [tl] in
  prange_list P tl br = Ret l /\
  forall n, next_calls (fun it => Ret (prange_next P it)) n (prange_new tl br) = Ret (items_then_none l n).
Proof.
  intros P tl br W V V' Y lost l. pose proof V as (T1 & T2). pose proof V' as (B1 & B2). unfold in_bty in *.
  assert (A : prange_next P (prange_new tl br) = ((if lost then None else Some tl), PRange tl br None)).
  { unfold prange_new. destruct tl as [x y]. cbn [fst snd] in *. destruct (Z.eq_dec x (XM P)) as [E | D].
    - unfold lost. replace (x <? XM P) with false by (symmetry; apply Z.ltb_ge; lia). rewrite andb_false_r. cbn [andb prange_next]. rewrite E.
      destruct (Z.eq_dec y (YM P)) as [E' | D'].
      + rewrite E', pos_next_last by exact W. reflexivity.
      + destruct (pos_next_wrap P y W) as [-> _]; [unfold in_bty; lia | lia |]. cbn [fst snd].
        destruct (b_min (pt_x P) <? XM P) eqn:F.
        * change (res_ok (pos_new P FromSelf FromSelf (XM P) (y + 1))) with (Some (XM P, y + 1)). cbn [snd].
          replace (y + 1 <=? snd br) with false by (symmetry; apply Z.leb_gt; lia). reflexivity.
        * replace (b_min (pt_x P) >? fst br) with false by (symmetry; rewrite Z.gtb_ltb; apply Z.ltb_ge; lia). cbn [snd].
          replace (y + 1 <=? snd br) with false by (symmetry; apply Z.leb_gt; lia). reflexivity.
    - cbn [prange_next]. destruct (pos_next_inner P x y W) as [-> _]; [unfold in_bty; lia | lia |]. cbn [fst snd].
      replace (x + 1 <? x) with false by (symmetry; apply Z.ltb_ge; lia). unfold lost.
      replace (x <? XM P) with true by (symmetry; apply Z.ltb_lt; lia). rewrite andb_true_r.
      destruct (fst br <=? x) eqn:F; bool2prop.
      + replace (x + 1 >? fst br) with true by (symmetry; rewrite Z.gtb_ltb; apply Z.ltb_lt; lia). rewrite andb_true_r.
        destruct (y =? YM P) eqn:G; bool2prop.
        * subst y. rewrite b_inc_none by apply W. reflexivity.
        * rewrite b_inc_some by (first [apply W | unfold in_bty; lia | lia]).
          change (res_ok (pos_new P FromSelf FromSelf x (y + 1))) with (Some (x, y + 1)). cbn [snd].
          replace (y + 1 <=? snd br) with false by (symmetry; apply Z.leb_gt; lia). reflexivity.
      + replace (x + 1 >? fst br) with false by (symmetry; rewrite Z.gtb_ltb; apply Z.ltb_ge; lia). rewrite andb_false_r. cbn [snd].
        replace (y <=? snd br) with false by (symmetry; apply Z.leb_gt; lia). reflexivity. }
  set (nxt := fun it => Ret (prange_next P it)).
  assert (B : exists s s', yields nxt (prange_new tl br) l s /\ nxt s = Ret (None, s') /\ nxt s' = Ret (None, s')).
  { unfold l. destruct lost.
    - exists (prange_new tl br), (PRange tl br None). split; [reflexivity |]. unfold nxt. rewrite A. split; reflexivity.
    - exists (PRange tl br None), (PRange tl br None). split; [|split; reflexivity]. cbn [yields]. eexists. split; [unfold nxt; rewrite A; reflexivity | reflexivity]. }
  destruct B as (s & s' & B & N & N'). split.
  - apply (yields_drain nxt _ _ _ _ _ B N). unfold piter_fuel.
    assert (1 * 1 <= (XM P - b_min (pt_x P) + 1) * (YM P - b_min (pt_y P) + 1)) by (apply Z.mul_le_mono_nonneg; lia).
    unfold l. destruct lost; cbn [length]; lia.
  - apply (yields_calls nxt _ _ _ _ B N N').
Qed.

(** ** iter_in_x, iter_in_y on any position type *)

Lemma inc_from_zero : forall b, bty_wf b -> b_inc b 0 = if (b_min b <=? 1) && (1 <=? b_max b) then Some 1 else None.
Proof.
  intros b W. unfold b_inc. destruct ((b_min b <=? 1) && (1 <=? b_max b)) eqn:E.
  - apply andb_true_iff in E. destruct E as [E F]. bool2prop. rewrite b_checked_add_some; [reflexivity | exact W |]. unfold in_bty; cbn; lia.
  - apply andb_false_iff in E. rewrite b_checked_add_none; [reflexivity | exact W |]. unfold in_bty; cbn. destruct E; bool2prop; lia.
Qed.

Lemma in_x_one : forall P x, post_wf P -> in_bty (pt_y P) 1 \/ in_bty (pt_y P) 0 -> 
  yields (fun it => Ret (in_x_next P it)) (in_x_new P x) (map (fun y => (x, y)) (interval 0 (YM P))) None.
Proof.
  intros P x W V. unfold in_x_new, b_default, in_bty in *. destruct V as [V | V].
  - rewrite interval_cons by lia. cbn [map yields]. exists (Some (x, 1)). split.
    + cbn [in_x_next snd fst]. rewrite inc_from_zero by apply W.
      replace ((b_min (pt_y P) <=? 1) && (1 <=? YM P)) with true by (symmetry; apply andb_true_iff; rewrite !Z.leb_le; lia). reflexivity.
    + apply (in_x_yields P x W (Z.to_nat (YM P))); lia.
  - apply (in_x_yields P x W (Z.to_nat (YM P + 1))); lia.
Qed.

Lemma in_y_one : forall P y, post_wf P -> in_bty (pt_x P) 1 \/ in_bty (pt_x P) 0 -> 
  yields (fun it => Ret (in_y_next P it)) (in_y_new P y) (map (fun x => (x, y)) (interval 0 (XM P))) None.
Proof.
  intros P y W V. unfold in_y_new, b_default, in_bty in *. destruct V as [V | V].
  - rewrite interval_cons by lia. cbn [map yields]. exists (Some (1, y)). split.
    + cbn [in_y_next snd fst]. rewrite inc_from_zero by apply W.
      replace ((b_min (pt_x P) <=? 1) && (1 <=? XM P)) with true by (symmetry; apply andb_true_iff; rewrite !Z.leb_le; lia). reflexivity.
    + apply (in_y_yields P y W (Z.to_nat (XM P))); lia.
  - apply (in_y_yields P y W (Z.to_nat (XM P + 1))); lia.
Qed.

Lemma C140_lines_proof : forall P, post_wf P ->
  (forall x n, next_calls (fun it => Ret (in_x_next P it)) n (in_x_new P x) =
     Ret (items_then_none (map (fun y => (x, y))
       (if (b_min (pt_y P) <=? 1) && (1 <=? YM P) then interval 0 (YM P) else [0])) n)) /\
  (forall y n, next_calls (fun it => Ret (in_y_next P it)) n (in_y_new P y) =
     Ret (items_then_none (map (fun x => (x, y))
       (if (b_min (pt_x P) <=? 1) && (1 <=? XM P) then interval 0 (XM P) else [0])) n)).
Proof.
  intros P W. split.
  - intros x n. destruct ((b_min (pt_y P) <=? 1) && (1 <=? YM P)) eqn:E.
    + apply andb_true_iff in E. destruct E as [E F]. bool2prop.
      refine (yields_calls _ _ _ None None (in_x_one P x W _) eq_refl eq_refl n). left. unfold in_bty. lia.
    + refine (yields_calls _ _ _ None None _ eq_refl eq_refl n). cbn [map yields]. exists None. split; [|reflexivity].
      unfold in_x_new, b_default. cbn [in_x_next snd fst]. rewrite inc_from_zero by apply W. rewrite E. reflexivity.
  - intros y n. destruct ((b_min (pt_x P) <=? 1) && (1 <=? XM P)) eqn:E.
    + apply andb_true_iff in E. destruct E as [E F]. bool2prop.
      refine (yields_calls _ _ _ None None (in_y_one P y W _) eq_refl eq_refl n). left. unfold in_bty. lia.
    + refine (yields_calls _ _ _ None None _ eq_refl eq_refl n). cbn [map yields]. exists None. split; [|reflexivity].
      unfold in_y_new, b_default. cbn [in_y_next snd fst]. rewrite inc_from_zero by apply W. rewrite E. reflexivity.
Qed.

Lemma lists_same : forall {A} (l m : list A), (forall n, items_then_none l n = items_then_none m n) -> l = m.
Proof.
  intros A l. induction l as [|x l IH]; intros [|y m] H.
  - reflexivity.
  - specialize (H 1%nat). discriminate.
  - specialize (H 1%nat). discriminate.
  - assert (x = y) by (specialize (H 1%nat); cbn in H; congruence). subst y. f_equal. apply IH. intros n. specialize (H (S n)). cbn in H. injection H as H. exact H.
Qed.

Lemma C140_whole_lines_proof : forall P, post_wf P ->
  (forall x, (forall n, next_calls (fun it => Ret (in_x_next P it)) n (in_x_new P x) =
                Ret (items_then_none (map (fun y => (x, y)) (interval (b_min (pt_y P)) (YM P))) n)) <-> b_min (pt_y P) = 0) /\
  (forall y, (forall n, next_calls (fun it => Ret (in_y_next P it)) n (in_y_new P y) =
                Ret (items_then_none (map (fun x => (x, y)) (interval (b_min (pt_x P)) (XM P))) n)) <-> b_min (pt_x P) = 0).
Proof.
  intros P W. destruct (C140_lines_proof P W) as [HX HY]. destruct W as ((_ & _ & LX & _) & (_ & _ & LY & _)). split.
  - intros x. split.
    + intros H. assert (E : forall n, items_then_none (map (fun y => (x, y)) (if (b_min (pt_y P) <=? 1) && (1 <=? YM P) then interval 0 (YM P) else [0])) n =
        items_then_none (map (fun y => (x, y)) (interval (b_min (pt_y P)) (YM P))) n).
      { intros n. specialize (H n). rewrite HX in H. injection H as H. exact H. }
      apply lists_same in E. rewrite (interval_cons (b_min (pt_y P))) in E by lia.
      destruct ((b_min (pt_y P) <=? 1) && (1 <=? YM P)) eqn:B.
      * apply andb_true_iff in B. destruct B as [B C]. bool2prop. rewrite interval_cons in E by lia. cbn [map] in E. congruence.
      * cbn [map] in E. congruence.
    + intros E n. rewrite HX, E. replace (0 <=? 1) with true by reflexivity. cbn [andb].
      destruct (1 <=? YM P) eqn:B; bool2prop; [reflexivity |]. replace (YM P) with 0 by lia. reflexivity.
  - intros y. split.
    + intros H. assert (E : forall n, items_then_none (map (fun x => (x, y)) (if (b_min (pt_x P) <=? 1) && (1 <=? XM P) then interval 0 (XM P) else [0])) n =
        items_then_none (map (fun x => (x, y)) (interval (b_min (pt_x P)) (XM P))) n).
      { intros n. specialize (H n). rewrite HY in H. injection H as H. exact H. }
      apply lists_same in E. rewrite (interval_cons (b_min (pt_x P))) in E by lia.
      destruct ((b_min (pt_x P) <=? 1) && (1 <=? XM P)) eqn:B.
      * apply andb_true_iff in B. destruct B as [B C]. bool2prop. rewrite interval_cons in E by lia. cbn [map] in E. congruence.
      * cbn [map] in E. congruence.
    + intros E n. rewrite HY, E. replace (0 <=? 1) with true by reflexivity. cbn [andb].
      destruct (1 <=? XM P) eqn:B; bool2prop; [reflexivity |]. replace (XM P) with 0 by lia. reflexivity.
Qed.

(** ** Iterators that are at their end *)

Lemma nothing_more : forall {A St} (next : St -> exec (option A * St)) s, next s = Ret (None, s) -> forall n, next_calls next n s = Ret (repeat None n).
Proof. intros A St next s H n. apply none_calls. exact H. Qed.

Lemma C141_positions_proof :
  (forall b it it', biter_next b it = (None, it') ->
     forall n, next_calls (fun s => Ret (biter_next b s)) n it' = Ret (repeat None n)) /\
  (forall b it it', biter_next_back b it = (None, it') ->
     forall n, next_calls (fun s => Ret (biter_next_back b s)) n it' = Ret (repeat None n)) /\
  (forall P XFIRST it it', piter_next P XFIRST it = (None, it') ->
     forall n, next_calls (fun s => Ret (piter_next P XFIRST s)) n it' = Ret (repeat None n)) /\
  (forall P XFIRST it it', piter_next_back P XFIRST it = (None, it') ->
     forall n, next_calls (fun s => Ret (piter_next_back P XFIRST s)) n it' = Ret (repeat None n)) /\
  (forall P it it', prange_next P it = (None, it') ->
     forall n, next_calls (fun s => Ret (prange_next P s)) n it' = Ret (repeat None n)) /\
  (forall P it it', in_x_next P it = (None, it') ->
     forall n, next_calls (fun s => Ret (in_x_next P s)) n it' = Ret (repeat None n)) /\
  (forall P it it', in_y_next P it = (None, it') ->
     forall n, next_calls (fun s => Ret (in_y_next P s)) n it' = Ret (repeat None n)) /\
  (forall D it it', dir_iter_next D it = Ret (None, it') ->
     forall n, next_calls (dir_iter_next D) n it' = Ret (repeat None n)).
Proof.
  assert (PE : forall a, opt_pos_eqb a a = true). { intros [p|]; [|reflexivity]. apply pos_eqb_eq. reflexivity. }
  repeat match goal with |- _ /\ _ => split end.
  - intros b [st en] it' H. apply nothing_more. cbn in H. injection H as -> <-. destruct en; reflexivity.
  - intros b [st en] it' H. apply nothing_more. cbn in H. injection H as -> <-. destruct st; reflexivity.
  - intros P X [st en] it' H. apply nothing_more. cbn in H. injection H as -> <-. destruct en; reflexivity.
  - intros P X [st en] it' H. apply nothing_more. cbn in H. injection H as -> <-. destruct st; reflexivity.
  - intros P [tl br v] it' H. apply nothing_more. assert (E : it' = PRange tl br None); [|rewrite E; reflexivity].
    destruct v as [p|]; [|cbn in H; congruence]. cbn [prange_next] in H. destruct (pos_next P p) as [q|]; [|discriminate].
    destruct (fst q <? fst tl); [discriminate |]. destruct (fst q >? fst br); [|discriminate]. destruct (b_inc (pt_y P) (snd q)); [discriminate |]. congruence.
  - intros P [p|] it' H; [discriminate |]. apply nothing_more. cbn in H. injection H as <-. reflexivity.
  - intros P [p|] it' H; [discriminate |]. apply nothing_more. cbn in H. injection H as <-. reflexivity.
  - intros D [d|] it' H.
    + cbn [dir_iter_next] in H. destruct (dir_next D d); discriminate.
    + apply nothing_more. cbn in H. injection H as <-. reflexivity.
Qed.

Lemma C141_searches_proof :
  (forall S (so : setops S) D go it it', bf_next D so go it = Ret (None, it') ->
     it' = it /\ forall go' n, next_calls (bf_next D so go') n it' = Ret (repeat None n)) /\
  (forall MC (co : mapops Z MC) D go it it', ucs_next D co go it = Ret (None, it') ->
     it' = it /\ forall go' n, next_calls (ucs_next D co go') n it' = Ret (repeat None n)) /\
  (forall MC (co : mapops Z MC) P D go dest it it', astar_next P D co go dest it = Ret (None, it') ->
     it' = it /\ forall go' n, next_calls (astar_next P D co go' dest) n it' = Ret (repeat None n)).
Proof.
  split; [|split].
  - intros S so D go [v front] it' H. unfold bf_next in H. cbn in H. destruct front as [|m front].
    + injection H as <-. split; [reflexivity |]. intros go' n. apply nothing_more. reflexivity.
    + destruct (foldM _ _ _); discriminate.
  - intros MC co D go [c h] it' H. unfold ucs_next in H. cbn [u_frontier] in H. destruct (heap_pop h) as [[[k mov] rest]|] eqn:E.
    + destruct (dir_iter_list D); [|discriminate..]. cbn in H. destruct (foldM _ _ _); discriminate.
    + injection H as <-. split; [reflexivity |]. intros go' n. apply nothing_more. unfold ucs_next. cbn [u_frontier]. rewrite E. reflexivity.
  - intros MC co P D go dest [c h] it' H. unfold astar_next in H. cbn [a_frontier] in H. destruct (heap_pop h) as [[[k mov] rest]|] eqn:E.
    + destruct (dir_iter_list D); [|discriminate..]. cbn in H. destruct (foldM _ _ _); discriminate.
    + injection H as <-. split; [reflexivity |]. intros go' n. apply nothing_more. unfold astar_next. cbn [a_frontier]. rewrite E. reflexivity.
Qed.
