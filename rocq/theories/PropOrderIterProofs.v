(** PropOrderIterProofs.v -- proofs of the statements of PropOrderIter.v. *)

From Coq Require Import ZArith List Bool Lia Permutation Arith.
From Verif Require Import Rust BoundedInt Dir PosT Pos Grid Gridbool SetMap CameFrom Bf Heap Astar Ucs Queue Order Spec SpecSearch SpecPrice SpecQueue SpecOrder Lib Deque BoundedIntProofs PosTProofs PosTProofs2 PropDirProofs SetMapProofs Sim CameFromProofs BfProofs Fair FairSearch AstarProofs UcsProofs PropUcsProofs FairQueue PropQueueProofs PropAgreeProofs PropOrderProofs.
Import ListNotations.
Open Scope Z_scope.

Lemma ucsq_trace_on : forall H (qo : queueops H) ok els b P D go orig, fair_queue qo ok els -> (b = OnGrid -> grid_type P) -> valid P orig ->
  go_inside P (move_of go) -> affordable D P go orig ->
  exists es : list entry,
    (forall n, ucsq_yields qo b P D go orig n = Ret (items_then_none (map snd es) n)) /\
    (forall n, exists c hp, (forall p, valid P p -> ucsq_records qo b P D go orig n p = Ret (c p)) /\ FRun D go (fun _ => 0) orig c hp (rev (firstn n es))) /\
    exists c, FRun D go (fun _ => 0) orig c [] (rev es).
Proof.
  intros H qo ok els b P D go orig FQ Hg V HG SC. pose proof (afford_HS D P go orig HG SC) as HS. destruct b; cbn [ucsq_yields ucsq_records].
  - apply (ucsq_trace qo ok els P (fair_all FQ P) D _ _ (lawful_grid _ P (Hg eq_refl))); assumption.
  - apply (ucsq_trace qo ok els P (fair_all FQ P) D _ _ (lawful_hmap _ P)); assumption.
  - apply (ucsq_trace qo ok els P (fair_all FQ P) D _ _ (lawful_bmap _ P)); assumption.
Qed.

Lemma astarq_trace_on : forall H (qo : queueops H) ok els b P D go orig dest rs, fair_queue qo ok els -> post_wf P -> (b = OnGrid -> grid_type P) -> valid P orig -> valid P dest ->
  go_inside P go -> one_step P go ->
  (forall p, reachable D go orig p -> In p rs) ->
  (forall p, reachable D go orig p -> measurable P p dest /\
     Z.of_nat (length rs) + (Z.abs (fst p - fst dest) + Z.abs (snd p - snd dest)) <= 18446744073709551615) ->
  Z.of_nat (length rs) <= COST_MAX /\
  exists es : list entry,
    (forall n, astarq_yields qo b P D go orig dest n = Ret (items_then_none (map snd es) n)) /\
    (forall n, exists c hp, (forall p, valid P p -> astarq_records qo b P D go orig dest n p = Ret (c p)) /\ FRun D (unit_cost go) (fun p => mdist p dest) orig c hp (rev (firstn n es))) /\
    exists c, FRun D (unit_cost go) (fun p => mdist p dest) orig c [] (rev es).
Proof.
  intros H qo ok els b P D go orig dest rs FQ WF Hg V Vd HG O HR HM.
  assert (HL : Z.of_nat (length rs) <= COST_MAX).
  { destruct (HM orig (reach_orig D go orig)) as (_ & L). unfold COST_MAX. lia. }
  assert (NF : ~ too_far P D go orig dest rs) by (intros (q & Rq & Nq); apply Nq; exact (HM q Rq)).
  split; [exact HL |]. destruct b; cbn [astarq_yields astarq_records].
  - apply (astarq_trace qo ok els P (fair_all FQ P) D _ _ (lawful_grid _ P (Hg eq_refl)) WF go orig dest V Vd HG rs HR HL NF).
  - apply (astarq_trace qo ok els P (fair_all FQ P) D _ _ (lawful_hmap _ P) WF go orig dest V Vd HG rs HR HL NF).
  - apply (astarq_trace qo ok els P (fair_all FQ P) D _ _ (lawful_bmap _ P) WF go orig dest V Vd HG rs HR HL NF).
Qed.

Lemma C149_ucs_iterator_proof : forall H (qo : queueops H) ok els b P D go orig,
  fair_queue qo ok els -> (b = OnGrid -> grid_type P) -> valid P orig ->
  go_inside P (move_of go) -> affordable D P go orig ->
  exists items : list (pos * dir),
    (forall n, ucsq_yields qo b P D go orig n = Ret (items_then_none items n)) /\
    (forall p, In p (map fst items) <-> reachable D (move_of go) orig p) /\
    (forall n p d, nth_error items n = Some (p, d) ->
       exists c, lowest_cost D go orig c p /\ ucsq_records qo b P D go orig (S n) p = Ret c) /\
    (forall i j p d q e c c', (i < j)%nat -> nth_error items i = Some (p, d) -> nth_error items j = Some (q, e) ->
       ~ In q (map fst (firstn j items)) -> lowest_cost D go orig c p -> lowest_cost D go orig c' q -> c <= c').
Proof.
  intros H qo ok els b P D go orig FQ Hg V HG SC. pose proof (afford_HS D P go orig HG SC) as HS.
  destruct (ucsq_trace_on H qo ok els b P D go orig FQ Hg V HG SC) as (es & K1 & K2 & cend & K3).
  assert (HH : forall p d q w, valid P p -> allowed D d -> go p d = Some (q, w) -> 0 <= w + 0).
  { intros p d q w Vp A Es. destruct (HS p d q w Vp Es). lia. }
  assert (POP : forall l p, popped (rev l) p <-> In p (map fst (map (@snd Z (pos * dir)) l))).
  { intros l0 p0. rewrite map_map, in_map_iff. split.
    - intros (x & Hx & E). exists x. split; [exact E |]. apply in_rev. exact Hx.
    - intros (x & E & Hx). exists x. split; [apply in_rev in Hx; exact Hx | exact E]. }
  assert (OPT : forall c hp tr p, FRun D go (fun _ => 0) orig c hp tr -> popped tr p -> lowest_cost D go orig (c p) p).
  { intros c hp tr p R Hp. split.
    - apply (i_walk _ _ _ _ _ _ _ _ (finv0_run P D go (fun _ => 0) orig V HS SC _ _ _ R)).
      apply (frun_popped_reachable P D go (fun _ => 0) orig V HS SC _ _ _ p R Hp).
    - intros k Hk. apply (frun_optimal P D go (fun _ => 0) orig V HS SC HH (fun _ _ => Z.le_refl 0) c hp tr p k R Hp Hk). }
  assert (FST : forall n x, nth_error es n = Some x -> firstn (S n) es = firstn n es ++ [x]).
  { clear. induction es as [|y es IH]; intros [|n] x E; cbn in *; try discriminate; [congruence |]. f_equal. apply IH. exact E. }
  assert (NTH : forall n y, nth_error (map (@snd Z (pos * dir)) es) n = Some y -> exists x, nth_error es n = Some x /\ snd x = y).
  { clear. induction es as [|y es IH]; intros [|n] x E; cbn in *; try discriminate; [inv E; eauto | auto]. }
  exists (map snd es). split; [exact K1 | split; [|split]].
  - intros p. rewrite <- POP. split.
    + intros Hp. apply (frun_popped_reachable P D go (fun _ => 0) orig V HS SC _ _ _ p K3 Hp).
    + apply (frun_end_popped P D go (fun _ => 0) orig V HS SC _ _ p K3).
  - intros n p d E. destruct (NTH n (p, d) E) as (x & En & Ex).
    destruct (K2 (S n)) as (c & hp & Hc & R). exists (c p).
    assert (Hp : popped (rev (firstn (S n) es)) p).
    { apply POP. rewrite (FST n x En), !map_app. apply in_or_app. right. cbn [map]. rewrite Ex. left. reflexivity. }
    split; [apply (OPT c hp _ p R Hp) |]. apply Hc. eapply frun_valid; eassumption.
  - intros i j p d q e c c' Lij Ei Ej NQ Lp Lq.
    destruct (NTH i _ Ei) as ((px & x) & Ni & Ex). destruct (NTH j _ Ej) as ((py & y) & Nj & Ey). cbn [snd] in Ex, Ey. subst x y.
    destruct (K2 (S j)) as (cc & hp & _ & R). rewrite (FST j _ Nj) in R. rewrite rev_app_distr in R. cbn [rev app] in R.
    rewrite firstn_map in NQ. rewrite <- POP in NQ.
    assert (Hp : popped (rev (firstn j es)) p).
    { exists (px, (p, d)). split; [|reflexivity]. apply -> in_rev. apply nth_error_In with (n := i).
      assert (NF : forall (l : list entry) i j, (i < j)%nat -> nth_error (firstn j l) i = nth_error l i).
      { clear. induction l as [|a l IH]; intros [|i] [|j] L; try lia; cbn; auto. apply IH. lia. }
      rewrite NF by exact Lij. exact Ni. }
    pose proof (fpop_order P D go (fun _ => 0) orig V HS SC HH (fun _ _ => Z.le_refl 0) cc hp _ _ p R Hp NQ) as PO.
    cbv beta in PO. cbn [e_pos fst snd] in PO.
    destruct Lp as (W1 & L1). destruct Lq as (W3 & L3). destruct (OPT cc hp _ p R (popped_cons _ _ _ Hp)) as (W4 & _).
    pose proof (L1 _ W4). destruct (OPT cc hp _ q R (popped_head _ _)) as (_ & O4). cbn [e_pos fst snd] in O4. pose proof (O4 _ W3). lia.
Qed.

Lemma C149_ucs_first_yields_proof : forall H (qo : queueops H) ok els b P D go orig n l p d,
  fair_queue qo ok els -> (b = OnGrid -> grid_type P) -> valid P orig ->
  go_inside P (move_of go) -> affordable D P go orig ->
  ucsq_yields qo b P D go orig n = Ret (map Some l ++ [Some (p, d)]) -> ~ In p (map fst l) ->
  p = orig \/
  exists q e w c, In q (map fst l) /\ allowed D e /\ go q e = Some (p, w) /\ heading d = (heading e + 4) mod 8 /\
    (one_step P (move_of go) -> step p d = q) /\
    lowest_cost D go orig c q /\ lowest_cost D go orig (c + w) p.
Proof.
  intros H qo ok els b P D go orig n l p d FQ Hg V HG SC Y N. pose proof (afford_HS D P go orig HG SC) as HS.
  destruct (ucsq_trace_on H qo ok els b P D go orig FQ Hg V HG SC) as (es & K1 & K2 & _).
  assert (HH : forall p d q w, valid P p -> allowed D d -> go p d = Some (q, w) -> 0 <= w + 0).
  { intros p0 d0 q w Vp A Es. destruct (HS p0 d0 q w Vp Es). lia. }
  rewrite K1 in Y. injection Y as Y. apply items_prefix in Y. rewrite firstn_map in Y.
  destruct (K2 n) as (c & hp & _ & R).
  destruct (map_eq_app _ _ _ _ Y) as (l1 & l2 & E1 & E2 & E3). destruct l2 as [|x [|y l2]]; try discriminate. cbn in E3. inv E3.
  change (@firstn entry n es = l1 ++ [x]) in E1. rewrite E1, rev_app_distr in R. cbn [rev app] in R. destruct x as (pr & x). cbn [snd] in *. subst x.
  assert (POP : forall l p, popped (rev l) p <-> In p (map fst (map (@snd Z (pos * dir)) l))).
  { intros l0 p0. rewrite map_map, in_map_iff. split.
    - intros (x & Hx & E). exists x. split; [exact E |]. apply in_rev. exact Hx.
    - intros (x & E & Hx). exists x. split; [apply in_rev in Hx; exact Hx | exact E]. }
  assert (OPT : forall q, popped ((pr, (p, d)) :: rev l1) q -> lowest_cost D go orig (c q) q).
  { intros q Hq. split.
    - apply (i_walk _ _ _ _ _ _ _ _ (finv0_run P D go (fun _ => 0) orig V HS SC _ _ _ R)).
      apply (frun_popped_reachable P D go (fun _ => 0) orig V HS SC _ _ _ q R Hq).
    - intros k Hk. apply (frun_optimal P D go (fun _ => 0) orig V HS SC HH (fun _ _ => Z.le_refl 0) c hp _ q k R Hq Hk). }
  destruct (ffirst_pop P D go (fun _ => 0) orig V HS SC HH (fun _ _ => Z.le_refl 0) c hp _ _ R) as [E | (q & e & w & Hq & A & Es & Ed & Ec)].
  - rewrite POP. exact N.
  - left. inversion E. reflexivity.
  - right. cbn [e_pos e_dir fst snd] in *. exists q, e, w, (c q). split; [apply POP; exact Hq |]. split; [exact A |]. split; [exact Es |].
    split; [subst d; destruct e; reflexivity |]. split.
    + intros OS. assert (Vq : valid P q) by (apply (frun_valid P D go (fun _ => 0) orig V HS SC c hp _ q R); apply popped_cons; exact Hq).
      rewrite (OS q e p Vq) by (unfold move_of; rewrite Es; reflexivity). subst d. apply step_opp.
    + split; [apply OPT; apply popped_cons; exact Hq |]. rewrite <- Ec. apply OPT. apply (popped_head (pr, (p, d))).
Qed.

Lemma C149_astar_iterator_proof : forall H (qo : queueops H) ok els b P D go orig dest rs,
  fair_queue qo ok els -> post_wf P -> (b = OnGrid -> grid_type P) -> valid P orig -> valid P dest ->
  go_inside P go -> one_step P go ->
  (forall p, reachable D go orig p -> In p rs) ->
  (forall p, reachable D go orig p -> measurable P p dest /\
     Z.of_nat (length rs) + (Z.abs (fst p - fst dest) + Z.abs (snd p - snd dest)) <= 18446744073709551615) ->
  exists items : list (pos * dir),
    (forall n, astarq_yields qo b P D go orig dest n = Ret (items_then_none items n)) /\
    (forall p, In p (map fst items) <-> reachable D go orig p) /\
    (forall n p d, nth_error items n = Some (p, d) ->
       exists k, walk D go orig k p /\ astarq_records qo b P D go orig dest (S n) p = Ret (Z.of_nat k) /\
         (D = false -> at_distance D go orig k p)) /\
    (forall i j p d q e k k', D = false -> (i < j)%nat -> nth_error items i = Some (p, d) -> nth_error items j = Some (q, e) ->
       ~ In q (map fst (firstn j items)) -> at_distance D go orig k p -> at_distance D go orig k' q ->
       Z.of_nat k + (Z.abs (fst p - fst dest) + Z.abs (snd p - snd dest)) <=
       Z.of_nat k' + (Z.abs (fst q - fst dest) + Z.abs (snd q - snd dest))).
Proof.
  intros H qo ok els b P D go orig dest rs FQ WF Hg V Vd HG OS HR HM.
  destruct (astarq_trace_on H qo ok els b P D go orig dest rs FQ WF Hg V Vd HG OS HR HM) as (HL & es & K1 & K2 & cend & K3).
  set (h := fun q => mdist q dest) in *. set (succ := unit_cost go) in *.
  pose proof (unit_HS P go HG) as HS. pose proof (gen_HA P D go orig HG rs HR HL) as HC. fold succ in HS, HC.
  assert (H0 : forall p, valid P p -> 0 <= h p) by (intros; apply mdist_nonneg).
  assert (POP : forall l p, popped (rev l) p <-> In p (map fst (map (@snd Z (pos * dir)) l))).
  { intros l0 p0. rewrite map_map, in_map_iff. split.
    - intros (x & Hx & E). exists x. split; [exact E |]. apply in_rev. exact Hx.
    - intros (x & E & Hx). exists x. split; [apply in_rev in Hx; exact Hx | exact E]. }
  assert (WALK : forall c hp tr p, FRun D succ h orig c hp tr -> popped tr p -> exists k, c p = Z.of_nat k /\ walk D go orig k p).
  { intros c hp tr p R Hp. apply cost_walk_unit.
    apply (i_walk _ _ _ _ _ _ _ _ (finv0_run P D succ h orig V HS HC _ _ _ R)).
    apply (frun_popped_reachable P D succ h orig V HS HC _ _ _ p R Hp). }
  assert (OPT : forall c hp tr p k, D = false -> FRun D succ h orig c hp tr -> popped tr p -> walk D go orig k p -> c p <= Z.of_nat k).
  { intros c hp tr p k ED R Hp Hk. apply (frun_optimal P D succ h orig V HS HC) with (hp := hp) (tr := tr); auto.
    - intros x d q w Vx A E. rewrite ED in A. apply (mdist_consistent P go dest x d q w OS Vx A E).
    - apply cost_walk_unit. eauto. }
  assert (FST : forall n x, nth_error es n = Some x -> firstn (S n) es = firstn n es ++ [x]).
  { clear. induction es as [|y es IH]; intros [|n] x E; cbn in *; try discriminate; [congruence |]. f_equal. apply IH. exact E. }
  assert (NTH : forall n y, nth_error (map (@snd Z (pos * dir)) es) n = Some y -> exists x, nth_error es n = Some x /\ snd x = y).
  { clear. induction es as [|y es IH]; intros [|n] x E; cbn in *; try discriminate; [inv E; eauto | auto]. }
  exists (map snd es). split; [exact K1 | split; [|split]].
  - intros p. rewrite <- POP, <- (reachable_unit D go). split.
    + intros Hp. apply (frun_popped_reachable P D succ h orig V HS HC _ _ _ p K3 Hp).
    + apply (frun_end_popped P D succ h orig V HS HC _ _ p K3).
  - intros n p d E. destruct (NTH n (p, d) E) as (x & En & Ex).
    destruct (K2 (S n)) as (c & hp & Hc & R).
    assert (Hp : popped (rev (firstn (S n) es)) p).
    { apply POP. rewrite (FST n x En), !map_app. apply in_or_app. right. cbn [map]. rewrite Ex. left. reflexivity. }
    destruct (WALK c hp _ p R Hp) as (k & Ck & Wk). exists k. split; [exact Wk |]. split.
    + rewrite <- Ck. apply Hc. apply (frun_valid P D succ h orig V HS HC c hp _ p R Hp).
    + intros ED. split; [exact Wk |]. intros j Lj Wj. pose proof (OPT c hp _ p j ED R Hp Wj). lia.
  - intros i j p d q e k k' ED Lij Ei Ej NQ (Wp & Lp) (Wq & Lq).
    destruct (NTH i _ Ei) as ((px & x) & Ni & Ex). destruct (NTH j _ Ej) as ((py & y) & Nj & Ey). cbn [snd] in Ex, Ey. subst x y.
    destruct (K2 (S j)) as (cc & hp & _ & R). rewrite (FST j _ Nj) in R. rewrite rev_app_distr in R. cbn [rev app] in R.
    rewrite firstn_map in NQ. rewrite <- POP in NQ.
    assert (Hp : popped (rev (firstn j es)) p).
    { exists (px, (p, d)). split; [|reflexivity]. apply -> in_rev. apply nth_error_In with (n := i).
      assert (NF : forall (l : list entry) i j, (i < j)%nat -> nth_error (firstn j l) i = nth_error l i).
      { clear. induction l as [|a l IH]; intros [|i] [|j] L; try lia; cbn; auto. apply IH. lia. }
      rewrite NF by exact Lij. exact Ni. }
    assert (PO : cc p + h p <= cc q + h q).
    { apply (fpop_order P D succ h orig V HS HC) with (hp := hp) (e := (py, (q, e))) (tr := rev (firstn j es)); auto.
      intros x d' r w Vx A E. apply (mdist_consistent P go dest x d' r w OS Vx); [rewrite <- ED; exact A | exact E]. }
    destruct (WALK cc hp _ p R (popped_cons _ _ _ Hp)) as (k1 & C1 & W1).
    pose proof (OPT cc hp _ q k' ED R (popped_head (py, (q, e)) _) Wq) as O2.
    assert (k <= k1)%nat by (destruct (Nat.le_gt_cases k k1) as [L | L]; [exact L | exfalso; exact (Lp k1 L W1)]).
    unfold h, mdist in PO. lia.
Qed.

Lemma C149_astar_first_yields_proof : forall H (qo : queueops H) ok els b P D go orig dest rs n l p d,
  fair_queue qo ok els -> post_wf P -> (b = OnGrid -> grid_type P) -> valid P orig -> valid P dest ->
  go_inside P go -> one_step P go ->
  (forall p, reachable D go orig p -> In p rs) ->
  (forall p, reachable D go orig p -> measurable P p dest /\
     Z.of_nat (length rs) + (Z.abs (fst p - fst dest) + Z.abs (snd p - snd dest)) <= 18446744073709551615) ->
  D = false -> astarq_yields qo b P D go orig dest n = Ret (map Some l ++ [Some (p, d)]) -> ~ In p (map fst l) ->
  p = orig \/
  exists k, In (step p d) (map fst l) /\ (exists e, allowed D e /\ go (step p d) e = Some p /\ heading d = (heading e + 4) mod 8) /\
    at_distance D go orig k (step p d) /\ at_distance D go orig (S k) p.
Proof.
  intros H qo ok els b P D go orig dest rs n l p d FQ WF Hg V Vd HG OS HR HM ED Y N.
  destruct (astarq_trace_on H qo ok els b P D go orig dest rs FQ WF Hg V Vd HG OS HR HM) as (HL & es & K1 & K2 & _).
  set (h := fun q => mdist q dest) in *. set (succ := unit_cost go) in *.
  pose proof (unit_HS P go HG) as HS. pose proof (gen_HA P D go orig HG rs HR HL) as HC. fold succ in HS, HC.
  assert (H0 : forall p, valid P p -> 0 <= h p) by (intros; apply mdist_nonneg).
  assert (HH : forall x d q w, valid P x -> allowed D d -> succ x d = Some (q, w) -> h x <= w + h q).
  { intros x e q w Vx A E. rewrite ED in A. apply (mdist_consistent P go dest x e q w OS Vx A E). }
  rewrite K1 in Y. injection Y as Y. apply items_prefix in Y. rewrite firstn_map in Y.
  destruct (K2 n) as (c & hp & _ & R).
  destruct (map_eq_app _ _ _ _ Y) as (l1 & l2 & E1 & E2 & E3). destruct l2 as [|x [|y l2]]; try discriminate. cbn in E3. inv E3.
  change (@firstn entry n es = l1 ++ [x]) in E1. rewrite E1, rev_app_distr in R. cbn [rev app] in R. destruct x as (pr & x). cbn [snd] in *. subst x.
  assert (POP : forall l p, popped (rev l) p <-> In p (map fst (map (@snd Z (pos * dir)) l))).
  { intros l0 p0. rewrite map_map, in_map_iff. split.
    - intros (x & Hx & E). exists x. split; [exact E |]. apply in_rev. exact Hx.
    - intros (x & E & Hx). exists x. split; [apply in_rev in Hx; exact Hx | exact E]. }
  assert (OPT : forall q, popped ((pr, (p, d)) :: rev l1) q -> exists k, c q = Z.of_nat k /\ at_distance false go orig k q).
  { intros q Hq. assert (X : exists k, c q = Z.of_nat k /\ walk false go orig k q).
    { apply cost_walk_unit. apply (i_walk _ _ _ _ _ _ _ _ (finv0_run P false succ h orig V HS HC _ _ _ R)).
      apply (frun_popped_reachable P false succ h orig V HS HC _ _ _ q R Hq). }
    destruct X as (k & Ek & Wk). exists k. split; [exact Ek |]. split; [exact Wk |]. intros j Lj Wj.
    assert (c q <= Z.of_nat j); [|lia]. apply (frun_optimal P false succ h orig V HS HC HH H0 c hp _ q _ R Hq). apply cost_walk_unit. eauto. }
  destruct (ffirst_pop P false succ h orig V HS HC HH H0 c hp _ _ R) as [E | (q & e & w & Hq & A & Es & Ed & Ec)].
  - rewrite POP. exact N.
  - left. inversion E. reflexivity.
  - right. cbn [e_pos e_dir fst snd] in *. unfold succ, unit_cost in Es. destruct (go q e) as [r|] eqn:Eg; inv Es.
    assert (Vq : valid P q) by (apply (frun_valid P false succ h orig V HS HC c hp _ q R); apply popped_cons; exact Hq).
    assert (Q : step p (opp e) = q) by (rewrite (OS q e p Vq Eg); apply step_opp). rewrite Q.
    destruct (OPT q (popped_cons _ _ _ Hq)) as (k & Ek & Dk). destruct (OPT p (popped_head (pr, (p, opp e)) _)) as (k' & Ek' & Dk').
    assert (k' = S k) by lia. subst k'. exists k. split; [apply POP; exact Hq |]. split; [exists e; split; [exact A |]; split; [exact Eg | destruct e; reflexivity] |]. auto.
Qed.
