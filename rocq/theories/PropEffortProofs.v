(** PropEffortProofs.v -- proofs of the statements of PropEffort.v. *)

From Coq Require Import ZArith List Bool Lia Permutation.
From Verif Require Import Rust BoundedInt Dir PosT Pos Grid Gridbool SetMap CameFrom Bf Heap Astar Ucs Spec SpecSearch Lib Deque BoundedIntProofs PosTProofs PosTProofs2 PropDirProofs SetMapProofs Sim CameFromProofs PropSetMapProofs BfProofs PropBfProofs Fair FairSearch BestFirst SearchProofs UcsProofs PropUcsProofs AstarProofs PropAstarProofs BeelineProofs.
Import ListNotations.
Open Scope Z_scope.

Lemma dirs_length : forall D, length (dirs D) = if D then 8%nat else 4%nat.
Proof. intros []; reflexivity. Qed.

(** An expansion adds at most one entry per direction. *)
Lemma expand_pushes : forall D succ h p c hp c' hp', expand D succ h p (c, hp) = (c', hp') ->
  (length hp' <= length hp + (if D then 8 else 4))%nat.
Proof.
  intros D succ h p c hp c' hp' E. rewrite <- (dirs_length D). unfold expand in E. revert c hp E.
  generalize (dirs D). intros l. induction l as [|d l IH]; intros c hp E; cbn [fold_left] in E; [inv E; cbn; lia |].
  destruct (relax succ h p (c, hp) d) as [c1 hp1] eqn:E1. specialize (IH _ _ E). cbn [length].
  destruct (relax_cases _ _ _ _ _ _ _ _ E1) as [(_ & -> & _) | (q & w & _ & _ & _ & ->)]; cbn [length] in IH; lia.
Qed.

Section Settled.
  Context (P : post) (D : bool) (succ : pos -> dir -> option (pos * Z)) (h : pos -> Z) (orig : pos).
  Context (Vo : valid P orig).
  Context (HS : forall p d q w, valid P p -> succ p d = Some (q, w) -> valid P q /\ 0 <= w).
  Context (HA : affordable D P succ orig).
  Context (HH : forall p d q w, valid P p -> allowed D d -> succ p d = Some (q, w) -> h p <= w + h q).
  Context (H0 : forall p, valid P p -> 0 <= h p).
  Lemma frun_settled : forall c hp tr, FRun D succ h orig c hp tr -> exists ord, NoDup ord /\ (forall p, In p ord <-> popped tr p) /\
    (length tr + length hp <= 1 + (if D then 8 else 4) * length ord)%nat.
  Proof.
    intros c hp tr R. induction R as [|c hp tr e rest c' hp' R (ord & ND & O & L) Ep Ee].
    - exists []. split; [constructor |]. split; [|cbn; lia]. intros p. split; [intros [] | intros (x & [] & _)].
    - pose proof (pops_length _ _ _ Ep) as Lh. destruct (popped_dec tr (e_pos e)) as [Y | N].
      + exists ord. split; [exact ND |]. split.
        * intros p. rewrite O. split; [apply popped_cons |]. intros (x & [<- | Hx] & <-); [exact Y | exists x; auto].
        * assert (NE : tr <> []) by (intros ->; destruct Y as (x & [] & _)).
          destruct (finv1_run P D succ h orig Vo HS HA HH H0 c hp tr R NE) as (ord' & J).
          pose proof (j_closed _ _ _ _ _ _ _ _ J (e_pos e) Y) as Cl.
          rewrite (expand_closed P D succ h HS HH H0 (e_pos e) c rest Cl) in Ee. inv Ee. cbn [length]. lia.
      + exists (e_pos e :: ord). split; [constructor; [rewrite O; exact N | exact ND] |]. split.
        * intros p. cbn [In]. rewrite O. split; [intros [<- | Hp]; [apply popped_head | apply popped_cons; exact Hp] |].
          intros (x & [<- | Hx] & <-); [auto | right; exists x; auto].
        * pose proof (expand_pushes _ _ _ _ _ _ _ _ Ee). cbn [length]. lia.
  Qed.
  Lemma frun_effort : forall rs c hp tr, (forall p, reachable D (move_of succ) orig p -> In p rs) -> FRun D succ h orig c hp tr ->
    (length tr + length hp <= 1 + (if D then 8 else 4) * length rs)%nat.
  Proof.
    intros rs c hp tr Hrs R. destruct (frun_settled c hp tr R) as (ord & ND & O & L).
    assert (K : (length ord <= length rs)%nat).
    { apply NoDup_incl_length; [exact ND |]. intros p Hp. apply Hrs. apply O in Hp.
      apply (frun_popped_reachable P D succ h orig Vo HS HA c hp tr p R Hp). }
    destruct D; lia.
  Qed.
  Lemma run_effort : forall rs c hp tr, (forall p, reachable D (move_of succ) orig p -> In p rs) -> Run D succ h orig c hp tr ->
    (length tr + length hp <= 1 + (if D then 8 else 4) * length rs)%nat.
  Proof. intros rs c hp tr Hrs R. apply (frun_effort rs c hp tr Hrs). apply run_fair. exact R. Qed.
End Settled.

(** A loop that can only run for so long does not exhaust its fuel. *)
Lemma bloop_enough : forall D succ h orig dest (B : nat), (forall c hp tr, Run D succ h orig c hp tr -> (length tr + length hp <= B)%nat) ->
  forall fuel c hp tr f, Run D succ h orig c hp tr -> (B < length tr + fuel)%nat -> bloop D succ h fuel dest f (c, hp) <> Fuel.
Proof.
  intros D succ h orig dest B HB. induction fuel as [|fuel IH]; intros c hp tr f R L; [specialize (HB _ _ _ R); lia |].
  cbn [bloop snd fst]. destruct (heap_pop hp) as [[e rest]|] eqn:Ep; [|discriminate]. destruct (pos_eqb (e_pos e) dest); [discriminate |].
  destruct (expand D succ h (e_pos e) (c, rest)) as [c' hp'] eqn:Ee. apply (IH c' hp' (e :: tr)); [eapply Run1; eassumption | cbn [length]; lia].
Qed.

Lemma bloop_dest : forall D succ h dest fuel f s m, bloop D succ h fuel dest f s = Ret (Ok m) -> m dest <> None.
Proof.
  intros D succ h dest. induction fuel as [|fuel IH]; intros f s m E; cbn [bloop] in E; [discriminate |].
  destruct (heap_pop (snd s)) as [[e rest]|]; [|discriminate]. destruct (pos_eqb (e_pos e) dest) eqn:Ed; [|eapply IH; exact E].
  inv E. apply pos_eqb_eq in Ed. rewrite <- Ed. rewrite put_eq. discriminate.
Qed.

Lemma bloop_ret : forall D succ h dest fuel f s, (exists r, bloop D succ h fuel dest f s = Ret r) \/ bloop D succ h fuel dest f s = Fuel.
Proof.
  intros D succ h dest. induction fuel as [|fuel IH]; intros f s; cbn [bloop]; [auto |].
  destruct (heap_pop (snd s)) as [[e rest]|]; [|eauto]. destruct (pos_eqb (e_pos e) dest); [eauto | apply IH].
Qed.

Lemma search_enough : forall P D succ h orig dest (B : nat) (run : nat -> exec (result (list dir))), grid_type P -> valid P orig -> valid P dest ->
  (forall c hp tr, Run D succ h orig c hp tr -> (length tr + length hp <= B)%nat) ->
  (forall fuel, run fuel = bind (bloop D succ h fuel dest (fun _ => None) (put (fun _ : pos => COST_MAX) orig 0, [e0 orig]))
     (fun r => match r with Err e => Ret (Err e) | Ok m => camefrom_into_path P fmap fuel m orig dest end)) ->
  forall fuel, (B < fuel)%nat -> cols P * cols P < Z.of_nat fuel -> exists r, run fuel = Ret r.
Proof.
  intros P D succ h orig dest B run G V Vd HB Hrun fuel L1 L2. rewrite Hrun.
  destruct (bloop_ret D succ h dest fuel (fun _ => None) (put (fun _ : pos => COST_MAX) orig 0, [e0 orig])) as [(r & E) | E].
  - rewrite E. cbn [bind]. destruct r as [m | err]; [|eauto]. rewrite (into_path_gen P m orig dest fuel (grid_type_wf P G) Vd).
    + eauto.
    + apply grid_retraceable; assumption.
    + lia.
    + eapply bloop_dest. exact E.
  - exfalso. revert E. apply (bloop_enough D succ h orig dest B HB fuel _ _ []); [constructor | cbn [length]; lia].
Qed.

Lemma C110_ucs_effort_proof : forall b P (D : bool) W go orig rs,
  usable b P W -> valid P orig -> go_inside P (move_of go) -> affordable D P go orig ->
  (forall p, reachable D (move_of go) orig p -> In p rs) ->
  (exists items : list (pos * dir), (length items <= 1 + (if D then 8 else 4) * length rs)%nat /\
     forall n, ucs_yields b P D go orig n = Ret (items_then_none items n)) /\
  (forall dest, valid P dest -> exists r, forall fuel,
     (1 + (if D then 8 else 4) * length rs < fuel)%nat -> cols P * cols P < Z.of_nat fuel -> ucs_on b P D fuel go orig dest = Ret r).
Proof.
  intros b P D W go orig rs U V HG HA Hrs. pose proof (usable_grid_type b P W U) as G. pose proof (afford_HS D P go orig HG HA) as HS.
  assert (HH : forall p d q w, valid P p -> allowed D d -> go p d = Some (q, w) -> (fun _ : pos => 0) p <= w + (fun _ : pos => 0) q).
  { intros p d q w Vp _ E. destruct (HS p d q w Vp E). cbv beta. lia. }
  assert (H0 : forall p, valid P p -> 0 <= (fun _ : pos => 0) p) by (intros; cbv beta; lia).
  pose proof (fun c hp tr => run_effort P D go (fun _ : pos => 0) orig V HS HA HH H0 rs c hp tr Hrs) as HB. split.
  - destruct (ucs_trace P D go orig V HS HA) as (es & K1 & _ & c & K3). exists (map snd es). split.
    + specialize (HB c [] (rev es) K3). rewrite rev_length in HB. rewrite map_length. cbn [length] in HB. rewrite Nat.add_0_r in HB. exact HB.
    + intros n. rewrite (proj1 (ucs_yields_f b P D W go orig n U V HG)). apply K1.
  - intros dest Vd. destruct (ucs_outcome P D go orig V HS HA dest G Vd) as (r & (N & Hr) & _). exists r.
    intros fuel L1 L2. rewrite (ucs_on_f b P D W fuel go orig dest U V Vd HG).
    destruct (search_enough P D go (fun _ : pos => 0) orig dest _ (fun fuel => ucs_search_path P D fmap fmap go fuel orig dest) G V Vd HB) with (fuel := fuel) as (r' & E); [|exact L1 | exact L2 |].
    + intros f. unfold ucs_search_path, ucs_search_mapmov, ucs_new. cbn [fmap mp_set mp_new mp_default bind heap_push].
      rewrite (ucs_loop_bloop P D go orig V HS HA dest f _ _ [] _ (Run0 D go (fun _ : pos => 0) orig)). reflexivity.
    + cbv beta in E. rewrite E. f_equal. apply (returns_unique (fun fuel => ucs_search_path P D fmap fmap go fuel orig dest));
        [eapply ucs_path_mono; exact E | exists N; exact Hr].
Qed.

(** The number of entries at a position. *)
Definition cnt (q : pos) (l : list entry) : nat := fold_right (fun e n => if pos_eqb (e_pos e) q then S n else n) 0%nat l.

Lemma cnt_perm : forall q l l', Permutation l l' -> cnt q l = cnt q l'.
Proof.
  intros q l l' H. induction H; cbn [cnt fold_right]; try reflexivity.
  - fold (cnt q l). fold (cnt q l'). rewrite IHPermutation. reflexivity.
  - destruct (pos_eqb (e_pos x) q), (pos_eqb (e_pos y) q); reflexivity.
  - congruence.
Qed.

Lemma cnt_app : forall q l l', cnt q (l ++ l') = (cnt q l + cnt q l')%nat.
Proof.
  intros q l l'. induction l as [|e l IH]; [reflexivity |]. cbn [app cnt fold_right]. fold (cnt q (l ++ l')). fold (cnt q l). rewrite IH.
  destruct (pos_eqb (e_pos e) q); reflexivity.
Qed.

Lemma cnt_total : forall (M : nat) rs l, (forall e, In e l -> In (e_pos e) rs) -> (forall q, (cnt q l <= M)%nat) -> (length l <= length rs * M)%nat.
Proof.
  intros M rs. induction rs as [|q rs IH]; intros l Hin Hc.
  - destruct l as [|e l]; [cbn; lia |]. destruct (Hin e (or_introl eq_refl)).
  - assert (K : length l = (cnt q l + length (filter (fun e => negb (pos_eqb (e_pos e) q)) l))%nat).
    { clear. induction l as [|e l IH]; [reflexivity |]. cbn [length cnt fold_right filter]. fold (cnt q l).
      destruct (pos_eqb (e_pos e) q); cbn [negb length]; lia. }
    assert (L : (length (filter (fun e => negb (pos_eqb (e_pos e) q)) l) <= length rs * M)%nat).
    { apply IH.
      - intros e He. apply filter_In in He. destruct He as (He & Ne). apply negb_true_iff in Ne. apply pos_eqb_neq in Ne.
        destruct (Hin e He) as [E | H]; [congruence | exact H].
      - intros r. apply Nat.le_trans with (cnt r l); [|apply Hc]. clear. induction l as [|e l IH]; [reflexivity |].
        cbn [filter]. destruct (negb (pos_eqb (e_pos e) q)); cbn [cnt fold_right]; fold (cnt r l).
        + fold (cnt r (filter (fun e => negb (pos_eqb (e_pos e) q)) l)). destruct (pos_eqb (e_pos e) r); lia.
        + destruct (pos_eqb (e_pos e) r); lia. }
    specialize (Hc q). cbn [length]. lia.
Qed.

Lemma trail_reachable : forall D go orig c l p k, trail D (unit_cost go) orig c l p k ->
  Z.of_nat (length l) = k + 1 /\ NoDup l /\ reachable D go orig p /\ forall q, In q l -> reachable D go orig q.
Proof.
  intros D go orig c l p k T. induction T as [|l p k d q w T (IH1 & IH2 & IH3 & IH4) A Es L N].
  - assert (reachable D go orig orig) by (exists 0%nat, []; cbn; auto).
    split; [reflexivity |]. split; [constructor; [intros [] | constructor] |]. split; [assumption |]. intros q [<- | []]. assumption.
  - unfold unit_cost in Es. destruct (go p d) as [r|] eqn:E; inv Es.
    assert (RQ : reachable D go orig q).
    { destruct IH3 as (n & ds & Ln & Ad & F). exists (S n), (ds ++ [d]). split; [rewrite app_length; cbn; lia |].
      split; [apply Forall_app; auto |]. rewrite follow_app, F. cbn. rewrite E. reflexivity. }
    split; [cbn [length]; lia |]. split; [constructor; assumption |]. split; [exact RQ |]. intros r [<- | Hr]; auto.
Qed.

(** Every entry of a position was made for a lower cost than the entries before. *)
Lemma frun_lowers : forall P D go h orig rs, valid P orig -> go_inside P go -> affordable D P (unit_cost go) orig ->
  (forall p, reachable D go orig p -> In p rs) ->
  forall c hp tr, FRun D (unit_cost go) h orig c hp tr ->
  forall q, (c q = COST_MAX -> cnt q (tr ++ hp) = 0%nat) /\ (c q < COST_MAX -> Z.of_nat (cnt q (tr ++ hp)) + c q <= Z.of_nat (length rs)).
Proof.
  intros P D go h orig rs V HG HA Hrs. set (succ := unit_cost go) in *. pose proof (unit_HS P go HG) as HS. fold succ in HS.
  assert (BND : forall c p, bounded D succ orig c -> c p < COST_MAX -> c p + 1 <= Z.of_nat (length rs)).
  { intros c p (_ & _ & B) L. destruct (B p L) as (l & T). destruct (trail_reachable D go orig c l p (c p) T) as (E & ND & _ & R).
    rewrite <- E. apply Nat2Z.inj_le. apply NoDup_incl_length; [exact ND |]. intros q Hq. apply Hrs. apply R. exact Hq. }
  intros c hp tr R. induction R as [|c hp tr e rest c' hp' R IH Ep Ee].
  - intros q. unfold put. cbn [app cnt fold_right e_pos e0 fst snd]. destruct (pos_eqb orig q) eqn:E.
    + split; [discriminate |]. intros _.
      assert (In orig rs) by (apply Hrs; exists 0%nat, []; cbn; auto). destruct rs; [contradiction | cbn [length]; lia].
    + split; [reflexivity |]. lia.
  - assert (PM : Permutation (tr ++ hp) ((e :: tr) ++ rest)).
    { rewrite (proj1 Ep). symmetry. exact (Permutation_middle tr rest e). }
    pose proof (frun_bounded P D succ h orig V HS HA _ _ _ R) as B0.
    assert (L0 : c (e_pos e) < COST_MAX) by (apply (frun_fin P D succ h orig V HS HA c hp tr e R); apply (pops_In _ _ _ Ep); auto).
    refine (proj2 (expand_inv D succ h (fun c1 hp1 => (bounded D succ orig c1 /\ c1 (e_pos e) < COST_MAX) /\
      forall q, (c1 q = COST_MAX -> cnt q ((e :: tr) ++ hp1) = 0%nat) /\ (c1 q < COST_MAX -> Z.of_nat (cnt q ((e :: tr) ++ hp1)) + c1 q <= Z.of_nat (length rs)))
      (e_pos e) c rest c' hp' Ee _ _)).
    + split; [auto |]. intros q. rewrite <- (cnt_perm q _ _ PM). apply IH.
    + intros d c1 hp1 c2 hp2 A ((B1 & L1) & I1) E1.
      pose proof (bounded_relax P D succ h orig V HS HA _ _ _ _ _ _ B1 L1 A E1) as B2.
      pose proof (relax_le succ h _ _ _ _ _ _ E1 (e_pos e)) as LE. split; [split; [exact B2 | lia] |].
      destruct (relax_cases _ _ _ _ _ _ _ _ E1) as [(-> & -> & _) | (r & w & Es & Lr & -> & ->)]; [exact I1 |].
      intros q. rewrite cnt_app.
      change (cnt q ((c1 (e_pos e) + w + h r, (r, opp d)) :: hp1)) with (if pos_eqb r q then S (cnt q hp1) else cnt q hp1).
      specialize (I1 q). rewrite cnt_app in I1. destruct (pos_eqb r q) eqn:Er.
      * apply pos_eqb_eq in Er. subst r. pose proof (proj1 (proj2 B2) q) as HB. pose proof (BND _ q B2) as HN. rewrite put_eq in *.
        pose proof (proj1 (proj2 B1) q). split; [lia |]. intros Lq. specialize (HN Lq). destruct I1 as (I1 & I2).
        destruct (Z.eq_dec (c1 q) COST_MAX) as [Em | Nm]; [specialize (I1 Em); lia | specialize (I2 ltac:(lia)); lia].
      * apply pos_eqb_neq in Er. rewrite put_neq by exact Er. exact I1.
Qed.

Lemma frun_diag_effort : forall P D go h orig rs c hp tr, valid P orig -> go_inside P go -> affordable D P (unit_cost go) orig ->
  (forall p, reachable D go orig p -> In p rs) -> FRun D (unit_cost go) h orig c hp tr -> (length tr + length hp <= length rs * length rs)%nat.
Proof.
  intros P D go h orig rs c hp tr V HG HA Hrs R. pose proof (frun_lowers P D go h orig rs V HG HA Hrs c hp tr R) as K.
  pose proof (unit_HS P go HG) as HS. pose proof (finv0_run P D (unit_cost go) h orig V HS HA _ _ _ R) as I.
  destruct I as [(_ & Ib & _) If Iw _ _ _]. rewrite <- app_length. apply cnt_total.
  - intros e He. apply Hrs. apply (reachable_unit D go). apply reachable_cost. exists (c (e_pos e)). apply Iw. apply If. apply in_app_or in He. tauto.
  - intros q. destruct (K q) as (K1 & K2). specialize (Ib q). destruct (Z.eq_dec (c q) COST_MAX) as [E | N]; [rewrite (K1 E); lia | specialize (K2 ltac:(lia)); lia].
Qed.

Lemma run_diag_effort : forall P D go h orig rs c hp tr, valid P orig -> go_inside P go -> affordable D P (unit_cost go) orig ->
  (forall p, reachable D go orig p -> In p rs) -> Run D (unit_cost go) h orig c hp tr -> (length tr + length hp <= length rs * length rs)%nat.
Proof. intros P D go h orig rs c hp tr V HG HA Hrs R. apply (frun_diag_effort P D go h orig rs c hp tr V HG HA Hrs). apply run_fair. exact R. Qed.

Lemma C111_astar_effort_proof : forall b P (D : bool) W go orig dest rs,
  usable b P W -> valid P orig -> valid P dest -> go_inside P go -> one_step P go ->
  (forall p, reachable D go orig p -> In p rs) ->
  (exists items : list (pos * dir), (length items <= if D then length rs * length rs else 1 + 4 * length rs)%nat /\
     forall n, astar_yields b P D go orig dest n = Ret (items_then_none items n)) /\
  (exists r, forall fuel, ((if D then length rs * length rs else 1 + 4 * length rs) < fuel)%nat -> cols P * cols P < Z.of_nat fuel ->
     astar_on b P D fuel go orig dest = Ret r).
Proof.
  intros b P D W go orig dest rs U V Vd HG OS Hrs. pose proof (usable_grid_type b P W U) as G.
  set (h := fun q => mdist q dest) in *. set (succ := unit_cost go) in *.
  pose proof (unit_HS P go HG) as HS. pose proof (unit_HA P G D go orig V HG) as HC. fold succ in HS, HC.
  assert (HB : forall c hp tr, Run D succ h orig c hp tr -> (length tr + length hp <= if D then length rs * length rs else 1 + 4 * length rs)%nat).
  { intros c hp tr R. destruct D.
    - exact (run_diag_effort P true go h orig rs c hp tr V HG HC Hrs R).
    - apply (run_effort P false succ h orig V HS HC) with (c := c).
      + intros p d q w Vp A E. apply (mdist_consistent P go dest p d q w OS Vp A E).
      + intros p Vp. apply mdist_nonneg.
      + intros p Hp. apply Hrs. apply (reachable_unit false go). exact Hp.
      + exact R. }
  split.
  - destruct (astar_trace P G D go orig dest V Vd HG) as (es & K1 & _ & c & K3). fold succ in K3. fold h in K3. exists (map snd es). split.
    + specialize (HB c [] (rev es) K3). rewrite rev_length in HB. rewrite map_length. cbn [length] in HB. rewrite Nat.add_0_r in HB. exact HB.
    + intros n. rewrite (proj1 (astar_yields_f b P D W go orig dest n U V HG)). apply K1.
  - destruct (astar_outcome P G D go orig dest V Vd HG) as (r & Hr & _). exists r.
    intros fuel L1 L2. rewrite (astar_on_f b P D W fuel go orig dest U V Vd HG).
    destruct (search_enough P D succ h orig dest _ (fun fuel => astar_search_path P D fmap fmap go fuel orig dest) G V Vd HB) with (fuel := fuel) as (r' & E); [|exact L1 | exact L2 |].
    + intros f. unfold astar_search_path, astar_search_mapmov, astar_new. cbn [fmap mp_set mp_new mp_default bind heap_push].
      rewrite (astar_loop_bloop P G D go orig dest V Vd HG f _ _ [] _ (Run0 D succ h orig)). reflexivity.
    + cbv beta in E. rewrite E. f_equal. apply (returns_unique (fun fuel => astar_search_path P D fmap fmap go fuel orig dest)); [eapply astar_path_mono; exact E | exact Hr].
Qed.
