(** PropMapProofs.v -- proofs of the statements of PropMap.v. *)

From Coq Require Import ZArith List Bool Lia.
From Verif Require Import Rust BoundedInt Dir PosT Pos Grid Gridbool SetMap CameFrom Bf Heap Astar Ucs Spec SpecSearch Lib Deque BoundedIntProofs PosTProofs PosTProofs2 PropDirProofs SetMapProofs Sim CameFromProofs PropSetMapProofs BfProofs PropBfProofs BestFirst SearchProofs UcsProofs PropUcsProofs AstarProofs PropAstarProofs.
Import ListNotations.
Open Scope Z_scope.

Lemma bf_entry_sim : forall {S M} P D (so : setops S) RS (mo : mapops (option dir) M) RM go, lawful_set P so RS -> lawful_map P mo RM -> go_inside P go ->
  forall fuel orig found p, valid P orig -> valid P p ->
  bf_entry_with D so mo fuel go orig found p = bf_entry_with D fset fmap fuel go orig found p.
Proof.
  intros S M P D so RS mo RM go LS LM HG fuel orig found p V Vp. apply esim_eq. unfold bf_entry_with, bf_search_mapmov, bf_iter.
  eapply esim_bind.
  - eapply esim_bind; [apply (bf_new_sim P D so RS LS go HG); exact V |]. intros a b Hab.
    apply (bf_search_loop_sim P D so RS LS go HG mo RM LM); [exact (lm_default _ _ _ LM None) | exact Hab].
  - intros [[q m] | e] [[q' m'] | e'] H; cbn in H; try contradiction; [|cbn; congruence].
    destruct H as (<- & HR & Vq). rewrite (lm_get _ _ _ LM m m' p HR Vp). cbn. reflexivity.
Qed.

Lemma bf_entry_f : forall b P D W fuel go orig found p, usable b P W -> valid P orig -> valid P p -> go_inside P go ->
  bf_entry b P D W fuel go orig found p = bf_entry_with D fset fmap fuel go orig found p.
Proof.
  intros b P D W fuel go orig found p U V Vp HG. pose proof (usable_grid_type b P W U) as G. destruct b; cbn [bf_entry].
  - destruct U as (X & Y & DM & E & HW). subst P.
    apply (bf_entry_sim (Pos X Y) D _ _ _ _ go (usable_gridbool X Y W DM HW) (lawful_grid _ _ G) HG); assumption.
  - apply (bf_entry_sim P D _ _ _ _ go (lawful_hset P) (lawful_hmap _ _) HG); assumption.
  - apply (bf_entry_sim P D _ _ _ _ go (lawful_bset P) (lawful_bmap _ _) HG); assumption.
Qed.

Lemma C91_bf_mapmov_proof : forall b P D W go orig found,
  usable b P W -> valid P orig -> go_inside P go -> one_step P go ->
  exists res : result (pos * (pos -> option dir)),
    (forall p, valid P p -> returns (fun fuel => bf_entry b P D W fuel go orig found p)
       (match res with Ok (q, f) => Ok (q, f p) | Err e => Err e end)) /\
    match res with
    | Ok (q, f) => exists n, q <> orig /\ found q = true /\ at_distance D go orig n q /\ nearest_goal D go orig found n /\
        f q <> None /\
        (forall p j, at_distance D go orig j p -> (0 < j < n)%nat -> f p <> None) /\
        (forall p d, f p = Some d -> exists j e, (1 <= j <= n)%nat /\ at_distance D go orig j p /\ leads_back P f orig j p /\
           allowed D e /\ heading d = (heading e + 4) mod 8 /\ go (step p d) e = Some p)
    | Err e => e = DestinationUnreachable /\ forall q, q <> orig -> found q = true -> ~ reachable D go orig q
    end.
Proof.
  intros b P D W go orig found U V HG O. pose proof (usable_grid_type b P W U) as G.
  destruct (search_spec P D go orig HG V O found (S (length (all_rows P))) 0%nat (fun _ => None)) as (r & Er & Or); [split | lia |].
  { intros p d E. discriminate. } { intros j p Hj. lia. }
  assert (RUN : forall p, valid P p -> returns (fun fuel => bf_entry b P D W fuel go orig found p) (match r with Ok (q, f) => Ok (q, f p) | Err e => Err e end)).
  { intros p Vp. exists (S (S (length (all_rows P)))). intros fuel Hf. rewrite (bf_entry_f b P D W fuel go orig found p U V Vp HG).
    unfold bf_entry_with, bf_search_mapmov, bf_iter. rewrite (bf_new_at D go orig). cbn [bind].
    change (mp_default fmap None) with (fun _ : pos => @None dir). rewrite Er by lia. cbn [bind]. destruct r as [[q f] | e]; reflexivity. }
  exists r. split; [exact RUN |]. destruct r as [[q f] | e]; cbn [outcome_ok] in Or.
  - destruct Or as (n & _ & Hq & Fq & I & Nq & Hn). exists (S n).
    split; [intros ->; apply at_distance_orig in Hq; discriminate |]. split; [exact Fq |]. split; [exact Hq |].
    split; [eapply (distance_goal D go orig); [exact Hq | exact Fq | intros j x Hj; apply Hn; lia] |].
    split; [exact Nq |]. pose proof I as (I1 & I2). split.
    + intros p j Hp Hj. destruct j as [|j]; [lia |]. apply (I2 j); [lia | exact Hp].
    + intros p d E. destruct (I1 p d E) as (j & x & e & Hj & Hp & Hx & Ae & Eg & ->). exists (S j), e.
      assert (Es : step p (opp e) = x) by (apply O in Eg; [subst p; apply step_opp | eapply walk_valid; [exact HG | exact V | apply Hx]]).
      split; [lia |]. split; [exact Hp |]. split; [apply (recorded_leads P D go orig HG V O n f I); [lia | exact Hp | right; congruence] |].
      split; [exact Ae |]. split; [destruct e; reflexivity |]. rewrite Es. exact Eg.
  - destruct e; try contradiction. split; [reflexivity |]. intros q Nq Fq (n & Hw). destruct (walk_min D go orig n q Hw) as (j & _ & Hd). destruct j as [|j].
    + apply at_distance_0 in Hd. congruence.
    + rewrite (Or j q ltac:(lia) Hd) in Fq. discriminate.
Qed.

Lemma ucs_entry_sim : forall {MC M} P D (co : mapops Z MC) RC (mo : mapops (option dir) M) RM go, lawful_map P co RC -> lawful_map P mo RM -> go_inside P (move_of go) ->
  forall fuel orig dest p, valid P orig -> valid P p ->
  ucs_entry_with D co mo fuel go orig dest p = ucs_entry_with D fmap fmap fuel go orig dest p.
Proof.
  intros MC M P D co RC mo RM go LC LM HG fuel orig dest p V Vp. apply esim_eq. unfold ucs_entry_with, ucs_search_mapmov.
  eapply esim_bind.
  - eapply esim_bind; [apply (ucs_new_sim P co RC LC); exact V |]. intros a b Hab.
    apply (ucs_loop_sim P D co mo RC RM LC LM go HG); [exact (lm_default _ _ _ LM None) | exact Hab].
  - intros [m | e] [m' | e'] H; cbn in H; try contradiction; [|cbn; congruence].
    rewrite (lm_get _ _ _ LM m m' p H Vp). cbn. reflexivity.
Qed.

Lemma ucs_entry_f : forall b P D W fuel go orig dest p, usable b P W -> valid P orig -> valid P p -> go_inside P (move_of go) ->
  ucs_entry b P D fuel go orig dest p = ucs_entry_with D fmap fmap fuel go orig dest p.
Proof.
  intros b P D W fuel go orig dest p U V Vp HG. pose proof (usable_grid_type b P W U) as G. destruct b; cbn [ucs_entry].
  - apply (ucs_entry_sim P D _ _ _ _ go (lawful_grid _ _ G) (lawful_grid _ _ G) HG); assumption.
  - apply (ucs_entry_sim P D _ _ _ _ go (lawful_hmap _ _) (lawful_hmap _ _) HG); assumption.
  - apply (ucs_entry_sim P D _ _ _ _ go (lawful_bmap _ _) (lawful_bmap _ _) HG); assumption.
Qed.

Lemma astar_entry_sim : forall {MC M} P D (co : mapops Z MC) RC (mo : mapops (option dir) M) RM go, lawful_map P co RC -> lawful_map P mo RM -> go_inside P go ->
  forall fuel orig dest p, valid P orig -> valid P p ->
  astar_entry_with P D co mo fuel go orig dest p = astar_entry_with P D fmap fmap fuel go orig dest p.
Proof.
  intros MC M P D co RC mo RM go LC LM HG fuel orig dest p V Vp. apply esim_eq. unfold astar_entry_with, astar_search_mapmov.
  eapply esim_bind.
  - eapply esim_bind; [apply (astar_new_sim P co RC LC); exact V |]. intros a b Hab.
    apply (astar_loop_sim P D co mo RC RM LC LM go HG); [exact (lm_default _ _ _ LM None) | exact Hab].
  - intros [m | e] [m' | e'] H; cbn in H; try contradiction; [|cbn; congruence].
    rewrite (lm_get _ _ _ LM m m' p H Vp). cbn. reflexivity.
Qed.

Lemma astar_entry_f : forall b P D W fuel go orig dest p, usable b P W -> valid P orig -> valid P p -> go_inside P go ->
  astar_entry b P D fuel go orig dest p = astar_entry_with P D fmap fmap fuel go orig dest p.
Proof.
  intros b P D W fuel go orig dest p U V Vp HG. pose proof (usable_grid_type b P W U) as G. destruct b; cbn [astar_entry].
  - apply (astar_entry_sim P D _ _ _ _ go (lawful_grid _ _ G) (lawful_grid _ _ G) HG); assumption.
  - apply (astar_entry_sim P D _ _ _ _ go (lawful_hmap _ _) (lawful_hmap _ _) HG); assumption.
  - apply (astar_entry_sim P D _ _ _ _ go (lawful_bmap _ _) (lawful_bmap _ _) HG); assumption.
Qed.

Lemma lastdir_none : forall tr p, lastdir tr p <> None <-> popped tr p.
Proof.
  intros tr p. split; [|intros H; destruct (lastdir_some tr p H) as (e & _ & _ & ->); discriminate].
  induction tr as [|e tr IH]; cbn [lastdir]; [congruence |]. destruct (pos_eqb (e_pos e) p) eqn:E.
  - intros _. apply pos_eqb_eq in E. rewrite <- E. apply popped_head.
  - intros H. apply popped_cons. apply IH. exact H.
Qed.

Lemma leads_back_ext : forall P f g orig n p, (forall q, f q = g q) -> leads_back P f orig n p -> leads_back P g orig n p.
Proof.
  intros P f g orig n. induction n as [|n IH]; intros p E H; cbn [leads_back] in *; [exact H |].
  destruct H as (N & d & F & V & H). split; [exact N |]. exists d. rewrite <- E. auto.
Qed.

(** The map after the destination has been popped for the first time. *)
Lemma final_map : forall P D succ (h : pos -> Z) orig (V : valid P orig)
  (HS : forall p d q w, valid P p -> succ p d = Some (q, w) -> valid P q /\ 0 <= w) (HA : affordable D P succ orig) (W : post_wf P) (O : one_step P (move_of succ)),
  (forall p d q w, valid P p -> allowed D d -> succ p d = Some (q, w) -> h p <= w + h q) -> (forall p, valid P p -> 0 <= h p) ->
  forall c hp e tr, Run D succ h orig c hp (e :: tr) -> ~ popped tr (e_pos e) ->
  lowest_cost D succ orig (c (e_pos e)) (e_pos e) /\
  (forall p k, lowest_cost D succ orig k p -> (k + h p < c (e_pos e) + h (e_pos e) -> popped (e :: tr) p) /\
     (popped (e :: tr) p -> c p = k /\ k + h p <= c (e_pos e) + h (e_pos e))) /\
  (forall p, popped (e :: tr) p -> lowest_cost D succ orig (c p) p /\ exists n, leads_back P (lastdir (e :: tr)) orig n p).
Proof.
  intros P D succ h orig V HS HA W O HH H0 c hp e tr R N.
  assert (OPT : forall q, popped (e :: tr) q -> lowest_cost D succ orig (c q) q).
  { intros q Hq. split.
    - apply (i_walk _ _ _ _ _ _ _ _ (inv0_run P D succ h orig V HS HA _ _ _ R)).
      apply (run_popped_reachable P D succ h orig V HS HA _ _ _ q R Hq).
    - intros k Hk. apply (run_optimal P D succ h orig V HS HA HH H0 c hp _ q k R Hq Hk). }
  split; [apply OPT; apply popped_head |]. split.
  - intros p k Hk. split.
    + intros L. destruct (below_popped P D succ h orig V HS HA HH H0 c hp e tr R N p k (proj1 Hk)) as (_ & [X | X]); [apply popped_cons; exact X | lia].
    + intros Hp. assert (EQ : c p = k). { destruct (OPT p Hp) as (A & B). destruct Hk as (A' & B'). pose proof (B _ A'). pose proof (B' _ A). lia. }
      split; [exact EQ |]. rewrite <- EQ. destruct Hp as (x & [<- | Hx] & <-); [lia |].
      apply (pop_order P D succ h orig V HS HA HH H0 c hp e tr _ R); [exists x; auto | exact N].
  - intros p Hp. split; [apply OPT; exact Hp |].
    destruct (run_leads_back P D succ h orig V HS HA HH H0 c hp (e :: tr) p O R Hp) as (n & L & _). eauto.
Qed.

Lemma C92_ucs_mapmov_proof : forall b P D W go orig dest,
  usable b P W -> valid P orig -> valid P dest -> go_inside P (move_of go) -> one_step P (move_of go) -> affordable D P go orig ->
  exists res : result (pos -> option dir),
    (forall p, valid P p -> returns (fun fuel => ucs_entry b P D fuel go orig dest p)
       (match res with Ok f => Ok (f p) | Err e => Err e end)) /\
    match res with
    | Ok f => exists cd, lowest_cost D go orig cd dest /\ f dest <> None /\
        (forall p c, lowest_cost D go orig c p -> (c < cd -> f p <> None) /\ (f p <> None -> c <= cd)) /\
        (forall p, f p <> None -> reachable D (move_of go) orig p /\ exists n, leads_back P f orig n p) /\
        (forall p d, f p = Some d -> p <> orig -> f (step p d) <> None /\
           exists e w, allowed D e /\ heading d = (heading e + 4) mod 8 /\ go (step p d) e = Some (p, w) /\
             (cost_of_entering D P go -> forall c, lowest_cost D go orig c (step p d) -> lowest_cost D go orig (c + w) p))
    | Err e => e = DestinationUnreachable /\ ~ reachable D (move_of go) orig dest
    end.
Proof.
  intros b P D W go orig dest U V Vd HG O SC. pose proof (usable_grid_type b P W U) as G.
  pose proof (afford_HS D P go orig HG SC) as HS.
  assert (HH : forall p d q w, valid P p -> allowed D d -> go p d = Some (q, w) -> 0 <= w + 0).
  { intros p0 d0 q w Vp A Es. destruct (HS p0 d0 q w Vp Es). lia. }
  destruct (bloop_spec P D go (fun _ => 0) orig V HS SC dest _ _ _ [] (fun _ => None) (Nat.le_refl _) (Run0 D go (fun _ => 0) orig)) as (r & Hr & K); [intros (x & [] & _) | reflexivity |].
  assert (RUN : forall p, valid P p -> returns (fun fuel => ucs_entry b P D fuel go orig dest p) (match r with Ok f => Ok (f p) | Err e => Err e end)).
  { intros p Vp. eexists (S _). intros fuel Hf. rewrite (ucs_entry_f b P D W fuel go orig dest p U V Vp HG).
    unfold ucs_entry_with, ucs_search_mapmov, ucs_new. cbn [fmap mp_set mp_new mp_default bind heap_push].
    rewrite (ucs_loop_bloop P D go orig V HS SC dest fuel _ _ [] _ (Run0 D go (fun _ => 0) orig)), Hr by exact Hf. cbn [bind]. destruct r; reflexivity. }
  exists r. split; [exact RUN |]. destruct K as [(-> & c & tr & R & NP) | (c & hp & e & tr & f & -> & R & Ed & NP & Ef)].
  - split; [reflexivity |]. intros Re. apply NP. apply (run_end_popped P D go (fun _ => 0) orig V HS SC _ _ _ R Re).
  - destruct (final_map P D go (fun _ => 0) orig V HS SC (grid_type_wf P G) O HH (fun _ _ => Z.le_refl 0) c hp e tr R) as (M1 & M2 & M3); [rewrite Ed; exact NP |].
    rewrite Ed in *. assert (EF : forall p, f p <> None <-> popped (e :: tr) p) by (intros p; rewrite Ef; apply lastdir_none).
    exists (c dest). split; [exact M1 |]. split; [apply EF; rewrite <- Ed; apply popped_head |]. split; [|split].
    + intros p k Hk. destruct (M2 p k Hk) as (A1 & A2). split; [intros L; apply EF; apply A1; lia | intros F; apply EF in F; destruct (A2 F); lia].
    + intros p F. apply EF in F. split; [apply (run_popped_reachable P D go (fun _ => 0) orig V HS SC _ _ _ p R F) |].
      destruct (M3 p F) as (_ & n & L). exists n. apply (leads_back_ext P (lastdir (e :: tr)) f orig n p); [|exact L]. intros q. symmetry. apply Ef.
    + intros p d Fp Np. assert (Hp : popped (e :: tr) p) by (apply EF; congruence).
      destruct (lastdir_back P D go (fun _ => 0) orig V HS SC c hp (e :: tr) p O R Hp Np) as (x & w & Hx & Ex & H1 & H2 & H3 & H4 & H5).
      rewrite Ef, H1 in Fp. inv Fp. split; [apply EF; exact H2 |]. exists (opp (e_dir x)), w. split; [exact H3 |]. split; [destruct (e_dir x); reflexivity |]. split; [exact H4 |].
      intros HU k Hk. pose proof (x_prio _ _ _ _ _ _ (exact_run P D go orig V HS SC HU c hp (e :: tr) R) x (or_intror Hx)) as EX. 
      destruct (M2 _ k Hk) as (_ & A2). destruct (A2 H2) as (<- & _). destruct (M3 _ Hp) as (LP & _). 
      replace (c (step (e_pos x) (e_dir x)) + w) with (c (e_pos x)); [exact LP |].
      destruct Hk as (Wk & _). destruct LP as (_ & LP). pose proof (LP _ (cost_walk_snoc D go _ _ _ _ _ _ Wk H3 H4)). lia.
Qed.

Lemma C93_astar_mapmov_proof : forall b P D W go orig dest,
  usable b P W -> valid P orig -> valid P dest -> go_inside P go -> one_step P go ->
  exists res : result (pos -> option dir),
    (forall p, valid P p -> returns (fun fuel => astar_entry b P D fuel go orig dest p)
       (match res with Ok f => Ok (f p) | Err e => Err e end)) /\
    match res with
    | Ok f => f dest <> None /\
        (forall p, f p <> None -> reachable D go orig p) /\
        (forall p d, f p = Some d -> p <> orig -> f (step p d) <> None /\
           exists e, allowed D e /\ heading d = (heading e + 4) mod 8 /\ go (step p d) e = Some p) /\
        (D = false -> exists n, at_distance false go orig n dest /\
           (forall p, f p <> None -> exists m, leads_back P f orig m p) /\
           (forall p k, at_distance false go orig k p ->
              (Z.of_nat k + mdist p dest < Z.of_nat n -> f p <> None) /\ (f p <> None -> Z.of_nat k + mdist p dest <= Z.of_nat n)))
    | Err e => e = DestinationUnreachable /\ ~ reachable D go orig dest
    end.
Proof.
  intros b P D W go orig dest U V Vd HG O. pose proof (usable_grid_type b P W U) as G.
  pose proof (unit_HS P go HG) as HS. pose proof (unit_HA P G D go orig V HG) as SC.
  set (succ := unit_cost go) in *. set (h := fun q => mdist q dest). pose proof (one_step_unit go P O) as O'. fold succ in O'.
  destruct (bloop_spec P D succ h orig V HS SC dest _ _ _ [] (fun _ => None) (Nat.le_refl _) (Run0 D succ h orig)) as (r & Hr & K); [intros (x & [] & _) | reflexivity |].
  assert (RUN : forall p, valid P p -> returns (fun fuel => astar_entry b P D fuel go orig dest p) (match r with Ok f => Ok (f p) | Err e => Err e end)).
  { intros p Vp. eexists (S _). intros fuel Hf. rewrite (astar_entry_f b P D W fuel go orig dest p U V Vp HG).
    unfold astar_entry_with, astar_search_mapmov, astar_new. cbn [fmap mp_set mp_new mp_default bind heap_push].
    rewrite (astar_loop_bloop P G D go orig dest V Vd HG fuel _ _ [] _ (Run0 D succ h orig)).
    fold succ. fold h. rewrite Hr by exact Hf. cbn [bind]. destruct r; reflexivity. }
  exists r. split; [exact RUN |]. destruct K as [(-> & c & tr & R & NP) | (c & hp & e & tr & f & -> & R & Ed & NP & Ef)].
  - split; [reflexivity |]. intros Re. apply NP. apply (run_end_popped P D succ h orig V HS SC _ _ _ R). apply reachable_unit. exact Re.
  - assert (EF : forall p, f p <> None <-> popped (e :: tr) p) by (intros p; rewrite Ef; apply lastdir_none).
    split; [apply EF; rewrite <- Ed; apply popped_head |]. split; [|split].
    + intros p F. apply EF in F. apply reachable_unit. apply (run_popped_reachable P D succ h orig V HS SC _ _ _ p R F).
    + intros p d Fp Np. assert (Hp : popped (e :: tr) p) by (apply EF; congruence).
      destruct (lastdir_back P D succ h orig V HS SC c hp (e :: tr) p O' R Hp Np) as (x & w & Hx & Ex & H1 & H2 & H3 & H4 & H5).
      rewrite Ef, H1 in Fp. inv Fp. split; [apply EF; exact H2 |]. exists (opp (e_dir x)). split; [exact H3 |]. split; [destruct (e_dir x); reflexivity |].
      unfold succ, unit_cost in H4. destruct (go _ _) as [q|]; [|discriminate]. congruence.
    + intros ->.
      assert (HH : forall x d q w, valid P x -> allowed false d -> succ x d = Some (q, w) -> h x <= w + h q).
      { intros x d q w Vx A E. apply (mdist_consistent P go dest x d q w O Vx A E). }
      destruct (final_map P false succ h orig V HS SC (grid_type_wf P G) O' HH (fun x _ => mdist_nonneg x dest) c hp e tr R) as (M1 & M2 & M3); [rewrite Ed; exact NP |].
      rewrite Ed in *. assert (LC : forall k p, at_distance false go orig k p <-> lowest_cost false succ orig (Z.of_nat k) p).
      { intros k p. unfold at_distance, lowest_cost. split; intros (A & B).
        - split; [apply cost_walk_unit; eauto |]. intros c' Hc. apply cost_walk_unit in Hc. destruct Hc as (m & -> & Hm).
          destruct (Nat.lt_ge_cases m k) as [L | L]; [destruct (B m L Hm) | lia].
        - apply cost_walk_unit in A. destruct A as (m & E & Hm). assert (m = k) by lia. subst m. split; [exact Hm |].
          intros j Hj Hw. assert (Z.of_nat k <= Z.of_nat j) by (apply B; apply cost_walk_unit; eauto). lia. }
      assert (HD : h dest = 0) by (unfold h, mdist; lia).
      pose proof M1 as (A & _). apply cost_walk_unit in A. destruct A as (n & E & _). rewrite E in *. exists n. split; [apply LC; exact M1 |]. split.
      * intros p F. apply EF in F. destruct (M3 p F) as (_ & m & L). exists m. apply (leads_back_ext P (lastdir (e :: tr)) f orig m p); [|exact L]. intros q. symmetry. apply Ef.
      * intros p k Hk. apply LC in Hk. destruct (M2 p _ Hk) as (A1 & A2). change (mdist p dest) with (h p).
        split; [intros L; apply EF; apply A1; lia | intros F; apply EF in F; destruct (A2 F); lia].
Qed.
