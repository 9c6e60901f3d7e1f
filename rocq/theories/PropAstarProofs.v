(** PropAstarProofs.v -- proofs of the statements of PropAstar.v. *)

From Coq Require Import ZArith List Bool Lia.
From Verif Require Import Rust BoundedInt Dir PosT Pos Grid Gridbool SetMap CameFrom Heap Astar Ucs Spec SpecSearch Lib Deque BoundedIntProofs PosTProofs PosTProofs2 PropDirProofs SetMapProofs Sim CameFromProofs PropSetMapProofs BfProofs PropBfProofs BestFirst SearchProofs UcsProofs PropUcsProofs AstarProofs BeelineProofs.
Import ListNotations.
Open Scope Z_scope.

Lemma astar_with_sim : forall {MC} P D (co : mapops Z MC) RC go, lawful_map P co RC -> go_inside P go ->
  forall orig dest n, valid P orig ->
    astar_yields_with co P D go orig dest n = astar_yields_with fmap P D go orig dest n /\
    forall p, valid P p -> astar_records_with co P D go orig dest n p = astar_records_with fmap P D go orig dest n p.
Proof.
  intros MC P D co RC go L HG orig dest n V. pose proof (astar_new_sim P co RC L orig V) as H0.
  assert (K : forall n it it', Rait P RC it it' ->
    next_calls (astar_next P D co go dest) n it = next_calls (astar_next P D fmap go dest) n it' /\
    esim (Rait P RC) (calls_state (astar_next P D co go dest) n it) (calls_state (astar_next P D fmap go dest) n it')).
  { clear n. induction n as [|n IH]; intros it it' H; [split; [reflexivity | exact H] |]. split.
    - apply esim_eq. cbn [next_calls]. eapply esim_bind; [apply (astar_next_sim P D co RC L go HG); exact H |].
      intros [o a] [o' b] (E & _ & Hab). cbn [fst snd] in *. subst o'. rewrite (proj1 (IH a b Hab)). apply esim_refl.
    - cbn [calls_state]. eapply esim_bind; [apply (astar_next_sim P D co RC L go HG); exact H |].
      intros [o a] [o' b] (E & _ & Hab). cbn [fst snd] in *. apply IH. exact Hab. }
  split.
  - apply esim_eq. unfold astar_yields_with. eapply esim_bind; [exact H0 |]. intros a b Hab. rewrite (proj1 (K n a b Hab)). apply esim_refl.
  - intros p Vp. apply esim_eq. unfold astar_records_with. eapply esim_bind; [exact H0 |]. intros a b Hab.
    eapply esim_bind; [apply (K n a b Hab) |]. intros a' b' (H1 & _). rewrite (lm_get _ _ _ L _ _ p H1 Vp). apply esim_refl.
Qed.

Lemma astar_yields_f : forall b P D W go orig dest n, usable b P W -> valid P orig -> go_inside P go ->
  astar_yields b P D go orig dest n = astar_yields_with fmap P D go orig dest n /\
  forall p, valid P p -> astar_records b P D go orig dest n p = astar_records_with fmap P D go orig dest n p.
Proof.
  intros b P D W go orig dest n U V HG. pose proof (usable_grid_type b P W U) as G.
  destruct b; cbn [astar_yields astar_records].
  - apply (astar_with_sim P D _ _ go (lawful_grid _ _ G) HG orig dest n V).
  - apply (astar_with_sim P D _ _ go (lawful_hmap _ _) HG orig dest n V).
  - apply (astar_with_sim P D _ _ go (lawful_bmap _ _) HG orig dest n V).
Qed.

Lemma astar_on_outcome : forall b P D W go orig dest, usable b P W -> valid P orig -> valid P dest -> go_inside P go ->
  exists r, returns (fun fuel => astar_on b P D fuel go orig dest) r /\ outcome P D (unit_cost go) (fun q => mdist q dest) orig dest r.
Proof.
  intros b P D W go orig dest U V Vd HG. pose proof (usable_grid_type b P W U) as G.
  destruct (astar_outcome P G D go orig dest V Vd HG) as (r & Hr & Ho). exists r. split; [|exact Ho].
  eapply returns_ext; [|exact Hr]. intros n. symmetry. apply (astar_on_f b P D W n go orig dest U V Vd HG).
Qed.

Lemma astar_on_mono : forall b P D go fuel orig dest r, astar_on b P D fuel go orig dest = Ret r ->
  returns (fun n => astar_on b P D n go orig dest) r.
Proof. intros [] P D go fuel orig dest r E; eapply (astar_path_mono P D); exact E. Qed.

Lemma walls_ok : forall P (wall : pos -> bool), grid_type P ->
  let go p d := match pos_dir_add_ok P p d with Some q => if wall q then None else Some q | None => None end in
  go_inside P go /\ one_step P go.
Proof.
  intros P wall G go. assert (K : forall p d q, valid P p -> go p d = Some q -> valid P q /\ q = step p d).
  { intros p d q V E. unfold go, pos_dir_add_ok in E.
    destruct (add_inside P p d (grid_type_wf P G) V) as [(Vs & Ea) | (_ & Ea)]; rewrite Ea in E; cbn [res_ok] in E; [|discriminate].
    destruct (wall (step p d)); inv E. auto. }
  split; intros p d q V E; apply (K p d q V E).
Qed.

Lemma C75_astar_exact_proof : forall b P D W go orig dest,
  usable b P W -> valid P orig -> valid P dest -> go_inside P go -> one_step P go ->
  exists r, returns (fun fuel => astar_on b P D fuel go orig dest) r /\
    (r = Err DestinationUnreachable <-> ~ reachable D go orig dest) /\
    (r = Err DestinationUnreachable \/ (r = Err Loop /\ (D = false -> cols P < rows P)) \/
     exists path, r = Ok path /\ Forall (allowed D) path /\ follow go orig path = Some dest /\
       Z.of_nat (length path) <= cols P * cols P) /\
    (orig = dest -> r = Ok []) /\
    (r = Err Loop -> D = false -> forall rs, (forall p, reachable D go orig p -> In p rs) -> cols P * cols P < Z.of_nat (length rs)).
Proof.
  intros b P D W go orig dest U V Vd HG O. pose proof (usable_grid_type b P W U) as G.
  destruct (astar_on_outcome b P D W go orig dest U V Vd HG) as (r & Hr & Ho).
  exists r. split; [exact Hr |].
  destruct (outcome_cases P D (unit_cost go) (fun q => mdist q dest) orig V (unit_HS P go HG) (unit_HA P G D go orig V HG) (grid_type_wf P G) (one_step_unit go P O) dest r Ho) as (K1 & K2).
  rewrite reachable_unit in K1. split; [exact K1 |]. split; [|split].
  - destruct K2 as [(path & -> & F & A & L) | [-> | ->]].
    + right. right. rewrite follow_unit in F. exists path. auto.
    + auto.
    + right. left. split; [reflexivity |]. intros ->.
      apply (outcome_loop P false (unit_cost go) (fun q => mdist q dest) orig V (unit_HS P go HG) (unit_HA P G false go orig V HG) (grid_type_wf P G) (one_step_unit go P O)) with (dest := dest); [| |exact G | exact Ho].
      * intros p d q w Vp A E. apply (mdist_consistent P go dest p d q w O Vp A E).
      * intros. apply mdist_nonneg.
  - intros ->. destruct Ho as [(_ & NR) | (c & hp & e & tr & _ & _ & _ & _ & ->)].
    + exfalso. apply NR. exists 0%nat. apply walk_0. reflexivity.
    + unfold maxn. pose proof (cols_sq P G). replace (Z.to_nat (cols P * cols P + 1)) with (S (Z.to_nat (cols P * cols P))) by lia.
      cbn [bp]. rewrite pos_eqb_refl. reflexivity.
  - intros -> -> rs Hrs.
    apply (outcome_loop_gen P false (unit_cost go) (fun q => mdist q dest) orig V (unit_HS P go HG) (unit_HA P G false go orig V HG) (grid_type_wf P G) (one_step_unit go P O)) with (dest := dest); [| |exact Ho |].
    + intros p d q w Vp A E. apply (mdist_consistent P go dest p d q w O Vp A E).
    + intros. apply mdist_nonneg.
    + intros q Hq. apply Hrs. apply (reachable_unit false go). exact Hq.
Qed.

Lemma C54_astar_valid_proof : forall b P D W go orig dest fuel path,
  usable b P W -> valid P orig -> valid P dest -> go_inside P go -> one_step P go ->
  astar_on b P D fuel go orig dest = Ret (Ok path) ->
  Forall (allowed D) path /\ follow go orig path = Some dest.
Proof.
  intros b P D W go orig dest fuel path U V Vd HG O E. apply astar_on_mono in E.
  destruct (C75_astar_exact_proof b P D W go orig dest U V Vd HG O) as (r & Hr & _ & K & _).
  pose proof (returns_unique _ _ _ Hr E). subst r. destruct K as [X | [(X & _) | (p & X & A & F & _)]]; try discriminate. inv X. auto.
Qed.

Lemma C56_astar_tall_grid_refuted_proof : exists b P W go orig dest,
  usable b P W /\ valid P orig /\ valid P dest /\ go_inside P go /\ one_step P go /\
  reachable false go orig dest /\ returns (fun fuel => astar_on b P false fuel go orig dest) (Err Loop).
Proof.
  assert (U : usable OnGrid (Pos 0 2) 1) by (exists 0, 2; unfold u16_dims, cells, cols, rows; cbn; repeat split; lia).
  destruct (walls_ok (Pos 0 2) (fun _ => false) (usable_grid_type _ _ _ U)) as (HG & O).
  eexists OnGrid, (Pos 0 2), 1, _, (0, 0), (0, 2).
  split; [exact U |]. split; [cbv; repeat split; discriminate |]. split; [cbv; repeat split; discriminate |].
  split; [exact HG |]. split; [exact O |]. split.
  - exists 2%nat, [dS; dS]. split; [reflexivity |]. split; [|reflexivity]. apply Forall_forall; intros d Hd; apply dirs_allowed; cbn in *; tauto.
  - apply (astar_on_mono _ _ _ _ 10). vm_compute. reflexivity.
Qed.

Lemma C56_astar_diagonals_refuted_proof : exists b P W go orig dest,
  usable b P W /\ rows P <= cols P /\ valid P orig /\ valid P dest /\ go_inside P go /\ one_step P go /\
  reachable true go orig dest /\ returns (fun fuel => astar_on b P true fuel go orig dest) (Err Loop).
Proof.
  pose (wall := fun q => existsb (pos_eqb q)
    [(0,0);(3,0);(5,0);(0,1);(1,1);(5,1);(0,2);(6,2);(1,3);(2,3);(3,3);(5,3);(6,3);(0,4);(3,4)]).
  assert (U : usable OnGrid (Pos 7 4) 2) by (exists 7, 4; unfold u16_dims, cells, cols, rows; cbn; repeat split; lia).
  destruct (walls_ok (Pos 7 4) wall (usable_grid_type _ _ _ U)) as (HG & O).
  set (go := fun p d => _) in HG. exists OnGrid, (Pos 7 4), 2, go, (7, 2), (2, 4).
  split; [exact U |]. split; [cbv; discriminate |]. split; [cbv; repeat split; discriminate |]. split; [cbv; repeat split; discriminate |].
  split; [exact HG |]. split; [exact O |].
  split; [|apply (astar_on_mono _ _ _ _ 100); vm_compute; reflexivity].
  exists 9%nat, [dNW; dSW; dSW; dNW; dW; dW; dSW; dSE; dE]. split; [reflexivity |]. split; [apply Forall_forall; intros; left; reflexivity |].
  vm_compute. reflexivity.
Qed.

Lemma C56_astar_complete_partial_proof : forall b P W go orig dest,
  usable b P W -> rows P <= cols P -> valid P orig -> valid P dest -> go_inside P go -> one_step P go ->
  exists r, returns (fun fuel => astar_on b P false fuel go orig dest) r /\
    (r = Err DestinationUnreachable <-> ~ reachable false go orig dest) /\
    (r <> Err DestinationUnreachable -> exists path, r = Ok path).
Proof.
  intros b P W go orig dest U HRC V Vd HG O. destruct (C75_astar_exact_proof b P false W go orig dest U V Vd HG O) as (r & Hr & K1 & K2 & _).
  exists r. split; [exact Hr |]. split; [exact K1 |]. intros N. destruct K2 as [E | [(_ & L) | (path & E & _)]]; [contradiction | specialize (L eq_refl); lia | eauto].
Qed.

Lemma C55_astar_shortest_refuted_proof : exists b P W go orig dest path n,
  usable b P W /\ valid P orig /\ valid P dest /\ go_inside P go /\ one_step P go /\
  returns (fun fuel => astar_on b P false fuel go orig dest) (Ok path) /\
  walk false go orig n dest /\ (n < length path)%nat.
Proof.
  pose (wall := fun q => existsb (pos_eqb q) [(2,1);(3,2);(1,5)]).
  assert (U : usable OnGrid (Pos 3 5) 1) by (exists 3, 5; unfold u16_dims, cells, cols, rows; cbn; repeat split; lia).
  destruct (walls_ok (Pos 3 5) wall (usable_grid_type _ _ _ U)) as (HG & O). set (go := fun p d => _) in HG.
  exists OnGrid, (Pos 3 5), 1, go, (0, 4), (3, 1), [dE; dE; dN; dN; dW; dN; dN; dE; dE; dS], 8%nat.
  split; [exact U |]. split; [cbv; repeat split; discriminate |]. split; [cbv; repeat split; discriminate |].
  split; [exact HG |]. split; [exact O |]. split; [apply (astar_on_mono _ _ _ _ 100); vm_compute; reflexivity |].
  split; [|cbn; lia]. exists [dN; dN; dN; dN; dE; dE; dE; dS]. split; [reflexivity |].
  split; [apply Forall_forall; intros d Hd; apply dirs_allowed; cbn in *; tauto | vm_compute; reflexivity].
Qed.

Lemma C55_astar_diagonals_refuted_proof : exists b P W go orig dest path n,
  usable b P W /\ rows P <= cols P /\ valid P orig /\ valid P dest /\ go_inside P go /\ one_step P go /\
  returns (fun fuel => astar_on b P true fuel go orig dest) (Ok path) /\
  walk true go orig n dest /\ (n < length path)%nat.
Proof.
  pose (wall := fun q => existsb (pos_eqb q) [(2,1)]).
  assert (U : usable OnGrid (Pos 3 2) 1) by (exists 3, 2; unfold u16_dims, cells, cols, rows; cbn; repeat split; lia).
  destruct (walls_ok (Pos 3 2) wall (usable_grid_type _ _ _ U)) as (HG & O). set (go := fun p d => _) in HG.
  eexists OnGrid, (Pos 3 2), 1, go, (3, 0), (0, 2), _, 3%nat.
  split; [exact U |]. split; [cbv; discriminate |]. split; [cbv; repeat split; discriminate |]. split; [cbv; repeat split; discriminate |].
  split; [exact HG |]. split; [exact O |]. split; [apply (astar_on_mono _ _ _ _ 100); vm_compute; reflexivity |].
  split; [|cbn; lia]. exists [dW; dSW; dSW]. split; [reflexivity |].
  split; [apply Forall_forall; intros; left; reflexivity | vm_compute; reflexivity].
Qed.

Lemma fastar_direct : forall P go orig dest c hp e tr path m n, post_wf P -> valid P orig -> go_inside P go -> one_step P go ->
  affordable false P (unit_cost go) orig -> FRun false (unit_cost go) (fun q => mdist q dest) orig c hp (e :: tr) -> e_pos e = dest -> ~ popped tr dest ->
  bp P (lastdir (e :: tr)) orig m dest [] = Ok path ->
  walk false go orig n dest -> Z.of_nat n = mdist orig dest -> length path = n.
Proof.
  intros P go orig dest c hp e tr path m n WF V HG O HC R Ed N E Hw Hn.
  set (h := fun q => mdist q dest) in *. set (succ := unit_cost go) in *.
  assert (HH : forall p d q w, valid P p -> allowed false d -> succ p d = Some (q, w) -> h p <= w + h q).
  { intros p d q w Vp A Es. apply (mdist_consistent P go dest p d q w O Vp A Es). }
  assert (H0 : forall p, valid P p -> 0 <= h p) by (intros; apply mdist_nonneg).
  pose proof (unit_HS P go HG) as HS. fold succ in HS, HC.
  assert (HW : forall q, popped (e :: tr) q -> mdist orig q <= c q).
  { intros q Hq. pose proof (finv0_run P false succ h orig V HS HC _ _ _ R) as I.
    pose proof (i_walk _ _ _ _ _ _ _ _ I q) as CW. 
    assert (L : c q < COST_MAX) by apply (frun_popped_reachable P false succ h orig V HS HC _ _ _ q R Hq). specialize (CW L). apply cost_walk_unit in CW. destruct CW as (k & -> & Wk). apply (walk_mdist P go orig k q O HG V Wk). }
  assert (OPT : c dest <= Z.of_nat n).
  { apply (frun_optimal P false succ h orig V HS HC HH H0 c hp (e :: tr) dest _ R); [rewrite <- Ed; apply popped_head |].
    apply cost_walk_unit. eauto. }
  destruct (foutcome_optimal P false succ h orig V HS HC WF (one_step_unit go P O) HH H0 dest path m c hp e tr R Ed E) as (F & _).
  - intros x Hx Nx. pose proof (finv0_run P false succ h orig V HS HC _ _ _ R) as I.
    destruct (i_just _ _ _ _ _ _ _ _ I x (or_intror Hx)) as [-> | (p & d & w & _ & _ & _ & _ & _ & L2)]; [cbn in Nx; congruence |].
    assert (LE : e_prio x <= e_prio e).
    { destruct Hx as [-> | Hx]; [lia | apply (fprio_order P false succ h orig V HS HC HH H0 c hp e tr x R Hx)]. }
    assert (NO : e_pos e <> orig).
    { intros X. destruct (frun_pop false succ h orig _ _ _ _ R) as (c1 & hp1 & rest & R1 & Ep & Ee).
      destruct tr as [|t tr].
      - destruct Hx as [-> | []]. congruence.
      - destruct (finv1_run P false succ h orig V HS HC HH H0 _ _ _ R1) as (ord & J); [discriminate |].
        apply N. rewrite <- Ed, X. apply (j_ord _ _ _ _ _ _ _ _ J). destruct (j_last _ _ _ _ _ _ _ _ J) as (l & ->). apply in_or_app. right. left. reflexivity. }
    rewrite <- Ed in N. pose proof (ffirst_pop_prio P false succ h orig V HS HC HH H0 c hp e tr R N NO) as FP. rewrite Ed in FP.
    assert (h dest = 0) by (unfold h, mdist; lia).
    assert (HX : mdist orig (e_pos x) <= c (e_pos x)) by (apply HW; exists x; auto).
    assert (TRI : mdist orig dest <= mdist orig (e_pos x) + h (e_pos x)).
    { unfold h, mdist. generalize (e_pos x). intros [a1 b1]. cbn [fst snd]. lia. }
    lia.
  - pose proof (follow_move_of _ _ _ _ _ F) as F'. unfold succ in F', F. rewrite follow_unit in F'. rewrite (follow_cost_unit go _ _ _ F') in F.
    injection F as F. assert (mdist orig dest <= c dest) by (apply HW; exists e; split; [left; reflexivity | exact Ed]). lia.
Qed.

Lemma astar_direct : forall P go orig dest c hp e tr path m n, grid_type P -> valid P orig -> go_inside P go -> one_step P go ->
  Run false (unit_cost go) (fun q => mdist q dest) orig c hp (e :: tr) -> e_pos e = dest -> ~ popped tr dest ->
  bp P (lastdir (e :: tr)) orig m dest [] = Ok path ->
  walk false go orig n dest -> Z.of_nat n = mdist orig dest -> length path = n.
Proof.
  intros P go orig dest c hp e tr path m n G V HG O R. apply (fastar_direct P go orig dest c hp e tr path m n (grid_type_wf P G) V HG O).
  - exact (unit_HA P G false go orig V HG).
  - exact (run_fair false _ _ orig _ _ _ R).
Qed.

Lemma C55_astar_shortest_partial_proof : forall b P W go orig dest path n,
  usable b P W -> valid P orig -> valid P dest -> go_inside P go -> one_step P go ->
  returns (fun fuel => astar_on b P false fuel go orig dest) (Ok path) ->
  walk false go orig n dest -> Z.of_nat n = Z.abs (fst orig - fst dest) + Z.abs (snd orig - snd dest) ->
  length path = n.
Proof.
  intros b P W go orig dest path n U V Vd HG O Hp Hw Hn. pose proof (usable_grid_type b P W U) as G.
  fold (mdist orig dest) in Hn.
  destruct (astar_on_outcome b P false W go orig dest U V Vd HG) as (r & Hr & Ho).
  pose proof (returns_unique _ _ _ Hr Hp). subst r.
  destruct Ho as [(X & _) | (c & hp & e & tr & R & Ed & N & RC & E)]; [discriminate |]. symmetry in E.
  apply (astar_direct P go orig dest c hp e tr path _ n G V HG O R Ed N E Hw Hn).
Qed.

Lemma C76_astar_beeline_proof : forall b P W go orig dest path,
  usable b P W -> valid P orig -> valid P dest -> go_inside P go -> one_step P go ->
  beeline go dest orig path ->
  returns (fun fuel => astar_on b P true fuel go orig dest)
    (if Z.of_nat (length path) <=? cols P * cols P then Ok path else Err Loop) /\
  at_distance true go orig (length path) dest.
Proof.
  intros b P W go orig dest path U V Vd HG O BL. pose proof (usable_grid_type b P W U) as G.
  destruct (astar_on_outcome b P true W go orig dest U V Vd HG) as (r & Hr & Ho).
  rewrite (line_outcome P G go orig dest V HG O path BL r Ho) in Hr. split; [exact Hr |].
  split.
  - exists path. split; [reflexivity |]. split; [apply Forall_forall; intros; left; reflexivity |].
    clear -BL. revert orig BL. induction path as [|d ds IH]; intros p B; cbn [beeline follow] in *; [congruence |]. destruct B as (_ & _ & _ & -> & B). apply IH. exact B.
  - intros j Lj Wj. pose proof (walk_cheb P go true orig j dest O HG V Wj). pose proof (beeline_cheb go dest path orig BL). lia.
Qed.

Lemma C77_astar_iterator_proof : forall b P D W go orig dest,
  usable b P W -> valid P orig -> valid P dest -> go_inside P go -> one_step P go ->
  exists items : list (pos * dir),
    (forall n, astar_yields b P D go orig dest n = Ret (items_then_none items n)) /\
    (forall p, In p (map fst items) <-> reachable D go orig p) /\
    (forall n p d, nth_error items n = Some (p, d) ->
       exists k, walk D go orig k p /\ astar_records b P D go orig dest (S n) p = Ret (Z.of_nat k) /\
         (D = false -> at_distance D go orig k p)) /\
    (forall i j p d q e k k', D = false -> (i < j)%nat -> nth_error items i = Some (p, d) -> nth_error items j = Some (q, e) ->
       ~ In q (map fst (firstn j items)) -> at_distance D go orig k p -> at_distance D go orig k' q ->
       Z.of_nat k + (Z.abs (fst p - fst dest) + Z.abs (snd p - snd dest)) <=
       Z.of_nat k' + (Z.abs (fst q - fst dest) + Z.abs (snd q - snd dest))).
Proof.
  intros b P D W go orig dest U V Vd HG OS. pose proof (usable_grid_type b P W U) as G.
  set (h := fun q => mdist q dest) in *. set (succ := unit_cost go) in *.
  pose proof (unit_HS P go HG) as HS. pose proof (unit_HA P G D go orig V HG) as HC. fold succ in HS, HC.
  destruct (astar_trace P G D go orig dest V Vd HG) as (es & K1 & K2 & cend & K3). fold succ in K2, K3. fold h in K2, K3.
  assert (H0 : forall p, valid P p -> 0 <= h p) by (intros; apply mdist_nonneg).
  assert (POP : forall l p, popped (rev l) p <-> In p (map fst (map (@snd Z (pos * dir)) l))).
  { intros l p. rewrite map_map, in_map_iff. split.
    - intros (x & Hx & E). exists x. split; [exact E |]. apply in_rev. exact Hx.
    - intros (x & E & Hx). exists x. split; [apply in_rev in Hx; exact Hx | exact E]. }
  assert (WALK : forall c hp tr p, Run D succ h orig c hp tr -> popped tr p -> exists k, c p = Z.of_nat k /\ walk D go orig k p).
  { intros c hp tr p R Hp. apply cost_walk_unit.
    apply (i_walk _ _ _ _ _ _ _ _ (inv0_run P D succ h orig V HS HC _ _ _ R)).
    apply (run_popped_reachable P D succ h orig V HS HC _ _ _ p R Hp). }
  assert (OPT : forall c hp tr p k, D = false -> Run D succ h orig c hp tr -> popped tr p -> walk D go orig k p -> c p <= Z.of_nat k).
  { intros c hp tr p k -> R Hp Hk. apply (run_optimal P false succ h orig V HS HC) with (hp := hp) (tr := tr); auto.
    - intros x d q w Vx A E. apply (mdist_consistent P go dest x d q w OS Vx A E).
    - apply cost_walk_unit. eauto. }
  assert (FST : forall n x, nth_error es n = Some x -> firstn (S n) es = firstn n es ++ [x]).
  { clear. induction es as [|y es IH]; intros [|n] x E; cbn in *; try discriminate; [congruence |]. f_equal. apply IH. exact E. }
  assert (NTH : forall n y, nth_error (map (@snd Z (pos * dir)) es) n = Some y -> exists x, nth_error es n = Some x /\ snd x = y).
  { clear. induction es as [|y es IH]; intros [|n] x E; cbn in *; try discriminate; [inv E; eauto | auto]. }
  exists (map snd es). split; [|split; [|split]].
  - intros n. rewrite (proj1 (astar_yields_f b P D W go orig dest n U V HG)). apply K1.
  - intros p. rewrite <- POP, <- (reachable_unit D go). split.
    + intros Hp. apply (run_popped_reachable P D succ h orig V HS HC _ _ _ p K3 Hp).
    + apply (run_end_popped P D succ h orig V HS HC _ _ p K3).
  - intros n p d E. destruct (NTH n (p, d) E) as (x & En & Ex).
    destruct (K2 (S n)) as (c & hp & Hc & R).
    assert (Hp : popped (rev (firstn (S n) es)) p).
    { apply POP. rewrite (FST n x En), !map_app. apply in_or_app. right. cbn [map]. rewrite Ex. left. reflexivity. }
    destruct (WALK c hp _ p R Hp) as (k & Ck & Wk). exists k. split; [exact Wk |]. split.
    + rewrite (proj2 (astar_yields_f b P D W go orig dest (S n) U V HG)); [rewrite <- Ck; apply Hc |].
      apply (run_valid P D succ h orig V HS HC c hp _ p R Hp).
    + intros ED. split; [exact Wk |]. intros j Lj Wj. pose proof (OPT c hp _ p j ED R Hp Wj). lia.
  - intros i j p d q e k k' ED Lij Ei Ej NQ (Wp & Lp) (Wq & Lq).
    destruct (NTH i _ Ei) as ((px & x) & Ni & Ex). destruct (NTH j _ Ej) as ((py & y) & Nj & Ey). cbn [snd] in Ex, Ey. subst x y.
    destruct (K2 (S j)) as (cc & hp & _ & R). rewrite (FST j _ Nj) in R. rewrite rev_app_distr in R. cbn [rev app] in R.
    rewrite firstn_map in NQ. rewrite <- POP in NQ.
    assert (Hp : popped (rev (firstn j es)) p).
    { exists (px, (p, d)). split; [|reflexivity]. apply -> in_rev. apply nth_error_In with (n := i).
      assert (NF : forall (l : list entry) i j, (i < j)%nat -> nth_error (firstn j l) i = nth_error l i).
      { clear. induction l as [|a l IH]; intros [|i] [|j] L; try lia; cbn; auto. apply IH. lia. }
      rewrite NF by exact Lij. exact Ni. }
    assert (PO : cc p + h p <= cc q + h q).
    { apply (pop_order P D succ h orig V HS HC) with (hp := hp) (e := (py, (q, e))) (tr := rev (firstn j es)); auto.
      intros x d' r w Vx A E. apply (mdist_consistent P go dest x d' r w OS Vx); [rewrite <- ED; exact A | exact E]. }
    destruct (WALK cc hp _ p R (popped_cons _ _ _ Hp)) as (k1 & C1 & W1).
    pose proof (OPT cc hp _ q k' ED R (popped_head (py, (q, e)) _) Wq) as O2.
    assert (k <= k1)%nat by (destruct (Nat.le_gt_cases k k1) as [L | L]; [exact L | exfalso; exact (Lp k1 L W1)]).
    unfold h, mdist in PO. lia.
Qed.

Lemma C86_astar_first_yields_proof : forall b P W go orig dest n l p d,
  usable b P W -> valid P orig -> valid P dest -> go_inside P go -> one_step P go ->
  astar_yields b P false go orig dest n = Ret (map Some l ++ [Some (p, d)]) -> ~ In p (map fst l) ->
  p = orig \/
  exists k, In (step p d) (map fst l) /\ (exists e, allowed false e /\ go (step p d) e = Some p /\ heading d = (heading e + 4) mod 8) /\
    at_distance false go orig k (step p d) /\ at_distance false go orig (S k) p.
Proof.
  intros b P W go orig dest n l p d U V Vd HG OS Y N. pose proof (usable_grid_type b P W U) as G.
  set (h := fun q => mdist q dest) in *. set (succ := unit_cost go) in *.
  pose proof (unit_HS P go HG) as HS. pose proof (unit_HA P G false go orig V HG) as HC. fold succ in HS, HC.
  destruct (astar_trace P G false go orig dest V Vd HG) as (es & K1 & K2 & _). fold succ in K2. fold h in K2.
  assert (H0 : forall p, valid P p -> 0 <= h p) by (intros; apply mdist_nonneg).
  assert (HH : forall x d q w, valid P x -> allowed false d -> succ x d = Some (q, w) -> h x <= w + h q).
  { intros x e q w Vx A E. apply (mdist_consistent P go dest x e q w OS Vx A E). }
  rewrite (proj1 (astar_yields_f b P false W go orig dest n U V HG)), K1 in Y. injection Y as Y. apply items_prefix in Y. rewrite firstn_map in Y.
  destruct (K2 n) as (c & hp & _ & R).
  destruct (map_eq_app _ _ _ _ Y) as (l1 & l2 & E1 & E2 & E3). destruct l2 as [|x [|y l2]]; try discriminate. cbn in E3. inv E3.
  change (@firstn entry n es = l1 ++ [x]) in E1. rewrite E1, rev_app_distr in R. cbn [rev app] in R. destruct x as (pr & x). cbn [snd] in *. subst x.
  assert (POP : forall q, popped (rev l1) q <-> In q (map fst (map (@snd Z (pos * dir)) l1))).
  { intros q. rewrite map_map, in_map_iff. split.
    - intros (x & Hx & E). exists x. split; [exact E |]. apply in_rev. exact Hx.
    - intros (x & E & Hx). exists x. split; [apply in_rev in Hx; exact Hx | exact E]. }
  assert (OPT : forall q, popped ((pr, (p, d)) :: rev l1) q -> exists k, c q = Z.of_nat k /\ at_distance false go orig k q).
  { intros q Hq. assert (X : exists k, c q = Z.of_nat k /\ walk false go orig k q).
    { apply cost_walk_unit. apply (i_walk _ _ _ _ _ _ _ _ (inv0_run P false succ h orig V HS HC _ _ _ R)).
      apply (run_popped_reachable P false succ h orig V HS HC _ _ _ q R Hq). }
    destruct X as (k & Ek & Wk). exists k. split; [exact Ek |]. split; [exact Wk |]. intros j Lj Wj.
    assert (c q <= Z.of_nat j); [|lia]. apply (run_optimal P false succ h orig V HS HC HH H0 c hp _ q _ R Hq). apply cost_walk_unit. eauto. }
  destruct (first_pop P false succ h orig V HS HC HH H0 c hp _ _ R) as [E | (q & e & w & Hq & A & Es & Ed & Ec)].
  - rewrite POP. exact N.
  - left. inversion E. reflexivity.
  - right. cbn [e_pos e_dir fst snd] in *. unfold succ, unit_cost in Es. destruct (go q e) as [r|] eqn:Eg; inv Es.
    assert (Vq : valid P q) by (apply (run_valid P false succ h orig V HS HC c hp _ q R); apply popped_cons; exact Hq).
    assert (Q : step p (opp e) = q) by (rewrite (OS q e p Vq Eg); apply step_opp). rewrite Q.
    destruct (OPT q (popped_cons _ _ _ Hq)) as (k & Ek & Dk). destruct (OPT p (popped_head (pr, (p, opp e)) _)) as (k' & Ek' & Dk').
    assert (k' = S k) by lia. subst k'. exists k. split; [apply POP; exact Hq |]. split; [exists e; split; [exact A |]; split; [exact Eg | destruct e; reflexivity] |]. auto.
Qed.
