(** PropLocalProofs.v -- proofs of the statements of PropLocal.v. *)

From Coq Require Import ZArith List Bool Lia.
From Verif Require Import Rust BoundedInt Dir PosT Pos Grid Gridbool SetMap CameFrom Bf Heap Astar Ucs Spec SpecSearch Lib Deque BoundedIntProofs PosTProofs PosTProofs2 PropDirProofs SetMapProofs Sim CameFromProofs PropSetMapProofs GridProofs BfProofs PropBfProofs BestFirst SearchProofs UcsProofs PropUcsProofs AstarProofs PropAstarProofs PropAgreeProofs PropReplanProofs PropStrayProofs.
Import ListNotations.
Open Scope Z_scope.

(** A step depends on the closure only at the position taken out of the queue. *)
Lemma ucs_next_ext : forall D {MC} (co : mapops Z MC) go go' it,
  (forall e rest d, heap_pop (u_frontier it) = Some (e, rest) -> allowed D d -> go' (e_pos e) d = go (e_pos e) d) ->
  ucs_next D co go' it = ucs_next D co go it.
Proof.
  intros D MC co go go' it H. unfold ucs_next. destruct (heap_pop (u_frontier it)) as [[[pr [p d]] rest]|]; [|reflexivity].
  rewrite dir_iter_dirs. cbn [bind]. apply esim_eq. eapply esim_bind with (R := eq); [|intros a b <-; apply esim_refl].
  rewrite (foldM_ext (ucs_step_dir co go' p) (ucs_step_dir co go p)); [apply esim_refl |]. intros s e He. unfold ucs_step_dir. apply dirs_allowed in He.
  rewrite (H (pr, (p, d)) rest e eq_refl He : go' p e = go p e). reflexivity.
Qed.

Lemma astar_next_ext : forall P D {MC} (co : mapops Z MC) go go' dest it,
  (forall e rest d, heap_pop (a_frontier it) = Some (e, rest) -> allowed D d -> go' (e_pos e) d = go (e_pos e) d) ->
  astar_next P D co go' dest it = astar_next P D co go dest it.
Proof.
  intros P D MC co go go' dest it H. unfold astar_next. destruct (heap_pop (a_frontier it)) as [[[pr [p d]] rest]|]; [|reflexivity].
  rewrite dir_iter_dirs. cbn [bind]. apply esim_eq. eapply esim_bind with (R := eq); [|intros a b <-; apply esim_refl].
  rewrite (foldM_ext (astar_step_dir P co go' dest p) (astar_step_dir P co go dest p)); [apply esim_refl |]. intros s e He. unfold astar_step_dir. apply dirs_allowed in He.
  rewrite (H (pr, (p, d)) rest e eq_refl He : go' p e = go p e). reflexivity.
Qed.

Lemma bf_next_ext : forall D {S} (so : setops S) go go' it,
  (forall p x d, In (p, x) (bf_nextfront it) -> allowed D d -> go' p d = go p d) ->
  bf_next D so go' it = bf_next D so go it.
Proof.
  intros D S so go go' it H. unfold bf_next. destruct (bf_nextfront it) as [|x l]; [reflexivity |].
  rewrite (foldM_ext (bf_step_pos D so go') (bf_step_pos D so go)); [reflexivity |]. intros s [p y] Hin. unfold bf_step_pos. rewrite dir_iter_dirs. cbn [bind fst].
  rewrite (foldM_ext (bf_step_dir so go' p) (bf_step_dir so go p)); [reflexivity |]. intros t e He. unfold bf_step_dir. apply dirs_allowed in He.
  rewrite (H p y e Hin He). reflexivity.
Qed.

(** What is taken out of the queue before the destination. *)
Lemma fpopped_near : forall P D succ h orig dest c hp tr e rest k, valid P orig ->
  (forall p d q w, valid P p -> succ p d = Some (q, w) -> valid P q /\ 0 <= w) -> affordable D P succ orig ->
  FRun D succ h orig c hp tr -> pops hp e rest -> ~ popped tr dest -> cost_walk D succ orig k dest ->
  e_pos e = orig \/ exists a r k1 k2, cost_walk D succ orig a (e_pos e) /\ cost_walk D succ orig k1 r /\ cost_walk D succ r k2 dest /\ k = k1 + k2 /\
    (r = orig \/ a + h (e_pos e) <= k1 + h r) /\ (r = orig -> a + h (e_pos e) <= Z.max 0 (h orig)).
Proof.
  intros P D succ h orig dest c hp tr e rest k V HS HA R Ep Np Wk.
  pose proof (finv0_run P D succ h orig V HS HA _ _ _ R) as J. pose proof (pops_In _ _ _ Ep) as Hin.
  destruct (fwaits_on_walk P D succ h orig V HS HA c hp tr dest k R Wk Np) as (r & k1 & k2 & W1 & W2 & Ek & Lr & (x & Hx & Ex & Px)).
  pose proof (pops_min _ _ _ Ep x Hx) as Lmin. assert (He : In e hp) by (apply Hin; auto).
  destruct (i_just _ _ _ _ _ _ _ _ J e (or_introl He)) as [-> | (p & d & w & _ & _ & _ & _ & _ & L2)]; [left; reflexivity |]. right.
  exists (c (e_pos e)), r, k1, k2. split; [apply (i_walk _ _ _ _ _ _ _ _ J), (i_fin _ _ _ _ _ _ _ _ J); auto |]. split; [exact W1 |]. split; [exact W2 |]. split; [exact Ek |].
  pose proof (proj1 (i_bnd _ _ _ _ _ _ _ _ J)) as C0.
  destruct Px as [-> | (No & Px)].
  - cbn [e_prio e0 e_pos fst snd] in *. split; [left; symmetry; exact Ex |]. intros _. lia.
  - split; [right; lia |]. intros ->. congruence.
Qed.

Lemma popped_near : forall P D succ h orig dest c hp tr e rest k, valid P orig ->
  (forall p d q w, valid P p -> succ p d = Some (q, w) -> valid P q /\ 0 <= w) -> affordable D P succ orig ->
  Run D succ h orig c hp tr -> heap_pop hp = Some (e, rest) -> ~ popped tr dest -> cost_walk D succ orig k dest ->
  e_pos e = orig \/ exists a r k1 k2, cost_walk D succ orig a (e_pos e) /\ cost_walk D succ orig k1 r /\ cost_walk D succ r k2 dest /\ k = k1 + k2 /\
    (r = orig \/ a + h (e_pos e) <= k1 + h r) /\ (r = orig -> a + h (e_pos e) <= Z.max 0 (h orig)).
Proof. intros P D succ h orig dest c hp tr e rest k V HS HA R Ep. apply (fpopped_near P D succ h orig dest c hp tr e rest k V HS HA (run_fair D succ h orig _ _ _ R) (heap_pops _ _ _ Ep)). Qed.

Lemma ucs_same_near : forall P D go go' orig dest k, valid P orig ->
  (forall p d q w, valid P p -> go p d = Some (q, w) -> valid P q /\ 0 <= w) -> affordable D P go orig ->
  go_inside P (move_of go) -> lowest_cost D go orig k dest ->
  (forall p d c, lowest_cost D go orig c p -> c <= k -> allowed D d -> go' p d = go p d) ->
  forall fuel f c hp tr, Run D go (fun _ => 0) orig c hp tr -> ~ popped tr dest ->
  ucs_search_loop D fmap fmap go' fuel dest f (UIt c hp) = ucs_search_loop D fmap fmap go fuel dest f (UIt c hp).
Proof.
  intros P D go go' orig dest k V HS HA GI Lk H. induction fuel as [|fuel IH]; intros f c hp tr R Np; [reflexivity |]. cbn [ucs_search_loop].
  assert (NN : forall p d q w, valid P p -> go p d = Some (q, w) -> 0 <= w) by (intros; eapply HS; eassumption).
  rewrite (ucs_next_ext D fmap go go').
  - rewrite (ucs_next_run P D go orig V HS HA c hp tr R). destruct (heap_pop hp) as [[e rest]|] eqn:Ep; [|reflexivity].
    destruct (expand D go (fun _ => 0) (e_pos e) (c, rest)) as [c' hp'] eqn:Ee. cbn [bind fmap mp_set].
    destruct (pos_eqb (e_pos e) dest) eqn:Eq; [reflexivity |]. apply (IH _ c' hp' (e :: tr)); [eapply Run1; eassumption |].
    intros (x & [<- | Hx] & Ex); [rewrite Ex in Eq; rewrite (proj2 (pos_eqb_eq dest dest) eq_refl) in Eq; discriminate |]. apply Np. exists x. auto.
  - cbn [u_frontier]. intros e rest d Ep A.
    assert (Dec : go' (e_pos e) d = go (e_pos e) d \/ go' (e_pos e) d <> go (e_pos e) d).
    { assert (forall a b : option (pos * Z), {a = b} + {a <> b}) as X by (repeat decide equality). destruct (X (go' (e_pos e) d) (go (e_pos e) d)); auto. }
    destruct Dec as [E | NE]; [exact E |]. exfalso.
    assert (Y : exists a, cost_walk D go orig a (e_pos e) /\ a <= k).
    { destruct Lk as (Wk & _). pose proof Wk as Wk'. destruct Wk' as (pk & Ak & Fk). pose proof (proj1 (cost_nonneg P go GI NN pk orig dest k V Fk)) as K0.
      destruct (popped_near P D go _ orig dest c hp tr e rest k V HS HA R Ep Np Wk) as [-> | (a & r & k1 & k2 & Wa & W1 & W2 & -> & B1 & B2)].
      - exists 0. split; [apply cost_walk_nil | exact K0].
      - exists a. split; [exact Wa |]. destruct W1 as (p1 & A1 & F1), W2 as (p2 & A2 & F2).
        destruct (cost_nonneg P go GI NN p1 orig r k1 V F1) as (K1 & Vr). destruct (cost_nonneg P go GI NN p2 r dest k2 Vr F2) as (K2 & _).
        destruct B1 as [-> | B1]; [specialize (B2 eq_refl) |]; cbv beta in *; lia. }
    destruct Y as (a & Wa & La). apply (lowest_exists D P go orig a (e_pos e) GI NN V Wa). intros m Lm. apply NE. apply (H (e_pos e) d m Lm); [|exact A].
    pose proof (proj2 Lm a Wa). lia.
Qed.

Lemma C146_ucs_near_proof : forall b P D W go go' orig dest k fuel,
  usable b P W -> valid P orig -> valid P dest -> go_inside P (move_of go) -> go_inside P (move_of go') -> affordable D P go orig ->
  lowest_cost D go orig k dest ->
  (forall p d c, lowest_cost D go orig c p -> c <= k -> allowed D d -> go' p d = go p d) ->
  ucs_on b P D fuel go' orig dest = ucs_on b P D fuel go orig dest.
Proof.
  intros b P D W go go' orig dest k fuel U V Vd HG HG' HA Lk H.
  rewrite (ucs_on_f b P D W fuel go orig dest U V Vd HG), (ucs_on_f b P D W fuel go' orig dest U V Vd HG').
  pose proof (afford_HS D P go orig HG HA) as HS.
  unfold ucs_search_path, ucs_search_mapmov, ucs_new. cbn [fmap mp_set mp_new mp_default bind heap_push].
  pose proof (ucs_same_near P D go go' orig dest k V HS HA HG Lk H fuel (fun _ => None) _ _ [] (Run0 D go (fun _ => 0) orig)) as X.
  exact (f_equal (fun x => bind x _) (X ltac:(intros (x & [] & _)))).
Qed.

Lemma walk_mdist_any : forall P D go p n q, one_step P go -> go_inside P go -> valid P p -> walk D go p n q -> mdist p q <= (if D then 2 else 1) * Z.of_nat n.
Proof.
  intros P [] go p n q O HG V Wn; [apply (mdist_walk P go p n q O HG V Wn) |]. pose proof (walk_mdist P go p n q O HG V Wn). lia.
Qed.

Lemma astar_same_near : forall P D go go' orig dest n, grid_type P -> valid P orig -> valid P dest -> go_inside P go -> one_step P go ->
  at_distance D go orig n dest ->
  (forall p d m, at_distance D go orig m p -> Z.of_nat m + mdist p dest <= (if D then 2 else 1) * Z.of_nat n -> allowed D d -> go' p d = go p d) ->
  forall fuel f c hp tr, Run D (unit_cost go) (fun x => mdist x dest) orig c hp tr -> ~ popped tr dest ->
  astar_search_loop P D fmap fmap go' fuel dest f (AIt c hp) = astar_search_loop P D fmap fmap go fuel dest f (AIt c hp).
Proof.
  intros P D go go' orig dest n G V Vd HG O Dn H. pose proof (unit_HS P go HG) as HS. pose proof (unit_HA P G D go orig V HG) as HA.
  induction fuel as [|fuel IH]; intros f c hp tr R Np; [reflexivity |]. cbn [astar_search_loop].
  rewrite (astar_next_ext P D fmap go go').
  - rewrite (astar_next_run_ok P (grid_type_wf P G) D go orig dest V HG (all_rows P) (grid_HR P D go orig V HG) (grid_HL P G) (grid_HC P G D go orig dest V Vd HG) c hp tr R).
    destruct (heap_pop hp) as [[e rest]|] eqn:Ep; [|reflexivity].
    destruct (expand D (unit_cost go) (fun x => mdist x dest) (e_pos e) (c, rest)) as [c' hp'] eqn:Ee. cbn [bind fmap mp_set].
    destruct (pos_eqb (e_pos e) dest) eqn:Eq; [reflexivity |]. apply (IH _ c' hp' (e :: tr)); [eapply Run1; eassumption |].
    intros (x & [<- | Hx] & Ex); [rewrite Ex in Eq; rewrite (proj2 (pos_eqb_eq dest dest) eq_refl) in Eq; discriminate |]. apply Np. exists x. auto.
  - cbn [a_frontier]. intros e rest d Ep A.
    assert (Y : exists m, walk D go orig m (e_pos e) /\ Z.of_nat m + mdist (e_pos e) dest <= (if D then 2 else 1) * Z.of_nat n).
    { destruct Dn as (Wn & _). pose proof (walk_mdist_any P D go orig n dest O HG V Wn) as M0.
      destruct (popped_near P D (unit_cost go) _ orig dest c hp tr e rest (Z.of_nat n) V HS HA R Ep Np) as [-> | (a & r & k1 & k2 & Wa & W1 & W2 & Ek & B1 & B2)]; [apply cost_walk_unit; eauto | |].
      - exists 0%nat. split; [apply walk_0; reflexivity | cbn [Z.of_nat]; lia].
      - apply cost_walk_unit in Wa, W1, W2. destruct Wa as (m & -> & Wa), W1 as (n1 & -> & W1), W2 as (n2 & -> & W2). exists m. split; [exact Wa |].
        pose proof (walk_mdist_any P D go r n2 dest O HG (walk_valid D go P n1 orig r HG V W1) W2) as M2. pose proof (mdist_nonneg orig dest) as M3.
        destruct B1 as [-> | B1]; [specialize (B2 eq_refl); cbv beta in *; lia |]. cbv beta in *. destruct D; lia. }
    destruct Y as (m & Wm & Lm). destruct (walk_min D go orig m (e_pos e) Wm) as (j & Lj & Dj). apply (H (e_pos e) d j Dj); [lia | exact A].
Qed.

Lemma C146_astar_near_proof : forall b P D W go go' orig dest n fuel,
  usable b P W -> valid P orig -> valid P dest -> go_inside P go -> go_inside P go' -> one_step P go ->
  at_distance D go orig n dest ->
  (forall p d m, at_distance D go orig m p ->
     Z.of_nat m + (Z.abs (fst p - fst dest) + Z.abs (snd p - snd dest)) <= (if D then 2 else 1) * Z.of_nat n ->
     allowed D d -> go' p d = go p d) ->
  astar_on b P D fuel go' orig dest = astar_on b P D fuel go orig dest.
Proof.
  intros b P D W go go' orig dest n fuel U V Vd HG HG' O Dn H.
  rewrite (astar_on_f b P D W fuel go orig dest U V Vd HG), (astar_on_f b P D W fuel go' orig dest U V Vd HG').
  unfold astar_search_path, astar_search_mapmov, astar_new. cbn [fmap mp_set mp_new mp_default bind heap_push].
  pose proof (astar_same_near P D go go' orig dest n (usable_grid_type b P W U) V Vd HG O Dn H fuel (fun _ => None) _ _ [] (Run0 D (unit_cost go) (fun x => mdist x dest) orig)) as X.
  exact (f_equal (fun x => bind x _) (X ltac:(intros (x & [] & _)))).
Qed.

Lemma bf_scan_ext : forall {M} (mo : mapops (option dir) M) found found' l m, (forall p d, In (p, d) l -> found' p = found p) -> bf_scan mo found' m l = bf_scan mo found m l.
Proof.
  intros M mo found found' l. induction l as [|[p d] l IH]; intros m H; [reflexivity |]. cbn [bf_scan]. rewrite (H p d (or_introl eq_refl)).
  destruct (mp_set mo m p (Some d)); [|reflexivity..]. cbn [bind]. destruct (found p); [reflexivity |]. apply IH. intros q e Hq. apply (H q e). right. exact Hq.
Qed.

Lemma bf_scan_hit : forall found l f p d, In (p, d) l -> found p = true -> exists f' q, bf_scan fmap found f l = Ret (f', Some q).
Proof.
  intros found l. induction l as [|[q e] l IH]; intros f p d Hin Hf; [contradiction |]. cbn [bf_scan fmap mp_set bind].
  destruct (found q) eqn:Eq; [eauto |]. destruct Hin as [E | Hin]; [injection E as -> ->; congruence |]. eapply IH; eassumption.
Qed.

Lemma C146_bfs_near_proof : forall b P D W go go' found found' orig n goal fuel,
  usable b P W -> valid P orig -> go_inside P go -> go_inside P go' ->
  at_distance D go orig n goal -> goal <> orig -> found goal = true ->
  (forall p d m, at_distance D go orig m p -> (m <= n)%nat -> allowed D d -> go' p d = go p d) ->
  (forall p m, at_distance D go orig m p -> (m <= n)%nat -> found' p = found p) ->
  bfs_on b P D W fuel go' orig found' = bfs_on b P D W fuel go orig found.
Proof.
  intros b P D W go go' found found' orig n goal fuel U V HG HG' Dn Ng Fg H HF.
  rewrite (bfs_on_f b P D W fuel go orig found U V HG), (bfs_on_f b P D W fuel go' orig found' U V HG').
  assert (D0 : at_distance D go orig 0 orig) by (apply at_distance_0; reflexivity).
  assert (LV : forall k p x, (S k <= n)%nat -> In (p, x) (front_at D go orig (S k)) -> exists m, at_distance D go orig m p /\ (m <= n)%nat).
  { intros k p x Lk Hin. destruct (front_facts D go orig k) as (_ & F & _). assert (X : on_level D go orig (S k) p) by (apply F; apply (in_map fst) in Hin; exact Hin).
    destruct X as [X | (-> & _)]; [exists (S k); auto | exists 0%nat; split; [exact D0 | lia]]. }
  assert (LOOP : forall fuel f k, (S k <= n)%nat -> bf_search_loop D fset fmap go' fuel found' f (state_at D go orig k) = bf_search_loop D fset fmap go fuel found f (state_at D go orig k)).
  { induction fuel0 as [|fu IH]; intros f k Lk; [reflexivity |]. cbn [bf_search_loop].
    rewrite (bf_next_ext D fset go go').
    - rewrite next_at. cbn [bind]. destruct (front_at D go orig (S k)) as [|y l] eqn:El; [reflexivity |]. rewrite <- El.
      rewrite (bf_scan_ext fmap found found'); [|intros p d Hin; destruct (LV k p d Lk Hin) as (m & Dm & Lm); apply (HF p m Dm Lm)].
      destruct (Nat.eq_dec (S k) n) as [E | N].
      + destruct (front_facts D go orig k) as (_ & F & _). assert (X : In goal (map fst (front_at D go orig (S k)))) by (apply F; left; rewrite E; exact Dn).
        apply in_map_iff in X. destruct X as ((g & d) & Eg & Hin). cbn [fst] in Eg. subst g.
        destruct (bf_scan_hit found _ f goal d Hin Fg) as (f' & q & ->). reflexivity.
      + destruct (bf_scan fmap found f (front_at D go orig (S k))) as [[f' [q|]] | | |]; try reflexivity. cbn [bind]. apply IH. lia.
    - intros p x d Hin A. destruct (LV k p x Lk) as (m & Dm & Lm); [unfold front_at; replace (S k - 1)%nat with k by lia; exact Hin |]. apply (H p d m Dm Lm A). }
  unfold bf_search_path, bf_search_mapmov, bf_iter.
  assert (NEW : bf_new D fset go' orig = bf_new D fset go orig).
  { unfold bf_new. cbn [fset sp_default bind]. rewrite (bf_next_ext D fset go go'); [reflexivity |]. cbn [bf_nextfront]. intros p x d [E | []] A. injection E as <- _. apply (H orig d 0%nat D0); [lia | exact A]. }
  rewrite NEW, bf_new_at. cbn [bind]. rewrite LOOP; [reflexivity |]. destruct n; [|lia]. apply at_distance_0 in Dn. congruence.
Qed.
