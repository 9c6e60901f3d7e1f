(** PropStrayProofs.v -- proofs of the statements of PropStray.v. *)

From Coq Require Import ZArith List Bool Lia.
From Verif Require Import Rust BoundedInt Dir PosT Pos Grid Gridbool SetMap CameFrom Bf Heap Astar Ucs Spec SpecSearch SpecMaze Lib Deque BoundedIntProofs PosTProofs PosTProofs2 PropDirProofs PropPosProofs GridProofs GridProofs2 PropGridProofs GridboolProofs PropGridboolProofs SetMapProofs Sim CameFromProofs PropSetMapProofs BfProofs PropBfProofs BestFirst SearchProofs UcsProofs PropUcsProofs AstarProofs PropAstarProofs PropAgreeProofs PropMazeProofs PropPathProofs.
Import ListNotations.
Open Scope Z_scope.

(** Every position with a cost either waits in the heap with that cost, or has been
    expanded with it. *)
Section Waiting.
  Context (P : post) (D : bool).
  Context (succ : pos -> dir -> option (pos * Z)) (h : pos -> Z) (orig : pos).
  Context (Vo : valid P orig).
  Context (HS : forall p d q w, valid P p -> succ p d = Some (q, w) -> valid P q /\ 0 <= w).
  Context (HA : affordable D P succ orig).
  Definition waits (c : pos -> Z) (hp : heap) (q : pos) : Prop :=
    exists e, In e hp /\ e_pos e = q /\ (e = e0 orig \/ q <> orig /\ e_prio e = c q + h q).
  Definition waiting (c : pos -> Z) (hp : heap) (tr : list entry) (skip : pos -> Prop) : Prop :=
    forall q, c q < COST_MAX -> skip q \/ waits c hp q \/ (closed D succ c q /\ popped tr q).
  Lemma waiting_run : forall c hp tr, FRun D succ h orig c hp tr -> waiting c hp tr (fun _ => False).
  Proof.
    intros c hp tr R. induction R as [|c hp tr e rest c' hp' R I Ep Ee].
    - intros q Hq. destruct (pos_dec orig q) as [<- | N].
      + right. left. exists (e0 orig). split; [left; reflexivity |]. auto.
      + rewrite put_neq in Hq by exact N. lia.
    - pose proof (pops_In _ _ _ Ep) as Hin. pose proof (finv0_run P D succ h orig Vo HS HA _ _ _ R) as J. set (p := e_pos e) in *.
      assert (Lp : c p < COST_MAX) by (apply (i_fin _ _ _ _ _ _ _ _ J); left; apply Hin; auto).
      assert (V : valid P p) by (eapply bounded_valid; [exact Vo | exact HS | apply (i_bnd _ _ _ _ _ _ _ _ J) | exact Lp]).
      destruct (expand_mono P D succ h HS _ _ _ _ _ V Ee) as (Ecp & _ & Cl).
      assert (I1 : waiting c rest (e :: tr) (eq p)).
      { intros q Hq. destruct (I q Hq) as [[] | [(x & Hx & Ex & Px) | (Cq & Pq)]].
        - apply Hin in Hx. destruct Hx as [-> | Hx]; [left; exact Ex |]. right. left. exists x. auto.
        - right. right. split; [exact Cq | apply popped_cons; exact Pq]. }
      assert (K : (bounded D succ orig c' /\ c' p < COST_MAX) /\ waiting c' hp' (e :: tr) (eq p)).
      { apply (expand_inv D succ h (fun c1 hp1 => (bounded D succ orig c1 /\ c1 p < COST_MAX) /\ waiting c1 hp1 (e :: tr) (eq p)) p c rest c' hp' Ee (conj (conj (i_bnd _ _ _ _ _ _ _ _ J) Lp) I1)).
        intros d c1 hp1 c2 hp2 A ((B1 & L1) & H) E1. pose proof (relax_le succ h _ _ _ _ _ _ E1) as M.
        pose proof (bounded_relax P D succ h orig Vo HS HA _ _ _ _ _ _ B1 L1 A E1) as B2.
        split; [split; [exact B2 | specialize (M p); lia] |]. intros q Hq.
        destruct (relax_cases succ h _ _ _ _ _ _ E1) as [(-> & -> & _) | (r & w & Es & Lr & -> & ->)]; [apply H; exact Hq |].
        destruct (HS p d r w V Es) as (_ & Hw). pose proof (proj1 (proj2 B1) p) as Hp.
        destruct (pos_dec r q) as [<- | N].
        - right. left. eexists. split; [left; reflexivity |]. split; [reflexivity |]. right. split; [intros ->; rewrite (proj1 B1) in Lr; lia |]. cbn [e_prio fst]. rewrite put_eq. reflexivity.
        - rewrite put_neq in Hq by exact N. destruct (H q Hq) as [E | [(x & Hx & Ex & Px) | (Cq & Pq)]]; [left; exact E | |].
          + right. left. exists x. split; [right; exact Hx |]. split; [exact Ex |]. rewrite put_neq by exact N. exact Px.
          + right. right. split; [|exact Pq]. intros d' s w' A' Es'. rewrite (put_neq c1 r _ q) by exact N. specialize (Cq d' s w' A' Es'). specialize (M s). lia. }
      destruct K as (_ & K).
      intros q Hq. right. destruct (K q Hq) as [<- | X]; [|exact X]. right. split; [exact Cl | apply popped_head].
  Qed.
  (** On every walk to a position not yet popped, some position waits with a cost
      not higher than that of the walk so far. *)
  Lemma fwaits_on_walk : forall c hp tr q k, FRun D succ h orig c hp tr -> cost_walk D succ orig k q -> ~ popped tr q ->
    exists r k1 k2, cost_walk D succ orig k1 r /\ cost_walk D succ r k2 q /\ k = k1 + k2 /\ c r <= k1 /\ waits c hp r.
  Proof.
    intros c hp tr q k R Wq Nq. pose proof (waiting_run _ _ _ R) as Wt. pose proof (finv0_run P D succ h orig Vo HS HA _ _ _ R) as J.
    assert (K : (exists r k1 k2, cost_walk D succ orig k1 r /\ cost_walk D succ r k2 q /\ k = k1 + k2 /\ c r <= k1 /\ waits c hp r) \/
      (c q < COST_MAX /\ c q <= k /\ closed D succ c q /\ popped tr q)).
    { clear Nq. revert q k Wq. apply (cost_walk_ind D succ orig).
      - assert (L : c orig < COST_MAX) by (rewrite (proj1 (i_bnd _ _ _ _ _ _ _ _ J)); apply max_pos).
        destruct (Wt orig L) as [[] | [X | (X & Y)]].
        + left. exists orig, 0, 0. split; [apply cost_walk_nil |]. split; [apply cost_walk_nil |]. split; [reflexivity |]. split; [rewrite (proj1 (i_bnd _ _ _ _ _ _ _ _ J)); lia | exact X].
        + right. split; [exact L |]. split; [rewrite (proj1 (i_bnd _ _ _ _ _ _ _ _ J)); lia |]. split; assumption.
      - intros r k d s w Wr [(x & k1 & k2 & W1 & W2 & E & L & X) | (Lr & Lk & Cr & Pr)] A Es.
        + left. exists x, k1, (k2 + w). split; [exact W1 |]. split; [apply (cost_walk_snoc D succ x r k2 d s w W2 A Es) |]. split; [lia |]. split; assumption.
        + pose proof (Cr d s w A Es) as Ls. pose proof (bounded_sum P D succ h orig Vo HS HA c r d s w (i_bnd _ _ _ _ _ _ _ _ J) Lr A Es) as (S1 & S2).
          pose proof (proj1 (proj2 (i_bnd _ _ _ _ _ _ _ _ J)) s) as Hs.
          assert (Lm : c s < COST_MAX) by (destruct (Z.eq_dec (c s) COST_MAX) as [E | N]; [pose proof (S2 E); lia | lia]).
          destruct (Wt s Lm) as [[] | [X | (X & Y)]].
          * left. exists s, (k + w), 0. split; [apply (cost_walk_snoc D succ orig r k d s w Wr A Es) |]. split; [apply cost_walk_nil |]. split; [lia |]. split; [lia | exact X].
          * right. split; [exact Lm |]. split; [lia |]. split; assumption. }
    destruct K as [K | (_ & _ & _ & X)]; [exact K | contradiction].
  Qed.
  Lemma waits_on_walk : forall c hp tr q k, Run D succ h orig c hp tr -> cost_walk D succ orig k q -> ~ popped tr q ->
    exists r k1 k2, cost_walk D succ orig k1 r /\ cost_walk D succ r k2 q /\ k = k1 + k2 /\ c r <= k1 /\ waits c hp r.
  Proof. intros c hp tr q k R. apply fwaits_on_walk. apply run_fair. exact R. Qed.
End Waiting.

Lemma mdist_walk : forall P go p n q, one_step P go -> go_inside P go -> valid P p -> walk true go p n q -> mdist p q <= 2 * Z.of_nat n.
Proof.
  intros P go p n q O HG V (path & <- & A & F). revert p V F. induction path as [|d ds IH]; intros p V F; cbn [follow length] in *.
  - inv F. unfold mdist. lia.
  - destruct (go p d) as [r|] eqn:E; [|discriminate]. pose proof (O p d r V E). subst r. inversion A; subst. specialize (IH H2 (step p d) (HG p d _ V E) F).
    assert (mdist p q <= 2 + mdist (step p d) q) by (destruct p, q; unfold mdist, step in *; cbn [fst snd] in *; destruct d; cbn [delta_x delta_y]; lia). lia.
Qed.

(** What A* takes out of its queue until it meets the destination. *)
Lemma stray : forall P G go orig dest c hp tr e k m, grid_type P -> valid P orig -> valid P dest -> go_inside P go -> one_step P go ->
  G = (fun x => mdist x dest) -> Run true (unit_cost go) G orig c hp (e :: tr) -> ~ popped tr dest -> e_pos e <> orig ->
  at_distance true go orig k dest -> at_distance true go orig m (e_pos e) -> Z.of_nat m + mdist (e_pos e) dest < 2 * Z.of_nat k.
Proof.
  intros P G go orig dest c hp tr e k m Gt V Vd HG O -> R Np No Dk Dm.
  pose proof (unit_HS P go HG) as HS. pose proof (unit_HA P Gt true go orig V HG) as HA.
  inversion R as [|c0 hp0 tr0 e' rest c' hp' R0 Ep Ee]; subst.
  pose proof (inv0_run P true (unit_cost go) (fun x => mdist x dest) orig V HS HA _ _ _ R0) as J. pose proof (heap_pop_In _ _ _ Ep) as Hin.
  destruct (waits_on_walk P true (unit_cost go) (fun x => mdist x dest) orig V HS HA c0 hp0 tr dest (Z.of_nat k) R0) as (r & k1 & k2 & W1 & W2 & Ek & Lr & (x & Hx & Ex & Px)); [apply cost_walk_unit; exists k; split; [reflexivity | apply Dk] | exact Np |].
  pose proof (heap_pop_min _ _ _ Ep x Hx) as Lmin.
  assert (He : In e hp0) by (apply Hin; auto).
  destruct (i_just _ _ _ _ _ _ _ _ J e (or_introl He)) as [-> | (p & d & w & _ & _ & _ & _ & _ & L2)]; [exfalso; apply No; reflexivity |].
  assert (Cm : Z.of_nat m <= c0 (e_pos e)).
  { pose proof (i_walk _ _ _ _ _ _ _ _ J (e_pos e) (i_fin _ _ _ _ _ _ _ _ J e (or_introl He))) as Wx. apply cost_walk_unit in Wx. destruct Wx as (m' & -> & Wm).
    destruct (Nat.le_gt_cases m m') as [L | L]; [lia |]. exfalso. apply (proj2 Dm m' L Wm). }
  apply cost_walk_unit in W1, W2. destruct W1 as (n1 & -> & W1), W2 as (n2 & -> & W2).
  pose proof (walk_valid true go P n1 orig r HG V W1) as Vr.
  pose proof (mdist_walk P go r n2 dest O HG Vr W2) as Lm. pose proof (mdist_nonneg (e_pos e) dest) as M0.
  destruct Px as [-> | (No' & Px)].
  - cbn [e_prio e0 fst] in Lmin. cbv beta in L2. assert (m = 0%nat /\ mdist (e_pos e) dest = 0) as (-> & Z0) by (split; lia).
    destruct Dm as (Wm & _). apply walk_0 in Wm. congruence.
  - destruct (Nat.eq_dec n1 0) as [-> | N1]; [|lia]. apply walk_0 in W1. congruence.
Qed.

Lemma C125_astar_diagonal_yields_proof : forall b P W go orig dest n l p d k m,
  usable b P W -> valid P orig -> valid P dest -> go_inside P go -> one_step P go ->
  astar_yields b P true go orig dest n = Ret (map Some l ++ [Some (p, d)]) -> ~ In dest (map fst l) -> p <> orig ->
  at_distance true go orig k dest -> at_distance true go orig m p ->
  Z.of_nat m + (Z.abs (fst p - fst dest) + Z.abs (snd p - snd dest)) < 2 * Z.of_nat k.
Proof.
  intros b P W go orig dest n l p d k m U V Vd HG OS Y N No Dk Dm. pose proof (usable_grid_type b P W U) as G.
  destruct (astar_trace P G true go orig dest V Vd HG) as (es & K1 & K2 & _).
  rewrite (proj1 (astar_yields_f b P true W go orig dest n U V HG)), K1 in Y. injection Y as Y. apply items_prefix in Y. rewrite firstn_map in Y.
  destruct (K2 n) as (c & hp & _ & R).
  destruct (map_eq_app _ _ _ _ Y) as (l1 & l2 & E1 & E2 & E3). destruct l2 as [|x [|y l2]]; try discriminate. cbn in E3. inv E3.
  change (@firstn entry n es = l1 ++ [x]) in E1. rewrite E1, rev_app_distr in R. cbn [rev app] in R. destruct x as (pr & x). cbn [snd] in *. subst x.
  apply (stray P _ go orig dest c hp (rev l1) (pr, (p, d)) k m G V Vd HG OS eq_refl R); [|exact No | exact Dk | exact Dm].
  intros (x & Hx & E). apply N. rewrite map_map, in_map_iff. exists x. split; [exact E |]. apply in_rev. exact Hx.
Qed.

Lemma run_suffix : forall D succ h orig c hp tr, Run D succ h orig c hp tr -> forall e, In e tr ->
  exists c' hp' tr1 tr2, tr = tr1 ++ e :: tr2 /\ Run D succ h orig c' hp' (e :: tr2).
Proof.
  intros D succ h orig c hp tr R. induction R as [|c hp tr e rest c' hp' R IH Ep Ee]; intros x Hx; [destruct Hx |].
  destruct Hx as [<- | Hx].
  - exists c', hp', [], tr. split; [reflexivity |]. eapply Run1; eassumption.
  - destruct (IH x Hx) as (c1 & hp1 & tr1 & tr2 & -> & R1). exists c1, hp1, (e :: tr1), tr2. auto.
Qed.

Lemma bp_popped : forall P (tr : list entry) orig, post_wf P -> (forall x d, popped tr x -> x <> orig -> lastdir tr x = Some d -> popped tr (step x d)) ->
  forall n dest path, popped tr dest -> valid P dest -> bp P (lastdir tr) orig n dest [] = Ok path -> forall p, In p (orig :: places orig path) -> popped tr p.
Proof.
  intros P tr orig Wf HB n dest path Pd Vd E.
  destruct (bp_ordered P (lastdir tr) orig (popped tr) (fun _ => 0) Wf) with (n := n) (p := dest) (path := path) as (_ & K2 & _); try assumption.
  intros x d Hx Nx Ex. split; [|lia]. apply (HB x d Hx Nx Ex).
Qed.

Lemma C125_astar_diagonal_detour_proof : forall b P W go orig dest path,
  usable b P W -> valid P orig -> valid P dest -> go_inside P go -> one_step P go ->
  returns (fun fuel => astar_on b P true fuel go orig dest) (Ok path) ->
  exists k, at_distance true go orig k dest /\
    (forall p, In p (places orig path) -> exists m, at_distance true go orig m p /\
       Z.of_nat m + (Z.abs (fst p - fst dest) + Z.abs (snd p - snd dest)) < 2 * Z.of_nat k) /\
    (forall ps, (forall p m, at_distance true go orig m p ->
         Z.of_nat m + (Z.abs (fst p - fst dest) + Z.abs (snd p - snd dest)) < 2 * Z.of_nat k -> In p ps) ->
       (length path <= length ps)%nat).
Proof.
  intros b P W go orig dest path U V Vd HG O Hr. pose proof (usable_grid_type b P W U) as G.
  pose proof Hr as (fuel & Hf). specialize (Hf fuel (Nat.le_refl _)).
  destruct (C54_astar_valid_proof b P true W go orig dest fuel path U V Vd HG O Hf) as (A & F).
  destruct (C118_astar_simple_proof b P true fuel go orig dest path (grid_type_wf P G) Vd Hf) as (ND & _).
  assert (Wd : walk true go orig (length path) dest) by (exists path; auto).
  destruct (walk_min true go orig _ _ Wd) as (k & _ & Dk).
  destruct (astar_on_outcome b P true W go orig dest U V Vd HG) as (r & Hr' & Ho). pose proof (returns_unique _ _ _ Hr Hr'). subst r.
  destruct Ho as [(X & _) | (c & hp & e & tr & R & Ed & Np & _ & E)]; [discriminate |]. symmetry in E.
  pose proof (unit_HS P go HG) as HS. pose proof (unit_HA P G true go orig V HG) as HA.
  assert (POP : forall p, In p (orig :: places orig path) -> popped (e :: tr) p).
  { apply (bp_popped P (e :: tr) orig (grid_type_wf P G)) with (n := maxn P) (dest := dest); [|rewrite <- Ed; apply popped_head | exact Vd | exact E].
    intros x d Hx Nx Ex. destruct (lastdir_back P true (unit_cost go) (fun x => mdist x dest) orig V HS HA c hp (e :: tr) x (one_step_unit go P O) R Hx Nx) as (y & w & _ & _ & El & Pp & _).
    rewrite El in Ex. inv Ex. exact Pp. }
  assert (K : forall p, In p (places orig path) -> exists m, at_distance true go orig m p /\
       Z.of_nat m + (Z.abs (fst p - fst dest) + Z.abs (snd p - snd dest)) < 2 * Z.of_nat k).
  { intros p Hp. destruct (places_walk P true go O HG path orig dest p V A F (or_intror Hp)) as (m0 & Wm). destruct (walk_min true go orig _ _ Wm) as (m & _ & Dm).
    exists m. split; [exact Dm |]. destruct (POP p (or_intror Hp)) as (y & Hy & Ey).
    assert (No : p <> orig) by (intros ->; inversion ND; contradiction).
    destruct (run_suffix _ _ _ _ _ _ _ R y Hy) as (c' & hp' & tr1 & tr2 & Et & R').
    assert (Nd : ~ popped tr2 dest).
    { intros (z & Hz & Ez). destruct tr1 as [|z' tr1]; cbn in Et; inv Et; apply Np; exists z; (split; [|first [exact Ez | reflexivity]]); [exact Hz |]. apply in_or_app. right. right. exact Hz. }
    subst p. apply (stray P _ go orig dest c' hp' tr2 y k m G V Vd HG O eq_refl R' Nd No Dk Dm). }
  exists k. split; [exact Dk |]. split; [exact K |].
  intros ps Hps. rewrite <- (places_length path orig). apply NoDup_incl_length; [inversion ND; assumption |].
  intros p Hp. destruct (K p Hp) as (m & Dm & Lm). apply (Hps p m Dm Lm).
Qed.
