(** PropKeepProofs.v -- proofs of the statements of PropKeep.v. *)

From Coq Require Import ZArith List Bool Lia.
From Verif Require Import Rust BoundedInt Dir PosT Pos Grid Gridbool SetMap CameFrom Bf Heap Astar Ucs Spec SpecSearch SpecReplan SpecSettle SpecKeep Lib Deque BoundedIntProofs PosTProofs PosTProofs2 PropDirProofs SetMapProofs Sim CameFromProofs PropSetMapProofs GridProofs BfProofs PropBfProofs BestFirst SearchProofs UcsProofs PropUcsProofs AstarProofs PropAstarProofs PropAgreeProofs PropSettleProofs PropReplanProofs Chrono Spine.
Import ListNotations.
Open Scope Z_scope.

Lemma follow_sub : forall (go go' : pos -> dir -> option pos), (forall p d q, go' p d = Some q -> go p d = Some q) ->
  forall ds p q, follow go' p ds = Some q -> follow go p ds = Some q.
Proof.
  intros go go' H. induction ds as [|d ds IH]; intros p q F; cbn [follow] in *; [exact F |].
  destruct (go' p d) as [r|] eqn:E; [|discriminate]. rewrite (H _ _ _ E). apply IH. exact F.
Qed.

Lemma lowest_unit : forall D go orig k q, lowest_cost D (unit_cost go) orig k q <-> exists n, k = Z.of_nat n /\ at_distance D go orig n q.
Proof.
  intros D go orig k q. unfold lowest_cost, at_distance. split.
  - intros (W1 & M). apply cost_walk_unit in W1. destruct W1 as (n & -> & W1). exists n. split; [reflexivity |]. split; [exact W1 |]. intros j Lj Wj.
    specialize (M (Z.of_nat j) (proj2 (cost_walk_unit D go orig (Z.of_nat j) q) (ex_intro _ j (conj eq_refl Wj)))). lia.
  - intros (n & -> & W1 & M). split; [apply cost_walk_unit; eauto |]. intros k' Wk. apply cost_walk_unit in Wk. destruct Wk as (j & -> & Wj).
    destruct (Nat.le_gt_cases n j) as [L | L]; [lia |]. exfalso. apply (M j L Wj).
Qed.

(** Part of a shortest path is a shortest path. *)
Lemma shortest_prefix : forall D go orig l1 l2 p dest, Forall (allowed D) (l1 ++ l2) -> follow go orig l1 = Some p -> follow go p l2 = Some dest ->
  at_distance D go orig (length (l1 ++ l2)) dest -> at_distance D go orig (length l1) p.
Proof.
  intros D go orig l1 l2 p dest A F1 F2 (_ & M). apply Forall_app in A. destruct A as (A1 & A2). split; [exists l1; auto |].
  intros j Lj Wj. apply (M (j + length l2)%nat); [rewrite app_length; lia |]. eapply walk_trans; [exact Wj | exists l2; auto].
Qed.

(** Going back along recorded directions. *)
Lemma bp_back : forall P f orig, post_wf P -> forall l m ret, (length l < m)%nat ->
  (forall l1 d l2, l = l1 ++ d :: l2 -> f (fold_left step (l1 ++ [d]) orig) = Some (opp d) /\ fold_left step (l1 ++ [d]) orig <> orig) ->
  (forall l1 l2, l = l1 ++ l2 -> valid P (fold_left step l1 orig)) ->
  bp P f orig m (fold_left step l orig) ret = Ok (l ++ ret).
Proof.
  intros P f orig Wf. induction l as [|d l IH] using rev_ind; intros m ret Hm Hf Hv; (destruct m as [|m]; [lia |]); cbn [bp].
  - cbn [fold_left]. rewrite pos_eqb_refl. reflexivity.
  - destruct (Hf l d [] eq_refl) as (E & N). rewrite (proj2 (pos_eqb_neq _ _) N), E.
    assert (B : step (fold_left step (l ++ [d]) orig) (opp d) = fold_left step l orig) by (rewrite fold_left_app; cbn [fold_left]; apply step_opp).
    destruct (add_inside P (fold_left step (l ++ [d]) orig) (opp d) Wf (Hv _ [] (eq_sym (app_nil_r _)))) as [(_ & Ea) | (N' & _)].
    + rewrite Ea, B, opp_opp, <- app_assoc. cbn [app]. apply IH.
      * rewrite app_length in Hm. cbn [length] in Hm. lia.
      * intros l1 d1 l2 X. apply (Hf l1 d1 (l2 ++ [d])). rewrite X, <- app_assoc. reflexivity.
      * intros l1 l2 X. apply (Hv l1 (l2 ++ [d])). rewrite X, <- app_assoc. reflexivity.
    + exfalso. apply N'. rewrite B. apply (Hv l [d] eq_refl).
Qed.

Lemma firstn_S : forall (l : list dir) i, (i < length l)%nat -> firstn (S i) l = firstn i l ++ [nth i l dN].
Proof.
  induction l as [|x l IH]; intros [|i] H; cbn [length firstn nth app] in *; [lia | lia | reflexivity |]. f_equal. apply IH. lia.
Qed.

(** The run of a search that returns a shortest path. *)
Lemma shortest_run : forall b P W go orig dest path,
  usable b P W -> valid P orig -> valid P dest -> go_inside P go -> one_step P go ->
  returns (fun fuel => astar_on b P false fuel go orig dest) (Ok path) -> at_distance false go orig (length path) dest ->
  let a i := fold_left step (firstn i path) orig in let dd i := nth i path dN in
  Forall (allowed false) path /\ follow go orig path = Some dest /\ (length path < maxn P)%nat /\ a (length path) = dest /\
  (forall i, (i <= length path)%nat -> follow go orig (firstn i path) = Some (a i) /\ valid P (a i)) /\
  (forall i, (i <= length path)%nat -> lowest_cost false (unit_cost go) orig (Z.of_nat i) (a i)) /\
  (forall i, (i < length path)%nat -> allowed false (dd i) /\ unit_cost go (a i) (dd i) = Some (a (S i), Z.of_nat (S i) - Z.of_nat i)) /\
  exists c hp e tr, Run false (unit_cost go) (fun q => mdist q dest) orig c hp (e :: tr) /\ e_pos e = dest /\ ~ popped tr dest /\
    (forall i, (i < length path)%nat -> popped (e :: tr) (a (S i)) /\ a (S i) <> orig /\ lastdir (e :: tr) (a (S i)) = Some (opp (dd i))).
Proof.
  intros b P W go orig dest path U V Vd HG O Hr SH a dd. pose proof (usable_grid_type b P W U) as G.
  destruct (astar_on_outcome b P false W go orig dest U V Vd HG) as (r & Hr' & Ho). pose proof (returns_unique _ _ _ Hr Hr'). subst r.
  destruct Ho as [(Y & _) | (c & hp & e & tr & R & Ed & Nd & _ & E)]; [discriminate |]. symmetry in E.
  destruct (bp_ok P (grid_type_wf P G) (lastdir (e :: tr)) orig _ _ _ _ Vd E) as (ds & X & _ & _ & LM). rewrite app_nil_r in X. subst ds.
  destruct (bp_steps P (lastdir (e :: tr)) orig (grid_type_wf P G) _ _ _ Vd E) as (Ef & Hf).
  assert (PV : forall q, popped (e :: tr) q -> valid P q) by (intros q; apply (run_valid P false (unit_cost go) _ orig V (unit_HS P go HG) (unit_HA P G false go orig V HG) _ _ _ q R)).
  assert (STEP : forall i, (i < length path)%nat -> popped (e :: tr) (a (S i)) -> popped (e :: tr) (a i) /\ allowed false (dd i) /\ go (a i) (dd i) = Some (a (S i)) /\
    a (S i) <> orig /\ lastdir (e :: tr) (a (S i)) = Some (opp (dd i))).
  { intros i Hi Pq. pose proof (firstn_S path i Hi) as FS. assert (X : path = firstn i path ++ nth i path dN :: skipn (S i) path).
    { rewrite <- (firstn_skipn (S i) path) at 1. rewrite FS, <- app_assoc. reflexivity. }
    destruct (Hf _ _ _ X) as (Hl & Hn). rewrite <- FS in Hl, Hn. fold (a (S i)) in Hl, Hn. fold (dd i) in Hl.
    destruct (lastdir_back P false (unit_cost go) _ orig V (unit_HS P go HG) (unit_HA P G false go orig V HG) c hp (e :: tr) _ (one_step_unit go P O) R Pq Hn) as (y & w & _ & _ & El & Pp & A & Es & _).
    rewrite Hl in El. injection El as El. rewrite <- El, opp_opp in A, Es. rewrite <- El in Pp.
    assert (B : step (a (S i)) (opp (dd i)) = a i) by (unfold a; rewrite FS, fold_left_app; cbn [fold_left]; apply step_opp).
    rewrite B in Pp, Es. split; [exact Pp |]. split; [exact A |]. split; [|auto]. unfold unit_cost in Es. destruct (go (a i) (dd i)) as [r|]; [|discriminate]. injection Es as -> _. reflexivity. }
  assert (EA : a (length path) = dest) by (unfold a; rewrite firstn_all; exact Ef).
  assert (POP : forall i, (i <= length path)%nat -> popped (e :: tr) (a i)).
  { assert (K : forall m i, (length path - i <= m)%nat -> (i <= length path)%nat -> popped (e :: tr) (a i)).
    { induction m as [|m IH]; intros i Hm Hi; [replace i with (length path) by lia; rewrite EA; rewrite <- Ed; apply popped_head |].
      destruct (Nat.eq_dec i (length path)) as [-> | N]; [rewrite EA; rewrite <- Ed; apply popped_head |].
      apply (STEP i ltac:(lia)). apply IH; lia. }
    intros i Hi. apply (K (length path)); lia. }
  assert (FO : forall i, (i <= length path)%nat -> Forall (allowed false) (firstn i path) /\ follow go orig (firstn i path) = Some (a i)).
  { induction i as [|i IH]; intros Hi; [split; [constructor | reflexivity] |]. destruct (IH ltac:(lia)) as (A & F).
    destruct (STEP i ltac:(lia) (POP (S i) Hi)) as (_ & A' & Eg & _). rewrite (firstn_S path i) by lia. split; [apply Forall_app; auto |].
    rewrite follow_app, F. cbn [follow]. fold (dd i). rewrite Eg. reflexivity. }
  destruct (FO (length path) (Nat.le_refl _)) as (AP & FP). rewrite firstn_all in AP, FP. rewrite EA in FP.
  split; [exact AP |]. split; [exact FP |]. split; [exact LM |]. split; [exact EA |]. split; [|split; [|split]].
  - intros i Hi. split; [apply FO; exact Hi | apply PV; apply POP; exact Hi].
  - intros i Hi. apply lowest_unit. exists i. split; [reflexivity |].
    rewrite <- (firstn_length_le path Hi) at 1. apply (shortest_prefix false go orig (firstn i path) (skipn i path) (a i) dest); rewrite ?firstn_skipn; try assumption.
    + apply FO. exact Hi.
    + pose proof FP as F. rewrite <- (firstn_skipn i path) in F. rewrite follow_app, (proj2 (FO i Hi)) in F. exact F.
  - intros i Hi. destruct (STEP i Hi (POP (S i) Hi)) as (_ & A & Eg & _). split; [exact A |]. unfold unit_cost. rewrite Eg. f_equal. f_equal. lia.
  - exists c, hp, e, tr. split; [exact R |]. split; [exact Ed |]. split; [exact Nd |]. intros i Hi. split; [apply POP; lia |]. apply (STEP i Hi). apply POP. lia.
Qed.

Lemma keep : forall b P W go go' orig dest path l1 l2 p,
  usable b P W -> valid P orig -> valid P dest -> go_inside P go -> one_step P go ->
  returns (fun fuel => astar_on b P false fuel go orig dest) (Ok path) -> at_distance false go orig (length path) dest ->
  (forall p d q, go' p d = Some q -> go p d = Some q) ->
  path = l1 ++ l2 -> follow go orig l1 = Some p -> follow go' p l2 = Some dest ->
  returns (fun fuel => astar_on b P false fuel go' p dest) (Ok l2).
Proof.
  intros b P W go go' orig dest path l1 l2 p U V Vd HG O Hr SH SUB X F1 F2. pose proof (usable_grid_type b P W U) as G.
  destruct (shortest_run b P W go orig dest path U V Vd HG O Hr SH) as (AP & FP & LM & EA & FV & Hg & Hs & c & hp & e & tr & R & Ed & Nd & Hl). cbv zeta in *.
  set (a := fun i => fold_left step (firstn i path) orig) in *. set (dd := fun i => nth i path dN) in *.
  change (a (length path) = dest) in EA.
  assert (HG' : go_inside P go') by (intros p1 d1 q1 V1 E1; apply (HG p1 d1 q1 V1); apply SUB; exact E1).
  set (k := length l1). assert (Hk : (k <= length path)%nat) by (unfold k; rewrite X, app_length; lia).
  assert (EK : firstn k path = l1) by (unfold k; rewrite X, firstn_app, Nat.sub_diag, firstn_all; apply app_nil_r).
  assert (Ep : p = a k) by (destruct (FV k Hk) as (Fk & _); change (follow go orig (firstn k path) = Some (a k)) in Fk; rewrite EK, F1 in Fk; injection Fk as ->; reflexivity).
  assert (Vp : valid P p) by (rewrite Ep; apply (FV k Hk)).
  assert (NTH : forall i m1 d m2, l2 = m1 ++ d :: m2 -> i = (k + length m1)%nat -> (k <= i < length path)%nat /\ dd i = d /\ a i = fold_left step m1 p /\ a (S i) = fold_left step (m1 ++ [d]) p).
  { intros i m1 d m2 Y ->. assert (Y' : path = (l1 ++ m1) ++ d :: m2) by (rewrite <- app_assoc, <- Y; exact X).
    assert (LL : length (l1 ++ m1) = (k + length m1)%nat) by (rewrite app_length; reflexivity).
    assert (Hi : (k <= k + length m1 < length path)%nat) by (rewrite Y', app_length, LL; cbn [length]; lia).
    assert (ED : dd (k + length m1)%nat = d) by (unfold dd; rewrite <- LL, Y', app_nth2, Nat.sub_diag by lia; reflexivity).
    assert (EF : firstn (k + length m1) path = l1 ++ m1) by (rewrite <- LL, Y', firstn_app, Nat.sub_diag, firstn_all; apply app_nil_r).
    split; [exact Hi |]. split; [exact ED |].
    assert (EP : p = fold_left step l1 orig) by (rewrite Ep; unfold a; rewrite EK; reflexivity).
    split; [unfold a; rewrite EF, fold_left_app, EP; reflexivity |].
    unfold a. rewrite firstn_S by lia. fold (dd (k + length m1)%nat). rewrite ED, EF, EP, <- app_assoc, fold_left_app. reflexivity. }
  assert (Hs' : forall i, (k <= i < length path)%nat -> unit_cost go' (a i) (dd i) = Some (a (S i), Z.of_nat (S i) - Z.of_nat i)).
  { assert (K : forall m2 m1 q, l2 = m1 ++ m2 -> q = fold_left step m1 p -> follow go' q m2 = Some dest -> forall i, (k + length m1 <= i < length path)%nat -> unit_cost go' (a i) (dd i) = Some (a (S i), Z.of_nat (S i) - Z.of_nat i)).
    { induction m2 as [|d m2 IH]; intros m1 q Y Eq F i Hi.
      - exfalso. rewrite app_nil_r in Y. subst m1. rewrite X, app_length in Hi. unfold k in Hi. lia.
      - cbn [follow] in F. destruct (go' q d) as [q'|] eqn:Eg; [|discriminate].
        destruct (NTH _ m1 d m2 Y eq_refl) as (Hj & Edd & Ea & Eb).
        assert (Eq' : q' = a (S (k + length m1))).
        { pose proof (SUB _ _ _ Eg) as Eg'. rewrite Eq, <- Ea in Eg'. destruct (Hs _ (proj2 Hj)) as (_ & Es). change (unit_cost go (a (k + length m1)%nat) (dd (k + length m1)%nat) = Some (a (S (k + length m1)), Z.of_nat (S (k + length m1)) - Z.of_nat (k + length m1))) in Es.
          unfold unit_cost in Es. rewrite Edd, Eg' in Es. injection Es as -> _. reflexivity. }
        destruct (Nat.eq_dec i (k + length m1)) as [-> | N].
        + unfold unit_cost. rewrite Ea, Edd, <- Eq, Eg, Eq'. f_equal. f_equal. lia.
        + apply (IH (m1 ++ [d]) q'); [rewrite <- app_assoc; exact Y | rewrite Eq', Eb; reflexivity | exact F | rewrite app_length; cbn [length]; lia]. }
    intros i Hi. apply (K l2 [] p eq_refl eq_refl F2). cbn [length]. lia. }
  destruct (astar_on_outcome b P false W go' p dest U Vp Vd HG') as (r & Hr' & Ho).
  enough (r = Ok l2) by (subst r; exact Hr').
  assert (A2 : Forall (allowed false) l2) by (rewrite X in AP; apply Forall_app in AP; apply AP).
  destruct Ho as [(_ & NR) | (c' & hp' & e' & t' & R' & Ed' & Nd' & _ & E')].
  { exfalso. apply NR. apply reachable_unit. exists (length l2), l2. auto. }
  assert (POSU : forall p d q w, valid P p -> unit_cost go p d = Some (q, w) -> 0 < w).
  { intros p1 d1 q1 w1 _ E1. unfold unit_cost in E1. destruct (go p1 d1); [|discriminate]. injection E1 as _ <-. lia. }
  assert (HH : forall p d q w, valid P p -> allowed false d -> unit_cost go p d = Some (q, w) -> mdist p dest <= w + mdist q dest).
  { intros p1 d1 q1 w1 V1 A1 E1. apply (mdist_consistent P go dest p1 d1 q1 w1 O V1 A1 E1). }
  assert (SUBU : forall p d q w, unit_cost go' p d = Some (q, w) -> unit_cost go p d = Some (q, w)).
  { intros p1 d1 q1 w1 E1. unfold unit_cost in *. destruct (go' p1 d1) as [r1|] eqn:E2; [|discriminate]. rewrite (SUB _ _ _ E2). exact E1. }
  pose proof (sub_last P false (fun q => mdist q dest) ltac:(intros; apply mdist_nonneg) (unit_cost go) orig V (unit_HS P go HG) POSU (unit_HA P G false go orig V HG) HH (one_step_unit go P O)
    c hp (e :: tr) R (length path) a dd Z.of_nat Hg Hs Hl (unit_cost go') k Hk SUBU) as SL.
  rewrite <- Ep in SL. specialize (SL (unit_HA P G false go' p Vp HG') Hs' c' hp' e' t' R').
  rewrite EA in SL. specialize (SL Ed' Nd').
  assert (POP : forall m i, (length path - i <= m)%nat -> (k <= i <= length path)%nat -> popped (e' :: t') (a i)).
  { induction m as [|m IH]; intros i Hm Hi; [replace i with (length path) by lia; rewrite EA, <- Ed'; apply popped_head |].
    destruct (Nat.eq_dec i (length path)) as [-> | N]; [rewrite EA, <- Ed'; apply popped_head |]. apply (SL i ltac:(lia)). apply IH; lia. }
  rewrite E'.
  assert (EL : fold_left step l2 p = dest).
  { rewrite Ep. unfold a at 1. rewrite EK, <- fold_left_app, <- X. rewrite <- EA. unfold a. rewrite firstn_all. reflexivity. }
  rewrite <- EL at 1. rewrite <- (app_nil_r l2) at 2. apply bp_back; [apply grid_type_wf; exact G | rewrite X, app_length in LM; lia | |].
  - intros m1 d m2 Y. destruct (NTH _ m1 d m2 Y eq_refl) as (Hj & Edd & _ & Eb). rewrite <- Eb.
    destruct (SL _ Hj) as (L & _); [apply (POP (length path)); lia |]. rewrite Edd in L. split; [exact L |].
    intros Z. apply (spine_distinct P false (fun q => mdist q dest) ltac:(intros; apply mdist_nonneg) (unit_cost go) orig V (unit_HS P go HG) POSU HH (e :: tr) (length path) a dd Z.of_nat Hg Hs Hl k (S (k + length m1))); [lia | lia | rewrite <- Ep, Z; reflexivity].
  - intros m1 m2 Y. assert (EF : fold_left step m1 p = a (k + length m1)%nat).
    { destruct m2 as [|d m2]; [|destruct (NTH _ m1 d m2 Y eq_refl) as (_ & _ & Ea & _); symmetry; exact Ea].
      rewrite app_nil_r in Y. subst m1. rewrite EL. unfold k. rewrite <- app_length, <- X. symmetry. exact EA. }
    rewrite EF. apply (FV (k + length m1)%nat). rewrite X, app_length, Y, app_length. unfold k. lia.
Qed.

Lemma C147_astar_unused_proof : forall b P W go go' orig dest path,
  usable b P W -> valid P orig -> valid P dest -> go_inside P go -> one_step P go ->
  returns (fun fuel => astar_on b P false fuel go orig dest) (Ok path) -> at_distance false go orig (length path) dest ->
  (forall p d q, go' p d = Some q -> go p d = Some q) -> follow go' orig path = Some dest ->
  returns (fun fuel => astar_on b P false fuel go' orig dest) (Ok path).
Proof.
  intros b P W go go' orig dest path U V Vd HG O Hr SH SUB F. apply (keep b P W go go' orig dest path [] path orig); try assumption; reflexivity.
Qed.

Lemma C147_astar_rest_proof : forall b P W go orig dest path l1 l2 p,
  usable b P W -> valid P orig -> valid P dest -> go_inside P go -> one_step P go ->
  returns (fun fuel => astar_on b P false fuel go orig dest) (Ok path) -> at_distance false go orig (length path) dest ->
  path = l1 ++ l2 -> follow go orig l1 = Some p ->
  returns (fun fuel => astar_on b P false fuel go p dest) (Ok l2).
Proof.
  intros b P W go orig dest path l1 l2 p U V Vd HG O Hr SH X F. destruct (shortest_run b P W go orig dest path U V Vd HG O Hr SH) as (_ & FP & _).
  apply (keep b P W go go orig dest path l1 l2 p); try assumption; auto. rewrite X, follow_app, F in FP. exact FP.
Qed.

Lemma C147_astar_rest_unused_proof : forall b P W go go' orig dest path l1 l2 p,
  usable b P W -> valid P orig -> valid P dest -> go_inside P go -> one_step P go ->
  returns (fun fuel => astar_on b P false fuel go orig dest) (Ok path) -> at_distance false go orig (length path) dest ->
  (forall p d q, go' p d = Some q -> go p d = Some q) ->
  path = l1 ++ l2 -> follow go orig l1 = Some p -> follow go' p l2 = Some dest ->
  returns (fun fuel => astar_on b P false fuel go' p dest) (Ok l2).
Proof.
  exact keep.
Qed.

Lemma C147_astar_replanned_proof : forall b P W go orig dest path w,
  usable b P W -> valid P orig -> valid P dest -> go_inside P go -> one_step P go ->
  returns (fun fuel => astar_on b P false fuel go orig dest) (Ok path) -> at_distance false go orig (length path) dest ->
  (replanned (fun p l => returns (fun fuel => astar_on b P false fuel go p dest) (Ok l)) go dest orig w <-> w = path).
Proof.
  intros b P W go orig dest path w U V Vd HG O Hr SH. destruct (shortest_run b P W go orig dest path U V Vd HG O Hr SH) as (AP & FP & _).
  assert (ND : forall l1 d l2 p, path = l1 ++ d :: l2 -> follow go orig l1 = Some p -> p <> dest).
  { intros l1 d l2 p X F ->. destruct SH as (_ & M). apply (M (length l1)); [rewrite X, app_length; cbn [length]; lia |]. exists l1. split; [reflexivity |]. split; [|exact F]. rewrite X in AP. apply Forall_app in AP. apply AP. }
  assert (K : forall l2 l1 p w, path = l1 ++ l2 -> follow go orig l1 = Some p ->
    (replanned (fun p l => returns (fun fuel => astar_on b P false fuel go p dest) (Ok l)) go dest p w <-> w = l2)).
  { induction l2 as [|d l2 IH]; intros l1 p w0 X F.
    - rewrite app_nil_r in X. subst l1. rewrite FP in F. injection F as <-. split; [|intros ->; constructor].
      intros H. inversion H; subst; [reflexivity | congruence].
    - pose proof (C147_astar_rest_proof b P W go orig dest path l1 (d :: l2) p U V Vd HG O Hr SH X F) as Hp. pose proof (ND l1 d l2 p X F) as Np.
      assert (X' : path = (l1 ++ [d]) ++ l2) by (rewrite <- app_assoc; exact X).
      pose proof FP as F'. rewrite X', follow_app in F'. destruct (follow go orig (l1 ++ [d])) as [q|] eqn:Fq; [|discriminate].
      assert (Eg : go p d = Some q) by (rewrite follow_app, F in Fq; cbn [follow] in Fq; destruct (go p d); [exact Fq | discriminate]).
      split.
      + intros H. inversion H as [|p0 d0 rest q0 w1 N0 H0 E0 HR]; subst; [congruence |].
        pose proof (returns_unique _ _ _ H0 Hp) as Y. injection Y as -> ->. rewrite Eg in E0. injection E0 as <-. f_equal. apply (IH (l1 ++ [d]) q w1 X' Fq). exact HR.
      + intros ->. apply (Onward _ _ _ p d l2 q l2 Np Hp Eg). apply (IH (l1 ++ [d]) q l2 X' Fq). reflexivity. }
  apply (K path [] orig w eq_refl eq_refl).
Qed.

(** * Which shortest path *)

Lemma nodes : forall P go p m q, valid P p -> go_inside P go -> one_step P go -> follow go p m = Some q ->
  let b j := fold_left step (firstn j m) p in b (length m) = q /\
  (forall j, (j <= length m)%nat -> follow go p (firstn j m) = Some (b j) /\ valid P (b j)) /\
  (forall j, (j < length m)%nat -> go (b j) (nth j m dN) = Some (b (S j))).
Proof.
  intros P go p m q V HG O F b.
  assert (FO : forall j, (j <= length m)%nat -> follow go p (firstn j m) = Some (b j) /\ valid P (b j)).
  { intros j Hj. pose proof F as F'. rewrite <- (firstn_skipn j m), follow_app in F'. destruct (follow go p (firstn j m)) as [r|] eqn:E; [|discriminate].
    destruct (follow_fold P go HG O _ _ _ V E) as (-> & Vr). auto. }
  split; [|split; [exact FO |]].
  - pose proof (proj1 (FO (length m) (Nat.le_refl _))) as X. rewrite firstn_all, F in X. injection X as ->. reflexivity.
  - intros j Hj. destruct (FO (S j) Hj) as (X & _). rewrite (firstn_S m j Hj), follow_app, (proj1 (FO j ltac:(lia))) in X. cbn [follow] in X.
    destruct (go (b j) (nth j m dN)); [exact X | discriminate].
Qed.

Lemma ex_or_all : forall (Q : nat -> Prop), (forall j, Q j \/ ~ Q j) -> forall n, (exists j, (j < n)%nat /\ Q j) \/ (forall j, (j < n)%nat -> ~ Q j).
Proof.
  intros Q HD. induction n as [|n [(j & Hj & Y) | IH]]; [right; intros; lia | left; exists j; split; [lia | exact Y] |].
  destruct (HD n) as [Y | N]; [left; exists n; split; [lia | exact Y] |]. right. intros j Hj. destruct (Nat.eq_dec j n) as [-> | Nj]; [exact N | apply IH; lia].
Qed.

Lemma firstn_plus : forall (l : list dir) s j, firstn s l ++ firstn j (skipn s l) = firstn (s + j) l.
Proof. induction l as [|x l IH]; intros [|s] j; cbn [firstn skipn app Nat.add]; try reflexivity; [destruct j; reflexivity |]. f_equal. apply IH. Qed.

Lemma firstn_pre : forall (l1 l2 : list dir), firstn (length l1) (l1 ++ l2) = l1.
Proof. intros. rewrite firstn_app, Nat.sub_diag, firstn_all. apply app_nil_r. Qed.

Lemma C147_astar_which_proof : forall b P W go orig dest path,
  usable b P W -> valid P orig -> valid P dest -> go_inside P go -> one_step P go ->
  returns (fun fuel => astar_on b P false fuel go orig dest) (Ok path) -> at_distance false go orig (length path) dest ->
  foremost go orig dest path.
Proof.
  intros b P W go orig dest path U V Vd HG O Hr SH. pose proof (usable_grid_type b P W U) as G. unfold foremost. cbv zeta.
  destruct (shortest_run b P W go orig dest path U V Vd HG O Hr SH) as (AP & FP & _ & EA & FV & Hg & Hs & c & hp & e & tr & R & Ed & Nd & Hl).
  split; [exact AP |]. split; [exact FP |]. split; [exact SH |].
  intros l0 l1 l2 m p q u1 u2 x X F0 F1 Am Lm Fm El Nu1 Nu2 Fx. cbv zeta in *.
  set (a := fun i => fold_left step (firstn i path) orig) in *. set (dd := fun i => nth i path dN) in *.
  set (s := length l0). set (i := (s + length u1)%nat). set (s' := (s + length l1)%nat).
  assert (LU : (0 < length u1)%nat /\ (0 < length u2)%nat) by (destruct u1, u2; cbn [length]; try congruence; lia).
  assert (LL : length l1 = (length u1 + length u2)%nat) by (rewrite El; apply app_length).
  assert (LP : (s' <= length path)%nat) by (unfold s', s; rewrite X, !app_length; lia).
  assert (AT : forall l l', path = l ++ l' -> forall r, follow go orig l = Some r -> a (length l) = r).
  { intros l l' Y r Fr. destruct (FV (length l)) as (Fl & _); [rewrite Y, app_length; lia |]. rewrite Y, firstn_pre in Fl. rewrite Fr in Fl. injection Fl as ->. unfold a. rewrite Y, firstn_pre. reflexivity. }
  assert (As : a s = p) by (apply (AT l0 (l1 ++ l2) X p F0)).
  assert (Ai : a i = x).
  { unfold i, s. rewrite <- app_length. apply (AT (l0 ++ u1) (u2 ++ l2)); [rewrite X, El, <- !app_assoc; reflexivity | rewrite follow_app, F0; exact Fx]. }
  assert (As' : a s' = q).
  { unfold s', s. rewrite <- app_length. apply (AT (l0 ++ l1) l2); [rewrite X, <- app_assoc; reflexivity | rewrite follow_app, F0; exact F1]. }
  assert (Vp : valid P p) by (rewrite <- As; apply (FV s); lia).
  destruct (nodes P go p m q Vp HG O Fm) as (Bl & BF & BS). set (bb := fun j => fold_left step (firstn j m) p) in *. cbv zeta in *.
  change (forall j, (j < length m)%nat -> go (bb j) (nth j m dN) = Some (bb (S j))) in BS.
  change (forall j, (j <= length m)%nat -> follow go p (firstn j m) = Some (bb j) /\ valid P (bb j)) in BF.
  set (Q := fun j => (0 < j)%nat /\ ahead (Z.of_nat i + mdist x dest, x) (Z.of_nat (s + j) + mdist (bb j) dest, bb j)).
  assert (HQ : forall j, Q j \/ ~ Q j).
  { intros j. unfold Q. destruct (ahead_dec (Z.of_nat i + mdist x dest, x) (Z.of_nat (s + j) + mdist (bb j) dest, bb j)) as [Y | N]; [|right; intros (_ & Y); contradiction].
    destruct j as [|j]; [right; intros (Z & _); lia | left; split; [lia | exact Y]]. }
  destruct (ex_or_all Q HQ (length m)) as [(j & Hj & J0 & AH) | NO].
  - exists (firstn j m), (skipn j m), (bb j). split; [symmetry; apply firstn_skipn |].
    assert (Lf : length (firstn j m) = j) by (apply firstn_length_le; lia).
    split; [intros Z; rewrite Z in Lf; cbn in Lf; lia |].
    split; [intros Z; pose proof (skipn_length j m) as Y; rewrite Z in Y; cbn in Y; lia |].
    split; [apply BF; lia |]. rewrite Lf. unfold ahead, i, mdist in *. cbn [fst snd] in *. lia.
  - exfalso.
    assert (POSU : forall p d q w, valid P p -> unit_cost go p d = Some (q, w) -> 0 < w).
    { intros p1 d1 q1 w1 _ E1. unfold unit_cost in E1. destruct (go p1 d1); [|discriminate]. injection E1 as _ <-. lia. }
    assert (HH : forall p d q w, valid P p -> allowed false d -> unit_cost go p d = Some (q, w) -> mdist p dest <= w + mdist q dest).
    { intros p1 d1 q1 w1 V1 A1 E1. apply (mdist_consistent P go dest p1 d1 q1 w1 O V1 A1 E1). }
    apply (spine_ahead P false (fun q => mdist q dest) ltac:(intros; apply mdist_nonneg) (unit_cost go) orig V (unit_HS P go HG) POSU (unit_HA P G false go orig V HG) HH (one_step_unit go P O)
      c hp (e :: tr) R (length path) a dd Z.of_nat Hg Hs Hl s s' i (length m) bb (fun j => nth j m dN) (fun j => Z.of_nat (s + j))).
    + unfold i, s'. lia.
    + exact LP.
    + lia.
    + unfold bb. cbn [firstn fold_left]. symmetry. exact As.
    + rewrite As'. exact Bl.
    + intros j Hj. apply lowest_unit. exists (s + j)%nat. split; [reflexivity |].
      assert (Lf : length (firstn j m) = j) by (apply firstn_length_le; lia).
      replace (s + j)%nat with (length (l0 ++ firstn j m)) by (rewrite app_length, Lf; reflexivity).
      apply (shortest_prefix false go orig (l0 ++ firstn j m) (skipn j m ++ l2) (bb j) dest).
      * rewrite X in AP. apply Forall_app in AP. destruct AP as (A0 & A12). apply Forall_app in A12. destruct A12 as (_ & A2).
        rewrite <- app_assoc, (app_assoc (firstn j m)), firstn_skipn. apply Forall_app. split; [exact A0 |]. apply Forall_app. auto.
      * rewrite follow_app, F0. apply BF. lia.
      * pose proof Fm as Y. rewrite <- (firstn_skipn j m), follow_app, (proj1 (BF j ltac:(lia))) in Y. change (follow go (bb j) (skipn j m) = Some q) in Y. rewrite follow_app, Y.
        pose proof FP as Z. rewrite X, follow_app, F0, follow_app, F1 in Z. exact Z.
      * rewrite <- app_assoc, (app_assoc (firstn j m)), firstn_skipn. replace (length (l0 ++ m ++ l2)) with (length path); [exact SH |]. rewrite X, !app_length. lia.
    + cbv beta. unfold s'. rewrite Lm. reflexivity.
    + intros j Hj. split; [|unfold unit_cost; rewrite (BS j Hj); f_equal; f_equal; lia].
      rewrite Forall_forall in Am. apply Am. apply nth_In. exact Hj.
    + intros j (J0 & Hj) AH. apply (NO j Hj). unfold Q. split; [exact J0 |]. rewrite <- Ai. exact AH.
Qed.

Lemma ahead_total : forall a b, ahead a b \/ ahead b a.
Proof. unfold ahead. intros. lia. Qed.

Lemma last_one : forall (K : nat -> Z * pos) n s, exists i, (s <= i <= s + n)%nat /\ forall j, (s <= j <= s + n)%nat -> ahead (K j) (K i).
Proof.
  intros K n s. induction n as [|n (i & Hi & M)].
  - exists s. split; [lia |]. intros j Hj. replace j with s by lia. unfold ahead. lia.
  - destruct (ahead_total (K i) (K (s + S n)%nat)) as [A | A].
    + exists (s + S n)%nat. split; [lia |]. intros j Hj. destruct (Nat.eq_dec j (s + S n)) as [-> | N]; [unfold ahead; lia |]. eapply ahead_trans; [apply M; lia | exact A].
    + exists i. split; [lia |]. intros j Hj. destruct (Nat.eq_dec j (s + S n)) as [-> | N]; [exact A | apply M; lia].
Qed.

Lemma distance_unique : forall D go p n m q, at_distance D go p n q -> at_distance D go p m q -> n = m.
Proof. intros D go p n m q (W & M) (W' & M'). destruct (Nat.lt_trichotomy n m) as [L | [E | L]]; [exfalso; apply (M' n L W) | exact E | exfalso; apply (M m L W')]. Qed.

Lemma first_same : forall (p : nat -> Prop), (forall j, p j \/ ~ p j) -> forall n s, p (s + n)%nat -> exists j, (s <= j <= s + n)%nat /\ p j /\ forall i, (s <= i < j)%nat -> ~ p i.
Proof.
  intros p HD. induction n as [|n IH]; intros s H; [exists s; rewrite Nat.add_0_r in *; split; [lia |]; split; [exact H |]; intros; lia |].
  destruct (HD s) as [Y | N]; [exists s; split; [lia |]; split; [exact Y |]; intros; lia |].
  destruct (IH (S s)) as (j & Hj & Pj & M); [replace (S s + n)%nat with (s + S n)%nat by lia; exact H |].
  exists j. split; [lia |]. split; [exact Pj |]. intros i Hi. destruct (Nat.eq_dec i s) as [-> | Ni]; [exact N | apply M; lia].
Qed.

Lemma C147_foremost_unique_proof : forall P go orig dest path path', valid P orig -> go_inside P go -> one_step P go ->
  foremost go orig dest path -> foremost go orig dest path' -> path = path'.
Proof.
  intros P go orig dest path path' V HG O (A & F & SH & K) (A' & F' & SH' & K'). cbv zeta in *.
  pose proof (distance_unique _ _ _ _ _ _ SH SH') as LE.
  destruct (nodes P go orig path dest V HG O F) as (Na & Fa & Sa). destruct (nodes P go orig path' dest V HG O F') as (Na' & Fa' & Sa').
  set (a := fun i => fold_left step (firstn i path) orig) in *. set (a' := fun i => fold_left step (firstn i path') orig) in *. cbv zeta in *.
  change (forall j, (j < length path)%nat -> go (a j) (nth j path dN) = Some (a (S j))) in Sa.
  change (forall j, (j <= length path)%nat -> follow go orig (firstn j path) = Some (a j) /\ valid P (a j)) in Fa.
  change (forall j, (j < length path')%nat -> go (a' j) (nth j path' dN) = Some (a' (S j))) in Sa'.
  change (forall j, (j <= length path')%nat -> follow go orig (firstn j path') = Some (a' j) /\ valid P (a' j)) in Fa'.
  change (a (length path) = dest) in Na. change (a' (length path') = dest) in Na'.
  assert (DI : forall i, (i <= length path)%nat -> at_distance false go orig i (a i)).
  { intros i Hi. rewrite <- (firstn_length_le path Hi) at 1. apply (shortest_prefix false go orig (firstn i path) (skipn i path) (a i) dest); rewrite ?firstn_skipn; try assumption; [apply Fa; exact Hi |].
    pose proof F as Y. rewrite <- (firstn_skipn i path), follow_app, (proj1 (Fa i Hi)) in Y. exact Y. }
  assert (DI' : forall i, (i <= length path')%nat -> at_distance false go orig i (a' i)).
  { intros i Hi. rewrite <- (firstn_length_le path' Hi) at 1. apply (shortest_prefix false go orig (firstn i path') (skipn i path') (a' i) dest); rewrite ?firstn_skipn; try assumption; [apply Fa'; exact Hi |].
    pose proof F' as Y. rewrite <- (firstn_skipn i path'), follow_app, (proj1 (Fa' i Hi)) in Y. exact Y. }
  (* segments of the two paths between the same positions *)
  assert (SEG : forall (l : list dir) s s', (s <= s')%nat -> (s' <= length l)%nat -> exists l1, length l1 = (s' - s)%nat /\ l = firstn s l ++ l1 ++ skipn s' l /\ (forall j, (j <= s' - s)%nat -> firstn s l ++ firstn j l1 = firstn (s + j) l)).
  { intros l s s' H1 H2. exists (skipn s (firstn s' l)). split; [rewrite skipn_length, firstn_length_le; lia |]. split.
    - rewrite <- (firstn_skipn s' l) at 1. rewrite <- (firstn_skipn s (firstn s' l)) at 1. rewrite firstn_firstn, Nat.min_l by lia. rewrite <- app_assoc. reflexivity.
    - intros j Hj. assert (E : firstn s (firstn s' l) = firstn s l) by (rewrite firstn_firstn, Nat.min_l by lia; reflexivity).
      assert (E2 : firstn (s + j) (firstn s' l) = firstn (s + j) l) by (rewrite firstn_firstn, Nat.min_l by lia; reflexivity).
      rewrite <- E2, <- E. apply firstn_plus. }
  assert (POSD : forall i, a i = a' i \/ a i <> a' i) by (intros i; destruct (pos_dec (a i) (a' i)); auto).
  assert (BOTH : forall go0 path1 path2 (b1 b2 : nat -> pos) s s', go0 = go -> length path1 = length path2 -> Forall (allowed false) path2 ->
    b1 = (fun i => fold_left step (firstn i path1) orig) -> b2 = (fun i => fold_left step (firstn i path2) orig) ->
    (forall i, (i <= length path1)%nat -> follow go orig (firstn i path1) = Some (b1 i)) -> (forall i, (i <= length path2)%nat -> follow go orig (firstn i path2) = Some (b2 i)) ->
    (forall l0 l1 l2 m p q u1 u2 x, path1 = l0 ++ l1 ++ l2 -> follow go orig l0 = Some p -> follow go p l1 = Some q -> Forall (allowed false) m -> length m = length l1 -> follow go p m = Some q ->
      l1 = u1 ++ u2 -> u1 <> [] -> u2 <> [] -> follow go p u1 = Some x -> exists v1 v2 y, m = v1 ++ v2 /\ v1 <> [] /\ v2 <> [] /\ follow go p v1 = Some y /\
      ahead (Z.of_nat (length u1) + (Z.abs (fst x - fst dest) + Z.abs (snd x - snd dest)), x) (Z.of_nat (length v1) + (Z.abs (fst y - fst dest) + Z.abs (snd y - snd dest)), y)) ->
    (s < s')%nat -> (s' <= length path1)%nat -> b1 s = b2 s -> b1 s' = b2 s' ->
    forall i, (s < i < s')%nat -> exists j, (s < j < s')%nat /\ ahead (Z.of_nat i + mdist (b1 i) dest, b1 i) (Z.of_nat j + mdist (b2 j) dest, b2 j)).
  { intros _ path1 path2 b1 b2 s s' _ LL A2 E1 E2 G1 G2 KK H1 H2 Es Es' i Hi.
    destruct (SEG path1 s s' ltac:(lia) H2) as (l1 & L1 & X1 & Y1). destruct (SEG path2 s s' ltac:(lia) ltac:(lia)) as (m & L2 & X2 & Y2).
    assert (FL : forall j, (j <= s' - s)%nat -> follow go (b1 s) (firstn j l1) = Some (b1 (s + j)%nat)).
    { intros j Hj. pose proof (G1 (s + j)%nat ltac:(lia)) as Z. rewrite <- (Y1 j Hj), follow_app, (G1 s ltac:(lia)) in Z. exact Z. }
    assert (FM : forall j, (j <= s' - s)%nat -> follow go (b1 s) (firstn j m) = Some (b2 (s + j)%nat)).
    { intros j Hj. pose proof (G2 (s + j)%nat ltac:(lia)) as Z. rewrite <- (Y2 j Hj), follow_app, (G2 s ltac:(lia)) in Z. rewrite Es. exact Z. }
    destruct (KK (firstn s path1) l1 (skipn s' path1) m (b1 s) (b1 s') (firstn (i - s) l1) (skipn (i - s) l1) (b1 i) X1) as (v1 & v2 & y & Ev & N1 & N2 & Fy & AH).
    - apply G1. lia.
    - pose proof (FL (s' - s)%nat (Nat.le_refl _)) as Z. rewrite <- L1, firstn_all, L1 in Z. replace (s + (s' - s))%nat with s' in Z by lia. exact Z.
    - rewrite X2 in A2. apply Forall_app in A2. destruct A2 as (_ & A2). apply Forall_app in A2. apply A2.
    - lia.
    - pose proof (FM (s' - s)%nat (Nat.le_refl _)) as Z. rewrite <- L2, firstn_all, L2 in Z. replace (s + (s' - s))%nat with s' in Z by lia. rewrite Es'. exact Z.
    - symmetry. apply firstn_skipn.
    - intros Z. assert (Y : length (firstn (i - s) l1) = (i - s)%nat) by (apply firstn_length_le; lia). rewrite Z in Y. cbn in Y. lia.
    - intros Z. pose proof (skipn_length (i - s) l1) as Y. rewrite Z in Y. cbn in Y. lia.
    - replace i with (s + (i - s))%nat at 2 by lia. apply FL. lia.
    - assert (LV : (0 < length v1)%nat /\ (0 < length v2)%nat) by (destruct v1, v2; cbn [length]; try congruence; lia).
      assert (LM : length m = (length v1 + length v2)%nat) by (rewrite Ev; apply app_length).
      assert (Ey : y = b2 (s + length v1)%nat).
      { pose proof (FM (length v1) ltac:(lia)) as Z. rewrite Ev, firstn_pre, Fy in Z. injection Z as ->. reflexivity. }
      exists (s + length v1)%nat. split; [lia |]. rewrite <- Ey. rewrite firstn_length_le in AH by lia. unfold ahead, mdist in *. cbn [fst snd] in *. lia. }
  (* the first difference *)
  assert (EQD : forall i, nth i path dN = nth i path' dN \/ nth i path dN <> nth i path' dN) by (intros i; destruct (nth i path dN), (nth i path' dN); (left; reflexivity) || (right; discriminate)).
  assert (GO : forall s, (s <= length path)%nat -> firstn s path = firstn s path').
  { induction s as [|s IH]; intros Hs; [reflexivity |]. specialize (IH ltac:(lia)). rewrite (firstn_S path s), (firstn_S path' s) by lia. rewrite IH. f_equal. f_equal.
    destruct (EQD s) as [Y | ND]; [exact Y |]. exfalso.
    assert (As : a s = a' s) by (unfold a, a'; rewrite IH; reflexivity).
    assert (NS : a (S s) <> a' (S s)).
    { intros Z. apply ND. apply (step_same (a s)). rewrite <- (O (a s) _ _ (proj2 (Fa s ltac:(lia))) (Sa s ltac:(lia))), Z, As. apply (O (a' s) _ _ (proj2 (Fa' s ltac:(lia))) (Sa' s ltac:(lia))). }
    destruct (first_same (fun i => a i = a' i) POSD (length path - S s) (S s)) as (s' & Hs' & Es' & M).
    { replace (S s + (length path - S s))%nat with (length path) by lia. change (a (length path) = a' (length path)). rewrite Na. rewrite LE. symmetry. exact Na'. }
    assert (H2 : (S s < s')%nat) by (destruct (Nat.eq_dec s' (S s)) as [-> | N]; [contradiction | lia]).
    pose proof (BOTH go path path' a a' s s' eq_refl LE A' eq_refl eq_refl (fun i Hi => proj1 (Fa i Hi)) (fun i Hi => proj1 (Fa' i Hi)) K ltac:(lia) ltac:(lia) As Es') as B1.
    pose proof (BOTH go path' path a' a s s' eq_refl (eq_sym LE) A eq_refl eq_refl (fun i Hi => proj1 (Fa' i Hi)) (fun i Hi => proj1 (Fa i Hi)) K' ltac:(lia) ltac:(lia) (eq_sym As) (eq_sym Es')) as B2.
    destruct (last_one (fun i => (Z.of_nat i + mdist (a i) dest, a i)) (s' - s - 2) (S s)) as (i & Hi & MX).
    destruct (B1 i ltac:(lia)) as (j & Hj & AH). destruct (B2 j ltac:(lia)) as (i' & Hi' & AH').
    pose proof (MX i' ltac:(lia)) as AH2. cbv beta in AH2. pose proof (ahead_trans _ _ _ AH' AH2) as AH3.
    destruct (ahead_antisym _ _ _ _ AH AH3) as (_ & E).
    assert (i = j) as <- by (apply (distance_unique false go orig i j (a i)); [apply DI; lia | rewrite E; apply DI'; lia]).
    apply (M i); [lia | exact E]. }
  rewrite <- (firstn_all path), <- (firstn_all path'), <- LE. apply GO. lia.
Qed.

Lemma C147_astar_direct_proof : forall b P W go orig dest n path,
  usable b P W -> rows P <= cols P -> valid P orig -> valid P dest -> go_inside P go -> one_step P go ->
  walk false go orig n dest -> Z.of_nat n = Z.abs (fst orig - fst dest) + Z.abs (snd orig - snd dest) ->
  (returns (fun fuel => astar_on b P false fuel go orig dest) (Ok path) <-> foremost go orig dest path).
Proof.
  intros b P W go orig dest n path U RC V Vd HG O Wn En.
  assert (SH : forall path, returns (fun fuel => astar_on b P false fuel go orig dest) (Ok path) -> at_distance false go orig (length path) dest).
  { intros path0 H0. rewrite (C55_astar_shortest_partial_proof b P W go orig dest path0 n U V Vd HG O H0 Wn En). split; [exact Wn |].
    intros j Lj Wj. pose proof (walk_mdist P go orig j dest O HG V Wj) as X. unfold mdist in X. lia. }
  split; [intros H; apply (C147_astar_which_proof b P W go orig dest path U V Vd HG O H (SH path H)) |].
  intros FM. destruct (C56_astar_complete_partial_proof b P W go orig dest U RC V Vd HG O) as (r & Hr & HU & HO).
  destruct HO as (path' & ->); [intros Z; apply HU in Z; apply Z; exists n; exact Wn |].
  rewrite (C147_foremost_unique_proof P go orig dest path path' V HG O FM (C147_astar_which_proof b P W go orig dest path' U V Vd HG O Hr (SH path' Hr))). exact Hr.
Qed.
