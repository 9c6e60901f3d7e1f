(** PropAgreeProofs.v -- proofs of the statements of PropAgree.v. *)

From Coq Require Import ZArith List Bool Lia.
From Verif Require Import Rust BoundedInt Dir PosT Pos Grid Gridbool SetMap CameFrom Bf Heap Astar Ucs Spec SpecSearch Lib Deque BoundedIntProofs PosTProofs PosTProofs2 PropDirProofs SetMapProofs Sim CameFromProofs PropSetMapProofs BfProofs PropBfProofs BestFirst SearchProofs UcsProofs PropUcsProofs AstarProofs BeelineProofs PropAstarProofs.
Import ListNotations.
Open Scope Z_scope.

Lemma move_of_priced : forall k go p d, move_of (priced k go) p d = go p d.
Proof. intros k go p d. unfold move_of, priced. destruct (go p d); reflexivity. Qed.

Lemma follow_priced : forall k go ds p, follow (move_of (priced k go)) p ds = follow go p ds.
Proof. intros k go. induction ds as [|d ds IH]; intros p; cbn [follow]; [reflexivity |]. rewrite move_of_priced. destruct (go p d); auto. Qed.

Lemma follow_cost_priced : forall k go ds p q, follow go p ds = Some q -> follow_cost (priced k go) p ds = Some (q, k * Z.of_nat (length ds)).
Proof.
  intros k go. induction ds as [|d ds IH]; intros p q F; cbn [follow follow_cost length] in *; [inv F; f_equal; f_equal; lia |]. unfold priced at 1.
  destruct (go p d) as [r|]; [|discriminate]. rewrite (IH r q F). f_equal. f_equal. lia.
Qed.

Lemma reachable_priced : forall k D go p q, reachable D (move_of (priced k go)) p q <-> reachable D go p q.
Proof.
  intros k D go p q. unfold reachable, walk. split; intros (n & ds & H1 & H2 & H3); exists n, ds; (split; [exact H1 | split; [exact H2 |]]);
    [rewrite follow_priced in H3; exact H3 | rewrite follow_priced; exact H3].
Qed.

Lemma inside_priced : forall k P go, go_inside P go -> go_inside P (move_of (priced k go)).
Proof. intros k P go H p d q V E. rewrite move_of_priced in E. eapply H; eassumption. Qed.

Lemma one_step_priced : forall k P go, one_step P go -> one_step P (move_of (priced k go)).
Proof. intros k P go H p d q V E. rewrite move_of_priced in E. eapply H; eassumption. Qed.

Lemma small_priced : forall k P go, 0 < k -> k * cells P <= 18446744073709551615 -> small_costs P (priced k go).
Proof.
  intros k P go K L. exists k. split; [exact L |]. intros p d q c _ E. unfold priced in E. destruct (go p d); inv E. lia.
Qed.

Lemma entering_priced : forall k D P go, cost_of_entering D P (priced k go).
Proof.
  intros k D P go p d c p' d' c' q _ _ _ _ E E'. unfold priced in *. destruct (go p d); inv E. destruct (go p' d'); inv E'. reflexivity.
Qed.

Lemma walk_least : forall D go orig dest n, walk D go orig n dest -> (forall m, walk D go orig m dest -> (n <= m)%nat) -> at_distance D go orig n dest.
Proof. intros D go orig dest n H1 H2. split; [exact H1 |]. intros j Hj Hw. apply H2 in Hw. lia. Qed.

Lemma C87_ucs_constant_cost_proof : forall b P D W go k orig dest,
  usable b P W -> valid P orig -> valid P dest -> go_inside P go -> one_step P go ->
  0 < k -> k * cells P <= 18446744073709551615 ->
  let limit := Z.to_nat (cols P * cols P) in
  exists r, returns (fun fuel => ucs_on b P D fuel (priced k go) orig dest) r /\
    (r = Err DestinationUnreachable <-> ~ reachable D go orig dest) /\
    (forall n, (exists path, r = Ok path /\ length path = n) <-> at_distance D go orig n dest /\ (n <= limit)%nat) /\
    (r = Err Loop <-> exists n, at_distance D go orig n dest /\ (limit < n)%nat).
Proof.
  intros b P D W go k orig dest U V Vd HG0 O0 K SC0 limit. pose proof (usable_grid_type b P W U) as G.
  set (pg := priced k go). pose proof (inside_priced k P go HG0) as HG. pose proof (one_step_priced k P go O0) as O. fold pg in HG, O.
  pose proof (C74_small_costs_suffice_proof D P pg orig G V HG (small_priced k P go K SC0)) as SC.
  pose proof (entering_priced k D P go) as HU. fold pg in HU.
  destruct (ucs_on_outcome b P D W pg orig dest U V Vd HG SC) as (r & Hr & Ho). pose proof (afford_HS D P pg orig HG SC) as HS.
  exists r. split; [exact Hr |].
  destruct (outcome_cases P D pg (fun _ => 0) orig V HS SC (grid_type_wf P G) O dest r Ho) as (K1 & K2).
  unfold pg in K1. rewrite reachable_priced in K1. fold pg in K1. split; [exact K1 |].
  assert (HH : forall p d q w, valid P p -> allowed D d -> pg p d = Some (q, w) -> 0 <= w + 0).
  { intros p d q w Vp A Es. destruct (HS p d q w Vp Es). lia. }
  assert (H0 : forall p, valid P p -> 0 <= 0) by (intros; lia).
  assert (MAIN : forall c hp e tr path m, Run D pg (fun _ => 0) orig c hp (e :: tr) -> e_pos e = dest -> bp P (lastdir (e :: tr)) orig m dest [] = Ok path ->
    at_distance D go orig (length path) dest).
  { intros c hp e tr path m R Ed E.
    assert (EX : forall x, In x (e :: tr) -> e_pos x <> orig -> e_prio x = c (e_pos x) + 0).
    { intros x Hx _. rewrite Z.add_0_r. apply (x_prio _ _ _ _ _ _ (exact_run P D pg orig V HS SC HU _ _ _ R)). auto. }
    destruct (outcome_optimal P D pg (fun _ => 0) orig V HS SC (grid_type_wf P G) O HH H0 dest path m c hp e tr R Ed E EX) as (F & L).
    destruct (bp_follow P (grid_type_wf P G) (lastdir (e :: tr)) orig D (move_of pg) (popped (e :: tr))) with (n := m) (p := dest) (ret := @nil dir) (path := path) as (ds & E1 & F1 & A).
    - intros p d Hp Np Ef. destruct (lastdir_back P D pg (fun _ => 0) orig V HS SC c hp (e :: tr) p O R Hp Np) as (x & w & _ & _ & H1 & H2 & H3 & H4 & _).
      rewrite H1 in Ef. inv Ef. split; [unfold move_of; rewrite H4; reflexivity |]. auto.
    - rewrite <- Ed. apply popped_head.
    - exact Vd.
    - exact E.
    - rewrite app_nil_r in E1. subst ds. unfold pg in F1. rewrite follow_priced in F1.
      pose proof (follow_cost_priced k go _ _ _ F1) as FC. fold pg in FC. rewrite FC in F. injection F as F.
      apply walk_least; [exists path; auto |]. intros n (ds & Ln & An & Fn).
      assert (c dest <= k * Z.of_nat n); [|nia]. apply L. exists ds. split; [exact An |]. rewrite <- Ln. apply follow_cost_priced. exact Fn. }
  assert (UNR : forall n, at_distance D go orig n dest -> r <> Err DestinationUnreachable).
  { intros n (H & _) E. apply K1 in E. apply E. exists n. exact H. }
  assert (CASES : match r with
    | Ok path => at_distance D go orig (length path) dest /\ (length path <= limit)%nat
    | Err Loop => exists n, at_distance D go orig n dest /\ (limit < n)%nat
    | Err DestinationUnreachable => True | Err _ => False end).
  { destruct K2 as [(path & -> & _ & _ & L) | [-> | ->]]; [|exact I|].
    - destruct Ho as [(X & _) | (c & hp & e & tr & R & Ed & N & RC & E)]; [discriminate |]. symmetry in E.
      split; [apply (MAIN c hp e tr path _ R Ed E) |]. unfold limit. lia.
    - destruct Ho as [(X & _) | (c & hp & e & tr & R & Ed & N & RC & E)]; [discriminate |]. symmetry in E.
      rewrite <- Ed in E. destruct (outcome_long P D pg (fun _ => 0) orig V HS SC (grid_type_wf P G) O HH H0 c hp e tr R E) as (path & m & Eb & L).
      rewrite Ed in Eb. exists (length path). split; [apply (MAIN c hp e tr path m R Ed Eb) |]. unfold limit. assert (0 <= cols P * cols P) by nia. lia. }
  split.
  - intros n. split.
    + intros (path & -> & <-). exact CASES.
    + intros (Hn & Ln). specialize (UNR n Hn). destruct r as [path | []]; try contradiction; try congruence.
      * exists path. split; [reflexivity |]. apply (at_distance_fun D go _ _ _ _ (proj1 CASES) Hn).
      * destruct CASES as (m & Hm & Lm). pose proof (at_distance_fun D go _ _ _ _ Hm Hn). lia.
  - split.
    + intros ->. exact CASES.
    + intros (n & Hn & Ln). specialize (UNR n Hn). destruct r as [path | []]; try contradiction; try congruence.
      destruct CASES as (H & L). pose proof (at_distance_fun D go _ _ _ _ H Hn). lia.
Qed.

Lemma nearest_single : forall D go orig dest n, orig <> dest ->
  nearest_goal D go orig (fun p => pos_eqb p dest) n <-> at_distance D go orig n dest.
Proof.
  intros D go orig dest n N. split.
  - intros ((q & Nq & Fq & Wq) & H). apply pos_eqb_eq in Fq. subst q. split; [exact Wq |]. intros j Hj. apply (H j dest Hj Nq). apply pos_eqb_refl.
  - intros (H1 & H2). split; [exists dest; repeat split; [congruence | apply pos_eqb_refl | exact H1] |].
    intros j q Hj Nq Fq. apply pos_eqb_eq in Fq. subst q. apply H2. exact Hj.
Qed.

Lemma bfs_single : forall b P D W go orig dest,
  usable b P W -> valid P orig -> go_inside P go -> one_step P go -> orig <> dest ->
  exists r, returns (fun fuel => bfs_on b P D W fuel go orig (fun p => pos_eqb p dest)) r /\
    match r with
    | Ok (q, path) => q = dest /\ at_distance D go orig (length path) dest /\ (length path <= Z.to_nat (cols P * cols P))%nat /\
        Forall (allowed D) path /\ follow go orig path = Some dest
    | Err DestinationUnreachable => ~ reachable D go orig dest
    | Err Loop => exists k, (Z.to_nat (cols P * cols P) < k)%nat /\ at_distance D go orig k dest
    | Err _ => False
    end.
Proof.
  intros b P D W go orig dest U V HG O N. destruct (bfs_on_exact b P D W go orig (fun p => pos_eqb p dest) U V HG O) as (r & Hr & K).
  exists r. split; [exact Hr |]. destruct r as [[q path] | []]; try contradiction.
  - destruct K as (K1 & K2 & K3 & K4 & K5 & K6). apply pos_eqb_eq in K1. subst q. apply nearest_single in K5; auto.
  - destruct K as (k & L & H). apply nearest_single in H; eauto.
  - apply (K dest); [congruence | apply pos_eqb_refl].
Qed.

Lemma C87_bfs_ucs_agree_proof : forall b b' P D W W' go k orig dest,
  usable b P W -> usable b' P W' -> valid P orig -> valid P dest -> go_inside P go -> one_step P go ->
  0 < k -> k * cells P <= 18446744073709551615 -> orig <> dest ->
  exists rb ru,
    returns (fun fuel => bfs_on b P D W fuel go orig (fun p => pos_eqb p dest)) rb /\
    returns (fun fuel => ucs_on b' P D fuel (priced k go) orig dest) ru /\
    match rb with
    | Ok (q, path) => q = dest /\ same_length (Ok path) ru
    | Err e => ru = Err e
    end.
Proof.
  intros b b' P D W W' go k orig dest U U' V Vd HG O K SC N.
  destruct (bfs_single b P D W go orig dest U V HG O N) as (rb & Hb & Kb).
  destruct (C87_ucs_constant_cost_proof b' P D W' go k orig dest U' V Vd HG O K SC) as (ru & Hu & K1 & K2 & K3).
  exists rb, ru. split; [exact Hb |]. split; [exact Hu |]. destruct rb as [[q path] | []]; try contradiction.
  - destruct Kb as (-> & Ka & Kl & _). split; [reflexivity |]. destruct (proj2 (K2 (length path)) (conj Ka Kl)) as (path' & -> & E). cbn. auto.
  - apply K3. destruct Kb as (n & L & H). eauto.
  - apply K1. exact Kb.
Qed.

Lemma C87_bfs_astar_proof : forall b b' P D W W' go orig dest,
  usable b P W -> usable b' P W' -> valid P orig -> valid P dest -> go_inside P go -> one_step P go -> orig <> dest ->
  exists rb ra,
    returns (fun fuel => bfs_on b P D W fuel go orig (fun p => pos_eqb p dest)) rb /\
    returns (fun fuel => astar_on b' P D fuel go orig dest) ra /\
    (rb = Err DestinationUnreachable <-> ra = Err DestinationUnreachable) /\
    (forall path', ra = Ok path' -> exists path, rb = Ok (dest, path) /\ (length path <= length path')%nat).
Proof.
  intros b b' P D W W' go orig dest U U' V Vd HG O N.
  destruct (bfs_single b P D W go orig dest U V HG O N) as (rb & Hb & Kb).
  destruct (C75_astar_exact_proof b' P D W' go orig dest U' V Vd HG O) as (ra & Ha & K1 & K2 & _).
  exists rb, ra. split; [exact Hb |]. split; [exact Ha |]. split.
  - rewrite K1. destruct rb as [[q path] | []]; try contradiction.
    + destruct Kb as (-> & (Hw & _) & _). split; [discriminate |]. intros H. exfalso. apply H. eexists. exact Hw.
    + destruct Kb as (n & _ & Hw & _). split; [discriminate |]. intros H. exfalso. apply H. eexists. exact Hw.
    + tauto.
  - intros path' ->. destruct K2 as [X | [(X & _) | (p & X & A & F & L)]]; [discriminate | discriminate |]. inv X.
    assert (Hw : walk D go orig (length p) dest) by (exists p; auto).
    destruct rb as [[q path] | []]; try contradiction.
    + destruct Kb as (-> & (_ & Hm) & _). exists path. split; [reflexivity |]. destruct (le_lt_dec (length path) (length p)) as [X | X]; [exact X |].
      exfalso. apply (Hm _ X Hw).
    + exfalso. destruct Kb as (n & Ln & _ & Hm). apply (Hm (length p)); [lia | exact Hw].
    + exfalso. apply Kb. eexists. exact Hw.
Qed.

Lemma walk_trans : forall D go p m q n r, walk D go p m q -> walk D go q n r -> walk D go p (m + n) r.
Proof.
  intros D go p m q n r (ds & <- & A & F) (ds' & <- & A' & F'). exists (ds ++ ds'). split; [apply app_length |].
  split; [apply Forall_app; auto |]. rewrite follow_app, F. exact F'.
Qed.

Lemma walk_reverse : forall D P go, go_inside P go -> reversible D P go -> forall n p q, valid P p -> walk D go p n q -> walk D go q n p.
Proof.
  intros D P go HG HR. induction n as [|n IH]; intros p q V H; [apply walk_0 in H; subst; apply walk_0; reflexivity |].
  apply walk_S in H. destruct H as (r & d & H & A & E). pose proof (walk_valid D go P n p r HG V H) as Vr.
  destruct (HR r d q Vr A E) as (e & Ae & Ee). change (S n) with (1 + n)%nat. apply walk_trans with (q := r); [|apply IH; assumption].
  exists [e]. split; [reflexivity |]. split; [constructor; [exact Ae | constructor] |]. cbn. rewrite Ee. reflexivity.
Qed.

Lemma distance_reverse : forall D P go n p q, go_inside P go -> reversible D P go -> valid P p -> valid P q ->
  at_distance D go p n q -> at_distance D go q n p.
Proof.
  intros D P go n p q HG HR Vp Vq (H1 & H2). split; [apply (walk_reverse D P go HG HR n p q Vp H1) |].
  intros j Hj H. apply (H2 j Hj). apply (walk_reverse D P go HG HR j q p Vq H).
Qed.

Lemma C88_bfs_symmetric_proof : forall b P D W go p q,
  usable b P W -> valid P p -> valid P q -> go_inside P go -> one_step P go -> reversible D P go -> p <> q ->
  exists r r',
    returns (fun fuel => bfs_on b P D W fuel go p (fun x => pos_eqb x q)) r /\
    returns (fun fuel => bfs_on b P D W fuel go q (fun x => pos_eqb x p)) r' /\
    same_length (match r with Ok (_, path) => Ok path | Err e => Err e end) (match r' with Ok (_, path) => Ok path | Err e => Err e end).
Proof.
  intros b P D W go p q U Vp Vq HG O HR N. assert (N' : q <> p) by congruence.
  destruct (bfs_single b P D W go p q U Vp HG O N) as (r & Hr & K). destruct (bfs_single b P D W go q p U Vq HG O N') as (r' & Hr' & K').
  exists r, r'. split; [exact Hr |]. split; [exact Hr' |].
  assert (RV : forall n, at_distance D go p n q -> at_distance D go q n p) by (intros; apply (distance_reverse D P go); assumption).
  assert (RC : reachable D go p q <-> reachable D go q p).
  { split; intros (n & H); exists n; eapply walk_reverse; eassumption. }
  destruct r as [[x path] | []]; try contradiction; destruct r' as [[x' path'] | []]; try contradiction; cbn [same_length].
  - destruct K as (_ & K & _), K' as (_ & K' & _). apply (at_distance_fun D go _ _ _ _ (RV _ K) K').
  - destruct K as (_ & K & L & _), K' as (n & L' & K'). pose proof (at_distance_fun D go _ _ _ _ (RV _ K) K'). lia.
  - destruct K as (_ & (K & _) & _). apply K', RC. eexists. exact K.
  - destruct K' as (_ & K' & L & _), K as (n & L' & K). pose proof (at_distance_fun D go _ _ _ _ (RV _ K) K'). lia.
  - reflexivity.
  - exfalso. destruct K as (n & _ & K & _). apply K', RC. eexists. exact K.
  - destruct K' as (_ & (K' & _) & _). apply K, RC. eexists. exact K'.
  - exfalso. destruct K' as (n & _ & K' & _). apply K, RC. eexists. exact K'.
  - reflexivity.
Qed.

Lemma C88_bfs_triangle_proof : forall b P D W go p q r path1 path2,
  usable b P W -> valid P p -> go_inside P go -> one_step P go -> p <> q -> q <> r -> p <> r ->
  returns (fun fuel => bfs_on b P D W fuel go p (fun x => pos_eqb x q)) (Ok (q, path1)) ->
  returns (fun fuel => bfs_on b P D W fuel go q (fun x => pos_eqb x r)) (Ok (r, path2)) ->
  returns (fun fuel => bfs_on b P D W fuel go p (fun x => pos_eqb x r)) (Err Loop) \/
  exists path, returns (fun fuel => bfs_on b P D W fuel go p (fun x => pos_eqb x r)) (Ok (r, path)) /\
    (length path <= length path1 + length path2)%nat.
Proof.
  intros b P D W go p q r path1 path2 U Vp HG O N1 N2 N3 H1 H2.
  destruct (bfs_single b P D W go p q U Vp HG O N1) as (r1 & Hr1 & K1). pose proof (returns_unique _ _ _ H1 Hr1). subst r1.
  destruct K1 as (_ & (K1 & _) & _). pose proof (walk_valid D go P _ p q HG Vp K1) as Vq.
  destruct (bfs_single b P D W go q r U Vq HG O N2) as (r2 & Hr2 & K2). pose proof (returns_unique _ _ _ H2 Hr2). subst r2.
  destruct K2 as (_ & (K2 & _) & _). pose proof (walk_trans _ _ _ _ _ _ _ K1 K2) as Hw.
  destruct (bfs_single b P D W go p r U Vp HG O N3) as (r3 & Hr3 & K3). destruct r3 as [[x path] | []]; try contradiction.
  - destruct K3 as (-> & (_ & Hm) & _). right. exists path. split; [exact Hr3 |].
    destruct (le_lt_dec (length path) (length path1 + length path2)) as [X | X]; [exact X |]. exfalso. apply (Hm _ X Hw).
  - left. exact Hr3.
  - exfalso. apply K3. eexists. exact Hw.
Qed.

(** ** The open grid *)

Lemma open_inside : forall P, grid_type P -> go_inside P (pos_dir_add_ok P).
Proof.
  intros P G p d q V E. unfold pos_dir_add_ok in E. destruct (add_inside P p d (grid_type_wf P G) V) as [(Vs & Ea) | (_ & Ea)]; rewrite Ea in E; cbn in E; inv E; assumption.
Qed.

Lemma open_one_step : forall P, grid_type P -> one_step P (pos_dir_add_ok P).
Proof.
  intros P G p d q V E. unfold pos_dir_add_ok in E. destruct (add_inside P p d (grid_type_wf P G) V) as [(Vs & Ea) | (_ & Ea)]; rewrite Ea in E; cbn in E; inv E; reflexivity.
Qed.

Lemma open_step : forall P p d, grid_type P -> valid P p -> valid P (step p d) -> pos_dir_add_ok P p d = Some (step p d).
Proof.
  intros P p d G V Vs. unfold pos_dir_add_ok. destruct (add_inside P p d (grid_type_wf P G) V) as [(_ & Ea) | (N & _)]; [rewrite Ea; reflexivity | contradiction].
Qed.

Lemma valid_between : forall P p q r, valid P p -> valid P q -> Z.min (fst p) (fst q) <= fst r <= Z.max (fst p) (fst q) ->
  Z.min (snd p) (snd q) <= snd r <= Z.max (snd p) (snd q) -> valid P r.
Proof. intros P p q r. unfold valid, in_bty. lia. Qed.

Lemma open_walk : forall P, grid_type P -> forall n p q, valid P p -> valid P q -> mdist p q = Z.of_nat n -> walk false (pos_dir_add_ok P) p n q.
Proof.
  intros P G n. induction n as [|n IH]; intros p q Vp Vq E.
  - apply walk_0. destruct p, q. unfold mdist in E. cbn in E. f_equal; lia.
  - assert (K : exists d, allowed false d /\ valid P (step p d) /\ mdist (step p d) q = Z.of_nat n).
    { destruct (Z.lt_trichotomy (fst p) (fst q)) as [L | [L | L]].
      - exists dE. split; [right; cbn; auto |]. split; [apply (valid_between P p q); try assumption; cbn; lia | unfold mdist in *; cbn; lia].
      - destruct (Z.lt_trichotomy (snd p) (snd q)) as [M | [M | M]].
        + exists dS. split; [right; cbn; auto |]. split; [apply (valid_between P p q); try assumption; cbn; lia | unfold mdist in *; cbn; lia].
        + unfold mdist in E. lia.
        + exists dN. split; [right; cbn; auto |]. split; [apply (valid_between P p q); try assumption; cbn; lia | unfold mdist in *; cbn; lia].
      - exists dW. split; [right; cbn; auto |]. split; [apply (valid_between P p q); try assumption; cbn; lia | unfold mdist in *; cbn; lia]. }
    destruct K as (d & A & Vs & Ed). change (S n) with (1 + n)%nat. apply walk_trans with (q := step p d); [|apply IH; assumption].
    exists [d]. split; [reflexivity |]. split; [constructor; [exact A | constructor] |]. cbn. rewrite (open_step P p d G Vp Vs). reflexivity.
Qed.

Lemma open_beeline : forall P, grid_type P -> forall n p q, valid P p -> valid P q -> cheb p q = Z.of_nat n ->
  exists path, beeline (pos_dir_add_ok P) q p path /\ length path = n.
Proof.
  intros P G n. induction n as [|n IH]; intros p q Vp Vq E.
  - exists []. split; [|reflexivity]. cbn. destruct p, q. unfold cheb in E. cbn in E. f_equal; lia.
  - assert (N : p <> q) by (intros ->; unfold cheb in E; lia).
    assert (K : exists d, delta_x d = Z.sgn (fst q - fst p) /\ delta_y d = Z.sgn (snd q - snd p)).
    { assert (NN : ~ (fst p = fst q /\ snd p = snd q)) by (intros (X & Y); apply N; destruct p, q; cbn in *; congruence).
      destruct (Z.lt_trichotomy (fst p) (fst q)) as [L | [L | L]], (Z.lt_trichotomy (snd p) (snd q)) as [M | [M | M]];
        [exists dSE | exists dE | exists dNE | exists dS | exfalso; tauto | exists dN | exists dSW | exists dW | exists dNW]; cbn [delta_x delta_y]; lia. }
    destruct K as (d & Hx & Hy).
    assert (Vs : valid P (step p d)).
    { apply (valid_between P p q); try assumption; unfold step; cbn [fst snd]; rewrite ?Hx, ?Hy; lia. }
    destruct (beeline_geometry p d q d N Hx Hy) as (C & _).
    destruct (IH (step p d) q Vs Vq ltac:(lia)) as (path & B & L). exists (d :: path). split; [|cbn; lia].
    cbn [beeline]. rewrite (open_step P p d G Vp Vs). auto.
Qed.

Lemma open_distance : forall P (D : bool) p q, grid_type P -> valid P p -> valid P q ->
  at_distance D (pos_dir_add_ok P) p (Z.to_nat (if D then cheb p q else mdist p q)) q.
Proof.
  intros P D p q G Vp Vq. destruct D.
  - assert (0 <= cheb p q) by (unfold cheb; lia). destruct (open_beeline P G (Z.to_nat (cheb p q)) p q Vp Vq ltac:(lia)) as (path & B & L).
    apply walk_least.
    + exists path. split; [exact L |]. split; [apply Forall_forall; intros; left; reflexivity |]. clear L H Vq. revert p Vp B.
      induction path as [|d ds IH]; intros p Vp B; cbn [beeline follow] in *; [subst; reflexivity |]. destruct B as (_ & _ & _ & E & B). rewrite E.
      apply IH; [|exact B]. apply (open_inside P G p d _ Vp E).
    + intros m Hm. pose proof (walk_cheb P _ true p m q (open_one_step P G) (open_inside P G) Vp Hm). lia.
  - pose proof (mdist_nonneg p q). apply walk_least; [apply (open_walk P G); try assumption; lia |].
    intros m Hm. pose proof (walk_mdist P _ p m q (open_one_step P G) (open_inside P G) Vp Hm). lia.
Qed.

Lemma C89_open_grid_proof : forall b P (D : bool) W k p q,
  usable b P W -> valid P p -> valid P q -> p <> q -> 0 < k -> k * cells P <= 18446744073709551615 ->
  let dx := Z.abs (fst p - fst q) in let dy := Z.abs (snd p - snd q) in
  let n := if D then Z.max dx dy else dx + dy in
  exists rb ru ra,
    returns (fun fuel => bfs_on b P D W fuel (pos_dir_add_ok P) p (fun x => pos_eqb x q)) rb /\
    returns (fun fuel => ucs_on b P D fuel (priced k (pos_dir_add_ok P)) p q) ru /\
    returns (fun fuel => astar_on b P D fuel (pos_dir_add_ok P) p q) ra /\
    if n <=? cols P * cols P
    then exists pb pu pa, rb = Ok (q, pb) /\ ru = Ok pu /\ ra = Ok pa /\
           Z.of_nat (length pb) = n /\ Z.of_nat (length pu) = n /\ Z.of_nat (length pa) = n
    else rb = Err Loop /\ ru = Err Loop /\ ra = Err Loop.
Proof.
  intros b P D W k p q U Vp Vq N K SC dx dy n. pose proof (usable_grid_type b P W U) as G.
  assert (En : n = if D then cheb p q else mdist p q) by (unfold n, cheb, mdist, dx, dy; destruct D; reflexivity).
  assert (C0 : 0 <= cols P * cols P) by nia. assert (N0 : 0 <= n) by (rewrite En; destruct D; unfold cheb, mdist; lia).
  pose proof (open_distance P D p q G Vp Vq) as DI. rewrite <- En in DI.
  pose proof (open_inside P G) as HG. pose proof (open_one_step P G) as O. set (go := pos_dir_add_ok P) in *.
  destruct (C87_bfs_ucs_agree_proof b b P D W W go k p q U U Vp Vq HG O K SC N) as (rb & ru & Hb & Hu & KA).
  destruct (bfs_single b P D W go p q U Vp HG O N) as (rb' & Hb' & Kb). pose proof (returns_unique _ _ _ Hb Hb'). subst rb'.
  assert (HA : exists ra, returns (fun fuel => astar_on b P D fuel go p q) ra /\
    if n <=? cols P * cols P then exists pa, ra = Ok pa /\ Z.of_nat (length pa) = n else ra = Err Loop).
  { destruct D.
    - destruct (open_beeline P G (Z.to_nat n) p q Vp Vq ltac:(lia)) as (path & B & L).
      destruct (C76_astar_beeline_proof b P W go p q path U Vp Vq HG O B) as (H & _). eexists. split; [exact H |].
      replace (Z.of_nat (length path)) with n by lia. destruct (n <=? cols P * cols P); [|reflexivity]. exists path. split; [reflexivity | lia].
    - destruct (astar_on_outcome b P false W go p q U Vp Vq HG) as (ra & Ha & Ho). exists ra. split; [exact Ha |].
      assert (DIR : forall c hp e tr path m, Run false (unit_cost go) (fun x => mdist x q) p c hp (e :: tr) -> e_pos e = q -> ~ popped tr q ->
        bp P (lastdir (e :: tr)) p m q [] = Ok path -> Z.of_nat (length path) = n).
      { intros c hp e tr path m R Ed Np E.
        rewrite (astar_direct P go p q c hp e tr path m (Z.to_nat n) G Vp HG O R Ed Np E (proj1 DI) ltac:(lia)). lia. }
      destruct (outcome_cases P false (unit_cost go) (fun x => mdist x q) p Vp (unit_HS P go HG) (unit_HA P G false go p Vp HG) (grid_type_wf P G) (one_step_unit go P O) q ra Ho) as (_ & KC).
      destruct Ho as [(-> & NR) | (c & hp & e & tr & R & Ed & Np & RC & E)].
      + exfalso. apply NR. apply reachable_unit. eexists. apply DI.
      + symmetry in E. destruct KC as [(path & -> & _ & _ & L) | [-> | ->]].
        * pose proof (DIR c hp e tr path _ R Ed Np E). replace (n <=? cols P * cols P) with true by (symmetry; apply Z.leb_le; lia). eauto.
        * exfalso. pose proof (run_popped_reachable P false (unit_cost go) (fun x => mdist x q) p Vp (unit_HS P go HG) (unit_HA P G false go p Vp HG) _ _ _ q R) as X.
          destruct (outcome_cases P false (unit_cost go) (fun x => mdist x q) p Vp (unit_HS P go HG) (unit_HA P G false go p Vp HG) (grid_type_wf P G) (one_step_unit go P O) q (Err DestinationUnreachable)) as (Y & _).
          { right. exists c, hp, e, tr. repeat split; auto. }
          apply (proj1 Y eq_refl RC).
        * rewrite <- Ed in E. destruct (outcome_long P false (unit_cost go) (fun x => mdist x q) p Vp (unit_HS P go HG) (unit_HA P G false go p Vp HG) (grid_type_wf P G) (one_step_unit go P O)) with (c := c) (hp := hp) (e := e) (tr := tr) as (path & m & Eb & L).
          -- intros x d y w Vx A Es. apply (mdist_consistent P go q x d y w O Vx A Es).
          -- intros. apply mdist_nonneg.
          -- exact R.
          -- exact E.
          -- rewrite Ed in Eb. pose proof (DIR c hp e tr path m R Ed Np Eb). replace (n <=? cols P * cols P) with false by (symmetry; apply Z.leb_gt; lia). reflexivity. }
  destruct HA as (ra & Ha & KC). exists rb, ru, ra. split; [exact Hb |]. split; [exact Hu |]. split; [exact Ha |].
  destruct rb as [[x pb] | []]; try contradiction.
  - destruct Kb as (-> & Kd & L & _). pose proof (at_distance_fun D go _ _ _ _ Kd DI) as E.
    replace (n <=? cols P * cols P) with true in * by (symmetry; apply Z.leb_le; lia). destruct KC as (pa & -> & La). destruct KA as (_ & KA). destruct ru as [pu | e]; [|contradiction].
    cbn in KA. exists pb, pu, pa. repeat split; lia.
  - destruct Kb as (j & L & Kd). pose proof (at_distance_fun D go _ _ _ _ Kd DI) as E.
    replace (n <=? cols P * cols P) with false in * by (symmetry; apply Z.leb_gt; lia). auto.
  - exfalso. apply Kb. eexists. apply DI.
Qed.

Lemma C90_bfs_more_moves_proof : forall b P D W go go' orig dest path,
  usable b P W -> valid P orig -> go_inside P go -> one_step P go -> go_inside P go' -> one_step P go' -> orig <> dest ->
  (forall p d q, valid P p -> allowed D d -> go p d = Some q -> go' p d = Some q) ->
  returns (fun fuel => bfs_on b P D W fuel go orig (fun x => pos_eqb x dest)) (Ok (dest, path)) ->
  exists path', returns (fun fuel => bfs_on b P D W fuel go' orig (fun x => pos_eqb x dest)) (Ok (dest, path')) /\
    (length path' <= length path)%nat.
Proof.
  intros b P D W go go' orig dest path U V HG O HG' O' N SUB H.
  destruct (bfs_single b P D W go orig dest U V HG O N) as (r & Hr & K). pose proof (returns_unique _ _ _ H Hr). subst r.
  destruct (bfs_single b P D W go' orig dest U V HG' O' N) as (r' & Hr' & K').
  destruct K as (_ & _ & L & A & F).
  assert (F' : follow go' orig path = Some dest).
  { clear -V HG SUB A F. revert orig V F. induction path as [|d ds IH]; intros p V F; cbn [follow] in *; [exact F |]. inversion A; subst.
    destruct (go p d) as [q|] eqn:E; [|discriminate]. rewrite (SUB p d q V H1 E). apply IH; [assumption | eapply HG; eassumption | exact F]. }
  assert (Hw : walk D go' orig (length path) dest) by (exists path; auto).
  destruct r' as [[x path'] | []]; try contradiction.
  - destruct K' as (-> & (_ & Hm) & _). exists path'. split; [exact Hr' |]. destruct (le_lt_dec (length path') (length path)) as [X | X]; [exact X |].
    exfalso. apply (Hm _ X Hw).
  - exfalso. destruct K' as (n & Ln & _ & Hm). apply (Hm (length path)); [lia | exact Hw].
  - exfalso. apply K'. eexists. exact Hw.
Qed.
