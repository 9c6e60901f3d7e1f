(** PropOrderStayProofs.v -- proofs of the statements of PropOrderStay.v. *)

From Coq Require Import ZArith List Bool Lia Permutation Arith.
From Verif Require Import Rust BoundedInt Dir PosT Pos Grid Gridbool SetMap CameFrom Bf Heap Astar Ucs Queue Order Btree Spec SpecSearch SpecMaze SpecStorage SpecPrice SpecQueue SpecOrder SpecBtree SpecTreeOrder SpecSettle SpecOrderPath SpecYield SpecReplan Lib Deque BoundedIntProofs PosTProofs PosTProofs2 PropDirProofs SetMapProofs Sim CameFromProofs BfProofs PropBfProofs Fair FairSearch SearchProofs AstarProofs PropAstarProofs UcsProofs PropUcsProofs FairQueue BeelineProofs PropAgreeProofs PropStorageProofs PropEffortProofs GridProofs PropPathProofs PropReplanProofs PropStrayProofs PropLocalProofs BtreeProofs PropBtreeProofs PropOrderProofs PropTreeOrderProofs PropSettleProofs BestFirst Ordered OrderedQueue PropOrderWorkProofs PropOrderPathProofs PropReplanProofs PropCostProofs PropLocalProofs PropYieldProofs PropPriceProofs.
Import ListNotations.
Open Scope Z_scope.

(** ** Unused moves *)

Lemma ahead_by_refl : forall P cmp k p, order_of P cmp -> valid P p -> ahead_by cmp (k, p) (k, p).
Proof. intros P cmp k p OO V. right. split; [reflexivity |]. cbn [snd]. rewrite (proj2 (oo_eq _ _ OO p p V V) eq_refl). discriminate. Qed.

Lemma ahead_by_dec : forall cmp a b, ahead_by cmp a b \/ ~ ahead_by cmp a b.
Proof.
  intros cmp [a p] [b q]. unfold ahead_by. cbn [fst snd]. assert (X : cmp q p <> Gt \/ ~ cmp q p <> Gt) by (destruct (cmp q p); [left; discriminate | left; discriminate | right; intros N; apply N; reflexivity]).
  destruct (Z.lt_trichotomy a b) as [L | [L | L]]; [tauto | destruct X; [tauto | right; intros [? | (_ & ?)]; [lia | tauto]] | right; lia].
Qed.

(** The order of entering [q] does not change when both costs do by the same amount, or
    when the first gets lower. *)
Lemma ahead_by_less : forall cmp a p b q a' b', ahead_by cmp (a, p) (b, q) -> a' - b' <= a - b -> ahead_by cmp (a', p) (b', q).
Proof. unfold ahead_by. cbn [fst snd]. intros cmp a p b q a' b' [L | (E & C)] L'; [left; lia |]. destruct (Z.eq_dec a' b') as [-> | N]; [right; auto | left; lia]. Qed.

Lemma C154_ucs_unused_proof : forall H M MC (qo : queueops H) ok els (co : mapops Z MC) (mo : mapops (option dir) M) cmp P (D : bool) go go' orig dest path c,
  order_of P cmp -> ordered_queue P cmp qo ok els -> acts_as_map P co -> acts_as_map P mo -> post_wf P -> valid P orig -> valid P dest ->
  go_inside P (move_of go) -> one_step P (move_of go) -> affordable D P go orig -> affordable D P go' orig ->
  (forall p d q w, valid P p -> go p d = Some (q, w) -> 0 < w) ->
  returns (fun fuel => ucsq_search_path qo P D co mo go fuel orig dest) (Ok path) ->
  follow_cost go orig path = Some (dest, c) -> lowest_cost D go orig c dest ->
  (forall p d q w', go' p d = Some (q, w') -> exists w, go p d = Some (q, w) /\ w <= w') ->
  follow_cost go' orig path = Some (dest, c) ->
  returns (fun fuel => ucsq_search_path qo P D co mo go' fuel orig dest) (Ok path).
Proof.
  intros Hq M MC qo ok els co mo cmp P D go go' orig dest path c OO OQ AC AM WF V Vd GI O Af Af' Pos R Fc Lc H Fc'.
  apply (C152_ucs_exact_proof _ _ _ _ _ _ _ _ cmp P D go orig dest path OO OQ AC AM WF V Vd GI O Af Pos) in R. destruct R as ((A & F & S) & L).
  pose proof (dearer_move go go' H) as Hm. pose proof (dearer_walk D go go' H) as Hw.
  assert (GI' : go_inside P (move_of go')) by (intros p d q Vp E; apply (GI p d q Vp (Hm _ _ _ E))).
  assert (O' : one_step P (move_of go')) by (intros p d q Vp E; apply (O p d q Vp (Hm _ _ _ E))).
  assert (NN : forall p d q c, valid P p -> go p d = Some (q, c) -> 0 <= c) by (intros p0 d0 q0 c0 V0 E0; pose proof (Pos p0 d0 q0 c0 V0 E0); lia).
  apply (C152_ucs_exact_proof _ _ _ _ _ _ _ _ cmp P D go' orig dest path OO OQ AC AM WF V Vd GI' O' Af').
  { intros p d q w' Vp E. destruct (H _ _ _ _ E) as (w & E2 & Lw). pose proof (Pos p d q w Vp E2). lia. }
  split; [|exact L]. split; [exact A |]. split; [eapply follow_move_of; exact Fc' |].
  (* the costs along the path are the same *)
  assert (Lc' : lowest_cost D go' orig c dest).
  { split; [exists path; auto |]. intros c' Wc'. destruct (Hw _ _ _ Wc') as (c0 & L0 & W0). pose proof (proj2 Lc _ W0). lia. }
  assert (PRE : forall l1 l2 p a, path = l1 ++ l2 -> follow_cost go' orig l1 = Some (p, a) -> follow_cost go orig l1 = Some (p, a)).
  { intros l1 l2 p a E F1. rewrite E in Fc, Fc', A.
    destruct (lowest_parts D go' orig l1 l2 c dest A Fc' Lc') as (r & a1 & b1 & G1 & G2 & Ec & _ & _). rewrite G1 in F1. injection F1 as -> ->.
    destruct (lowest_parts D go orig l1 l2 c dest A Fc Lc) as (r & a2 & b2 & K1 & K2 & Ec2 & M1 & M2).
    assert (Er : r = p). { apply follow_move_of in K1. apply follow_move_of in G1. apply (follow_fewer (move_of go) (move_of go') Hm) in G1. congruence. } subst r.
    apply Forall_app in A. destruct A as (A1 & A2).
    destruct (Hw orig a p) as (a0 & La & Wa); [exists l1; auto |]. destruct (Hw p b1 dest) as (b0 & Lb & Wb); [exists l2; auto |].
    pose proof (proj2 M1 _ Wa). pose proof (proj2 M2 _ Wb). replace a with a2 by lia. exact K1. }
  intros l1 d l2 p E Fp.
  pose proof (follow_fewer (move_of go) (move_of go') Hm _ _ _ Fp) as Fp0.
  destruct (S l1 d l2 p E Fp0) as (q & Mq & Nq & k & c1 & w & Lk & Lp & Gq & Ah & Min).
  pose proof (lowest_unique _ _ _ _ _ _ Lk Lc) as ->.
  assert (A' : Forall (allowed D) (l1 ++ d :: l2)) by (rewrite <- E; exact A).
  assert (F' : follow_cost go' orig (l1 ++ d :: l2) = Some (dest, c)) by (rewrite <- E; exact Fc').
  destruct (lowest_parts D go' orig l1 (d :: l2) c dest A' F' Lc') as (p_ & a & b1 & G1 & G2 & Ec & M1 & M2).
  assert (p_ = p) by (apply follow_move_of in G1; congruence). subst p_.
  pose proof (PRE l1 (d :: l2) p a E G1) as G0.
  assert (Ea : a = c1).
  { assert (F0 : follow_cost go orig (l1 ++ d :: l2) = Some (dest, c)) by (rewrite <- E; exact Fc).
    destruct (lowest_parts D go orig l1 (d :: l2) c dest A' F0 Lc) as (p_ & a_ & b_ & K1 & _ & _ & K2 & _). rewrite G0 in K1. injection K1 as <- <-.
    apply (lowest_unique _ _ _ _ _ _ K2 Lp). }
  subst a.
  cbn [follow_cost] in G2. destruct (go' p d) as [[q' w']|] eqn:E'; [|discriminate].
  destruct (H _ _ _ _ E') as (w0 & E0 & Lw). rewrite Gq in E0. injection E0 as <- <-.
  assert (Ew : w' = w).
  { assert (E1 : path = (l1 ++ [d]) ++ l2) by (rewrite <- app_assoc; exact E).
    assert (K : follow_cost go' orig (l1 ++ [d]) = Some (q, c1 + w')) by (rewrite follow_cost_app, G1; cbn [follow_cost]; rewrite E'; f_equal; f_equal; lia).
    apply (PRE _ _ _ _ E1) in K. rewrite follow_cost_app, G0 in K. cbn [follow_cost] in K. rewrite Gq in K. injection K as K. lia. }
  subst w'.
  exists q. split; [unfold move_of; rewrite E'; reflexivity |]. split; [exact Nq |].
  exists c, c1, w. split; [exact Lc' |]. split; [exact M1 |]. split; [exact E' |]. split; [exact Ah |].
  intros p' d' w' c' Lp' Ad' Gp' Ah'. destruct (ahead_by_dec cmp (c1, p) (c', p')) as [K | NA]; [exact K | exfalso].
  destruct (Hw _ _ _ (proj1 Lp')) as (c0 & L0 & W0). destruct (H _ _ _ _ Gp') as (w0 & E0 & L1).
  apply (lowest_exists D P go orig c0 p' GI NN V W0). intros z Lz. pose proof (proj2 Lz _ W0) as Hz.
  apply NA. apply (ahead_by_less cmp c1 p z p'); [|lia]. apply (Min p' d' w0 z Lz Ad' E0). apply (ahead_by_less cmp (c' + w') q c dest); [exact Ah' | lia].
Qed.

Lemma C154_ucs_part_proof : forall H M MC (qo : queueops H) ok els (co : mapops Z MC) (mo : mapops (option dir) M) cmp P (D : bool) go orig dest path c l1 l2 q,
  order_of P cmp -> ordered_queue P cmp qo ok els -> acts_as_map P co -> acts_as_map P mo -> post_wf P -> valid P orig -> valid P dest ->
  go_inside P (move_of go) -> one_step P (move_of go) -> affordable D P go orig ->
  (forall p d q w, valid P p -> go p d = Some (q, w) -> 0 < w) ->
  returns (fun fuel => ucsq_search_path qo P D co mo go fuel orig dest) (Ok path) ->
  follow_cost go orig path = Some (dest, c) -> lowest_cost D go orig c dest ->
  path = l1 ++ l2 -> follow (move_of go) orig l1 = Some q -> retraceable P orig q ->
  returns (fun fuel => ucsq_search_path qo P D co mo go fuel orig q) (Ok l1).
Proof.
  intros Hq M MC qo ok els co mo cmp P D go orig dest path c l1 l2 q OO OQ AC AM WF V Vd GI O Af Pos R Fc Lc -> Fq RT.
  apply (C152_ucs_exact_proof _ _ _ _ _ _ _ _ cmp P D go orig dest _ OO OQ AC AM WF V Vd GI O Af Pos) in R. destruct R as ((A & F & S) & L & _).
  assert (NN : forall p d q c, valid P p -> go p d = Some (q, c) -> 0 <= c) by (intros p0 d0 q0 c0 V0 E0; pose proof (Pos p0 d0 q0 c0 V0 E0); lia).
  destruct (lowest_parts D go orig l1 l2 c dest A Fc Lc) as (q_ & k & c2 & F1 & F2 & Ec & L1 & L2).
  assert (q_ = q) by (apply follow_move_of in F1; congruence). subst q_. destruct (cost_nonneg P go GI NN l1 orig q k V F1) as (_ & Vq).
  assert (Late : forall m r a b s, valid P r -> Forall (allowed D) m -> follow_cost go r m = Some (s, b) -> ahead_by cmp (a, r) (a + b, s)).
  { intros [|d m] r a b s Vr _ Fm; cbn [follow_cost] in Fm; [injection Fm as -> <-; rewrite Z.add_0_r; apply (ahead_by_refl P); assumption |].
    destruct (go r d) as [[t w]|] eqn:E; [|discriminate]. destruct (follow_cost go t m) as [[s' c3]|] eqn:E2; [|discriminate]. injection Fm as -> Fm.
    pose proof (Pos r d t w Vr E). assert (Vt : valid P t) by (apply (GI r d t Vr); unfold move_of; rewrite E; reflexivity).
    destruct (cost_nonneg P go GI NN m t s c3 Vt E2) as (N & _). left. cbn [fst]. lia. }
  apply (C152_ucs_exact_proof _ _ _ _ _ _ _ _ cmp P D go orig q l1 OO OQ AC AM WF V Vq GI O Af Pos).
  split; [|split; [rewrite app_length in L; lia | exact RT]]. destruct (proj1 (Forall_app _ _ _) A) as (A1 & A2).
  split; [exact A1 |]. split; [exact Fq |].
  intros m1 d m2 p -> Fp. destruct (S m1 d (m2 ++ l2) p) as (r & Mr & Nr & k_ & cp & w & Lk & Lp & Gr & Ah & Min).
  { rewrite <- app_assoc. reflexivity. }
  { exact Fp. }
  pose proof (lowest_unique _ _ _ _ _ _ Lk Lc) as ->.
  exists r. split; [exact Mr |]. split; [exact Nr |]. exists k, cp, w. split; [exact L1 |]. split; [exact Lp |]. split; [exact Gr |].
  destruct (lowest_parts D go orig m1 (d :: m2) k q A1 F1 L1) as (p_ & a & x & G1 & G2 & Ek & M1 & M2).
  assert (p_ = p) by (apply follow_move_of in G1; congruence). subst p_. pose proof (lowest_unique _ _ _ _ _ _ M1 Lp) as ->.
  destruct (cost_nonneg P go GI NN m1 orig p cp V G1) as (_ & Vp).
  cbn [follow_cost] in G2. rewrite Gr in G2. assert (Vr : valid P r) by (apply (GI p d r Vp Mr)).
  destruct (follow_cost go r m2) as [[s y]|] eqn:E2; [|discriminate]. injection G2 as -> G2. apply Forall_app in A1. destruct A1 as (A11 & A12). inversion A12 as [|? ? Ad Am]; subst. split.
  - rewrite Z.add_assoc. apply (Late m2 r (cp + w) y q Vr Am E2).
  - intros p' d' w' c' Lp' Ad' Gp' Ah'. apply (Min p' d' w' c' Lp' Ad' Gp'). destruct (ahead_by_laws (ext P cmp) (ext_order P cmp OO)) as (_ & _ & _ & L4 & _).
    pose proof (Late l2 q (cp + (w + y)) c2 dest Vq A2 F2) as LL. apply (ahead_ext P cmp) in LL; [|exact Vq | exact Vd]. apply (ahead_ext P cmp) in Ah'; [|exact Vr | exact Vq].
    apply (ahead_ext P cmp); [exact Vr | exact Vd |]. apply (L4 _ _ _ Ah' LL).
Qed.

(** ** Planning again *)

Lemma settled_rest_by : forall cmp D P go orig dest l1 l2 p c, go_inside P (move_of go) -> (forall p d q c, valid P p -> go p d = Some (q, c) -> 0 < c) -> valid P orig ->
  settled_path_by (ahead_by cmp) D go orig dest (l1 ++ l2) -> follow_cost go orig (l1 ++ l2) = Some (dest, c) -> lowest_cost D go orig c dest ->
  follow (move_of go) orig l1 = Some p -> settled_path_by (ahead_by cmp) D go p dest l2.
Proof.
  intros cmp D P go orig dest l1 l2 p c GI Pos Vo (A & F & S) Fc Lc Fp.
  assert (NN : forall p d q c, valid P p -> go p d = Some (q, c) -> 0 <= c) by (intros p0 d0 q0 c0 V0 E0; pose proof (Pos p0 d0 q0 c0 V0 E0); lia).
  destruct (lowest_parts D go orig l1 l2 c dest A Fc Lc) as (p_ & c0 & c2 & F1 & F2 & -> & L1 & L2).
  assert (p_ = p) by (apply follow_move_of in F1; congruence). subst p_. destruct (cost_nonneg P go GI NN l1 orig p c0 Vo F1) as (_ & Vp).
  pose proof (proj2 (proj1 (Forall_app _ _ _) A)) as A2. split; [exact A2 |]. split; [eapply follow_move_of; exact F2 |].
  intros m1 d m2 r -> Fr. destruct (S (l1 ++ m1) d m2 r) as (q & Mq & Nq & k & cr & w & Lk & Lr & Gq & Ah & Min).
  { rewrite <- app_assoc. reflexivity. }
  { rewrite follow_app, Fp. exact Fr. }
  pose proof (lowest_unique _ _ _ _ _ _ Lc Lk) as Ek.
  destruct (lowest_parts D go p m1 (d :: m2) c2 dest A2 F2 L2) as (r_ & x & y & G1 & G2 & -> & M1 & M2).
  assert (r_ = r) by (apply follow_move_of in G1; congruence). subst r_.
  assert (Er : cr = c0 + x).
  { assert (A' : Forall (allowed D) ((l1 ++ m1) ++ d :: m2)) by (rewrite <- app_assoc; exact A).
    assert (F' : follow_cost go orig ((l1 ++ m1) ++ d :: m2) = Some (dest, c0 + (x + y))) by (rewrite <- app_assoc; exact Fc).
    destruct (lowest_parts D go orig (l1 ++ m1) (d :: m2) _ dest A' F' Lc) as (r_ & a & b & K1 & _ & _ & K2 & _).
    rewrite follow_cost_app, F1, G1 in K1. injection K1 as <- <-. apply (lowest_unique _ _ _ _ _ _ Lr K2). }
  exists q. split; [exact Mq |]. split.
  { intros ->. destruct (lowest_parts D go p (m1 ++ [d]) m2 (x + y) dest) as (q_ & a & b & K1 & _ & _ & K2 & _).
    - rewrite <- app_assoc. exact A2.
    - rewrite <- app_assoc. exact F2.
    - exact L2.
    - rewrite follow_cost_app, G1 in K1. cbn in K1. rewrite Gq in K1. injection K1 as <- <-. destruct (cost_nonneg P go GI NN m1 p r x Vp G1) as (Nx & Vr).
      pose proof (Pos r d _ w Vr Gq). destruct K2 as (_ & K2). specialize (K2 0 (ex_intro _ [] (conj (Forall_nil _) eq_refl))). lia. }
  exists (x + y), x, w. split; [exact L2 |]. split; [exact M1 |]. split; [exact Gq |]. split; [apply (ahead_by_less cmp (cr + w) q k dest); [exact Ah | lia] |].
  intros p' d' w' c' Lp' Ad' Gp' Ah'. destruct (ahead_by_dec cmp (x, r) (c', p')) as [H | NA]; [exact H | exfalso].
  pose proof (cost_walk_trans _ _ _ _ _ _ _ (proj1 L1) (proj1 Lp')) as Wp'.
  apply (lowest_exists D P go orig (c0 + c') p' GI NN Vo Wp'). intros z Lz. pose proof (proj2 Lz _ Wp') as Hz.
  apply NA. apply (ahead_by_less cmp cr r z p'); [|lia]. apply (Min p' d' w' z Lz Ad' Gp'). apply (ahead_by_less cmp (c' + w') q (x + y) dest); [exact Ah' | lia].
Qed.

Lemma C154_ucs_rest_proof : forall H M MC (qo : queueops H) ok els (co : mapops Z MC) (mo : mapops (option dir) M) cmp P (D : bool) go orig dest path l1 l2 p c,
  order_of P cmp -> ordered_queue P cmp qo ok els -> acts_as_map P co -> acts_as_map P mo -> post_wf P -> valid P orig -> valid P dest ->
  go_inside P (move_of go) -> one_step P (move_of go) -> affordable D P go orig -> affordable D P go p ->
  (forall p d q w, valid P p -> go p d = Some (q, w) -> 0 < w) ->
  returns (fun fuel => ucsq_search_path qo P D co mo go fuel orig dest) (Ok path) ->
  follow_cost go orig path = Some (dest, c) -> lowest_cost D go orig c dest ->
  path = l1 ++ l2 -> follow (move_of go) orig l1 = Some p -> retraceable P p dest ->
  returns (fun fuel => ucsq_search_path qo P D co mo go fuel p dest) (Ok l2).
Proof.
  intros H M MC qo ok els co mo cmp P D go orig dest path l1 l2 p c OO OQ AC AM WF Vo Vd GI O Ao Ap Pos R Fc Lc -> Fp RT.
  apply (proj1 (C152_ucs_exact_proof _ _ _ _ _ _ _ _ cmp P D go orig dest (l1 ++ l2) OO OQ AC AM WF Vo Vd GI O Ao Pos)) in R. destruct R as (S & L & _).
  assert (Vp : valid P p).
  { apply (BfProofs.walk_valid D (move_of go) P (length l1) orig p GI Vo). exists l1. split; [reflexivity |]. split; [|exact Fp]. destruct S as (A & _). apply Forall_app in A. apply A. }
  apply (proj1 (C152_ucs_exact_proof _ _ _ _ _ _ _ _ cmp P D go p dest l2 OO OQ AC AM WF Vp Vd GI O Ap Pos)). split; [exact (settled_rest_by cmp D P go orig dest l1 l2 p c GI Pos Vo S Fc Lc Fp) |].
  rewrite app_length in L. split; [lia | exact RT].
Qed.

Lemma C154_ucs_replanned_proof : forall H M MC (qo : queueops H) ok els (co : mapops Z MC) (mo : mapops (option dir) M) cmp P (D : bool) go orig dest path c w,
  order_of P cmp -> ordered_queue P cmp qo ok els -> acts_as_map P co -> acts_as_map P mo -> post_wf P -> valid P orig -> valid P dest ->
  go_inside P (move_of go) -> one_step P (move_of go) -> (forall p, valid P p -> affordable D P go p /\ retraceable P p dest) ->
  (forall p d q w, valid P p -> go p d = Some (q, w) -> 0 < w) ->
  returns (fun fuel => ucsq_search_path qo P D co mo go fuel orig dest) (Ok path) ->
  follow_cost go orig path = Some (dest, c) -> lowest_cost D go orig c dest ->
  (replanned (fun p l => returns (fun fuel => ucsq_search_path qo P D co mo go fuel p dest) (Ok l)) (move_of go) dest orig w <-> w = path).
Proof.
  intros H M MC qo ok els co mo cmp P D go orig dest path c w OO OQ AC AM WF V Vd GI O Af Pos R F L. revert orig c w V R F L. induction path as [|d path IH]; intros orig c w V R F L.
  - cbn in F. inversion F; subst orig c. split; [|intros ->; constructor]. intros K. inversion K as [|p e rest q w' Np _ _ _]; subst; [reflexivity | congruence].
  - pose proof F as F0. cbn [follow_cost] in F. destruct (go orig d) as [[q a]|] eqn:Eg; [|discriminate]. destruct (follow_cost go q path) as [[r c']|] eqn:Ef; [|discriminate].
    injection F as -> Ec. assert (Mq : move_of go orig d = Some q) by (unfold move_of; rewrite Eg; reflexivity). pose proof (GI _ _ _ V Mq) as Vq.
    assert (No : orig <> dest).
    { intros ->. pose proof (ucs_positive P go dest q d a path dest c' GI Pos V Eg Ef). pose proof (proj2 L 0 (ex_intro _ [] (conj (Forall_nil _) eq_refl))). lia. }
    assert (Fq : follow (move_of go) orig [d] = Some q) by (cbn; rewrite Mq; reflexivity).
    pose proof (C154_ucs_rest_proof _ _ _ _ _ _ _ _ cmp P D go orig dest (d :: path) [d] path q c OO OQ AC AM WF V Vd GI O (proj1 (Af _ V)) (proj1 (Af _ Vq)) Pos R F0 L eq_refl Fq (proj2 (Af _ Vq))) as Rq.
    assert (Lq : lowest_cost D go q c' dest).
    { assert (A : Forall (allowed D) ([d] ++ path)) by (apply (proj1 (C152_ucs_exact_proof _ _ _ _ _ _ _ _ cmp P D go orig dest (d :: path) OO OQ AC AM WF V Vd GI O (proj1 (Af _ V)) Pos)) in R; apply R).
      destruct (lowest_parts D go orig [d] path c dest A F0 L) as (q_ & x & y & K1 & K2 & _ & _ & K3). cbn in K1. rewrite Eg in K1. injection K1 as <- <-.
      assert (y = c') by congruence. subst y. exact K3. }
    specialize (IH q c'). split.
    + intros K. inversion K as [|p e rest q' w' Np Pl Gq K']; subst; [congruence |]. pose proof (returns_unique _ _ _ R Pl) as E. injection E as <- <-.
      assert (q' = q) by congruence. subst q'. apply (IH w' Vq Rq Ef Lq) in K'. subst w'. reflexivity.
    + intros ->. eapply Onward; [exact No | exact R | exact Mq |]. apply (IH path Vq Rq Ef Lq). reflexivity.
Qed.

Lemma C154_ucs_entering_proof : forall H M MC (qo : queueops H) ok els (co : mapops Z MC) (mo : mapops (option dir) M) cmp P (D : bool) go orig dest path,
  order_of P cmp -> ordered_queue P cmp qo ok els -> acts_as_map P co -> acts_as_map P mo -> post_wf P -> valid P orig -> valid P dest ->
  go_inside P (move_of go) -> one_step P (move_of go) -> (forall p, valid P p -> affordable D P go p /\ retraceable P p dest) ->
  (forall p d q w, valid P p -> go p d = Some (q, w) -> 0 < w) -> cost_of_entering D P go ->
  returns (fun fuel => ucsq_search_path qo P D co mo go fuel orig dest) (Ok path) ->
  (exists c, follow_cost go orig path = Some (dest, c) /\ lowest_cost D go orig c dest) /\
  forall w, replanned (fun p l => returns (fun fuel => ucsq_search_path qo P D co mo go fuel p dest) (Ok l)) (move_of go) dest orig w <-> w = path.
Proof.
  intros H M MC qo ok els co mo cmp P D go orig dest path OO OQ AC AM WF V Vd GI O Af Pos CE R.
  assert (X : exists c, follow_cost go orig path = Some (dest, c) /\ lowest_cost D go orig c dest).
  { pose proof (afford_HS D P go orig GI (proj1 (Af _ V))) as HS.
    destruct (ucsq_outcome qo _ els P (ordered_fair _ qo _ els P (ext_queue P cmp _ qo ok els OQ)) D _ _ _ _ (acts_lawful_map _ _ P co AC) (acts_lawful_map _ _ P mo AM) WF go orig dest V Vd HS (proj1 (Af _ V))) as (r & Hr & K).
    assert (r = Ret (Ok path)) as -> by (apply (settles_unique _ _ _ _ Hr); exact R).
    destruct (fucs_means P D go orig dest _ WF V GI O (proj1 (Af _ V)) K) as (_ & _ & [E | [E | [(E & _) | (path' & E & _ & _ & _ & C)]]]); try discriminate E. injection E as <-. exact (C CE). }
  split; [exact X |]. intros w. destruct X as (c & F & L). apply (C154_ucs_replanned_proof _ _ _ _ _ _ _ _ cmp P D go orig dest path c w OO OQ AC AM WF V Vd GI O Af Pos R F L).
Qed.
