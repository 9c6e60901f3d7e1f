(** PropCostProofs.v -- proofs of the statements of PropCost.v. *)

From Coq Require Import ZArith List Bool Lia Sorted.
From Verif Require Import Rust BoundedInt Dir PosT Pos Grid Gridbool SetMap CameFrom Bf Heap Astar Ucs Spec SpecSearch SpecSettle SpecMaze Lib Deque BoundedIntProofs PosTProofs PosTProofs2 PropDirProofs SetMapProofs Sim CameFromProofs PropSetMapProofs BfProofs PropBfProofs PropFirstProofs BestFirst UcsProofs PropUcsProofs AstarProofs PropAstarProofs PropAgreeProofs PropPathProofs PropSettleProofs SpecFirst SpecReplan PropReplanProofs.
Import ListNotations.
Open Scope Z_scope.

(** Every walk of a dearer map is one, and not dearer, of the map. *)
Lemma dearer_walk : forall D go go', (forall p d q w', go' p d = Some (q, w') -> exists w, go p d = Some (q, w) /\ w <= w') ->
  forall p c q, cost_walk D go' p c q -> exists c0, c0 <= c /\ cost_walk D go p c0 q.
Proof.
  intros D go go' H p c q (path & A & F). assert (X : exists c0, c0 <= c /\ follow_cost go p path = Some (q, c0)).
  { clear A. revert p c F. induction path as [|d path IH]; intros p c F; cbn [follow_cost] in *.
    - injection F as <- <-. exists 0. split; [lia | reflexivity].
    - destruct (go' p d) as [[r w']|] eqn:E; [|discriminate]. destruct (follow_cost go' r path) as [[r' c']|] eqn:E'; [|discriminate].
      injection F as <- <-. destruct (H _ _ _ _ E) as (w & -> & L). destruct (IH r c' E') as (c0 & L0 & ->). exists (w + c0). split; [lia | reflexivity]. }
  destruct X as (c0 & L & F0). exists c0. split; [exact L |]. exists path. auto.
Qed.

Lemma dearer_move : forall go go', (forall p d q w', go' p d = Some (q, w') -> exists w, go p d = Some (q, w) /\ w <= w') ->
  forall p d q, move_of go' p d = Some q -> move_of go p d = Some q.
Proof.
  intros go go' H p d q E. unfold move_of in *. destruct (go' p d) as [[r w']|] eqn:G; [|discriminate]. injection E as ->.
  destruct (H _ _ _ _ G) as (w & -> & _). reflexivity.
Qed.

(** * Paths that stay *)

Lemma C144_ucs_unused_proof : forall b P D W go go' orig dest path c,
  usable b P W -> valid P orig -> valid P dest -> go_inside P (move_of go) -> one_step P (move_of go) ->
  affordable D P go orig -> affordable D P go' orig -> (forall p d q w, valid P p -> go p d = Some (q, w) -> 0 < w) ->
  returns (fun fuel => ucs_on b P D fuel go orig dest) (Ok path) ->
  follow_cost go orig path = Some (dest, c) -> lowest_cost D go orig c dest ->
  (forall p d q w', go' p d = Some (q, w') -> exists w, go p d = Some (q, w) /\ w <= w') ->
  follow_cost go' orig path = Some (dest, c) ->
  returns (fun fuel => ucs_on b P D fuel go' orig dest) (Ok path).
Proof.
  intros b P D W go go' orig dest path c U V Vd GI O Af Af' Pos R Fc Lc H Fc'.
  apply (C126_ucs_exact_proof b P D W go orig dest path U V Vd GI O Af Pos) in R. destruct R as ((A & F & S) & L).
  pose proof (dearer_move go go' H) as Hm. pose proof (dearer_walk D go go' H) as Hw.
  assert (GI' : go_inside P (move_of go')) by (intros p d q Vp E; apply (GI p d q Vp (Hm _ _ _ E))).
  assert (O' : one_step P (move_of go')) by (intros p d q Vp E; apply (O p d q Vp (Hm _ _ _ E))).
  assert (NN : forall p d q c, valid P p -> go p d = Some (q, c) -> 0 <= c) by (intros p0 d0 q0 c0 V0 E0; pose proof (Pos p0 d0 q0 c0 V0 E0); lia).
  apply (C126_ucs_exact_proof b P D W go' orig dest path U V Vd GI' O' Af').
  { intros p d q w' Vp E. destruct (H _ _ _ _ E) as (w & E2 & Lw). pose proof (Pos p d q w Vp E2). lia. }
  split; [|exact L]. split; [exact A |]. split; [eapply follow_move_of; exact Fc' |].
  (* the costs along the path are the same *)
  assert (Lc' : lowest_cost D go' orig c dest).
  { split; [exists path; auto |]. intros c' Wc'. destruct (Hw _ _ _ Wc') as (c0 & L0 & W0). pose proof (proj2 Lc _ W0). lia. }
  assert (PRE : forall l1 l2 p a, path = l1 ++ l2 -> follow_cost go' orig l1 = Some (p, a) -> follow_cost go orig l1 = Some (p, a)).
  { intros l1 l2 p a E F1. rewrite E in Fc, Fc', A.
    destruct (lowest_parts D go' orig l1 l2 c dest A Fc' Lc') as (r & a1 & b1 & G1 & G2 & Ec & _ & _). rewrite G1 in F1. injection F1 as -> ->.
    destruct (lowest_parts D go orig l1 l2 c dest A Fc Lc) as (r & a2 & b2 & K1 & K2 & Ec2 & M1 & M2).
    assert (Er : r = p). { apply follow_move_of in K1. apply follow_move_of in G1. apply (follow_fewer (move_of go) (move_of go') Hm) in G1. congruence. } subst r.
    apply Forall_app in A. destruct A as (A1 & A2).
    destruct (Hw orig a p) as (a0 & La & Wa); [exists l1; auto |]. destruct (Hw p b1 dest) as (b0 & Lb & Wb); [exists l2; auto |].
    pose proof (proj2 M1 _ Wa). pose proof (proj2 M2 _ Wb). replace a with a2 by lia. exact K1. }
  intros l1 d l2 p E Fp.
  pose proof (follow_fewer (move_of go) (move_of go') Hm _ _ _ Fp) as Fp0.
  destruct (S l1 d l2 p E Fp0) as (q & Mq & Nq & k & c1 & w & Lk & Lp & Gq & Ah & Min).
  pose proof (lowest_unique _ _ _ _ _ _ Lk Lc) as ->.
  assert (A' : Forall (allowed D) (l1 ++ d :: l2)) by (rewrite <- E; exact A).
  assert (F' : follow_cost go' orig (l1 ++ d :: l2) = Some (dest, c)) by (rewrite <- E; exact Fc').
  destruct (lowest_parts D go' orig l1 (d :: l2) c dest A' F' Lc') as (p_ & a & b1 & G1 & G2 & Ec & M1 & M2).
  assert (p_ = p) by (apply follow_move_of in G1; congruence). subst p_.
  pose proof (PRE l1 (d :: l2) p a E G1) as G0.
  assert (Ea : a = c1).
  { assert (F0 : follow_cost go orig (l1 ++ d :: l2) = Some (dest, c)) by (rewrite <- E; exact Fc).
    destruct (lowest_parts D go orig l1 (d :: l2) c dest A' F0 Lc) as (p_ & a_ & b_ & K1 & _ & _ & K2 & _). rewrite G0 in K1. injection K1 as <- <-.
    apply (lowest_unique _ _ _ _ _ _ K2 Lp). }
  subst a.
  cbn [follow_cost] in G2. destruct (go' p d) as [[q' w']|] eqn:E'; [|discriminate].
  destruct (H _ _ _ _ E') as (w0 & E0 & Lw). rewrite Gq in E0. injection E0 as <- <-.
  assert (Ew : w' = w).
  { assert (E1 : path = (l1 ++ [d]) ++ l2) by (rewrite <- app_assoc; exact E).
    assert (K : follow_cost go' orig (l1 ++ [d]) = Some (q, c1 + w')) by (rewrite follow_cost_app, G1; cbn [follow_cost]; rewrite E'; f_equal; f_equal; lia).
    apply (PRE _ _ _ _ E1) in K. rewrite follow_cost_app, G0 in K. cbn [follow_cost] in K. rewrite Gq in K. injection K as K. lia. }
  subst w'.
  exists q. split; [unfold move_of; rewrite E'; reflexivity |]. split; [exact Nq |].
  exists c, c1, w. split; [exact Lc' |]. split; [exact M1 |]. split; [exact E' |]. split; [exact Ah |].
  intros p' d' w' c' Lp' Ad' Gp' Ah'. destruct (ahead_dec (c1, p) (c', p')) as [K | NA]; [exact K | exfalso].
  destruct (Hw _ _ _ (proj1 Lp')) as (c0 & L0 & W0). destruct (H _ _ _ _ Gp') as (w0 & E0 & L1).
  apply (lowest_exists D P go orig c0 p' GI NN V W0). intros z Lz. pose proof (proj2 Lz _ W0) as Hz.
  apply NA. specialize (Min p' d' w0 z Lz Ad' E0). unfold ahead in *. cbn [fst snd] in *. lia.
Qed.

Lemma C144_ucs_part_proof : forall b P D W go orig dest path c l1 l2 q,
  usable b P W -> valid P orig -> valid P dest -> go_inside P (move_of go) -> one_step P (move_of go) ->
  affordable D P go orig -> (forall p d q w, valid P p -> go p d = Some (q, w) -> 0 < w) ->
  returns (fun fuel => ucs_on b P D fuel go orig dest) (Ok path) ->
  follow_cost go orig path = Some (dest, c) -> lowest_cost D go orig c dest ->
  path = l1 ++ l2 -> follow (move_of go) orig l1 = Some q ->
  returns (fun fuel => ucs_on b P D fuel go orig q) (Ok l1).
Proof.
  intros b P D W go orig dest path c l1 l2 q U V Vd GI O Af Pos R Fc Lc -> Fq.
  apply (C126_ucs_exact_proof b P D W go orig dest _ U V Vd GI O Af Pos) in R. destruct R as ((A & F & S) & L).
  assert (NN : forall p d q c, valid P p -> go p d = Some (q, c) -> 0 <= c) by (intros p0 d0 q0 c0 V0 E0; pose proof (Pos p0 d0 q0 c0 V0 E0); lia).
  destruct (lowest_parts D go orig l1 l2 c dest A Fc Lc) as (q_ & k & c2 & F1 & F2 & Ec & L1 & L2).
  assert (q_ = q) by (apply follow_move_of in F1; congruence). subst q_. destruct (cost_nonneg P go GI NN l1 orig q k V F1) as (_ & Vq).
  assert (Late : ahead (k, q) (c, dest)).
  { destruct l2 as [|d l2]; cbn [follow_cost] in F2; [injection F2 as -> <-; unfold ahead; cbn [fst snd]; lia |].
    destruct (go q d) as [[r w]|] eqn:E; [|discriminate]. destruct (follow_cost go r l2) as [[r' c3]|] eqn:E2; [|discriminate]. injection F2 as -> F2.
    pose proof (Pos q d r w Vq E). assert (Vr : valid P r) by (apply (GI q d r Vq); unfold move_of; rewrite E; reflexivity).
    destruct (cost_nonneg P go GI NN l2 r dest c3 Vr E2) as (N & _). unfold ahead. cbn [fst snd]. lia. }
  apply (C126_ucs_exact_proof b P D W go orig q l1 U V Vq GI O Af Pos).
  split; [|rewrite app_length in L; lia]. pose proof (proj1 (proj1 (Forall_app _ _ _) A)) as A1.
  split; [exact A1 |]. split; [exact Fq |].
  intros m1 d m2 p -> Fp. destruct (S m1 d (m2 ++ l2) p) as (r & Mr & Nr & k_ & cp & w & Lk & Lp & Gr & Ah & Min).
  { rewrite <- app_assoc. reflexivity. }
  { exact Fp. }
  pose proof (lowest_unique _ _ _ _ _ _ Lk Lc) as ->.
  exists r. split; [exact Mr |]. split; [exact Nr |]. exists k, cp, w. split; [exact L1 |]. split; [exact Lp |]. split; [exact Gr |]. split.
  - destruct (lowest_parts D go orig m1 (d :: m2) k q A1 F1 L1) as (p_ & a & x & G1 & G2 & Ek & M1 & M2).
    assert (p_ = p) by (apply follow_move_of in G1; congruence). subst p_. pose proof (lowest_unique _ _ _ _ _ _ M1 Lp) as ->.
    destruct (cost_nonneg P go GI NN m1 orig p cp V G1) as (_ & Vp).
    cbn [follow_cost] in G2. rewrite Gr in G2. assert (Vr : valid P r) by (apply (GI p d r Vp Mr)).
    destruct m2 as [|e m2]; cbn [follow_cost] in G2; [injection G2 as -> <-; unfold ahead; cbn [fst snd]; lia |].
    destruct (go r e) as [[s v]|] eqn:E; [|discriminate]. destruct (follow_cost go s m2) as [[s' c3]|] eqn:E2; [|discriminate]. injection G2 as -> G2.
    pose proof (Pos r e s v Vr E). assert (Vs : valid P s) by (apply (GI r e s Vr); unfold move_of; rewrite E; reflexivity).
    destruct (cost_nonneg P go GI NN m2 s q c3 Vs E2) as (N & _). unfold ahead. cbn [fst snd]. lia.
  - intros p' d' w' c' Lp' Ad' Gp' Ah'. apply (Min p' d' w' c' Lp' Ad' Gp'). unfold ahead in *. cbn [fst snd] in *. lia.
Qed.

(** * Costs *)

Lemma C145_ucs_triangle_proof : forall b P D W go p q r path1 path2 c1 c2,
  usable b P W -> valid P p -> valid P q -> valid P r -> go_inside P (move_of go) -> one_step P (move_of go) -> affordable D P go p ->
  affordable D P go q -> cost_of_entering D P go ->
  returns (fun fuel => ucs_on b P D fuel go p q) (Ok path1) -> follow_cost go p path1 = Some (q, c1) ->
  returns (fun fuel => ucs_on b P D fuel go q r) (Ok path2) -> follow_cost go q path2 = Some (r, c2) ->
  (returns (fun fuel => ucs_on b P D fuel go p r) (Err Loop) /\ cols P < rows P) \/
  exists path c, returns (fun fuel => ucs_on b P D fuel go p r) (Ok path) /\ follow_cost go p path = Some (r, c) /\ c <= c1 + c2.
Proof.
  intros b P D W go p q r path1 path2 c1 c2 U Vp Vq Vr GI O Ap Aq En R1 F1 R2 F2.
  pose proof (C51_ucs_lowest_cost_partial_proof b P D W go p q path1 U Vp Vq GI O Ap En R1) as (x1 & G1 & L1). rewrite F1 in G1. injection G1 as <-.
  pose proof (C51_ucs_lowest_cost_partial_proof b P D W go q r path2 U Vq Vr GI O Aq En R2) as (x2 & G2 & L2). rewrite F2 in G2. injection G2 as <-.
  pose proof (cost_walk_trans _ _ _ _ _ _ _ (proj1 L1) (proj1 L2)) as Wt.
  destruct (C74_ucs_exact_proof b P D W go p r U Vp Vr GI O Ap) as (res & R & (N & _) & Out & _).
  destruct Out as [-> | [(-> & C) | (path & -> & A & F & _)]].
  - exfalso. apply N; [reflexivity |]. destruct Wt as (w & Aw & Fw). exists (length w), w. split; [reflexivity |]. split; [exact Aw | eapply follow_move_of; exact Fw].
  - left. auto.
  - right. destruct (C51_ucs_lowest_cost_partial_proof b P D W go p r path U Vp Vr GI O Ap En R) as (c & Fc & Lc).
    exists path, c. split; [exact R |]. split; [exact Fc |]. apply (proj2 Lc _ Wt).
Qed.

Lemma C145_ucs_cheaper_proof : forall b P D W go go' orig dest path c,
  usable b P W -> valid P orig -> valid P dest -> go_inside P (move_of go) -> one_step P (move_of go) -> affordable D P go orig ->
  go_inside P (move_of go') -> one_step P (move_of go') -> affordable D P go' orig -> cost_of_entering D P go' ->
  (forall p d q w, valid P p -> go p d = Some (q, w) -> exists w', go' p d = Some (q, w') /\ w' <= w) ->
  returns (fun fuel => ucs_on b P D fuel go orig dest) (Ok path) -> follow_cost go orig path = Some (dest, c) ->
  (returns (fun fuel => ucs_on b P D fuel go' orig dest) (Err Loop) /\ cols P < rows P) \/
  exists path' c', returns (fun fuel => ucs_on b P D fuel go' orig dest) (Ok path') /\ follow_cost go' orig path' = Some (dest, c') /\ c' <= c.
Proof.
  intros b P D W go go' orig dest path c U V Vd GI O Af GI' O' Af' En H R Fc.
  assert (A : Forall (allowed D) path).
  { destruct (C74_ucs_exact_proof b P D W go orig dest U V Vd GI O Af) as (res & R0 & _ & Out & _).
    pose proof (returns_unique _ _ _ R R0) as <-. destruct Out as [K | [(K & _) | (p0 & K & A & _)]]; try discriminate. injection K as <-. exact A. }
  assert (X : exists c', c' <= c /\ follow_cost go' orig path = Some (dest, c')).
  { clear - Fc H V GI. revert orig c V Fc. induction path as [|d path IH]; intros p c V F; cbn [follow_cost] in *.
    - injection F as <- <-. exists 0. split; [lia | reflexivity].
    - destruct (go p d) as [[r w]|] eqn:E; [|discriminate]. destruct (follow_cost go r path) as [[r' x]|] eqn:E'; [|discriminate]. injection F as <- <-.
      assert (Vr : valid P r) by (apply (GI p d r V); unfold move_of; rewrite E; reflexivity).
      destruct (H p d r w V E) as (w' & -> & L). destruct (IH r x Vr E') as (x' & L' & ->). exists (w' + x'). split; [lia | reflexivity]. }
  destruct X as (c1 & L1 & F1). assert (Wt : cost_walk D go' orig c1 dest) by (exists path; auto).
  destruct (C74_ucs_exact_proof b P D W go' orig dest U V Vd GI' O' Af') as (res & R' & (N & _) & Out & _).
  destruct Out as [-> | [(-> & C) | (path' & -> & A' & F' & _)]].
  - exfalso. apply N; [reflexivity |]. exists (length path), path. split; [reflexivity |]. split; [exact A | eapply follow_move_of; exact F1].
  - left. auto.
  - right. destruct (C51_ucs_lowest_cost_partial_proof b P D W go' orig dest path' U V Vd GI' O' Af' En R') as (c' & Fc' & Lc').
    exists path', c'. split; [exact R' |]. split; [exact Fc' |]. pose proof (proj2 Lc' _ Wt). lia.
Qed.

(** A reversible walk, reversed: it costs what it did, less entering its end, plus
    entering its start. *)
Lemma reversed_walk : forall D P go enter, go_inside P (move_of go) -> reversible D P (move_of go) ->
  (forall p d q w, valid P p -> go p d = Some (q, w) -> w = enter q) ->
  forall p c q, valid P p -> cost_walk D go p c q -> cost_walk D go q (c + enter p - enter q) p.
Proof.
  intros D P go enter GI Rev En p c q V (path & A & F). revert p c V A F. induction path as [|d path IH]; intros p c V A F; cbn [follow_cost] in F.
  - injection F as <- <-. replace (0 + enter p - enter p) with 0 by lia. exists []. split; [constructor | reflexivity].
  - destruct (go p d) as [[r w]|] eqn:E; [|discriminate]. destruct (follow_cost go r path) as [[r' x]|] eqn:E'; [|discriminate]. injection F as -> <-.
    inversion A as [|? ? Ad A']; subst. assert (M : move_of go p d = Some r) by (unfold move_of; rewrite E; reflexivity).
    pose proof (GI p d r V M) as Vr. pose proof (IH r x Vr A' E') as Wr. pose proof (En p d r w V E) as ->.
    destruct (Rev p d r V Ad M) as (e & Ae & Me). unfold move_of in Me. destruct (go r e) as [[s v]|] eqn:G; [|discriminate]. injection Me as ->.
    pose proof (En r e p v Vr G) as ->.
    replace (enter r + x + enter p - enter q) with ((x + enter r - enter q) + enter p) by lia.
    apply (cost_walk_trans _ _ _ _ r _ _ Wr). exists [e]. split; [constructor; [exact Ae | constructor] |]. cbn [follow_cost]. rewrite G. f_equal. f_equal. lia.
Qed.

Lemma C145_ucs_symmetric_proof : forall b P D W go enter p q,
  usable b P W -> valid P p -> valid P q -> go_inside P (move_of go) -> one_step P (move_of go) -> affordable D P go p -> affordable D P go q ->
  reversible D P (move_of go) -> (forall p d q w, valid P p -> go p d = Some (q, w) -> w = enter q) ->
  exists r r',
    returns (fun fuel => ucs_on b P D fuel go p q) r /\ returns (fun fuel => ucs_on b P D fuel go q p) r' /\
    (r = Err DestinationUnreachable <-> r' = Err DestinationUnreachable) /\
    (rows P <= cols P -> forall e, r = Err e -> r' = Err e) /\
    forall path path', r = Ok path -> r' = Ok path' ->
      exists c c', follow_cost go p path = Some (q, c) /\ follow_cost go q path' = Some (p, c') /\ c + enter p = c' + enter q.
Proof.
  intros b P D W go enter p q U Vp Vq GI O Ap Aq Rev En.
  assert (Ent : cost_of_entering D P go).
  { intros p1 d1 c1 p2 d2 c2 s V1 V2 _ _ E1 E2. rewrite (En _ _ _ _ V1 E1), (En _ _ _ _ V2 E2). reflexivity. }
  destruct (C74_ucs_exact_proof b P D W go p q U Vp Vq GI O Ap) as (r & R & N & Out & _).
  destruct (C74_ucs_exact_proof b P D W go q p U Vq Vp GI O Aq) as (r' & R' & N' & Out' & _).
  assert (RV : forall a z, valid P a -> reachable D (move_of go) a z -> reachable D (move_of go) z a).
  { intros a z Va (n & w & _ & Aw & Fw). apply follow_cost_of in Fw. destruct Fw as (x & Fw).
    destruct (reversed_walk D P go enter GI Rev En a x z Va) as (v & Av & Fv); [exists w; auto |].
    exists (length v), v. split; [reflexivity |]. split; [exact Av | eapply follow_move_of; exact Fv]. }
  assert (UU : r = Err DestinationUnreachable <-> r' = Err DestinationUnreachable).
  { rewrite N, N'. split; intros H K; apply H; apply RV; assumption. }
  exists r, r'. split; [exact R |]. split; [exact R' |]. split; [exact UU |]. split.
  - intros Wide e ->. destruct Out as [K | [(_ & K) | (path & K & _)]]; [|lia | discriminate]. injection K as ->. apply UU. reflexivity.
  - intros path path' -> ->.
    destruct (C51_ucs_lowest_cost_partial_proof b P D W go p q path U Vp Vq GI O Ap Ent R) as (c & Fc & Lc).
    destruct (C51_ucs_lowest_cost_partial_proof b P D W go q p path' U Vq Vp GI O Aq Ent R') as (c' & Fc' & Lc').
    exists c, c'. split; [exact Fc |]. split; [exact Fc' |].
    pose proof (proj2 Lc' _ (reversed_walk D P go enter GI Rev En p c q Vp (proj1 Lc))).
    pose proof (proj2 Lc _ (reversed_walk D P go enter GI Rev En q c' p Vq (proj1 Lc'))). lia.
Qed.
