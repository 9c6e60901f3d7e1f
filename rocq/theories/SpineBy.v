(** SpineBy.v -- Spine.v for runs that break ties by any order: a best-first search that
    has found a shortest path, and another one with fewer moves that starts on it. *)

From Coq Require Import ZArith List Bool Lia.
From Verif Require Import Rust BoundedInt Dir PosT Pos SetMap CameFrom Heap Astar Ucs Spec SpecSearch SpecSettle Lib Deque BoundedIntProofs PosTProofs PosTProofs2 PropDirProofs SetMapProofs Sim CameFromProofs BfProofs BestFirst SearchProofs PropSettleProofs Chrono Order SpecOrder SpecBtree SpecOrderPath Fair FairSearch Ordered Queue PropOrderPathProofs ChronoBy PropOrderStayProofs.
Import ListNotations.
Open Scope Z_scope.

Section SpineBy.
  Context (cmp : pos -> pos -> comparison) (TO : total_order cmp).
  Notation le := (ahead_by cmp).
  Context (P : post) (D : bool) (h : pos -> Z) (H0 : forall p, valid P p -> 0 <= h p).
  Context (succ : pos -> dir -> option (pos * Z)) (orig : pos).
  Context (Vo : valid P orig).
  Context (HS : forall p d q w, valid P p -> succ p d = Some (q, w) -> valid P q /\ 0 <= w).
  Context (POS : forall p d q w, valid P p -> succ p d = Some (q, w) -> 0 < w).
  Context (HA : affordable D P succ orig).
  Context (HH : forall p d q w, valid P p -> allowed D d -> succ p d = Some (q, w) -> h p <= w + h q).
  Context (O : one_step P (move_of succ)).
  (* the run, the positions and moves of the path, the lowest costs *)
  Context (c : pos -> Z) (hp : heap) (T : list entry) (R : ORun D succ h orig le c hp T).
  Context (n : nat) (a : nat -> pos) (dd : nat -> dir) (g : nat -> Z).
  Context (Hg : forall i, (i <= n)%nat -> lowest_cost D succ orig (g i) (a i)).
  Context (Hs : forall i, (i < n)%nat -> allowed D (dd i) /\ succ (a i) (dd i) = Some (a (S i), g (S i) - g i)).
  Context (Hl : forall i, (i < n)%nat -> popped T (a (S i)) /\ a (S i) <> orig /\ lastdir T (a (S i)) = Some (opp (dd i))).

  Lemma le_refl : forall x, le x x.
  Proof using TO. clear -TO. apply (ahead_by_laws cmp TO). Qed.
  Lemma L5 : forall c p c' p', le (c, p) (c', p') -> le (c', p') (c, p) -> p = p'.
  Proof using TO. clear -TO. apply (ahead_by_laws cmp TO). Qed.
  Lemma le_less : forall x p y q x' y', le (x, p) (y, q) -> x' - y' <= x - y -> le (x', p) (y', q).
  Proof using. clear. apply ahead_by_less. Qed.

  Lemma owalk_valid : forall p m q, valid P p -> cost_walk D succ p m q -> valid P q.
  Proof.
    intros p m q V (ds & A & F). revert p m V F. induction ds as [|d ds IH]; intros p m V F; cbn [follow_cost] in F; [injection F as <- _; exact V |].
    destruct (succ p d) as [[r w]|] eqn:E; [|discriminate]. destruct (follow_cost succ r ds) as [[r' w']|] eqn:E'; [|discriminate]. injection F as <- _.
    inversion A; subst. apply (IH ltac:(assumption) r w'); [apply (HS p d r w V E) | exact E'].
  Qed.

  Lemma ospine_valid : forall i, (i <= n)%nat -> valid P (a i).
  Proof. intros i Hi. destruct (Hg i Hi) as (W & _). apply (owalk_valid orig _ _ Vo W). Qed.

  Lemma ospine_incr : forall j i, (i < j)%nat -> (j <= n)%nat -> g i < g j.
  Proof.
    induction j as [|j IH]; intros i Hi Hj; [lia |]. pose proof (POS _ _ _ _ (ospine_valid j ltac:(lia)) (proj2 (Hs j ltac:(lia)))).
    destruct (Nat.eq_dec i j) as [-> | N]; [lia |]. pose proof (IH i ltac:(lia) ltac:(lia)). lia.
  Qed.

  Lemma ospine_distinct : forall i j, (i < j)%nat -> (j <= n)%nat -> a i <> a j.
  Proof.
    intros i j Hi Hj E. pose proof (ospine_incr j i Hi Hj). pose proof (Hg i ltac:(lia)) as Li. rewrite E in Li.
    pose proof (lowest_unique _ _ _ _ _ _ Li (Hg j Hj)). lia.
  Qed.

  Lemma ospine_cost : forall c1 hp1 t i, ORun D succ h orig le c1 hp1 t -> popped t (a i) -> (i <= n)%nat -> c1 (a i) = g i.
  Proof. intros c1 hp1 t i R1 Hp Hi. eapply lowest_unique; [eapply (ochron_low P D succ h orig Vo HS HA HH H0 le); eassumption | apply Hg; exact Hi]. Qed.

  (** The last entry popped for a position of the path has the lowest priority. *)
  Lemma ospine_last : forall i, (i < n)%nat -> exists y, In y T /\ e_pos y = a (S i) /\ src y = a i /\ e_prio y = g (S i) + h (a (S i)) /\
    forall x, In x T -> e_pos x = a (S i) -> e_prio x <= e_prio y.
  Proof.
    intros i Hi. destruct (Hl i Hi) as (Pq & Nq & El). destruct (Hs i Hi) as (A & Es).
    destruct (ochron_last P D succ h orig Vo HS HA HH H0 O le c hp T R _ Pq) as (y & Hy & Ey & El' & M). rewrite El in El'. injection El' as Ed.
    assert (Sq : a (S i) = step (a i) (dd i)) by (apply (O (a i) (dd i)); [apply ospine_valid; lia | unfold move_of; rewrite Es; reflexivity]).
    assert (Sy : src y = a i) by (unfold src; rewrite Ey, <- Ed, Sq; apply step_opp).
    exists y. split; [exact Hy |]. split; [exact Ey |]. split; [exact Sy |]. split; [|exact M].
    destruct (orun_src P D succ h orig Vo HS HA HH H0 O le c hp T y R (or_intror Hy) ltac:(congruence)) as (Ps & _ & w & Es' & Ep).
    rewrite Sy, <- Ed, opp_opp, Es, Ey in Es'. injection Es' as <-. rewrite Sy, Ey in Ep. rewrite Sy in Ps. rewrite (ospine_cost _ _ _ i R Ps) in Ep by lia. lia.
  Qed.

  (** Hence no other position offers that cost, *)
  Lemma ospine_only : forall i x, (i < n)%nat -> In x hp \/ In x T -> e_pos x = a (S i) -> e_prio x = g (S i) + h (a (S i)) -> src x = a i.
  Proof.
    intros i x Hi Hx Ex Ep. destruct (ospine_last i Hi) as (y & Hy & Ey & Sy & Epy & _). destruct (Hl i Hi) as (_ & Nq & _).
    rewrite <- Sy. apply (ochron_src P D succ h orig Vo HS HA HH H0 O le c hp T x y R Hx (or_intror Hy)); congruence.
  Qed.

  (** and entries for it that come from elsewhere are not popped. *)
  Lemma ospine_stale : forall i x, (i < n)%nat -> In x T -> e_pos x = a (S i) -> src x = a i.
  Proof.
    intros i x Hi Hx Ex. destruct (ospine_last i Hi) as (y & _ & _ & _ & Epy & M). pose proof (M x Hx Ex) as L. destruct (Hl i Hi) as (Pq & Nq & _).
    pose proof (t_ge _ _ _ _ _ _ _ _ (ochron_told P D succ h orig Vo HS HA HH H0 O le c hp T R) x (or_intror Hx) ltac:(congruence)) as G.
    rewrite Ex, (ospine_cost _ _ _ (S i) R Pq) in G by lia. apply (ospine_only i x Hi (or_intror Hx) Ex). lia.
  Qed.

  (** The positions of the path are popped in order. *)
  Lemma ospine_order : forall j i t e, (i < j)%nat -> (j <= n)%nat -> first T t e -> e_pos e = a j -> popped t (a i).
  Proof.
    induction j as [|j IH]; intros i t e Hi Hj F E; [lia |]. destruct (Hl j ltac:(lia)) as (_ & Nq & _).
    assert (Hin : In e T) by (destruct F as (l & -> & _); apply in_or_app; right; left; reflexivity).
    destruct (ochron_first P D succ h orig Vo HS HA HH H0 O le c hp T t e R F ltac:(congruence)) as (_ & Ps).
    rewrite (ospine_stale j e ltac:(lia) Hin E) in Ps. destruct (Nat.eq_dec i j) as [-> | N]; [exact Ps |].
    destruct (first_within _ _ _ _ F Ps) as (t1 & e1 & l & F1 & E1 & ->). pose proof (IH i t1 e1 ltac:(lia) ltac:(lia) F1 E1) as X.
    apply popped_app. right. apply popped_cons. exact X.
  Qed.

  Lemma ospine_prio : forall i t e, (i <= n)%nat -> a i <> orig -> first T t e -> e_pos e = a i -> e_prio e = g i + h (a i).
  Proof.
    intros i t e Hi No F E. pose proof (first_popped _ _ _ F) as Pe. destruct (ochron_first P D succ h orig Vo HS HA HH H0 O le c hp T t e R F ltac:(congruence)) as (Ep & _).
    rewrite E in *. rewrite (ospine_cost _ _ _ i R Pe Hi) in Ep. exact Ep.
  Qed.

  (** Another walk between two positions of the path, of the same cost: the positions
      of the path in between are popped before some position of that walk. *)
  Lemma ospine_ahead : forall s s' i len (b : nat -> pos) (ee : nat -> dir) (G : nat -> Z), (s < i < s')%nat -> (s' <= n)%nat -> (0 < len)%nat ->
    b 0%nat = a s -> b len = a s' ->
    (forall j, (j < len)%nat -> lowest_cost D succ orig (G j) (b j)) -> G len = g s' ->
    (forall j, (j < len)%nat -> allowed D (ee j) /\ succ (b j) (ee j) = Some (b (S j), G (S j) - G j)) ->
    (forall j, (0 < j < len)%nat -> ~ le (g i + h (a i), a i) (G j + h (b j), b j)) -> False.
  Proof.
    intros s s' i len b ee G Hi Hs'n Hlen B0 Bl LG GL HB NA.
    assert (Pi : popped T (a i) /\ a i <> orig) by (destruct i as [|i]; [lia |]; destruct (Hl i ltac:(lia)) as (X & Y & _); auto). destruct Pi as (Pi & No).
    destruct (first_ex T _ Pi) as (t & e & F & Ee). pose proof F as (l & ET & Nt). pose proof R as R0. rewrite ET in R0.
    destruct (orun_split P D succ h orig Vo HS HA HH H0 le l c hp e t R0) as (c3 & hp3 & rest3 & c4 & hp4 & R3 & Ep3 & _ & _).
    assert (PB : forall j, (j < len)%nat -> popped t (b j)).
    { induction j as [|j IH]; intros Hj; [rewrite B0; apply (ospine_order i s t e ltac:(lia) ltac:(lia) F Ee) |].
      specialize (IH ltac:(lia)). destruct (HB j ltac:(lia)) as (A & Es).
      destruct (ochron_waits P D succ h orig Vo HS HA HH H0 le c3 hp3 t _ _ _ _ R3 IH A Es) as (Lw & Lm & [X | (x & Hx & Ex & Epx)]); [exact X |]. exfalso.
      assert (E3 : c3 (b j) = G j) by (eapply lowest_unique; [eapply (ochron_low P D succ h orig Vo HS HA HH H0 le); eassumption | apply LG; lia]).
      assert (W : cost_walk D succ orig (c3 (b (S j))) (b (S j))) by (apply (i_walk _ _ _ _ _ _ _ _ (oinv0_run P D succ h orig Vo HS HA le _ _ _ R3)); exact Lm).
      pose proof (proj2 (LG (S j) Hj) _ W). apply (NA (S j) ltac:(lia)). pose proof (ospine_prio i t e ltac:(lia) No F Ee) as Epr.
      pose proof (proj1 (pops_In _ _ _ (proj1 Ep3) x) Hx) as [X | X].
      - subst x. rewrite Ee in Ex. rewrite <- Ex in *. apply (le_less _ _ _ _ _ _ (le_refl (0, a i))). lia.
      - pose proof (proj2 Ep3 _ X) as AH; unfold ek in AH. rewrite Ex, Ee, Epx, Epr in AH. apply (le_less _ _ _ _ _ _ AH). lia. }
    assert (exists i1, s' = S i1) as (i1 & E1) by (destruct s' as [|i1]; [lia | exists i1; reflexivity]). subst s'.
    destruct (ospine_last i1 ltac:(lia)) as (y & Hy & Ey & Sy & Epy & _). destruct (Hl i1 ltac:(lia)) as (_ & Nq & _).
    destruct (ochron_record P D succ h orig Vo HS HA HH H0 O le c hp T R y (or_intror Hy) ltac:(congruence)) as (t1 & e1 & F1 & Ee1 & K1). rewrite Sy in Ee1.
    assert (SUBT : forall z, popped t z -> popped t1 z).
    { destruct (Nat.eq_dec i i1) as [<- | N].
      - destruct (first_unique _ _ _ _ _ F F1 ltac:(congruence)) as (-> & _). auto.
      - pose proof (ospine_order i1 i t1 e1 ltac:(lia) ltac:(lia) F1 Ee1) as Pi1. destruct (first_within _ _ _ _ F1 Pi1) as (t2 & e2 & l2 & F2 & E2 & ->).
        destruct (first_unique _ _ _ _ _ F F2 ltac:(congruence)) as (-> & _). intros z Hz. apply popped_app. right. apply popped_cons. exact Hz. }
    destruct len as [|j]; [lia |]. destruct (HB j ltac:(lia)) as (A & Es). rewrite Bl in Es.
    pose proof (SUBT _ (PB j ltac:(lia))) as PJ. rewrite <- Ey in Es. pose proof (K1 _ _ _ PJ A Es) as LT. rewrite Ey in LT.
    assert (EC : c (b j) = G j) by (eapply lowest_unique; [eapply (ochron_low P D succ h orig Vo HS HA HH H0 le); [exact R | apply (first_sub _ _ _ _ F1 PJ)] | apply LG; lia]).
    lia.
  Qed.

  (** The search with fewer moves *)
  Context (succ' : pos -> dir -> option (pos * Z)) (k : nat) (Hk : (k <= n)%nat).
  Context (SUB : forall p d q w, succ' p d = Some (q, w) -> succ p d = Some (q, w)).
  Context (HA' : affordable D P succ' (a k)).
  Context (Hs' : forall i, (k <= i < n)%nat -> succ' (a i) (dd i) = Some (a (S i), g (S i) - g i)).

  Lemma osub_HS : forall p d q w, valid P p -> succ' p d = Some (q, w) -> valid P q /\ 0 <= w.
  Proof. intros p d q w V E. apply (HS p d q w V). apply SUB. exact E. Qed.
  Lemma osub_HH : forall p d q w, valid P p -> allowed D d -> succ' p d = Some (q, w) -> h p <= w + h q.
  Proof. intros p d q w V A E. apply (HH p d q w V A). apply SUB. exact E. Qed.
  Lemma osub_O : one_step P (move_of succ').
  Proof.
    intros p d q V E. apply (O p d q V). unfold move_of in *. destruct (succ' p d) as [[r w]|] eqn:E'; [|discriminate]. rewrite (SUB _ _ _ _ E'). exact E.
  Qed.
  Lemma osub_Vo : valid P (a k).
  Proof. apply ospine_valid. exact Hk. Qed.

  Lemma osub_follow : forall ds p r, follow_cost succ' p ds = Some r -> follow_cost succ p ds = Some r.
  Proof.
    induction ds as [|d ds IH]; intros p r F; cbn [follow_cost] in *; [exact F |]. destruct (succ' p d) as [[q w]|] eqn:E; [|discriminate].
    rewrite (SUB _ _ _ _ E). destruct (follow_cost succ' q ds) as [[q' w']|] eqn:E'; [|discriminate]. rewrite (IH _ _ E'). exact F.
  Qed.

  Lemma osub_lift : forall m p, cost_walk D succ' (a k) m p -> cost_walk D succ orig (g k + m) p.
  Proof.
    intros m p W. apply (cost_walk_ind D succ' (a k) (fun p m => cost_walk D succ orig (g k + m) p)).
    - rewrite Z.add_0_r. apply (Hg k Hk).
    - intros q m0 d r w Wq I A Es. rewrite Z.add_assoc. eapply cost_walk_snoc; [exact I | exact A | apply SUB; exact Es].
    - exact W.
  Qed.

  Lemma osub_low : forall i, (k <= i <= n)%nat -> lowest_cost D succ' (a k) (g i - g k) (a i).
  Proof.
    assert (W : forall i, (k <= i <= n)%nat -> cost_walk D succ' (a k) (g i - g k) (a i)).
    { induction i as [|i IH]; intros Hi.
      - replace k with 0%nat by lia. rewrite Z.sub_diag. apply cost_walk_nil.
      - destruct (Nat.eq_dec k (S i)) as [<- | N]; [rewrite Z.sub_diag; apply cost_walk_nil |].
        replace (g (S i) - g k) with (g i - g k + (g (S i) - g i)) by lia. eapply cost_walk_snoc; [apply IH; lia | apply (Hs i); lia | apply Hs'; lia]. }
    intros i Hi. split; [apply W; exact Hi |]. intros m Wm. apply osub_lift in Wm. pose proof (proj2 (Hg i ltac:(lia)) _ Wm). lia.
  Qed.

  Notation Run' := (ORun D succ' h (a k) le).

  Lemma osub_cost : forall c1 hp1 t i, Run' c1 hp1 t -> popped t (a i) -> (k <= i <= n)%nat -> c1 (a i) = g i - g k.
  Proof. intros c1 hp1 t i R1 Hp Hi. eapply lowest_unique; [eapply (ochron_low P D succ' h (a k) osub_Vo osub_HS HA' osub_HH H0 le); eassumption | apply osub_low; exact Hi]. Qed.

  (** The next position of the path waits with its lowest cost. *)
  Lemma osub_waits : forall c1 hp1 t i, Run' c1 hp1 t -> (k <= i < n)%nat -> popped t (a i) -> ~ popped t (a (S i)) ->
    exists x, In x hp1 /\ e_pos x = a (S i) /\ e_prio x = g (S i) - g k + h (a (S i)).
  Proof.
    intros c1 hp1 t i R1 Hi Hp Nn. destruct (ochron_waits P D succ' h (a k) osub_Vo osub_HS HA' osub_HH H0 le c1 hp1 t (a i) (dd i) (a (S i)) (g (S i) - g i) R1 Hp) as (L & Lm & [X | (x & Hx & Ex & Epx)]);
      [apply (Hs i); lia | apply Hs'; exact Hi | contradiction |].
    rewrite (osub_cost _ _ _ i R1 Hp) in L by lia. exists x. split; [exact Hx |]. split; [exact Ex |].
    assert (W : cost_walk D succ' (a k) (c1 (a (S i))) (a (S i))) by (apply (i_walk _ _ _ _ _ _ _ _ (oinv0_run P D succ' h (a k) osub_Vo osub_HS HA' le _ _ _ R1)); exact Lm).
    pose proof (proj2 (osub_low (S i) ltac:(lia)) _ W). lia.
  Qed.

  (** What this search pops before a position of the path, the other one does too. *)
  Lemma osub_before : forall i, (k <= i <= n)%nat -> forall c1 hp1 t1, Run' c1 hp1 t1 -> ~ popped t1 (a i) ->
    forall x t e, popped t1 x -> first T t e -> e_pos e = a i -> popped t x.
  Proof.
    induction i as [|i IHi]; intros Hi c1 hp1 t1 R1 N1 x t e Px F Ee.
    - exfalso. assert (Ek : k = 0%nat) by lia. destruct t1 as [|e1 t1]; [destruct Px as (y & [] & _) |].
      apply N1. rewrite <- Ek. apply (orun_orig P D succ' h _ osub_Vo osub_HS HA' osub_HH H0 le _ _ _ _ R1).
    - destruct (Nat.eq_dec k (S i)) as [Ek | Nk].
      { exfalso. destruct t1 as [|e1 t1]; [destruct Px as (y & [] & _) |]. apply N1. rewrite <- Ek. apply (orun_orig P D succ' h _ osub_Vo osub_HS HA' osub_HH H0 le _ _ _ _ R1). }
      assert (Hi' : (k <= i <= n)%nat) by lia. specialize (IHi Hi'). destruct (Hl i ltac:(lia)) as (_ & No & _).
      revert x Px. induction R1 as [|c1 hp1 t1 e1 rest c2 hp2 R1 IH Ep Eex]; intros x Px; [destruct Px as (y & [] & _) |].
      pose proof (ORun1 D succ' h (a k) le _ _ _ _ _ _ _ R1 Ep Eex) as R2.
      assert (N0 : ~ popped t1 (a (S i))) by (intros X; apply N1; apply popped_cons; exact X). specialize (IH N0).
      assert (OLD : forall x, popped t1 x -> popped t x) by (intros; apply IH; assumption). clear IH.
      destruct (popped_dec t1 x) as [Y | NY]; [apply OLD; exact Y |].
      assert (Ex : e_pos e1 = x) by (destruct Px as (y & [<- | Hy] & E); [exact E | exfalso; apply NY; exists y; auto]). subst x. set (u := e_pos e1) in *.
      assert (Nu : u <> a (S i)) by (intros X; apply N1; rewrite <- X; apply popped_head).
      pose proof (ospine_order (S i) i t e ltac:(lia) ltac:(lia) F Ee) as Pi.
      destruct (popped_dec t1 (a i)) as [Yi | Ni].
      + assert (Nt : t1 <> []) by (intros ->; destruct Yi as (y & [] & _)). destruct t1 as [|e2 t2]; [congruence |].
        assert (Nuo : u <> a k) by (intros X; apply NY; rewrite X; apply (orun_orig P D succ' h _ osub_Vo osub_HS HA' osub_HH H0 le _ _ _ _ R1)).
        destruct (osub_waits _ _ _ i R1 ltac:(lia) Yi N0) as (z & Hz & Ez & Epz).
        pose proof (pops_In _ _ _ (proj1 Ep)) as Hin. pose proof (proj1 (Hin z) Hz) as [Hz' | Hz']; [exfalso; apply Nu; unfold u; rewrite <- Hz'; exact Ez |].
        pose proof (proj2 Ep _ Hz') as AH; unfold ek in AH. fold u in AH. rewrite Ez, Epz in AH.
        destruct (ofirst_pop P D succ' h (a k) osub_Vo osub_HS HA' osub_HH H0 le _ _ _ _ R2 NY) as [X | (y & d & w & Py & A & Es & _ & Ec)]; [exfalso; apply Nuo; unfold u; rewrite X; reflexivity |].
        pose proof (ofirst_pop_prio P D succ' h (a k) osub_Vo osub_HS HA' osub_HH H0 le _ _ _ _ R2 NY Nuo) as Eprio. fold u in Es, Ec, Eprio.
        (* the other search *)
        destruct F as (l & ET & Nt'). pose proof R as R'. rewrite ET in R'.
        destruct (orun_split P D succ h orig Vo HS HA HH H0 le l c hp e t R') as (c3 & hp3 & rest3 & c4 & hp4 & R3 & Ep3 & R4 & _).
        destruct (ochron_waits P D succ h orig Vo HS HA HH H0 le c3 hp3 t y d u w R3 (OLD y Py) A (SUB _ _ _ _ Es)) as (Lw & _ & [X | (z3 & Hz3 & Ez3 & Epz3)]); [exact X |].
        exfalso. assert (Ly : c3 y <= g k + c2 y).
        { apply (orun_optimal P D succ h orig Vo HS HA HH H0 le _ _ _ y _ R3 (OLD y Py)). apply osub_lift.
          apply (ochron_low P D succ' h (a k) osub_Vo osub_HS HA' osub_HH H0 le _ _ _ y R2 (popped_cons e1 _ _ Py)). }
        pose proof (proj1 (pops_In _ _ _ (proj1 Ep3) z3) Hz3) as [Hz3' | Hz3']; [apply Nu; rewrite <- Ez3, Hz3', Ee; reflexivity |].
        pose proof (proj2 Ep3 _ Hz3') as AH3; unfold ek in AH3. rewrite Ez3, Epz3, Ee in AH3.
        rewrite (ospine_prio (S i) t e ltac:(lia) No) in AH3 by (try exact Ee; exists l; auto).
        assert (X : le (g (S i) - g k + h (a (S i)), a (S i)) (e_prio e1, u)) by (apply (le_less _ _ _ _ _ _ AH3); lia).
        apply Nu. apply (L5 _ _ _ _ AH X).
      + destruct (pos_dec u (a i)) as [-> | Nui]; [exact Pi |].
        destruct (first_within _ _ _ _ F Pi) as (ti & ei & l & Fi & Ei & ->).
        assert (NN : ~ popped (e1 :: t1) (a i)) by (intros (y & [<- | Hy] & E); [apply Nui; exact E | apply Ni; exists y; auto]).
        pose proof (IHi _ _ _ R2 NN u ti ei (popped_head e1 t1) Fi Ei) as X. apply popped_app. right. apply popped_cons. exact X.
  Qed.

  (** The directions it records along the path are the same. *)
  Lemma osub_last : forall c' hp' e' t', Run' c' hp' (e' :: t') -> e_pos e' = a n -> ~ popped t' (a n) ->
    forall i, (k <= i < n)%nat -> popped (e' :: t') (a (S i)) -> lastdir (e' :: t') (a (S i)) = Some (opp (dd i)) /\ popped (e' :: t') (a i).
  Proof.
    intros c' hp' e' t' R' Ee' Nd i Hi Pq. set (q := a (S i)) in *.
    destruct (ochron_last P D succ' h (a k) osub_Vo osub_HS HA' osub_HH H0 osub_O le c' hp' _ R' q Pq) as (x & Hx & Ex & El & M).
    assert (Nq : q <> a k) by (intros X; apply (ospine_distinct k (S i)); [lia | lia | symmetry; exact X]).
    assert (Nx : e_pos x <> a k) by (rewrite Ex; exact Nq).
    destruct (orun_src P D succ' h (a k) osub_Vo osub_HS HA' osub_HH H0 osub_O le c' hp' _ x R' (or_intror Hx) Nx) as (Ps & A & w & Es & Epx).
    set (y := src x) in *. rewrite Ex in Es, Epx.
    assert (Vi : valid P (a i)) by (apply ospine_valid; lia).
    assert (Sq : q = step (a i) (dd i)) by (apply (O (a i) (dd i)); [exact Vi | unfold move_of; rewrite (proj2 (Hs i ltac:(lia))); reflexivity]).
    assert (DONE : y = a i -> lastdir (e' :: t') q = Some (opp (dd i)) /\ popped (e' :: t') (a i)).
    { intros E. split; [|rewrite <- E; exact Ps]. rewrite El. f_equal. unfold y, src in E. rewrite Ex in E.
      apply (step_same q). rewrite E, Sq. symmetry. apply step_opp. }
    destruct (pos_dec y (a i)) as [E | Ny]; [exact (DONE E) |]. exfalso.
    destruct (ochron_record P D succ' h (a k) osub_Vo osub_HS HA' osub_HH H0 osub_O le c' hp' _ R' x (or_intror Hx) Nx) as (t1 & e1 & F1 & E1 & K1). fold y in E1. rewrite Ex in K1.
    assert (GE : g (S i) - g k + h q <= e_prio x).
    { pose proof (t_ge _ _ _ _ _ _ _ _ (ochron_told P D succ' h (a k) osub_Vo osub_HS HA' osub_HH H0 osub_O le c' hp' _ R') x (or_intror Hx) Nx) as X.
      rewrite Ex in X. unfold q in X at 1. rewrite (osub_cost _ _ _ (S i) R' Pq) in X by lia. exact X. }
    assert (Ni1 : ~ popped t1 (a i)).
    { intros Pi. pose proof (K1 (a i) (dd i) (g (S i) - g i) Pi (proj1 (Hs i ltac:(lia))) (Hs' i Hi)) as X.
      rewrite (osub_cost _ _ _ i R' (first_sub _ _ _ _ F1 Pi)) in X by lia. lia. }
    destruct (Hl i ltac:(lia)) as (_ & Nqo & _). fold q in Nqo.
    (* in the other search the move from [y] is found before that of the path *)
    assert (exists ti ei, first T ti ei /\ e_pos ei = a (S i)) as (tq & eq & Fq & Eq) by (apply first_ex; apply (Hl i); lia).
    pose proof (ospine_order (S i) i tq eq ltac:(lia) ltac:(lia) Fq Eq) as Pi. destruct (first_within _ _ _ _ Fq Pi) as (ti & ei & l0 & Fi & Ei & _).
    assert (Pyi : popped ti y).
    { destruct F1 as (l1 & ET1 & Nf1). pose proof R' as R1. rewrite ET1 in R1.
      destruct (orun_split P D succ' h (a k) osub_Vo osub_HS HA' osub_HH H0 le l1 c' hp' e1 t1 R1) as (_ & _ & _ & c2 & hp2 & _ & _ & R2 & _).
      apply (osub_before i ltac:(lia) c2 hp2 (e1 :: t1) R2) with (e := ei); [|rewrite <- E1; apply popped_head | exact Fi | exact Ei].
      intros (z & [<- | Hz] & E); [apply Ny; rewrite <- E1; exact E | apply Ni1; exists z; auto]. }
    (* so an entry from there waits, or was popped, ever after *)
    assert (WAIT : forall cT hpT TT, ORun D succ h orig le cT hpT TT -> first TT ti ei -> exists x0, (In x0 hpT \/ In x0 TT) /\ e_pos x0 = q /\ src x0 <> a i /\ e_prio x0 <= g k + e_prio x).
    { intros cT hpT TT RT (li & ETi & Nfi). rewrite ETi in RT.
      destruct (orun_split P D succ h orig Vo HS HA HH H0 le li cT hpT ei ti RT) as (c3 & hp3 & rest3 & c4 & hp4 & R3 & Ep3 & R4 & M3).
      destruct (ochron_waits P D succ h orig Vo HS HA HH H0 le c3 hp3 ti y _ q w R3 Pyi A (SUB _ _ _ _ Es)) as (Lw & Lm & _).
      destruct (t_cur _ _ _ _ _ _ _ _ (ochron_told P D succ h orig Vo HS HA HH H0 O le c3 hp3 ti R3) q Lm Nqo) as (x0 & Hx0 & Ex0 & Epx0).
      destruct (orun_src P D succ h orig Vo HS HA HH H0 O le c3 hp3 ti x0 R3 Hx0 ltac:(congruence)) as (Ps0 & _).
      exists x0. split; [rewrite ETi; apply M3; exact Hx0 |]. split; [exact Ex0 |]. split.
      - intros X. apply Nfi. rewrite Ei, <- X. exact Ps0.
      - assert (Ly : c3 y <= g k + c' y).
        { apply (orun_optimal P D succ h orig Vo HS HA HH H0 le _ _ _ y _ R3 Pyi). apply osub_lift. apply (ochron_low P D succ' h (a k) osub_Vo osub_HS HA' osub_HH H0 le _ _ _ y R' Ps). }
        lia. }
    (* when [x] is popped *)
    apply in_split in Hx. destruct Hx as (l2 & t2 & ET2). pose proof R' as R1. rewrite ET2 in R1.
    destruct (orun_split P D succ' h (a k) osub_Vo osub_HS HA' osub_HH H0 le l2 c' hp' x t2 R1) as (c2 & hp2 & rest2 & c5 & hp5 & R2 & Ep2 & R5 & _).
    destruct (popped_dec t2 q) as [Yq | Nq2].
    - assert (Nd2 : ~ popped t2 (a n)).
      { destruct l2 as [|z l2]; cbn [app] in ET2; injection ET2 as X1 X2.
        - subst x t2. exact Nd.
        - intros X. apply Nd. rewrite X2. apply popped_app. right. apply popped_cons. exact X. }
      assert (exists j, (S i <= j < n)%nat /\ popped t2 (a j) /\ ~ popped t2 (a (S j))) as (j & Hj & Pj & Nj).
      { assert (K : forall m j, (S i <= j <= n)%nat -> (n - j <= m)%nat -> popped t2 (a j) -> exists j, (S i <= j < n)%nat /\ popped t2 (a j) /\ ~ popped t2 (a (S j))).
        { induction m as [|m IH]; intros j Hj Hm Pj; [exfalso; replace j with n in Pj by lia; contradiction |].
          destruct (Nat.eq_dec j n) as [-> | Njn]; [contradiction |]. destruct (popped_dec t2 (a (S j))) as [Y | N]; [apply (IH (S j)); [lia | lia | exact Y] | exists j; split; [lia | auto]]. }
        apply (K n (S i)); [lia | lia | exact Yq]. }
      destruct (osub_waits _ _ _ j R2 ltac:(lia) Pj Nj) as (z & Hz & Ez & Epz).
      assert (Nqz : q <> a (S j)) by (apply ospine_distinct; lia).
      pose proof (proj1 (pops_In _ _ _ (proj1 Ep2) z) Hz) as [Hz' | Hz']; [apply Nqz; rewrite <- Ez, Hz'; symmetry; exact Ex |].
      pose proof (proj2 Ep2 _ Hz') as AH; unfold ek in AH. rewrite Ez, Epz, Ex in AH.
      destruct (Hl j ltac:(lia)) as (PTj & Noj & _). destruct (first_ex T _ PTj) as (tj & ej & Fj & Ej).
      pose proof (ospine_order (S j) i tj ej ltac:(lia) ltac:(lia) Fj Ej) as Pij. pose proof Fj as (lj & ETj & Nfj). pose proof R as R0. rewrite ETj in R0.
      destruct (orun_split P D succ h orig Vo HS HA HH H0 le lj c hp ej tj R0) as (c3 & hp3 & rest3 & c4 & hp4 & R3 & Ep3 & _ & _).
      assert (FJ : first tj ti ei).
      { destruct (first_ex tj (a i) Pij) as (tz & ez & (lz & EZ & NZ) & Eez). assert (FZ : first T tz ez) by (exists (lj ++ ej :: lz); split; [rewrite ETj, EZ, <- app_assoc; reflexivity | exact NZ]).
        destruct (first_unique _ _ _ _ _ Fi FZ ltac:(congruence)) as (-> & ->). exists lz. auto. }
      destruct (WAIT c3 hp3 tj R3 FJ) as (x0 & [Hx3 | Hx3] & Ex0 & S0 & L0); [|apply S0; apply (ospine_stale i x0 ltac:(lia)); [rewrite ETj; apply in_or_app; right; right; exact Hx3 | exact Ex0]].
      pose proof (proj1 (pops_In _ _ _ (proj1 Ep3) x0) Hx3) as [Hx3' | Hx3']; [apply Nqz; rewrite <- Ex0, Hx3'; exact Ej |].
      pose proof (proj2 Ep3 _ Hx3') as AH3; unfold ek in AH3. rewrite Ex0, Ej in AH3. rewrite (ospine_prio (S j) tj ej ltac:(lia) Noj Fj Ej) in AH3.
      assert (X : le (g (S j) - g k + h (a (S j)), a (S j)) (e_prio x, q)) by (apply (le_less _ _ _ _ _ _ AH3); lia).
      apply Nqz. apply (L5 _ _ _ _ AH X).
    - (* popped for the first time: it has the lowest priority *)
      destruct (WAIT c hp T R Fi) as (x0 & I0 & Ex0 & S0 & L0).
      assert (FX : first (e' :: t') t2 x) by (exists l2; split; [exact ET2 | rewrite Ex; exact Nq2]).
      destruct (ochron_first P D succ' h (a k) osub_Vo osub_HS HA' osub_HH H0 osub_O le c' hp' _ t2 x R' FX Nx) as (Ep & _).
      rewrite Ex in Ep. unfold q in Ep at 1. rewrite (osub_cost _ _ _ (S i) R' Pq) in Ep by lia.
      assert (GE0 : g (S i) + h q <= e_prio x0).
      { pose proof (t_ge _ _ _ _ _ _ _ _ (ochron_told P D succ h orig Vo HS HA HH H0 O le c hp T R) x0 I0 ltac:(congruence)) as X.
        rewrite Ex0 in X. unfold q in X at 1. rewrite (ospine_cost _ _ _ (S i) R (proj1 (Hl i ltac:(lia)))) in X by lia. exact X. }
      apply S0. apply (ospine_only i x0 ltac:(lia) I0 Ex0). fold q. lia.
  Qed.
End SpineBy.
