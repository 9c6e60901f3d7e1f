(** PropSettleProofs.v -- proofs of the statements of PropSettle.v. *)

From Coq Require Import ZArith List Bool Lia.
From Verif Require Import Rust BoundedInt Dir PosT Pos Grid Gridbool SetMap CameFrom Bf Heap Astar Ucs Spec SpecSearch SpecMaze SpecPrice SpecQueue SpecSettle Lib Deque BoundedIntProofs PosTProofs PosTProofs2 PropDirProofs PropPosProofs GridProofs GridProofs2 PropGridProofs GridboolProofs PropGridboolProofs SetMapProofs Sim CameFromProofs PropSetMapProofs BfProofs PropBfProofs Fair FairSearch BestFirst Ordered SearchProofs UcsProofs PropUcsProofs AstarProofs PropAstarProofs PropAgreeProofs PropQueueProofs PropMazeProofs PropPathProofs.
Import ListNotations.
Open Scope Z_scope.

(** A best-first search with consistent estimates; [le] orders priorities with
    positions in a way that agrees with the queue. *)
Section Settle.
  Context (P : post) (D : bool).
  Context (succ : pos -> dir -> option (pos * Z)) (h : pos -> Z) (orig : pos).
  Context (Vo : valid P orig).
  Context (HS : forall p d q w, valid P p -> succ p d = Some (q, w) -> valid P q /\ 0 <= w).
  Context (HA : affordable D P succ orig).
  Context (HH : forall p d q w, valid P p -> allowed D d -> succ p d = Some (q, w) -> h p <= w + h q).
  Context (H0 : forall p, valid P p -> 0 <= h p).
  Context (O : one_step P (move_of succ)).
  Context (le : Z * pos -> Z * pos -> Prop).
  Context (le_lt : forall k p k' p', k < k' -> le (k, p) (k', p')).
  Context (le_le : forall k p k' p', le (k, p) (k', p') -> k <= k').
  Context (le_refl : forall a, le a a) (le_trans : forall a b c, le a b -> le b c -> le a c).
  Context (le_succ : forall p d q w k, valid P p -> allowed D d -> succ p d = Some (q, w) -> le (k + h p, p) (k + w + h q, q)).
  Definition fk (c : pos -> Z) (p : pos) : Z * pos := (c p + h p, p).
  Definition src (e : entry) : pos := step (e_pos e) (e_dir e).
  Record told (c : pos -> Z) (hp : heap) (tr : list entry) : Prop := {
    t_e0 : forall x, In x hp \/ In x tr -> e_pos x = orig -> x = e0 orig;
    t_low : forall p x, popped tr p -> In x hp -> le (fk c p) (ek x);
    t_tr : forall e x, In e tr -> In x hp -> le (ek e) (ek x);
    t_ge : forall x, In x hp \/ In x tr -> e_pos x <> orig -> c (e_pos x) + h (e_pos x) <= e_prio x;
    t_src : forall x, In x hp \/ In x tr -> e_pos x <> orig -> popped tr (src x) /\ allowed D (opp (e_dir x)) /\
      exists w, succ (src x) (opp (e_dir x)) = Some (e_pos x, w) /\ e_prio x = c (src x) + w + h (e_pos x);
    t_rec : forall x y, In x hp \/ In x tr -> In y hp \/ In y tr -> e_pos x = e_pos y -> e_pos x <> orig -> e_prio y <= e_prio x ->
      le (fk c (src x)) (fk c (src y));
    t_cur : forall q, c q < COST_MAX -> q <> orig -> exists x, (In x hp \/ In x tr) /\ e_pos x = q /\ e_prio x = c q + h q }.
  Definition known (c : pos -> Z) (hp : heap) (tr : list entry) (p : pos) : Prop :=
    forall d q w, allowed D d -> succ p d = Some (q, w) -> q <> orig ->
      exists x, (In x hp \/ In x tr) /\ e_pos x = q /\ e_prio x <= c p + w + h q /\ le (fk c (src x)) (fk c p).
  Lemma le_same : forall k k' p, k <= k' -> le (k, p) (k', p).
  Proof. clear -le_lt le_refl. intros k k' p L. destruct (Z.eq_dec k k') as [-> | N]; [apply le_refl | apply le_lt; lia]. Qed.
  Lemma told_relax : forall c0 u tr c hp d c' hp', valid P u -> popped tr u -> popped tr orig -> (forall p, popped tr p -> le (fk c0 p) (fk c0 u)) ->
    (forall e, In e tr -> le (ek e) (fk c0 u)) ->
    (forall p, popped tr p -> c p = c0 p) -> told c hp tr -> allowed D d -> relax succ h u (c, hp) d = (c', hp') ->
    (forall p, popped tr p -> c' p = c0 p) /\ told c' hp' tr /\ (forall x, In x hp -> In x hp').
  Proof.
    intros c0 u tr c hp d c' hp' V Pu Po Hlow Htr Same T A E.
    destruct (relax_cases succ h _ _ _ _ _ _ E) as [(-> & -> & _) | (q & w & Es & Lq & -> & ->)]; [auto |].
    destruct (HS u d q w V Es) as (Vq & Hw). pose proof (HH u d q w V A Es) as Hc. pose proof (Same u Pu) as Eu.
    assert (Nq : ~ popped tr q).
    { intros Pq. pose proof (le_le _ _ _ _ (Hlow q Pq)). pose proof (Same q Pq). lia. }
    assert (Nqo : q <> orig) by (intros ->; contradiction).
    assert (Sq : q = step u d) by (apply (O u d); [exact V | unfold move_of; rewrite Es; reflexivity]).
    set (y := (c u + w + h q, (q, opp d)) : entry).
    assert (Sy : src y = u) by (unfold src, y; cbn [e_pos e_dir fst snd]; rewrite Sq; apply step_opp).
    assert (PP : forall p, popped tr p -> put c q (c u + w) p = c p) by (intros p Hp; apply put_neq; intros ->; contradiction).
    assert (FK : forall p, popped tr p -> fk (put c q (c u + w)) p = fk c0 p) by (intros p Hp; unfold fk; rewrite (PP p Hp), (Same p Hp); reflexivity).
    assert (FK' : forall p, popped tr p -> fk c p = fk c0 p) by (intros p Hp; unfold fk; rewrite (Same p Hp); reflexivity).
    assert (Ky : le (fk c0 u) (ek y)).
    { unfold fk, ek, y. cbn [e_prio e_pos fst snd]. rewrite Eu. apply (le_succ u d q w (c0 u) V A Es). }
    assert (IN : forall x, In x (y :: hp) \/ In x tr -> x = y \/ (In x hp \/ In x tr)) by (intros x [[<- | H] | H]; auto).
    destruct T as [T0 T1 T2 T3 T4 T5 T6]. split; [intros p Hp; rewrite (PP p Hp); apply Same; exact Hp |]. split; [|intros x Hx; right; exact Hx].
    constructor.
    - intros x Hx Ex. destruct (IN x Hx) as [-> | Hx']; [cbn in Ex; congruence | apply T0; assumption].
    - intros p x Hp [<- | Hx]; rewrite (FK p Hp).
      + eapply le_trans; [apply (Hlow p Hp) | exact Ky].
      + rewrite <- (FK' p Hp). apply T1; assumption.
    - intros e x He [<- | Hx]; [eapply le_trans; [apply (Htr e He) | exact Ky] | apply T2; assumption].
    - intros x Hx Nx. destruct (IN x Hx) as [-> | Hx'].
      + unfold y. cbn [e_prio e_pos fst snd]. rewrite put_eq. lia.
      + pose proof (T3 x Hx' Nx) as G. destruct (pos_dec q (e_pos x)) as [E' | N]; [rewrite <- E' in *; rewrite put_eq; lia | rewrite put_neq by exact N; lia].
    - intros x Hx Nx. destruct (IN x Hx) as [-> | Hx'].
      + rewrite Sy. split; [exact Pu |]. unfold y. cbn [e_prio e_pos e_dir fst snd]. rewrite opp_opp. split; [exact A |]. exists w. split; [exact Es |]. rewrite (PP u Pu). reflexivity.
      + destruct (T4 x Hx' Nx) as (Ps & As & w' & Es' & Ep). split; [exact Ps |]. split; [exact As |]. exists w'. split; [exact Es' |]. rewrite (PP _ Ps). exact Ep.
    - intros x z Hx Hz Exz Nx L. assert (Nz : e_pos z <> orig) by (rewrite <- Exz; exact Nx).
      destruct (IN x Hx) as [-> | Hx'], (IN z Hz) as [-> | Hz'].
      + apply le_refl.
      + exfalso. pose proof (T3 z Hz' Nz) as G. rewrite <- Exz in G. unfold y in L, G. cbn [e_prio e_pos fst snd] in L, G. lia.
      + destruct (T4 x Hx' Nx) as (Ps & _). rewrite Sy, (FK _ Ps), (FK u Pu). apply Hlow. exact Ps.
      + destruct (T4 x Hx' Nx) as (Ps & _), (T4 z Hz' Nz) as (Pz & _). rewrite (FK _ Ps), (FK _ Pz), <- (FK' _ Ps), <- (FK' _ Pz). apply T5; assumption.
    - intros r Hr Nr. destruct (pos_dec q r) as [<- | N].
      + exists y. split; [left; left; reflexivity |]. unfold y. cbn [e_prio e_pos fst snd]. rewrite put_eq. auto.
      + rewrite put_neq in * by exact N. destruct (T6 r Hr Nr) as (x & Hx & K). exists x. split; [destruct Hx; [left; right; assumption | right; assumption] | exact K].
  Qed.
  Lemma told_run : forall c hp tr, ORun D succ h orig le c hp tr -> told c hp tr /\ (forall p, popped tr p -> known c hp tr p).
  Proof.
    intros c hp tr R. induction R as [|c hp tr e rest c' hp' R IH Ep Ee].
    - split; [|intros p (x & [] & _)]. constructor.
      + intros x [[<- | []] | []] _. reflexivity.
      + intros p x (y & [] & _).
      + intros e x [].
      + intros x [[<- | []] | []] N. cbn in N. congruence.
      + intros x [[<- | []] | []] N. cbn in N. congruence.
      + intros x y [[<- | []] | []] _ _ N. cbn in N. congruence.
      + intros q Hq N. rewrite put_neq in Hq by congruence. lia.
    - destruct IH as (T & KN). pose proof (pops_In _ _ _ (proj1 Ep)) as Hin.
      pose proof (finv0_run P D succ h orig Vo HS HA _ _ _ (orun_frun _ _ _ _ _ _ _ _ R)) as J. set (u := e_pos e) in *.
      assert (Lu : c u < COST_MAX) by (apply (i_fin _ _ _ _ _ _ _ _ J); left; apply Hin; auto).
      assert (V : valid P u) by (eapply bounded_valid; [exact Vo | exact HS | apply (i_bnd _ _ _ _ _ _ _ _ J) | exact Lu]).
      assert (SUB : forall x, In x rest \/ In x (e :: tr) -> In x hp \/ In x tr).
      { intros x [Hx | [<- | Hx]]; [left; apply Hin; auto | left; apply Hin; auto | right; exact Hx]. }
      assert (SUP : forall x, In x hp \/ In x tr -> In x rest \/ In x (e :: tr)).
      { intros x [Hx | Hx]; [|right; right; exact Hx]. apply Hin in Hx. destruct Hx as [-> | Hx]; [right; left; reflexivity | left; exact Hx]. }
      assert (He : In e hp) by (apply Hin; auto).
      assert (T' : (forall x, In x rest -> le (fk c u) (ek x)) -> told c rest (e :: tr)).
      { intros Hu. destruct T as [T0 T1 T2 T3 T4 T5 T6]. constructor.
        - intros x Hx. apply T0. apply SUB. exact Hx.
        - intros p x (y & [<- | Hy] & <-) Hx; [apply Hu; exact Hx | apply T1; [exists y; auto | apply Hin; auto]].
        - intros y x [<- | Hy] Hx; [apply (proj2 Ep x Hx) | apply T2; [exact Hy | apply Hin; auto]].
        - intros x Hx. apply T3. apply SUB. exact Hx.
        - intros x Hx Nx. destruct (T4 x (SUB x Hx) Nx) as (X1 & X2). split; [apply popped_cons; exact X1 | exact X2].
        - intros x y Hx Hy. apply T5; apply SUB; assumption.
        - intros q Hq Nq. destruct (T6 q Hq Nq) as (x & Hx & X). exists x. split; [apply SUP; exact Hx | exact X]. }
      assert (KNC : forall p, popped tr p -> known c rest (e :: tr) p).
      { intros p Hp d q w A Es Nq. destruct (KN p Hp d q w A Es Nq) as (x & Hx & X). exists x. split; [apply SUP; exact Hx | exact X]. }
      destruct (popped_dec tr u) as [Pu | Nu].
      + assert (Nt : tr <> []) by (intros ->; destruct Pu as (x & [] & _)).
        destruct (finv1_run P D succ h orig Vo HS HA HH H0 _ _ _ (orun_frun _ _ _ _ _ _ _ _ R) Nt) as (ord & J1).
        rewrite (expand_closed P D succ h HS HH H0 u c rest (j_closed _ _ _ _ _ _ _ _ J1 u Pu)) in Ee. injection Ee as <- <-.
        split.
        * apply T'. intros x Hx. apply (t_low _ _ _ T); [exact Pu | apply Hin; auto].
        * intros p (y & [<- | Hy] & <-); [apply KNC; exact Pu | apply KNC; exists y; auto].
      + assert (K : popped (e :: tr) orig /\ (forall p, popped (e :: tr) p -> le (fk c p) (fk c u)) /\ (forall y, In y (e :: tr) -> le (ek y) (fk c u)) /\ (forall x, In x rest -> le (fk c u) (ek x))).
        { destruct tr as [|t tr0].
          - pose proof (frun_first D succ h orig _ _ (orun_frun _ _ _ _ _ _ _ _ R)) as ->. destruct (pops_one _ _ _ (proj1 Ep)) as (-> & ->). cbn in u. split; [apply popped_head |]. split; [|split].
            + intros p (y & [<- | []] & <-). apply le_refl.
            + intros y [<- | []]. unfold ek, fk, u. cbn [e_prio e_pos e0 fst snd]. apply le_same. rewrite (proj1 (i_bnd _ _ _ _ _ _ _ _ J)). pose proof (H0 orig Vo). lia.
            + intros x [].
          - destruct (finv1_run P D succ h orig Vo HS HA HH H0 _ _ _ (orun_frun _ _ _ _ _ _ _ _ R)) as (ord & J1); [discriminate |].
            assert (Po : popped (t :: tr0) orig) by (apply (j_ord _ _ _ _ _ _ _ _ J1); destruct (j_last _ _ _ _ _ _ _ _ J1) as (l & ->); apply in_or_app; right; left; reflexivity).
            assert (No : u <> orig) by (intros E; apply Nu; rewrite E; exact Po).
            assert (Eu : ek e = fk c u).
            { destruct (t_cur _ _ _ T u Lu No) as (x & [Hx | Hx] & Ex & Px); [|exfalso; apply Nu; exists x; auto].
              pose proof (pops_min _ _ _ (proj1 Ep) x Hx). pose proof (t_ge _ _ _ T e (or_introl He) No) as X. fold u in X. unfold ek, fk. fold u. f_equal. lia. }
            rewrite <- Eu. split; [apply popped_cons; exact Po |]. split; [|split].
            + intros p (y & [<- | Hy] & <-); [fold u; rewrite Eu; apply le_refl | apply (t_low _ _ _ T); [exists y; auto | exact He]].
            + intros y [<- | Hy]; [apply le_refl | apply (t_tr _ _ _ T); assumption].
            + intros x Hx. apply (proj2 Ep x Hx). }
        destruct K as (Po & K1 & K2 & K3).
        assert (M : (forall p, popped (e :: tr) p -> c' p = c p) /\ told c' hp' (e :: tr) /\ (forall x, In x rest -> In x hp')).
        { apply (expand_inv D succ h (fun c1 hp1 => (forall p, popped (e :: tr) p -> c1 p = c p) /\ told c1 hp1 (e :: tr) /\ (forall x, In x rest -> In x hp1)) u c rest c' hp' Ee).
          - split; [auto |]. split; [apply T'; exact K3 | auto].
          - intros d c1 hp1 c2 hp2 A (S1 & S2 & S3) E1.
            destruct (told_relax c u (e :: tr) c1 hp1 d c2 hp2 V (popped_head e tr) Po K1 K2 S1 S2 A E1) as (X1 & X2 & X3). auto. }
        destruct M as (M1 & M2 & M3). split; [exact M2 |].
        assert (FK : forall p, popped (e :: tr) p -> fk c' p = fk c p) by (intros p Hp; unfold fk; rewrite (M1 p Hp); reflexivity).
        intros p Hp. assert (Hp' : p = u \/ popped tr p) by (destruct Hp as (y & [<- | Hy] & <-); [left; reflexivity | right; exists y; auto]).
        destruct Hp' as [-> | Hp'].
        * intros d q w A Es Nq. destruct (expand_mono P D succ h HS _ _ _ _ _ V Ee) as (Ecu & _ & Cl). pose proof (Cl d q w A Es) as Lq.
          pose proof (finv0_run P D succ h orig Vo HS HA _ _ _ (orun_frun _ _ _ _ _ _ _ _ (ORun1 D succ h orig le _ _ _ _ _ _ _ R Ep Ee))) as J'.
          assert (Lu' : c' u < COST_MAX) by (rewrite Ecu; exact Lu).
          pose proof (bounded_sum P D succ h orig Vo HS HA c' u d q w (i_bnd _ _ _ _ _ _ _ _ J') Lu' A Es) as (S1 & S2).
          assert (Lm : c' q < COST_MAX).
          { destruct (Z.eq_dec (c' q) COST_MAX) as [E | N]; [pose proof (S2 E); lia |]. pose proof (proj1 (proj2 (i_bnd _ _ _ _ _ _ _ _ J')) q). lia. }
          destruct (t_cur _ _ _ M2 q Lm Nq) as (x & Hx & Ex & Px). exists x. split; [exact Hx |]. split; [exact Ex |]. split; [lia |].
          assert (Nx : e_pos x <> orig) by (rewrite Ex; exact Nq). destruct (t_src _ _ _ M2 x Hx Nx) as (Ps & _).
          rewrite (FK _ Ps), (FK u (popped_head e tr)). apply K1. exact Ps.
        * intros d q w A Es Nq. destruct (KNC p Hp' d q w A Es Nq) as (x & Hx & Ex & Px & Lx). exists x.
          assert (Hx' : In x hp' \/ In x (e :: tr)) by (destruct Hx as [Hx | Hx]; [left; apply M3; exact Hx | right; exact Hx]).
          assert (Nx : e_pos x <> orig) by (rewrite Ex; exact Nq). destruct (t_src _ _ _ M2 x Hx' Nx) as (Ps & _).
          split; [exact Hx' |]. split; [exact Ex |]. rewrite (M1 p Hp). split; [exact Px |]. rewrite (FK _ Ps), (FK p Hp). exact Lx.
  Qed.
  (** The last entry popped for a position has the greatest priority. *)
  Lemma last_popped : forall c hp tr, ORun D succ h orig le c hp tr -> forall q, popped tr q ->
    exists y, In y tr /\ e_pos y = q /\ lastdir tr q = Some (e_dir y) /\ forall x, In x tr -> e_pos x = q -> e_prio x <= e_prio y.
  Proof.
    intros c hp tr R. induction R as [|c hp tr e rest c' hp' R IH Ep Ee]; intros q Pq; [destruct Pq as (x & [] & _) |].
    cbn [lastdir]. destruct (pos_eqb (e_pos e) q) eqn:Eq.
    - apply pos_eqb_eq in Eq. exists e. split; [left; reflexivity |]. split; [exact Eq |]. split; [reflexivity |].
      intros x [<- | Hx] _; [lia |]. apply (le_le _ _ _ _ (t_tr _ _ _ (proj1 (told_run _ _ _ R)) x e Hx (proj2 (pops_In _ _ _ (proj1 Ep) e) (or_introl eq_refl)))).
    - apply pos_eqb_neq in Eq. destruct (IH q) as (y & Hy & Ey & El & Em).
      { destruct Pq as (x & [<- | Hx] & <-); [congruence | exists x; auto]. }
      exists y. split; [right; exact Hy |]. split; [exact Ey |]. split; [exact El |]. intros x [<- | Hx] Ex; [congruence | apply Em; assumption].
  Qed.
  (** The entry into a position that is recorded when the destination is met. *)
  Lemma settled : forall c hp e tr, ORun D succ h orig le c hp (e :: tr) -> ~ popped tr (e_pos e) -> e_pos e <> orig ->
    forall q d, popped (e :: tr) q -> q <> orig -> lastdir (e :: tr) q = Some (opp d) ->
    let p := step q (opp d) in popped (e :: tr) p /\ allowed D d /\ exists w, succ p d = Some (q, w) /\
      le (c p + w + h q, q) (c (e_pos e) + h (e_pos e), e_pos e) /\
      forall p' d' w' k, cost_walk D succ orig k p' -> allowed D d' -> succ p' d' = Some (q, w') ->
        k + h p' < c (e_pos e) + h (e_pos e) ->
        (~ le (c (e_pos e) + h (e_pos e), e_pos e) (k + w' + h q, q) \/ q = e_pos e /\ k + w' + h q <= c (e_pos e) + h (e_pos e)) ->
        le (fk c p) (k + h p', p').
  Proof.
    intros c hp e tr R Nd Ndo q d Pq Nq El p. pose proof (told_run _ _ _ R) as (T & KN).
    pose proof (ffirst_pop_prio P D succ h orig Vo HS HA HH H0 c hp e tr (orun_frun _ _ _ _ _ _ _ _ R) Nd Ndo) as Epr.
    destruct (orun_pop D succ h orig le _ _ _ _ R) as (c1 & hp1 & rest & R1 & Ep & Ee). pose proof (told_run _ _ _ R1) as (T1 & _). pose proof (pops_In _ _ _ (proj1 Ep)) as Hin.
    destruct (last_popped _ _ _ R q Pq) as (y & Hy & Ey & El' & Em). rewrite El in El'. injection El' as Ed.
    assert (Ny : e_pos y <> orig) by (rewrite Ey; exact Nq).
    assert (Sy : src y = p) by (unfold src, p; rewrite Ey, <- Ed; reflexivity).
    destruct (t_src _ _ _ T y (or_intror Hy) Ny) as (Ps & As & w & Es & Epy). rewrite Sy in Ps, Es, Epy. rewrite <- Ed, opp_opp in As, Es. rewrite Ey in Es, Epy.
    split; [exact Ps |]. split; [exact As |]. exists w. split; [exact Es |]. rewrite <- Epy, <- Epr. split.
    - destruct Hy as [<- | Hy]; [rewrite Ey; apply le_refl |]. pose proof (t_tr _ _ _ T1 y e Hy (proj2 (Hin e) (or_introl eq_refl))) as X. unfold ek in X. rewrite Ey in X. exact X.
    - intros p' d' w' k Wk A' Es' L1 L2.
      destruct (fbelow_popped P D succ h orig Vo HS HA HH H0 c hp e tr (orun_frun _ _ _ _ _ _ _ _ R) Nd p' k Wk) as (Vp' & [Pp' | X]); [|rewrite <- Epr in X; lia].
      apply (popped_cons e) in Pp'. pose proof (frun_optimal P D succ h orig Vo HS HA HH H0 _ _ _ p' k (orun_frun _ _ _ _ _ _ _ _ R) Pp' Wk) as Lc.
      destruct (KN p' Pp' d' q w' A' Es' Nq) as (x & Hx & Ex & Px & Lx).
      assert (Lxy : e_prio x <= e_prio y).
      { destruct Hx as [Hx | Hx]; [|apply Em; assumption]. pose proof (t_tr _ _ _ T e x (or_introl eq_refl) Hx) as X. unfold ek in X. rewrite Ex in X.
        destruct L2 as [L2 | (-> & L2)].
        - exfalso. apply L2. eapply le_trans; [exact X |]. apply le_same. lia.
        - assert (E : y = e); [|rewrite E; lia]. destruct Hy as [<- | Hy]; [reflexivity |]. exfalso. apply Nd. exists y. auto. }
      pose proof (t_rec _ _ _ T y x (or_intror Hy) Hx (eq_trans Ey (eq_sym Ex)) Ny Lxy) as X. rewrite Sy in X.
      eapply le_trans; [exact X |]. eapply le_trans; [exact Lx |]. unfold fk. apply le_same. lia.
  Qed.
End Settle.

Lemma bp_steps : forall P f orig, post_wf P -> forall n p path, valid P p -> bp P f orig n p [] = Ok path ->
  fold_left step path orig = p /\
  forall l1 d l2, path = l1 ++ d :: l2 -> f (fold_left step (l1 ++ [d]) orig) = Some (opp d) /\ fold_left step (l1 ++ [d]) orig <> orig.
Proof.
  intros P f orig Wf.
  assert (K : forall n p ret path, valid P p -> bp P f orig n p ret = Ok path -> exists ds, path = ds ++ ret /\ fold_left step ds orig = p /\
    forall l1 d l2, ds = l1 ++ d :: l2 -> f (fold_left step (l1 ++ [d]) orig) = Some (opp d) /\ fold_left step (l1 ++ [d]) orig <> orig).
  { induction n as [|n IH]; intros p ret path V E; cbn [bp] in E; [discriminate |]. destruct (pos_eqb p orig) eqn:Ep.
    - injection E as <-. apply pos_eqb_eq in Ep. exists []. split; [reflexivity |]. split; [symmetry; exact Ep |]. intros [|z1 l1] d l2 X; discriminate X.
    - apply pos_eqb_neq in Ep. destruct (f p) as [d0|] eqn:Ef; [|discriminate].
      destruct (add_inside P p d0 Wf V) as [(Vs & Ea) | (_ & Ea)]; rewrite Ea in E; [|discriminate].
      destruct (IH _ _ _ Vs E) as (ds & -> & Ed & Hd). exists (ds ++ [opp d0]). split; [rewrite <- app_assoc; reflexivity |].
      assert (F : fold_left step (ds ++ [opp d0]) orig = p) by (rewrite fold_left_app; cbn [fold_left]; rewrite Ed; apply step_opp).
      split; [exact F |]. intros l1 d l2 X. destruct (exists_last (l := d :: l2)) as (l3 & z & El); [discriminate |].
      destruct l2 as [|z' l2'].
      + apply app_inj_tail in X. destruct X as (<- & <-). rewrite F, opp_opp. auto.
      + destruct l3 as [|d1 l3]; [discriminate |]. injection El as <- El. rewrite El in X. rewrite app_comm_cons, app_assoc in X. apply app_inj_tail in X. destruct X as (X & _). apply (Hd l1 d l3 X). }
  intros n p path V E. destruct (K n p [] path V E) as (ds & -> & X). rewrite app_nil_r. exact X.
Qed.

Lemma follow_fold : forall P go, go_inside P go -> one_step P go -> forall ds p q, valid P p -> follow go p ds = Some q -> q = fold_left step ds p /\ valid P q.
Proof.
  intros P go HG O. induction ds as [|d ds IH]; intros p q V F; cbn [follow fold_left] in *; [injection F as <-; auto |].
  destruct (go p d) as [r|] eqn:E; [|discriminate]. pose proof (O p d r V E) as ->. apply IH; [apply (HG p d _ V E) | exact F].
Qed.

(** The moves of a path found by going back along the recorded directions. *)
Section Moves.
  Context (P : post) (D : bool).
  Context (succ : pos -> dir -> option (pos * Z)) (h : pos -> Z) (orig : pos).
  Context (Wf : post_wf P) (Vo : valid P orig).
  Context (HS : forall p d q w, valid P p -> succ p d = Some (q, w) -> valid P q /\ 0 <= w).
  Context (HA : affordable D P succ orig).
  Context (HH : forall p d q w, valid P p -> allowed D d -> succ p d = Some (q, w) -> h p <= w + h q).
  Context (H0 : forall p, valid P p -> 0 <= h p).
  Context (O : one_step P (move_of succ)).
  Context (le : Z * pos -> Z * pos -> Prop).
  Context (le_lt : forall k p k' p', k < k' -> le (k, p) (k', p')).
  Context (le_le : forall k p k' p', le (k, p) (k', p') -> k <= k').
  Context (le_refl : forall a, le a a) (le_trans : forall a b c, le a b -> le b c -> le a c).
  Context (le_succ : forall p d q w k, valid P p -> allowed D d -> succ p d = Some (q, w) -> le (k + h p, p) (k + w + h q, q)).
  Lemma bp_settled : forall c hp e tr m path, ORun D succ h orig le c hp (e :: tr) -> ~ popped tr (e_pos e) ->
    bp P (lastdir (e :: tr)) orig m (e_pos e) [] = Ok path ->
    lowest_cost D succ orig (c (e_pos e)) (e_pos e) /\ Forall (allowed D) path /\ follow (move_of succ) orig path = Some (e_pos e) /\
    forall l1 d l2 p, path = l1 ++ d :: l2 -> follow (move_of succ) orig l1 = Some p ->
    exists q w k cp, q <> orig /\ e_pos e <> orig /\ succ p d = Some (q, w) /\ k = c (e_pos e) + h (e_pos e) /\ lowest_cost D succ orig cp p /\
      le (cp + w + h q, q) (k, e_pos e) /\
      forall p' d' w' c', lowest_cost D succ orig c' p' -> allowed D d' -> succ p' d' = Some (q, w') -> c' + h p' < k ->
        (~ le (k, e_pos e) (c' + w' + h q, q) \/ q = e_pos e /\ c' + w' + h q <= k) -> le (cp + h p, p) (c' + h p', p').
  Proof.
    intros c hp e tr m path R Nd E. set (dest := e_pos e) in *. assert (Pd : popped (e :: tr) dest) by apply popped_head.
    assert (PV : forall q, popped (e :: tr) q -> valid P q) by (intros q; apply (frun_valid P D succ h orig Vo HS HA _ _ _ q (orun_frun _ _ _ _ _ _ _ _ R))).
    assert (LC : forall q, popped (e :: tr) q -> lowest_cost D succ orig (c q) q).
    { intros q Hq. split; [|intros c' Wc; apply (frun_optimal P D succ h orig Vo HS HA HH H0 _ _ _ q c' (orun_frun _ _ _ _ _ _ _ _ R) Hq Wc)].
      apply (i_walk _ _ _ _ _ _ _ _ (finv0_run P D succ h orig Vo HS HA _ _ _ (orun_frun _ _ _ _ _ _ _ _ R))). apply (frun_popped_reachable P D succ h orig Vo HS HA _ _ _ q (orun_frun _ _ _ _ _ _ _ _ R) Hq). }
    destruct (bp_steps P (lastdir (e :: tr)) orig Wf m dest path (PV _ Pd) E) as (Ef & Hf).
    assert (POP : forall l1 l2, path = l1 ++ l2 -> popped (e :: tr) (fold_left step l1 orig)).
    { intros l1 l2. revert l1. induction l2 as [|d l2 IH]; intros l1 X; [rewrite app_nil_r in X; subst l1; rewrite Ef; exact Pd |].
      specialize (IH (l1 ++ [d])). rewrite <- app_assoc in IH. specialize (IH X). destruct (Hf l1 d l2 X) as (Hl & Hn).
      destruct (flastdir_back P D succ h orig Vo HS HA c hp (e :: tr) _ O (orun_frun _ _ _ _ _ _ _ _ R) IH Hn) as (y & w & _ & _ & El & Pp & _). rewrite Hl in El. injection El as El.
      rewrite <- El, fold_left_app in Pp. cbn [fold_left] in Pp. rewrite step_opp in Pp. exact Pp. }
    assert (ND : path <> [] -> dest <> orig).
    { intros N X. destruct m as [|m]; cbn [bp] in E; [discriminate |]. rewrite X, pos_eqb_refl in E. injection E as <-. congruence. }
    assert (MV : forall l1 d l2, path = l1 ++ d :: l2 -> let p := fold_left step l1 orig in exists q w, q <> orig /\ dest <> orig /\ allowed D d /\ succ p d = Some (q, w) /\
      le (c p + w + h q, q) (c dest + h dest, dest) /\
      forall p' d' w' c', lowest_cost D succ orig c' p' -> allowed D d' -> succ p' d' = Some (q, w') -> c' + h p' < c dest + h dest ->
        (~ le (c dest + h dest, dest) (c' + w' + h q, q) \/ q = dest /\ c' + w' + h q <= c dest + h dest) -> le (c p + h p, p) (c' + h p', p')).
    { intros l1 d l2 X p. destruct (Hf l1 d l2 X) as (Hl & Hn). pose proof (POP (l1 ++ [d]) l2 ltac:(rewrite <- app_assoc; exact X)) as Pq.
      assert (Ndo : dest <> orig) by (apply ND; rewrite X; destruct l1; discriminate).
      rewrite fold_left_app in *. cbn [fold_left] in *. fold p in Hl, Hn, Pq. set (q := step p d) in *.
      destruct (settled P D succ h orig Vo HS HA HH H0 O le le_lt le_le le_refl le_trans le_succ c hp e tr R Nd Ndo q d Pq Hn Hl) as (_ & A & w & Es & L & Hmin).
      replace (step q (opp d)) with p in * by (unfold q; symmetry; apply step_opp).
      exists q, w. split; [exact Hn |]. split; [exact Ndo |]. split; [exact A |]. split; [exact Es |]. split; [exact L |].
      intros p' d' w' c' (Wc & _) A' Es' L1 L2. apply (Hmin p' d' w' c' Wc A' Es' L1 L2). }
    assert (FO : forall l1 l2, path = l1 ++ l2 -> Forall (allowed D) l1 /\ follow (move_of succ) orig l1 = Some (fold_left step l1 orig)).
    { induction l1 as [|d l1 IH] using rev_ind; intros l2 X; [split; [constructor | reflexivity] |].
      rewrite <- app_assoc in X. destruct (IH _ X) as (A1 & F1). destruct (MV l1 d l2 X) as (q & w & _ & _ & A & Es & _).
      split; [apply Forall_app; auto |]. rewrite follow_app, F1. cbn [follow]. unfold move_of at 1. rewrite Es. rewrite fold_left_app. cbn [fold_left].
      f_equal. apply (O (fold_left step l1 orig) d); [apply PV; apply (POP l1 _ X) | unfold move_of; rewrite Es; reflexivity]. }
    destruct (FO path [] (eq_sym (app_nil_r path))) as (AP & FP). rewrite Ef in FP.
    split; [apply LC; exact Pd |]. split; [exact AP |]. split; [exact FP |].
    intros l1 d l2 p X F1. rewrite (proj2 (FO l1 _ X)) in F1. injection F1 as <-.
    destruct (MV l1 d l2 X) as (q & w & N1 & N2 & _ & Es & L & Hmin). exists q, w, (c dest + h dest), (c (fold_left step l1 orig)).
    split; [exact N1 |]. split; [exact N2 |]. split; [exact Es |]. split; [reflexivity |]. split; [apply LC; apply (POP l1 _ X) |]. split; [exact L | exact Hmin].
  Qed.
End Moves.

Lemma ahead_pop : forall hp e rest x, heap_pop hp = Some (e, rest) -> In x rest -> ahead (e_prio e, e_pos e) (e_prio x, e_pos x).
Proof.
  intros hp e rest x E Hx. assert (Hin : In x hp) by (apply (heap_pop_In _ _ _ E); auto).
  assert (N : ~ sooner x e).
  { destruct hp as [|y hp]; [discriminate |]. injection E as E. destruct (heap_take_sooner _ _ _ _ E) as (K1 & K2). destruct Hin as [<- | Hin]; [exact K1 | apply K2; exact Hin]. }
  unfold sooner in N. unfold ahead. cbn [fst snd]. lia.
Qed.

Lemma ahead_trans : forall a b c, ahead a b -> ahead b c -> ahead a c.
Proof. unfold ahead. intros. lia. Qed.

Lemma ahead_antisym : forall c p c' p', ahead (c, p) (c', p') -> ahead (c', p') (c, p) -> c = c' /\ p = p'.
Proof. unfold ahead. intros c [x y] c' [x' y'] H1 H2. cbn [fst snd] in *. assert (x = x' /\ y = y') as (-> & ->) by lia. split; [lia | reflexivity]. Qed.

Lemma lowest_unique : forall D go orig c c' p, lowest_cost D go orig c p -> lowest_cost D go orig c' p -> c = c'.
Proof. intros D go orig c c' p (W & M) (W' & M'). specialize (M _ W'). specialize (M' _ W). lia. Qed.

Lemma step_same : forall p d d', step p d = step p d' -> d = d'.
Proof. intros [x y] d d' E. unfold step in E. injection E as E1 E2. destruct d, d'; cbn [delta_x delta_y] in *; try reflexivity; lia. Qed.

Lemma no_cost_estimate : forall P D (go : pos -> dir -> option (pos * Z)) orig, go_inside P (move_of go) -> affordable D P go orig ->
  forall p d q w, valid P p -> allowed D d -> go p d = Some (q, w) -> 0 <= w + 0.
Proof. intros P D go orig HG SC p d q w V A E. destruct (afford_HS D P go orig HG SC p d q w V E). lia. Qed.

(** The moves of a path, with any way to break ties. *)
Lemma fucs_moves : forall P D go orig dest path l1 d l2 p, post_wf P -> valid P orig -> go_inside P (move_of go) -> one_step P (move_of go) -> affordable D P go orig ->
  foutcome P D go (fun _ => 0) orig dest (Ok path) -> path = l1 ++ d :: l2 -> follow (move_of go) orig l1 = Some p ->
  exists k c q w, lowest_cost D go orig k dest /\ lowest_cost D go orig c p /\ go p d = Some (q, w) /\ c + w <= k /\
    forall p' d' w' c', lowest_cost D go orig c' p' -> allowed D d' -> go p' d' = Some (q, w') -> c' + w' < k -> c <= c'.
Proof.
  intros P D go orig dest path l1 d l2 p WF V HG O SC Ho X F.
  destruct Ho as [(Y & _) | (c & hp & e & tr & R & Ed & Nd & _ & E)]; [discriminate |]. symmetry in E. subst dest.
  destruct (bp_settled P D go (fun _ => 0) orig WF V (afford_HS D P go orig HG SC) SC (no_cost_estimate P D go orig HG SC) ltac:(intros; lia) O
    (fun a b => fst a <= fst b)) with (c := c) (hp := hp) (e := e) (tr := tr) (m := maxn P) (path := path) as (LD & _ & _ & K); try assumption.
  - cbn [fst]. intros. lia.
  - cbn [fst]. intros. lia.
  - intros. lia.
  - intros. lia.
  - intros p1 d1 q w k V1 A1 E1. cbn [fst]. pose proof (no_cost_estimate P D go orig HG SC p1 d1 q w V1 A1 E1). lia.
  - apply frun_orun; [|exact R]. intros e1 x L. exact L.
  - destruct (K l1 d l2 p X F) as (q & w & k & cp & _ & _ & Es & -> & Lp & L & Hmin). cbn [fst] in *. exists (c (e_pos e)), cp, q, w.
    split; [exact LD |]. split; [exact Lp |]. split; [exact Es |]. split; [lia |].
    intros p' d' w' c' Lp' A' Es' L'. assert (valid P p') as Vp'.
    { destruct Lp' as ((ds & A & Fc) & _). apply follow_move_of in Fc. apply (follow_fold P (move_of go) HG O ds orig p' V Fc). }
    pose proof (no_cost_estimate P D go orig HG SC p' d' q w' Vp' A' Es').
    specialize (Hmin p' d' w' c' Lp' A' Es' ltac:(lia) ltac:(left; lia)). lia.
Qed.

Lemma C126_ucs_moves_proof : forall b P D W go orig dest path l1 d l2 p,
  usable b P W -> valid P orig -> valid P dest -> go_inside P (move_of go) -> one_step P (move_of go) -> affordable D P go orig ->
  returns (fun fuel => ucs_on b P D fuel go orig dest) (Ok path) ->
  path = l1 ++ d :: l2 -> follow (move_of go) orig l1 = Some p ->
  exists k c q w, lowest_cost D go orig k dest /\ lowest_cost D go orig c p /\ go p d = Some (q, w) /\ c + w <= k /\
    forall p' d' w' c', lowest_cost D go orig c' p' -> allowed D d' -> go p' d' = Some (q, w') -> c' + w' < k -> c <= c'.
Proof.
  intros b P D W go orig dest path l1 d l2 p U V Vd HG O SC Hr X F. pose proof (usable_grid_type b P W U) as G.
  destruct (ucs_on_outcome b P D W go orig dest U V Vd HG SC) as (r & Hr' & Ho). pose proof (returns_unique _ _ _ Hr Hr'). subst r.
  apply (fucs_moves P D go orig dest path l1 d l2 p (grid_type_wf P G) V HG O SC (outcome_fair _ _ _ _ _ _ _ Ho) X F).
Qed.

(** Which paths are returned, with any way to break ties. *)
Section Exact.
  Context (before : Z * pos -> Z * pos -> Prop).
  Context (before_lt : forall k p k' p', k < k' -> before (k, p) (k', p')).
  Context (before_le : forall k p k' p', before (k, p) (k', p') -> k <= k').
  Context (before_refl : forall a, before a a) (before_trans : forall a b c, before a b -> before b c -> before a c).
  Context (before_antisym : forall c p c' p', before (c, p) (c', p') -> before (c', p') (c, p) -> p = p').
  Lemma settled_of_bp : forall P D go orig c hp e tr m path, post_wf P -> valid P orig -> go_inside P (move_of go) -> one_step P (move_of go) -> affordable D P go orig ->
    (forall p d q w, valid P p -> go p d = Some (q, w) -> 0 < w) ->
    ORun D go (fun _ => 0) orig before c hp (e :: tr) -> ~ popped tr (e_pos e) -> bp P (lastdir (e :: tr)) orig m (e_pos e) [] = Ok path ->
    settled_path_by before D go orig (e_pos e) path.
  Proof.
    intros P D go orig c hp e tr m path WF V HG O SC POS R Nd E.
    destruct (bp_settled P D go (fun _ => 0) orig WF V (afford_HS D P go orig HG SC) SC (no_cost_estimate P D go orig HG SC) ltac:(intros; lia) O before)
      with (c := c) (hp := hp) (e := e) (tr := tr) (m := m) (path := path) as (LD & A & F & K); try assumption.
    - intros p1 d1 q w k V1 A1 E1. apply before_lt. pose proof (POS p1 d1 q w V1 E1). lia.
    - split; [exact A |]. split; [exact F |]. intros l1 d l2 p X Fp. destruct (K l1 d l2 p X Fp) as (q & w & k & cp & N & _ & Es & -> & Lp & L & Hmin).
      rewrite !Z.add_0_r in *. exists q. split; [unfold move_of; rewrite Es; reflexivity |]. split; [exact N |]. exists (c (e_pos e)), cp, w.
      split; [exact LD |]. split; [exact Lp |]. split; [exact Es |]. split; [exact L |].
      intros p' d' w' c' Lp' A' Es' L'. assert (valid P p') as Vp'.
      { destruct Lp' as ((ds & A0 & Fc) & _). apply follow_move_of in Fc. apply (follow_fold P (move_of go) HG O ds orig p' V Fc). }
      pose proof (POS p' d' q w' Vp' Es'). specialize (Hmin p' d' w' c' Lp' A' Es'). rewrite !Z.add_0_r in Hmin. pose proof (before_le _ _ _ _ L'). apply Hmin; [lia |].
      destruct (pos_dec q (e_pos e)) as [Eq | Nq]; [right; split; [exact Eq | lia] |].
      left. intros L2. apply Nq. apply (before_antisym _ _ _ _ L' L2).
  Qed.
  Lemma settled_unique : forall P D go orig dest path path', valid P orig -> go_inside P (move_of go) -> one_step P (move_of go) ->
    settled_path_by before D go orig dest path -> settled_path_by before D go orig dest path' -> path = path'.
  Proof using before_antisym.
    clear -before_antisym.
    intros P D go orig dest path path' V HG O (AP & F & K) (AP' & F' & K').
    assert (N : forall n l l' s p, (length l <= n)%nat -> path = l ++ s -> path' = l' ++ s -> follow (move_of go) orig l = Some p -> follow (move_of go) orig l' = Some p -> l = l').
    { induction n as [|n IH]; intros l l' s p Ln X X' Fl Fl'.
      - destruct l; [|cbn in Ln; lia]. destruct l' as [|d' m' _] using rev_ind; [reflexivity |]. exfalso.
        injection Fl as <-. rewrite <- app_assoc in X'. rewrite follow_app in Fl'. destruct (follow (move_of go) orig m') as [a'|] eqn:Fa'; [|discriminate].
        destruct (K' m' d' s a' X' Fa') as (q & Eq & Nq & _). cbn [follow] in Fl'. rewrite Eq in Fl'. injection Fl' as ->. congruence.
      - destruct l as [|d m _] using rev_ind; destruct l' as [|d' m' _] using rev_ind; [reflexivity | | |].
        + exfalso. injection Fl as <-. rewrite <- app_assoc in X'. rewrite follow_app in Fl'. destruct (follow (move_of go) orig m') as [a'|] eqn:Fa'; [|discriminate].
          destruct (K' m' d' s a' X' Fa') as (q & Eq & Nq & _). cbn [follow] in Fl'. rewrite Eq in Fl'. injection Fl' as ->. congruence.
        + exfalso. injection Fl' as <-. rewrite <- app_assoc in X. rewrite follow_app in Fl. destruct (follow (move_of go) orig m) as [a|] eqn:Fa; [|discriminate].
          destruct (K m d s a X Fa) as (q & Eq & Nq & _). cbn [follow] in Fl. rewrite Eq in Fl. injection Fl as ->. congruence.
        + rewrite <- app_assoc in X, X'. rewrite follow_app in Fl, Fl'.
          destruct (follow (move_of go) orig m) as [a|] eqn:Fa; [|discriminate]. destruct (follow (move_of go) orig m') as [a'|] eqn:Fa'; [|discriminate].
          destruct (K m d s a X Fa) as (q & Eq & Nq & S1). destruct (K' m' d' s a' X' Fa') as (q' & Eq' & Nq' & S2).
          cbn [follow] in Fl, Fl'. rewrite Eq in Fl. rewrite Eq' in Fl'. injection Fl as ->. injection Fl' as ->.
          destruct S1 as (k & c & w & Lk & Lc & Es & La & Mi). destruct S2 as (k' & c' & w' & Lk' & Lc' & Es' & La' & Mi').
          pose proof (lowest_unique _ _ _ _ _ _ Lk Lk') as <-.
          assert (Va : valid P a) by (apply (follow_fold P (move_of go) HG O m orig a V Fa)). assert (Va' : valid P a') by (apply (follow_fold P (move_of go) HG O m' orig a' V Fa')).
          assert (A : allowed D d /\ allowed D d').
          { rewrite Forall_forall in AP, AP'. split; [apply AP; rewrite X | apply AP'; rewrite X']; apply in_or_app; right; left; reflexivity. }
          assert (a = a') as <- by (apply (before_antisym c a c' a'); [apply (Mi a' d' w' c' Lc' (proj2 A) Es' La') | apply (Mi' a d w c Lc (proj1 A) Es La)]).
          assert (d = d') as <- by (apply (step_same a); rewrite <- (O a d p Va Eq), <- (O a d' p Va Eq'); reflexivity).
          f_equal. apply (IH m m' (d :: s) a); [rewrite app_length in Ln; cbn in Ln; lia | exact X | exact X' | exact Fa | exact Fa']. }
    apply (N (length path) path path' [] dest (Nat.le_refl _)); [symmetry; apply app_nil_r | symmetry; apply app_nil_r | exact F | exact F'].
  Qed.
  Lemma settled_exact : forall P D go orig dest r path, post_wf P -> valid P orig -> go_inside P (move_of go) -> one_step P (move_of go) -> affordable D P go orig ->
    (forall p d q w, valid P p -> go p d = Some (q, w) -> 0 < w) ->
    ooutcome D go (fun _ => 0) orig before P dest r ->
    (r = Ok path <-> settled_path_by before D go orig dest path /\ Z.of_nat (length path) <= cols P * cols P).
  Proof.
    intros P D go orig dest r path WF V HG O SC POS Ho.
    destruct (foutcome_cases P D go (fun _ => 0) orig V (afford_HS D P go orig HG SC) SC WF O dest r (ooutcome_foutcome _ _ _ _ _ _ _ _ Ho)) as (KU & KC).
    destruct Ho as [(-> & NR) | (c & hp & e & tr & R & Ed & Nd & RC & E)].
    - split; [discriminate |]. intros ((A & F & _) & _). exfalso. apply NR. exists (length path). exists path. auto.
    - subst dest. split.
      + intros ->. split.
        * apply (settled_of_bp P D go orig c hp e tr (maxn P) path WF V HG O SC POS R Nd). symmetry. exact E.
        * destruct KC as [(path' & X & _ & _ & L) | [X | X]]; [injection X as <-; exact L | discriminate X | discriminate X].
      + intros (S1 & L). destruct KC as [(path' & -> & _) | [-> | ->]].
        * pose proof (settled_of_bp P D go orig c hp e tr (maxn P) path' WF V HG O SC POS R Nd (eq_sym E)) as S2.
          rewrite (settled_unique P D go orig _ path path' V HG O S1 S2). reflexivity.
        * exfalso. apply (proj1 KU eq_refl). exact RC.
        * exfalso. destruct (foutcome_long P D go (fun _ => 0) orig V (afford_HS D P go orig HG SC) SC WF O (no_cost_estimate P D go orig HG SC) ltac:(intros; lia) c hp e tr (orun_frun _ _ _ _ _ _ _ _ R) (eq_sym E)) as (path' & m & Eb & L').
          pose proof (settled_of_bp P D go orig c hp e tr m path' WF V HG O SC POS R Nd Eb) as S2.
          rewrite (settled_unique P D go orig _ path path' V HG O S1 S2) in L. lia.
  Qed.
End Exact.

Lemma C126_ucs_exact_proof : forall b P D W go orig dest path,
  usable b P W -> valid P orig -> valid P dest -> go_inside P (move_of go) -> one_step P (move_of go) -> affordable D P go orig ->
  (forall p d q w, valid P p -> go p d = Some (q, w) -> 0 < w) ->
  (returns (fun fuel => ucs_on b P D fuel go orig dest) (Ok path) <->
   settled_path D go orig dest path /\ Z.of_nat (length path) <= cols P * cols P) /\
  forall path', settled_path D go orig dest path -> settled_path D go orig dest path' -> path' = path.
Proof.
  intros b P D W go orig dest path U V Vd HG O SC POS. pose proof (usable_grid_type b P W U) as G.
  assert (AN : forall c p c' p', ahead (c, p) (c', p') -> ahead (c', p') (c, p) -> p = p') by (intros c p c' p' H1 H2; apply (ahead_antisym c p c' p' H1 H2)).
  split; [|intros path' S1 S2; apply (settled_unique ahead AN P D go orig dest path' path V HG O S2 S1)].
  destruct (ucs_on_outcome b P D W go orig dest U V Vd HG SC) as (r & Hr & Ho).
  assert (Ho' : ooutcome D go (fun _ => 0) orig ahead P dest r).
  { destruct Ho as [K | (c & hp & e & tr & R & K)]; [left; exact K | right; exists c, hp, e, tr; split; [apply run_orun; [exact ahead_pop | exact R] | exact K]]. }
  assert (EX : r = Ok path <-> settled_path_by ahead D go orig dest path /\ Z.of_nat (length path) <= cols P * cols P).
  { apply (settled_exact ahead); try assumption.
    - intros. left. assumption.
    - unfold ahead. cbn [fst snd]. intros. lia.
    - unfold ahead. intros. lia.
    - exact ahead_trans.
    - exact (grid_type_wf P G). }
  unfold settled_path. rewrite <- EX. split; [intros H; apply (returns_unique _ _ _ Hr H) | intros ->; exact Hr].
Qed.

(** The same of A*. *)
Lemma fastar_moves : forall P go orig dest path l1 d l2 p, post_wf P -> valid P orig -> go_inside P go -> one_step P go -> affordable false P (unit_cost go) orig ->
  foutcome P false (unit_cost go) (fun q => mdist q dest) orig dest (Ok path) -> path = l1 ++ d :: l2 -> follow go orig l1 = Some p ->
  exists n m q, at_distance false go orig n dest /\ at_distance false go orig m p /\ go p d = Some q /\
    Z.of_nat m + 1 + mdist q dest <= Z.of_nat n /\
    forall p' d' m', at_distance false go orig m' p' -> allowed false d' -> go p' d' = Some q ->
      Z.of_nat m' + 1 + mdist q dest < Z.of_nat n -> Z.of_nat m + mdist p dest <= Z.of_nat m' + mdist p' dest.
Proof.
  intros P go orig dest path l1 d l2 p WF V HG O HA Ho X F.
  destruct Ho as [(Y & _) | (c & hp & e & tr & R & Ed & Nd & _ & E)]; [discriminate |]. symmetry in E. subst dest.
  assert (HH : forall p d q w, valid P p -> allowed false d -> unit_cost go p d = Some (q, w) -> mdist p (e_pos e) <= w + mdist q (e_pos e)).
  { intros p1 d1 q1 w1 V1 A1 E1. apply (mdist_consistent P go (e_pos e) p1 d1 q1 w1 O V1 A1 E1). }
  assert (LU : forall k q, lowest_cost false (unit_cost go) orig k q <-> exists n, k = Z.of_nat n /\ at_distance false go orig n q).
  { intros k q. unfold lowest_cost, at_distance. split.
    - intros (W1 & M). apply cost_walk_unit in W1. destruct W1 as (n & -> & W1). exists n. split; [reflexivity |]. split; [exact W1 |]. intros j Lj Wj.
      specialize (M (Z.of_nat j) (proj2 (cost_walk_unit false go orig (Z.of_nat j) q) (ex_intro _ j (conj eq_refl Wj)))). lia.
    - intros (n & -> & W1 & M). split; [apply cost_walk_unit; eauto |]. intros k' Wk. apply cost_walk_unit in Wk. destruct Wk as (j & -> & Wj).
      destruct (Nat.le_gt_cases n j) as [L | L]; [lia |]. exfalso. apply (M j L Wj). }
  destruct (bp_settled P false (unit_cost go) (fun q => mdist q (e_pos e)) orig WF V (unit_HS P go HG) HA HH ltac:(intros; apply mdist_nonneg) (one_step_unit go P O)
    (fun a b => fst a <= fst b)) with (c := c) (hp := hp) (e := e) (tr := tr) (m := maxn P) (path := path) as (LD & _ & _ & K); try assumption.
  - cbn [fst]. intros. lia.
  - cbn [fst]. intros. lia.
  - intros. lia.
  - intros. lia.
  - intros p1 d1 q w k V1 A1 E1. cbn [fst]. pose proof (HH p1 d1 q w V1 A1 E1). lia.
  - apply frun_orun; [|exact R]. intros e1 x L. exact L.
  - rewrite <- follow_unit in F. destruct (K l1 d l2 p X F) as (q & w & k & cp & _ & _ & Es & -> & Lp & L & Hmin). cbn [fst] in *.
    apply LU in LD, Lp. destruct LD as (n & En & Dn), Lp as (m & -> & Dm). rewrite En in *.
    assert (Z0 : mdist (e_pos e) (e_pos e) = 0) by (unfold mdist; rewrite !Z.sub_diag; reflexivity). rewrite Z0 in *.
    unfold unit_cost in Es. destruct (go p d) as [q1|] eqn:Eg; [|discriminate]. injection Es as -> <-.
    exists n, m, q. split; [exact Dn |]. split; [exact Dm |]. split; [reflexivity |]. split; [lia |].
    intros p' d' m' Dm' A' Eg' L'. assert (Es' : unit_cost go p' d' = Some (q, 1)) by (unfold unit_cost; rewrite Eg'; reflexivity).
    assert (Vp' : valid P p') by (eapply (walk_valid false go P); [exact HG | exact V | apply Dm']).
    pose proof (HH p' d' q 1 Vp' A' Es').
    apply (Hmin p' d' 1 (Z.of_nat m') (proj2 (LU _ _) (ex_intro _ m' (conj eq_refl Dm'))) A' Es' ltac:(lia) ltac:(left; lia)).
Qed.

Lemma C126_astar_moves_proof : forall b P W go orig dest path l1 d l2 p,
  usable b P W -> valid P orig -> valid P dest -> go_inside P go -> one_step P go ->
  returns (fun fuel => astar_on b P false fuel go orig dest) (Ok path) ->
  path = l1 ++ d :: l2 -> follow go orig l1 = Some p ->
  let left q := Z.abs (fst q - fst dest) + Z.abs (snd q - snd dest) in
  exists n m q, at_distance false go orig n dest /\ at_distance false go orig m p /\ go p d = Some q /\
    Z.of_nat m + 1 + left q <= Z.of_nat n /\
    forall p' d' m', at_distance false go orig m' p' -> allowed false d' -> go p' d' = Some q ->
      Z.of_nat m' + 1 + left q < Z.of_nat n -> Z.of_nat m + left p <= Z.of_nat m' + left p'.
Proof.
  intros b P W go orig dest path l1 d l2 p U V Vd HG O Hr X F left0. pose proof (usable_grid_type b P W U) as G.
  destruct (astar_on_outcome b P false W go orig dest U V Vd HG) as (r & Hr' & Ho). pose proof (returns_unique _ _ _ Hr Hr'). subst r.
  exact (fastar_moves P go orig dest path l1 d l2 p (grid_type_wf P G) V HG O (unit_HA P G false go orig V HG) (outcome_fair _ _ _ _ _ _ _ Ho) X F).
Qed.
