(** ChronoBy.v -- Chrono.v for runs that break ties by any order: the order in which a
    best-first search with consistent estimates pops positions, and what its queue
    entries tell about it. *)

From Coq Require Import ZArith List Bool Lia.
From Verif Require Import Rust BoundedInt Dir PosT Pos SetMap CameFrom Heap Astar Ucs Spec SpecSearch SpecSettle Lib Deque BoundedIntProofs PosTProofs PosTProofs2 PropDirProofs SetMapProofs Sim CameFromProofs BfProofs Fair BestFirst Ordered SearchProofs PropSettleProofs Chrono.
Import ListNotations.
Open Scope Z_scope.

Section ChronBy.
  Context (P : post) (D : bool).
  Context (succ : pos -> dir -> option (pos * Z)) (h : pos -> Z) (orig : pos).
  Context (Vo : valid P orig).
  Context (HS : forall p d q w, valid P p -> succ p d = Some (q, w) -> valid P q /\ 0 <= w).
  Context (HA : affordable D P succ orig).
  Context (HH : forall p d q w, valid P p -> allowed D d -> succ p d = Some (q, w) -> h p <= w + h q).
  Context (H0 : forall p, valid P p -> 0 <= h p).
  Context (O : one_step P (move_of succ)).
  Context (le : Z * pos -> Z * pos -> Prop).

  Lemma oinv0_run : forall c hp tr, ORun D succ h orig le c hp tr -> inv0 D succ h orig c hp tr (fun _ => False).
  Proof using Vo HS HA. intros c hp tr R. exact (finv0_run P D succ h orig Vo HS HA _ _ _ (orun_frun _ _ _ _ _ _ _ _ R)). Qed.
  Lemma oinv1_run : forall c hp tr, ORun D succ h orig le c hp tr -> tr <> [] -> exists ord, inv1 D succ h orig c hp tr ord.
  Proof using Vo HS HA HH H0. intros c hp tr R. exact (finv1_run P D succ h orig Vo HS HA HH H0 _ _ _ (orun_frun _ _ _ _ _ _ _ _ R)). Qed.
  Lemma orun_popped_reachable : forall c hp tr p, ORun D succ h orig le c hp tr -> popped tr p -> reachable D (move_of succ) orig p /\ c p < COST_MAX.
  Proof using Vo HS HA. intros c hp tr p R. exact (frun_popped_reachable P D succ h orig Vo HS HA _ _ _ p (orun_frun _ _ _ _ _ _ _ _ R)). Qed.
  Lemma orun_optimal : forall c hp tr p k, ORun D succ h orig le c hp tr -> popped tr p -> cost_walk D succ orig k p -> c p <= k.
  Proof using Vo HS HA HH H0. intros c hp tr p k R. exact (frun_optimal P D succ h orig Vo HS HA HH H0 _ _ _ p k (orun_frun _ _ _ _ _ _ _ _ R)). Qed.
  Lemma ofirst_pop : forall c hp tr e, ORun D succ h orig le c hp (e :: tr) -> ~ popped tr (e_pos e) ->
    e = e0 orig \/ exists p d w, popped tr p /\ allowed D d /\ succ p d = Some (e_pos e, w) /\ e_dir e = opp d /\ c (e_pos e) = c p + w.
  Proof using Vo HS HA HH H0. intros c hp tr e R. exact (ffirst_pop P D succ h orig Vo HS HA HH H0 _ _ _ e (orun_frun _ _ _ _ _ _ _ _ R)). Qed.
  Lemma ofirst_pop_prio : forall c hp e tr, ORun D succ h orig le c hp (e :: tr) -> ~ popped tr (e_pos e) -> e_pos e <> orig ->
    e_prio e = c (e_pos e) + h (e_pos e).
  Proof using Vo HS HA HH H0. intros c hp e tr R. exact (ffirst_pop_prio P D succ h orig Vo HS HA HH H0 c hp e tr (orun_frun _ _ _ _ _ _ _ _ R)). Qed.

  Lemma ochron_told : forall c hp tr, ORun D succ h orig le c hp tr -> told D succ h orig le0 c hp tr.
  Proof.
    intros c hp tr R. apply (told_run P D succ h orig Vo HS HA HH H0 O le0); unfold le0; cbn [fst]; try (intros; lia).
    - intros p d q w k V A E. pose proof (HH p d q w V A E). lia.
    - apply frun_orun; [|apply (orun_frun _ _ _ _ _ _ _ _ R)]. intros e1 x L. exact L.
  Qed.

  Lemma ochron_last : forall c hp tr, ORun D succ h orig le c hp tr -> forall q, popped tr q ->
    exists y, In y tr /\ e_pos y = q /\ lastdir tr q = Some (e_dir y) /\ forall x, In x tr -> e_pos x = q -> e_prio x <= e_prio y.
  Proof.
    intros c hp tr R. apply (last_popped P D succ h orig Vo HS HA HH H0 O le0) with (c := c) (hp := hp); unfold le0; cbn [fst]; try (intros; lia).
    - intros p d q w k V A E. pose proof (HH p d q w V A E). lia.
    - apply frun_orun; [|apply (orun_frun _ _ _ _ _ _ _ _ R)]. intros e1 x L. exact L.
  Qed.

  Lemma ochron_low : forall c hp tr p, ORun D succ h orig le c hp tr -> popped tr p -> lowest_cost D succ orig (c p) p.
  Proof.
    intros c hp tr p R Hp. split; [|intros c' Wc; apply (orun_optimal _ _ _ p c' R Hp Wc)].
    apply (i_walk _ _ _ _ _ _ _ _ (oinv0_run _ _ _ R)). apply (orun_popped_reachable _ _ _ p R Hp).
  Qed.

  Lemma ochron_same : forall c hp tr c1 hp1 tr1 p, ORun D succ h orig le c hp tr -> popped tr p -> ORun D succ h orig le c1 hp1 tr1 -> popped tr1 p -> c p = c1 p.
  Proof. intros. eapply lowest_unique; eapply ochron_low; eassumption. Qed.

  Lemma ochron_closed : forall c hp tr p, ORun D succ h orig le c hp tr -> popped tr p -> closed D succ c p.
  Proof.
    intros c hp tr p R Hp. assert (Nt : tr <> []) by (intros ->; destruct Hp as (x & [] & _)).
    destruct (oinv1_run _ _ _ R Nt) as (ord & J). apply (j_closed _ _ _ _ _ _ _ _ J p Hp).
  Qed.

  (** A position next to a popped one is popped or waits. *)
  Lemma ochron_waits : forall c hp tr p d q w, ORun D succ h orig le c hp tr -> popped tr p -> allowed D d -> succ p d = Some (q, w) ->
    c q <= c p + w /\ c q < COST_MAX /\ (popped tr q \/ exists x, In x hp /\ e_pos x = q /\ e_prio x = c q + h q).
  Proof.
    intros c hp tr p d q w R Hp A Es. assert (Nt : tr <> []) by (intros ->; destruct Hp as (x & [] & _)).
    destruct (oinv1_run _ _ _ R Nt) as (ord & J). pose proof (j_closed _ _ _ _ _ _ _ _ J p Hp d q w A Es) as L.
    pose proof (oinv0_run _ _ _ R) as J'. pose proof (proj2 (orun_popped_reachable _ _ _ p R Hp)) as Lp.
    pose proof (bounded_sum P D succ h orig Vo HS HA c p d q w (i_bnd _ _ _ _ _ _ _ _ J') Lp A Es) as (S1 & S2).
    assert (Lm : c q < COST_MAX) by (destruct (Z.eq_dec (c q) COST_MAX) as [E | N]; [pose proof (S2 E); lia | pose proof (proj1 (proj2 (i_bnd _ _ _ _ _ _ _ _ J')) q); lia]).
    split; [exact L |]. split; [exact Lm |]. destruct (popped_dec tr q) as [Y | N]; [left; exact Y | right; apply (j_entry _ _ _ _ _ _ _ _ J q Lm N)].
  Qed.

  Lemma orun_orig : forall c hp e tr, ORun D succ h orig le c hp (e :: tr) -> popped (e :: tr) orig.
  Proof.
    intros c hp e tr R. destruct (oinv1_run _ _ _ R) as (ord & J); [discriminate |].
    apply (j_ord _ _ _ _ _ _ _ _ J). destruct (j_last _ _ _ _ _ _ _ _ J) as (l & ->). apply in_or_app. right. left. reflexivity.
  Qed.

  (** An entry comes from a position that offered a lower cost than all before. *)
  Lemma ochron_record : forall c hp tr, ORun D succ h orig le c hp tr -> forall x, In x hp \/ In x tr -> e_pos x <> orig ->
    exists t e, first tr t e /\ e_pos e = src x /\
      forall z d w, popped t z -> allowed D d -> succ z d = Some (e_pos x, w) -> e_prio x < c z + w + h (e_pos x).
  Proof.
    intros c hp tr R. induction R as [|c hp tr e rest c' hp' R IH Ep Ee].
    - intros x [[<- | []] | []] N. cbn in N. congruence.
    - pose proof (ORun1 D succ h orig le _ _ _ _ _ _ _ R Ep Ee) as R'. pose proof (pops_In _ _ _ (proj1 Ep)) as Hin.
      pose proof (oinv0_run _ _ _ R) as J. set (u := e_pos e) in *.
      assert (Lu : c u < COST_MAX) by (apply (i_fin _ _ _ _ _ _ _ _ J); left; apply Hin; auto).
      assert (V : valid P u) by (eapply bounded_valid; [exact Vo | exact HS | apply (i_bnd _ _ _ _ _ _ _ _ J) | exact Lu]).
      assert (OLD : forall x, In x hp \/ In x tr -> e_pos x <> orig -> exists t e1, first (e :: tr) t e1 /\ e_pos e1 = src x /\
        forall z d w, popped t z -> allowed D d -> succ z d = Some (e_pos x, w) -> e_prio x < c' z + w + h (e_pos x)).
      { intros x Hx Nx. destruct (IH x Hx Nx) as (t & e1 & F & E1 & K). exists t, e1. split; [apply first_cons; auto |]. split; [exact E1 |].
        intros z d w Hz A Es. pose proof (K z d w Hz A Es). pose proof (first_sub _ _ _ _ F Hz) as Hz'.
        rewrite (ochron_same _ _ _ _ _ _ z R' (popped_cons e _ _ Hz') R Hz'). assumption. }
      destruct (expand_new P D succ h HS HH H0 u c rest c' hp' V Ee) as (_ & NEW).
      intros x [Hx | [<- | Hx]] Nx; [|apply OLD; [left; apply Hin; auto | exact Nx] | apply OLD; auto].
      destruct (NEW x Hx) as [Hx' | (d & q & w & A & Es & -> & L)]; [apply OLD; [left; apply Hin; auto | exact Nx] |].
      assert (Nu : ~ popped tr u).
      { intros Pu. pose proof (ochron_closed _ _ _ u R Pu d q w A Es). lia. }
      assert (Sq : q = step u d) by (apply (O u d); [exact V | unfold move_of; rewrite Es; reflexivity]).
      exists tr, e. split; [apply first_cons; left; auto |]. split; [unfold src; cbn [e_pos e_dir fst snd]; rewrite Sq, step_opp; reflexivity |].
      cbn [e_pos e_prio fst snd]. intros z d' w' Hz A' Es'. pose proof (ochron_closed _ _ _ z R Hz d' q w' A' Es').
      rewrite (ochron_same _ _ _ _ _ _ z R' (popped_cons e _ _ Hz) R Hz). lia.
  Qed.

  Lemma orun_src : forall c hp tr x, ORun D succ h orig le c hp tr -> In x hp \/ In x tr -> e_pos x <> orig ->
    popped tr (src x) /\ allowed D (opp (e_dir x)) /\ exists w, succ (src x) (opp (e_dir x)) = Some (e_pos x, w) /\ e_prio x = c (src x) + w + h (e_pos x).
  Proof. intros c hp tr x R. apply (t_src _ _ _ _ _ _ _ _ (ochron_told _ _ _ R) x). Qed.

  (** Two entries of a position with the same priority come from the same position. *)
  Lemma ochron_src : forall c hp tr x y, ORun D succ h orig le c hp tr -> In x hp \/ In x tr -> In y hp \/ In y tr -> e_pos x = e_pos y -> e_pos x <> orig ->
    e_prio x = e_prio y -> src x = src y.
  Proof.
    assert (K : forall c hp tr x y t e t1 e1, ORun D succ h orig le c hp tr -> In x hp \/ In x tr -> e_pos x = e_pos y -> e_pos x <> orig ->
      first tr t e -> e_pos e = src x -> first tr t1 e1 -> e_pos e1 = src y ->
      (forall z d w, popped t1 z -> allowed D d -> succ z d = Some (e_pos y, w) -> e_prio y < c z + w + h (e_pos y)) -> e_prio x = e_prio y -> ~ popped t1 (src x)).
    { intros c hp tr x y t e t1 e1 R Hx Exy Nx F E F1 E1 K Ep Hp. destruct (orun_src c hp tr x R Hx Nx) as (_ & A & w & Es & Epx).
      rewrite Exy in Es, Epx. pose proof (K _ _ _ Hp A Es). lia. }
    intros c hp tr x y R Hx Hy Exy Nx Ep. assert (Ny : e_pos y <> orig) by (rewrite <- Exy; exact Nx).
    destruct (ochron_record c hp tr R x Hx Nx) as (t & e & F & E & Kx). destruct (ochron_record c hp tr R y Hy Ny) as (t1 & e1 & F1 & E1 & Ky).
    pose proof (K c hp tr x y t e t1 e1 R Hx Exy Nx F E F1 E1 Ky Ep) as N1.
    pose proof (K c hp tr y x t1 e1 t e R Hy (eq_sym Exy) Ny F1 E1 F E Kx (eq_sym Ep)) as N2.
    rewrite <- E in N1. rewrite <- E1 in N2. rewrite <- E, <- E1. destruct F as (l & X & _), F1 as (l1 & X1 & _). rewrite X in X1. clear -X1 N1 N2.
    revert l1 X1. induction l as [|z l IH]; intros [|z1 l1] X; cbn [app] in X; injection X as X1 X2.
    - congruence.
    - subst t. exfalso. apply N2. exists e1. split; [apply in_or_app; right; left; reflexivity | reflexivity].
    - subst t1. exfalso. apply N1. exists e. split; [apply in_or_app; right; left; reflexivity | reflexivity].
    - apply (IH l1 X2).
  Qed.

  (** The state before some entry was popped. *)
  Lemma orun_split : forall l c hp e t, ORun D succ h orig le c hp (l ++ e :: t) ->
    exists c1 hp1 rest c2 hp2, ORun D succ h orig le c1 hp1 t /\ opops le hp1 e rest /\ ORun D succ h orig le c2 hp2 (e :: t) /\
      forall x, In x hp1 \/ In x t -> In x hp \/ In x (l ++ e :: t).
  Proof.
    assert (ST : forall c hp e t, ORun D succ h orig le c hp (e :: t) -> exists c1 hp1 rest, ORun D succ h orig le c1 hp1 t /\ opops le hp1 e rest /\
      forall x, In x hp1 \/ In x t -> In x hp \/ In x (e :: t)).
    { intros c hp e t R. destruct (orun_pop D succ h orig le _ _ _ _ R) as (c1 & hp1 & rest & R1 & Ep & Ee). exists c1, hp1, rest. split; [exact R1 |]. split; [exact Ep |].
      pose proof (pops_In _ _ _ (proj1 Ep)) as Hin. pose proof (oinv0_run _ _ _ R1) as J.
      assert (Lu : c1 (e_pos e) < COST_MAX) by (apply (i_fin _ _ _ _ _ _ _ _ J); left; apply Hin; auto).
      assert (V : valid P (e_pos e)) by (eapply bounded_valid; [exact Vo | exact HS | apply (i_bnd _ _ _ _ _ _ _ _ J) | exact Lu]).
      destruct (expand_new P D succ h HS HH H0 _ _ _ _ _ V Ee) as (M & _). intros x [Hx | Hx]; [|right; right; exact Hx]. apply Hin in Hx. destruct Hx as [<- | Hx]; [right; left; reflexivity | left; apply M; exact Hx]. }
    induction l as [|y l IH]; intros c hp e t R; cbn [app] in *.
    - destruct (ST c hp e t R) as (c1 & hp1 & rest & R1 & Ep & M). exists c1, hp1, rest, c, hp. auto.
    - destruct (ST c hp y _ R) as (c1 & hp1 & rest & R1 & Ep & M). destruct (IH c1 hp1 e t R1) as (c2 & hp2 & rest2 & c3 & hp3 & R2 & Ep2 & R3 & M2).
      exists c2, hp2, rest2, c3, hp3. split; [exact R2 |]. split; [exact Ep2 |]. split; [exact R3 |]. intros x Hx. apply M. destruct (M2 x Hx) as [H | H]; [left; exact H | right; exact H].
  Qed.

  (** The first entry popped for a position. *)
  Lemma ochron_first : forall c hp tr t e, ORun D succ h orig le c hp tr -> first tr t e -> e_pos e <> orig ->
    e_prio e = c (e_pos e) + h (e_pos e) /\ popped t (src e).
  Proof.
    intros c hp tr t e R F N. pose proof (first_popped _ _ _ F) as Pe. destruct F as (l & -> & Nt).
    destruct (orun_split l c hp e t R) as (c1 & hp1 & rest & c2 & hp2 & R1 & Ep & R2 & _).
    rewrite (ochron_same _ _ _ _ _ _ (e_pos e) R Pe R2 (popped_head e t)). split; [apply (ofirst_pop_prio c2 hp2 e t R2 Nt N) |].
    apply (orun_src c1 hp1 t e R1); [left; apply (pops_In _ _ _ (proj1 Ep)); auto | exact N].
  Qed.
End ChronBy.
