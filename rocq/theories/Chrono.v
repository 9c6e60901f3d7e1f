(** Chrono.v -- the order in which a best-first search with consistent estimates
    pops positions, and what its queue entries tell about it. *)

From Coq Require Import ZArith List Bool Lia.
From Verif Require Import Rust BoundedInt Dir PosT Pos SetMap CameFrom Heap Astar Ucs Spec SpecSearch SpecSettle Lib Deque BoundedIntProofs PosTProofs PosTProofs2 PropDirProofs SetMapProofs Sim CameFromProofs BfProofs Fair BestFirst Ordered SearchProofs PropSettleProofs.
Import ListNotations.
Open Scope Z_scope.

(** The entry [e] of the trace (latest first) is the first one popped for its
    position; [t] are the entries popped before. *)
Definition first (tr t : list entry) (e : entry) : Prop := exists l, tr = l ++ e :: t /\ ~ popped t (e_pos e).

Lemma popped_app : forall l t p, popped (l ++ t) p <-> popped l p \/ popped t p.
Proof.
  intros l t p. split.
  - intros (e & He & E). apply in_app_or in He. destruct He; [left | right]; exists e; auto.
  - intros [(e & He & E) | (e & He & E)]; exists e; split; auto; apply in_or_app; auto.
Qed.

Lemma first_cons : forall e tr t x, first (e :: tr) t x <-> (x = e /\ t = tr /\ ~ popped tr (e_pos e)) \/ first tr t x.
Proof.
  intros e tr t x. split.
  - intros ([|y l] & E & N); cbn [app] in E; injection E as E1 E2; subst; [left; auto | right; exists l; auto].
  - intros [(-> & -> & N) | (l & -> & N)]; [exists []; auto | exists (e :: l); auto].
Qed.

Lemma first_ex : forall tr p, popped tr p -> exists t e, first tr t e /\ e_pos e = p.
Proof.
  induction tr as [|e tr IH]; intros p Hp; [destruct Hp as (x & [] & _) |].
  destruct (popped_dec tr p) as [Y | N].
  - destruct (IH p Y) as (t & x & F & E). exists t, x. split; [apply first_cons; auto | exact E].
  - destruct Hp as (x & [<- | Hx] & <-); [|exfalso; apply N; exists x; auto]. exists tr, e. split; [apply first_cons; auto | reflexivity].
Qed.

Lemma first_popped : forall tr t e, first tr t e -> popped tr (e_pos e).
Proof. intros tr t e (l & -> & _). exists e. split; [apply in_or_app; right; left; reflexivity | reflexivity]. Qed.

Lemma first_sub : forall tr t e p, first tr t e -> popped t p -> popped tr p.
Proof. intros tr t e p (l & -> & _) Hp. apply popped_app. right. apply popped_cons. exact Hp. Qed.

Lemma first_within : forall tr t e p, first tr t e -> popped t p -> exists t1 e1 l, first tr t1 e1 /\ e_pos e1 = p /\ t = l ++ e1 :: t1.
Proof.
  intros tr t e p (l & -> & N) Hp. destruct (first_ex t p Hp) as (t1 & e1 & (l1 & -> & N1) & E1). exists t1, e1, l1. split; [|auto].
  exists (l ++ e :: l1). split; [rewrite <- app_assoc; reflexivity | exact N1].
Qed.

Lemma first_unique : forall tr t e t1 e1, first tr t e -> first tr t1 e1 -> e_pos e = e_pos e1 -> t = t1 /\ e = e1.
Proof.
  induction tr as [|x tr IH]; intros t e t1 e1 F F1 E; [destruct F as ([|y l] & X & _); discriminate X |].
  apply first_cons in F, F1. destruct F as [(-> & -> & N) | F], F1 as [(-> & -> & N1) | F1].
  - auto.
  - exfalso. apply N. rewrite E. apply (first_popped _ _ _ F1).
  - exfalso. apply N1. rewrite <- E. apply (first_popped _ _ _ F).
  - apply (IH _ _ _ _ F F1 E).
Qed.

Lemma run_det : forall D succ h orig c hp tr, Run D succ h orig c hp tr -> forall c1 hp1, Run D succ h orig c1 hp1 tr -> c1 = c /\ hp1 = hp.
Proof.
  intros D succ h orig c hp tr R. induction R as [|c hp tr e rest c' hp' R IH Ep Ee]; intros c1 hp1 R1.
  - inversion R1; subst; auto.
  - inversion R1 as [|c2 hp2 tr2 e2 rest2 c3 hp3 R2 Ep2 Ee2]; subst. destruct (IH _ _ R2) as (-> & ->).
    rewrite Ep2 in Ep. injection Ep as ->. rewrite Ee2 in Ee. injection Ee as -> ->. auto.
Qed.

Section Chron.
  Context (P : post) (D : bool).
  Context (succ : pos -> dir -> option (pos * Z)) (h : pos -> Z) (orig : pos).
  Context (Vo : valid P orig).
  Context (HS : forall p d q w, valid P p -> succ p d = Some (q, w) -> valid P q /\ 0 <= w).
  Context (HA : affordable D P succ orig).
  Context (HH : forall p d q w, valid P p -> allowed D d -> succ p d = Some (q, w) -> h p <= w + h q).
  Context (H0 : forall p, valid P p -> 0 <= h p).
  Context (O : one_step P (move_of succ)).

  Definition le0 (a b : Z * pos) : Prop := fst a <= fst b.

  Lemma chron_told : forall c hp tr, Run D succ h orig c hp tr -> told D succ h orig le0 c hp tr.
  Proof.
    intros c hp tr R. apply (told_run P D succ h orig Vo HS HA HH H0 O le0); unfold le0; cbn [fst]; try (intros; lia).
    - intros p d q w k V A E. pose proof (HH p d q w V A E). lia.
    - apply frun_orun; [|apply run_fair; exact R]. intros e1 x L. exact L.
  Qed.

  Lemma chron_last : forall c hp tr, Run D succ h orig c hp tr -> forall q, popped tr q ->
    exists y, In y tr /\ e_pos y = q /\ lastdir tr q = Some (e_dir y) /\ forall x, In x tr -> e_pos x = q -> e_prio x <= e_prio y.
  Proof.
    intros c hp tr R. apply (last_popped P D succ h orig Vo HS HA HH H0 O le0) with (c := c) (hp := hp); unfold le0; cbn [fst]; try (intros; lia).
    - intros p d q w k V A E. pose proof (HH p d q w V A E). lia.
    - apply frun_orun; [|apply run_fair; exact R]. intros e1 x L. exact L.
  Qed.

  Lemma chron_low : forall c hp tr p, Run D succ h orig c hp tr -> popped tr p -> lowest_cost D succ orig (c p) p.
  Proof.
    intros c hp tr p R Hp. split; [|intros c' Wc; apply (run_optimal P D succ h orig Vo HS HA HH H0 _ _ _ p c' R Hp Wc)].
    apply (i_walk _ _ _ _ _ _ _ _ (inv0_run P D succ h orig Vo HS HA _ _ _ R)). apply (run_popped_reachable P D succ h orig Vo HS HA _ _ _ p R Hp).
  Qed.

  Lemma chron_same : forall c hp tr c1 hp1 tr1 p, Run D succ h orig c hp tr -> popped tr p -> Run D succ h orig c1 hp1 tr1 -> popped tr1 p -> c p = c1 p.
  Proof. intros. eapply lowest_unique; eapply chron_low; eassumption. Qed.

  Lemma chron_closed : forall c hp tr p, Run D succ h orig c hp tr -> popped tr p -> closed D succ c p.
  Proof.
    intros c hp tr p R Hp. assert (Nt : tr <> []) by (intros ->; destruct Hp as (x & [] & _)).
    destruct (inv1_run P D succ h orig Vo HS HA HH H0 _ _ _ R Nt) as (ord & J). apply (j_closed _ _ _ _ _ _ _ _ J p Hp).
  Qed.

  (** A position next to a popped one is popped or waits. *)
  Lemma chron_waits : forall c hp tr p d q w, Run D succ h orig c hp tr -> popped tr p -> allowed D d -> succ p d = Some (q, w) ->
    c q <= c p + w /\ c q < COST_MAX /\ (popped tr q \/ exists x, In x hp /\ e_pos x = q /\ e_prio x = c q + h q).
  Proof.
    intros c hp tr p d q w R Hp A Es. assert (Nt : tr <> []) by (intros ->; destruct Hp as (x & [] & _)).
    destruct (inv1_run P D succ h orig Vo HS HA HH H0 _ _ _ R Nt) as (ord & J). pose proof (j_closed _ _ _ _ _ _ _ _ J p Hp d q w A Es) as L.
    pose proof (inv0_run P D succ h orig Vo HS HA _ _ _ R) as J'. pose proof (proj2 (run_popped_reachable P D succ h orig Vo HS HA _ _ _ p R Hp)) as Lp.
    pose proof (bounded_sum P D succ h orig Vo HS HA c p d q w (i_bnd _ _ _ _ _ _ _ _ J') Lp A Es) as (S1 & S2).
    assert (Lm : c q < COST_MAX) by (destruct (Z.eq_dec (c q) COST_MAX) as [E | N]; [pose proof (S2 E); lia | pose proof (proj1 (proj2 (i_bnd _ _ _ _ _ _ _ _ J')) q); lia]).
    split; [exact L |]. split; [exact Lm |]. destruct (popped_dec tr q) as [Y | N]; [left; exact Y | right; apply (j_entry _ _ _ _ _ _ _ _ J q Lm N)].
  Qed.

  Lemma run_orig : forall c hp e tr, Run D succ h orig c hp (e :: tr) -> popped (e :: tr) orig.
  Proof.
    intros c hp e tr R. destruct (inv1_run P D succ h orig Vo HS HA HH H0 _ _ _ R) as (ord & J); [discriminate |].
    apply (j_ord _ _ _ _ _ _ _ _ J). destruct (j_last _ _ _ _ _ _ _ _ J) as (l & ->). apply in_or_app. right. left. reflexivity.
  Qed.

  (** What the expansion of a position adds to the queue. *)
  Lemma expand_new : forall u c hp c' hp', valid P u -> expand D succ h u (c, hp) = (c', hp') ->
    (forall x, In x hp -> In x hp') /\
    (forall x, In x hp' -> In x hp \/ exists d q w, allowed D d /\ succ u d = Some (q, w) /\ x = (c u + w + h q, (q, opp d)) /\ c u + w < c q).
  Proof.
    intros u c hp c' hp' V Ee.
    apply (expand_inv D succ h (fun c1 hp1 => (c1 u = c u /\ forall q, c1 q <= c q) /\ (forall x, In x hp -> In x hp1) /\
      (forall x, In x hp1 -> In x hp \/ exists d q w, allowed D d /\ succ u d = Some (q, w) /\ x = (c u + w + h q, (q, opp d)) /\ c u + w < c q)) u c hp c' hp' Ee).
    - split; [split; [reflexivity | intros; lia] |]. auto.
    - intros d c1 hp1 c2 hp2 A ((S0 & S1) & S2 & S3) E1.
      destruct (relax_cases succ h _ _ _ _ _ _ E1) as [(-> & -> & _) | (q & w & Es & Lq & -> & ->)]; [auto |].
      destruct (HS u d q w V Es) as (_ & Hw). pose proof (S1 q).
      split; [|split].
      + split; [rewrite put_neq; [exact S0 | intros ->; lia] |]. intros r. destruct (pos_dec q r) as [<- | N]; [rewrite put_eq; lia | rewrite put_neq by exact N; apply S1].
      + intros x Hx. right. auto.
      + intros x [<- | Hx]; [|auto]. right. exists d, q, w. rewrite <- S0. split; [exact A |]. split; [exact Es |]. split; [reflexivity | lia].
  Qed.

  (** An entry comes from a position that offered a lower cost than all before. *)
  Lemma chron_record : forall c hp tr, Run D succ h orig c hp tr -> forall x, In x hp \/ In x tr -> e_pos x <> orig ->
    exists t e, first tr t e /\ e_pos e = src x /\
      forall z d w, popped t z -> allowed D d -> succ z d = Some (e_pos x, w) -> e_prio x < c z + w + h (e_pos x).
  Proof.
    intros c hp tr R. induction R as [|c hp tr e rest c' hp' R IH Ep Ee].
    - intros x [[<- | []] | []] N. cbn in N. congruence.
    - pose proof (Run1 D succ h orig _ _ _ _ _ _ _ R Ep Ee) as R'. pose proof (heap_pop_In _ _ _ Ep) as Hin.
      pose proof (inv0_run P D succ h orig Vo HS HA _ _ _ R) as J. set (u := e_pos e) in *.
      assert (Lu : c u < COST_MAX) by (apply (i_fin _ _ _ _ _ _ _ _ J); left; apply Hin; auto).
      assert (V : valid P u) by (eapply bounded_valid; [exact Vo | exact HS | apply (i_bnd _ _ _ _ _ _ _ _ J) | exact Lu]).
      assert (OLD : forall x, In x hp \/ In x tr -> e_pos x <> orig -> exists t e1, first (e :: tr) t e1 /\ e_pos e1 = src x /\
        forall z d w, popped t z -> allowed D d -> succ z d = Some (e_pos x, w) -> e_prio x < c' z + w + h (e_pos x)).
      { intros x Hx Nx. destruct (IH x Hx Nx) as (t & e1 & F & E1 & K). exists t, e1. split; [apply first_cons; auto |]. split; [exact E1 |].
        intros z d w Hz A Es. pose proof (K z d w Hz A Es). pose proof (first_sub _ _ _ _ F Hz) as Hz'.
        rewrite (chron_same _ _ _ _ _ _ z R' (popped_cons e _ _ Hz') R Hz'). assumption. }
      destruct (expand_new u c rest c' hp' V Ee) as (_ & NEW).
      intros x [Hx | [<- | Hx]] Nx; [|apply OLD; [left; apply Hin; auto | exact Nx] | apply OLD; auto].
      destruct (NEW x Hx) as [Hx' | (d & q & w & A & Es & -> & L)]; [apply OLD; [left; apply Hin; auto | exact Nx] |].
      assert (Nu : ~ popped tr u).
      { intros Pu. pose proof (chron_closed _ _ _ u R Pu d q w A Es). lia. }
      assert (Sq : q = step u d) by (apply (O u d); [exact V | unfold move_of; rewrite Es; reflexivity]).
      exists tr, e. split; [apply first_cons; left; auto |]. split; [unfold src; cbn [e_pos e_dir fst snd]; rewrite Sq, step_opp; reflexivity |].
      cbn [e_pos e_prio fst snd]. intros z d' w' Hz A' Es'. pose proof (chron_closed _ _ _ z R Hz d' q w' A' Es').
      rewrite (chron_same _ _ _ _ _ _ z R' (popped_cons e _ _ Hz) R Hz). lia.
  Qed.

  Lemma run_src : forall c hp tr x, Run D succ h orig c hp tr -> In x hp \/ In x tr -> e_pos x <> orig ->
    popped tr (src x) /\ allowed D (opp (e_dir x)) /\ exists w, succ (src x) (opp (e_dir x)) = Some (e_pos x, w) /\ e_prio x = c (src x) + w + h (e_pos x).
  Proof. intros c hp tr x R. apply (t_src _ _ _ _ _ _ _ _ (chron_told _ _ _ R) x). Qed.

  (** Two entries of a position with the same priority come from the same position. *)
  Lemma chron_src : forall c hp tr x y, Run D succ h orig c hp tr -> In x hp \/ In x tr -> In y hp \/ In y tr -> e_pos x = e_pos y -> e_pos x <> orig ->
    e_prio x = e_prio y -> src x = src y.
  Proof.
    assert (K : forall c hp tr x y t e t1 e1, Run D succ h orig c hp tr -> In x hp \/ In x tr -> e_pos x = e_pos y -> e_pos x <> orig ->
      first tr t e -> e_pos e = src x -> first tr t1 e1 -> e_pos e1 = src y ->
      (forall z d w, popped t1 z -> allowed D d -> succ z d = Some (e_pos y, w) -> e_prio y < c z + w + h (e_pos y)) -> e_prio x = e_prio y -> ~ popped t1 (src x)).
    { intros c hp tr x y t e t1 e1 R Hx Exy Nx F E F1 E1 K Ep Hp. destruct (run_src c hp tr x R Hx Nx) as (_ & A & w & Es & Epx).
      rewrite Exy in Es, Epx. pose proof (K _ _ _ Hp A Es). lia. }
    intros c hp tr x y R Hx Hy Exy Nx Ep. assert (Ny : e_pos y <> orig) by (rewrite <- Exy; exact Nx).
    destruct (chron_record c hp tr R x Hx Nx) as (t & e & F & E & Kx). destruct (chron_record c hp tr R y Hy Ny) as (t1 & e1 & F1 & E1 & Ky).
    pose proof (K c hp tr x y t e t1 e1 R Hx Exy Nx F E F1 E1 Ky Ep) as N1.
    pose proof (K c hp tr y x t1 e1 t e R Hy (eq_sym Exy) Ny F1 E1 F E Kx (eq_sym Ep)) as N2.
    rewrite <- E in N1. rewrite <- E1 in N2. rewrite <- E, <- E1. destruct F as (l & X & _), F1 as (l1 & X1 & _). rewrite X in X1. clear -X1 N1 N2.
    revert l1 X1. induction l as [|z l IH]; intros [|z1 l1] X; cbn [app] in X; injection X as X1 X2.
    - congruence.
    - subst t. exfalso. apply N2. exists e1. split; [apply in_or_app; right; left; reflexivity | reflexivity].
    - subst t1. exfalso. apply N1. exists e. split; [apply in_or_app; right; left; reflexivity | reflexivity].
    - apply (IH l1 X2).
  Qed.

  (** The state before some entry was popped. *)
  Lemma run_split : forall l c hp e t, Run D succ h orig c hp (l ++ e :: t) ->
    exists c1 hp1 rest c2 hp2, Run D succ h orig c1 hp1 t /\ heap_pop hp1 = Some (e, rest) /\ Run D succ h orig c2 hp2 (e :: t) /\
      forall x, In x hp1 \/ In x t -> In x hp \/ In x (l ++ e :: t).
  Proof.
    assert (ST : forall c hp e t, Run D succ h orig c hp (e :: t) -> exists c1 hp1 rest, Run D succ h orig c1 hp1 t /\ heap_pop hp1 = Some (e, rest) /\
      forall x, In x hp1 \/ In x t -> In x hp \/ In x (e :: t)).
    { intros c hp e t R. destruct (run_pop D succ h orig _ _ _ _ R) as (c1 & hp1 & rest & R1 & Ep & Ee). exists c1, hp1, rest. split; [exact R1 |]. split; [exact Ep |].
      pose proof (heap_pop_In _ _ _ Ep) as Hin. pose proof (inv0_run P D succ h orig Vo HS HA _ _ _ R1) as J.
      assert (Lu : c1 (e_pos e) < COST_MAX) by (apply (i_fin _ _ _ _ _ _ _ _ J); left; apply Hin; auto).
      assert (V : valid P (e_pos e)) by (eapply bounded_valid; [exact Vo | exact HS | apply (i_bnd _ _ _ _ _ _ _ _ J) | exact Lu]).
      destruct (expand_new _ _ _ _ _ V Ee) as (M & _). intros x [Hx | Hx]; [|right; right; exact Hx]. apply Hin in Hx. destruct Hx as [<- | Hx]; [right; left; reflexivity | left; apply M; exact Hx]. }
    induction l as [|y l IH]; intros c hp e t R; cbn [app] in *.
    - destruct (ST c hp e t R) as (c1 & hp1 & rest & R1 & Ep & M). exists c1, hp1, rest, c, hp. auto.
    - destruct (ST c hp y _ R) as (c1 & hp1 & rest & R1 & Ep & M). destruct (IH c1 hp1 e t R1) as (c2 & hp2 & rest2 & c3 & hp3 & R2 & Ep2 & R3 & M2).
      exists c2, hp2, rest2, c3, hp3. split; [exact R2 |]. split; [exact Ep2 |]. split; [exact R3 |]. intros x Hx. apply M. destruct (M2 x Hx) as [H | H]; [left; exact H | right; exact H].
  Qed.

  (** The first entry popped for a position. *)
  Lemma chron_first : forall c hp tr t e, Run D succ h orig c hp tr -> first tr t e -> e_pos e <> orig ->
    e_prio e = c (e_pos e) + h (e_pos e) /\ popped t (src e).
  Proof.
    intros c hp tr t e R F N. pose proof (first_popped _ _ _ F) as Pe. destruct F as (l & -> & Nt).
    destruct (run_split l c hp e t R) as (c1 & hp1 & rest & c2 & hp2 & R1 & Ep & R2 & _).
    rewrite (chron_same _ _ _ _ _ _ (e_pos e) R Pe R2 (popped_head e t)). split; [apply (first_pop_prio P D succ h orig Vo HS HA HH H0 c2 hp2 e t R2 Nt N) |].
    apply (run_src c1 hp1 t e R1); [left; apply (heap_pop_In _ _ _ Ep); auto | exact N].
  Qed.
End Chron.
