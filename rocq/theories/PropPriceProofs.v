(** PropPriceProofs.v -- proofs of the statements of PropPrice.v. *)

From Coq Require Import ZArith List Bool Lia.
From Verif Require Import Rust BoundedInt Dir PosT Pos Grid Gridbool SetMap CameFrom Bf Heap Astar Ucs Spec SpecSearch SpecPrice Lib Deque BoundedIntProofs PosTProofs PosTProofs2 PropDirProofs SetMapProofs Sim CameFromProofs PropSetMapProofs BfProofs PropBfProofs BestFirst SearchProofs UcsProofs PropUcsProofs.
Import ListNotations.
Open Scope Z_scope.

(** The cost of a reconstructed path, up to a ratio. *)
Lemma bp_ratio : forall P f orig (succ : pos -> dir -> option (pos * Z)) (c : pos -> Z) (Q : pos -> Prop) a b, post_wf P -> c orig = 0 ->
  (forall p d, Q p -> p <> orig -> f p = Some d ->
     Q (step p d) /\ exists w, succ (step p d) (opp d) = Some (p, w) /\ a * w <= b * (c p - c (step p d))) ->
  forall n p path, Q p -> valid P p -> bp P f orig n p [] = Ok path -> exists k, follow_cost succ orig path = Some (p, k) /\ a * k <= b * c p.
Proof.
  intros P f orig succ c Q a b W C0 HQ.
  assert (K : forall n p ret path, Q p -> valid P p -> bp P f orig n p ret = Ok path ->
    exists ds k, path = ds ++ ret /\ follow_cost succ orig ds = Some (p, k) /\ a * k <= b * c p).
  { induction n as [|n IH]; intros p ret path Hp V E; cbn [bp] in E; [discriminate |].
    destruct (pos_eqb p orig) eqn:Ep.
    - inv E. apply pos_eqb_eq in Ep. subst p. exists [], 0. cbn. rewrite C0. split; [reflexivity |]. split; [reflexivity | lia].
    - apply pos_eqb_neq in Ep. destruct (f p) as [d|] eqn:Ef; [|discriminate].
      destruct (add_inside P p d W V) as [(Vs & Ea) | (_ & Ea)]; rewrite Ea in E; [|discriminate].
      destruct (HQ p d Hp Ep Ef) as (H1 & w & H2 & H3). destruct (IH _ _ _ H1 Vs E) as (ds & k & -> & H4 & H5).
      exists (ds ++ [opp d]), (k + w). rewrite <- app_assoc. split; [reflexivity |]. split; [eapply follow_cost_snoc; eassumption | nia]. }
  intros n p path Hp V E. destruct (K n p [] path Hp V E) as (ds & k & -> & F & L). rewrite app_nil_r. eauto.
Qed.

Section Ratio.
  Context (P : post) (D : bool) (go : pos -> dir -> option (pos * Z)) (orig : pos).
  Context (Vo : valid P orig).
  Context (HS : forall p d q w, valid P p -> go p d = Some (q, w) -> valid P q /\ 0 <= w).
  Context (HA : affordable D P go orig).
  Notation h0 := (fun _ : pos => 0).

  Lemma h0_cons : forall p d q w, valid P p -> allowed D d -> go p d = Some (q, w) -> 0 <= w + 0.
  Proof using HS. intros p d q w V A E. destruct (HS p d q w V E). lia. Qed.

  (** Where the recorded costs and the entries of the frontier come from: a move
      from [p] was kept only if no other move known then was as cheap. *)
  Record origins (c : pos -> Z) (hp : heap) (tr : list entry) : Prop := {
    o_pred : forall r, c r < COST_MAX -> r = orig \/ exists p d w, popped tr p /\ allowed D d /\ go p d = Some (r, w) /\ c r = c p + w;
    o_just : forall x, In x hp \/ In x tr -> x = e0 orig \/ exists p d w, popped tr p /\ allowed D d /\ go p d = Some (e_pos x, w) /\ e_dir x = opp d /\
      forall p' d' w', popped tr p' -> allowed D d' -> go p' d' = Some (e_pos x, w') -> c p + w <= c p' + w' \/ c p <= c p' }.

  Lemma run_origins : forall c hp tr, Run D go h0 orig c hp tr -> origins c hp tr.
  Proof using Vo HS HA.
    intros c hp tr R. induction R as [|c hp tr e rest c' hp' R IH Ep Ee].
    - constructor.
      + intros r L. destruct (pos_dec orig r) as [E | N]; [left; auto |]. rewrite put_neq in L by exact N. lia.
      + intros x [[<- | []] | []]. left. reflexivity.
    - pose proof (Run1 D go h0 orig _ _ _ _ _ _ _ R Ep Ee) as R'. pose proof (heap_pop_In _ _ _ Ep) as Hin.
      pose proof (inv0_run P D go h0 orig Vo HS HA _ _ _ R) as I. pose proof (inv0_run P D go h0 orig Vo HS HA _ _ _ R') as I'.
      assert (He : In e hp) by (apply Hin; auto). pose proof (i_fin _ _ _ _ _ _ _ _ I e (or_introl He)) as Lu. set (u := e_pos e) in *.
      pose proof (bounded_valid P D go orig Vo HS c u (i_bnd _ _ _ _ _ _ _ _ I) Lu) as Vu.
      destruct (expand_mono P D go h0 HS _ _ _ _ _ Vu Ee) as (Eu' & LE' & _).
      assert (OPT : forall p k, popped tr p -> cost_walk D go orig k p -> c p <= k).
      { intros p k Hp Hk. apply (run_optimal P D go h0 orig Vo HS HA) with (hp := hp) (tr := tr) (p := p); try assumption; [|intros; lia].
        intros p1 d1 q1 w1 V1 A1 E1. destruct (HS p1 d1 q1 w1 V1 E1). lia. }
      destruct IH as [Op Oj].
      destruct (popped_dec tr u) as [Pu | Nu].
      + (* a stale entry *)
        assert (CL : closed D go c u).
        { destruct (inv1_run P D go h0 orig Vo HS HA) with (c := c) (hp := hp) (tr := tr) as (ord & J).
          - intros p1 d1 q1 w1 V1 A1 E1. destruct (HS p1 d1 q1 w1 V1 E1). lia.
          - intros. lia.
          - exact R.
          - intros ->. destruct Pu as (x & [] & _).
          - apply (j_closed _ _ _ _ _ _ _ _ J u Pu). }
        rewrite (expand_closed P D go h0 HS h0_cons (fun p _ => Z.le_refl 0) u c rest CL) in Ee. inversion Ee; subst c' hp'.
        assert (PE : forall p, popped (e :: tr) p <-> popped tr p).
        { intros p. split; [|apply popped_cons]. intros (x & [<- | Hx] & <-); [exact Pu | exists x; auto]. }
        constructor.
        * intros r L. destruct (Op r L) as [X | (p & d & w & Hp & X)]; [auto |]. right. exists p, d, w. rewrite PE. auto.
        * intros x Hx. assert (Hx' : In x hp \/ In x tr) by (destruct Hx as [Hx | [<- | Hx]]; [left; apply Hin; auto | auto | auto]).
          destruct (Oj x Hx') as [X | (p & d & w & Hp & A & Es & Ed & X)]; [auto |]. right. exists p, d, w. rewrite PE.
          split; [exact Hp |]. split; [exact A |]. split; [exact Es |]. split; [exact Ed |]. intros p' d' w' Hp'. apply X. apply PE. exact Hp'.
      + (* a new position *)
        assert (SAME' : forall p, popped (e :: tr) p -> c' p = c p).
        { intros p (x & [<- | Hx] & <-); [exact Eu' |]. apply Z.le_antisymm; [apply LE' |]. apply OPT; [exists x; auto |].
          apply (i_walk _ _ _ _ _ _ _ _ I'). apply (i_fin _ _ _ _ _ _ _ _ I'). right. right. exact Hx. }
        assert (LOW : forall p, popped tr p -> c p <= c u).
        { intros p Hp. rewrite <- (SAME' p (popped_cons e tr p Hp)), <- (SAME' u (popped_head e tr)).
          assert (X : c' p + 0 <= c' u + 0); [|lia].
          apply (pop_order P D go h0 orig Vo HS HA) with (hp := hp') (e := e) (tr := tr); try assumption; [|intros; lia].
          intros p1 d1 q1 w1 V1 A1 E1. destruct (HS p1 d1 q1 w1 V1 E1). lia. }
        assert (CLOSED : forall p, popped tr p -> closed D go c p).
        { intros p Hp. destruct (inv1_run P D go h0 orig Vo HS HA) with (c := c) (hp := hp) (tr := tr) as (ord & J).
          - intros p1 d1 q1 w1 V1 A1 E1. destruct (HS p1 d1 q1 w1 V1 E1). lia.
          - intros. lia.
          - exact R.
          - intros ->. destruct Hp as (x & [] & _).
          - apply (j_closed _ _ _ _ _ _ _ _ J p Hp). }
        refine (proj1 (expand_inv D go h0 (fun c1 hp1 => origins c1 hp1 (e :: tr) /\ (forall p, popped (e :: tr) p -> c1 p = c p) /\ forall p, c1 p <= c p) u c rest c' hp' Ee _ _)).
        * split; [|split; [reflexivity | intros; lia]]. constructor.
          -- intros r L. destruct (Op r L) as [X | (p & d & w & Hp & X)]; [auto |]. right. exists p, d, w. split; [apply popped_cons; exact Hp | exact X].
          -- intros x Hx. assert (Hx' : In x hp \/ In x tr) by (destruct Hx as [Hx | [<- | Hx]]; [left; apply Hin; auto | auto | auto]).
             destruct (Oj x Hx') as [X | (p & d & w & Hp & A & Es & Ed & X)]; [auto |]. right. exists p, d, w. split; [apply popped_cons; exact Hp |].
             split; [exact A |]. split; [exact Es |]. split; [exact Ed |]. intros p' d' w' Hp' A' Es'.
             destruct Hp' as (y & [<- | Hy] & <-); [right; apply LOW; exact Hp |]. apply (X (e_pos y) d' w'); [exists y; auto | exact A' | exact Es'].
        * intros d c1 hp1 c2 hp2 A ([Yp Yj] & SA & LE) E1.
          destruct (relax_cases _ _ _ _ _ _ _ _ E1) as [(-> & -> & _) | (q & w & Es & Lq & -> & ->)]; [split; [constructor; assumption | auto] |].
          pose proof (SA u (popped_head e tr)) as SU. destruct (HS u d q w Vu Es) as (Vq & Hw).
          assert (Nq : ~ popped (e :: tr) q).
          { intros Pq. rewrite (SA q Pq), SU in Lq. destruct Pq as (x & [<- | Hx] & Ex).
            - fold u in Ex. rewrite Ex in Lq. lia.
            - pose proof (OPT q (c u + w) (ex_intro _ x (conj Hx Ex)) (cost_walk_snoc D go orig _ _ _ _ _ (i_walk _ _ _ _ _ _ _ _ I u Lu) A Es)). lia. }
          assert (PUT : forall p v, popped (e :: tr) p -> put c1 q v p = c1 p) by (intros p v Hp; apply put_neq; intros ->; contradiction).
          split; [|split].
          -- constructor.
             ++ intros r L. destruct (pos_dec q r) as [<- | N].
                ** right. exists u, d, w. rewrite put_eq. rewrite PUT by apply popped_head. split; [apply popped_head | auto].
                ** rewrite put_neq in * by exact N. destruct (Yp r L) as [X | (p & d' & w' & Hp & X)]; [auto |]. right. exists p, d', w'.
                   rewrite PUT by exact Hp. auto.
             ++ intros x [[<- | Hx] | Hx].
                ** right. exists u, d, w. cbn [e_pos e_dir fst snd]. rewrite (PUT u) by apply popped_head.
                   split; [apply popped_head |]. split; [exact A |]. split; [exact Es |]. split; [reflexivity |].
                   intros p' d' w' Hp' A' Es'. rewrite (PUT p') by exact Hp'. destruct (pos_dec p' u) as [-> | N]; [right; lia |]. left.
                   assert (Hp : popped tr p') by (destruct Hp' as (y & [<- | Hy] & E); [exfalso; apply N; auto | exists y; auto]).
                   pose proof (CLOSED p' Hp d' q w' A' Es') as X. rewrite (SA p' Hp'). pose proof (LE q). lia.
                ** destruct (Yj x (or_introl Hx)) as [X | (p & d' & w' & Hp & A' & Es' & Ed' & X)]; [auto |]. right. exists p, d', w'.
                   rewrite (PUT p) by exact Hp. split; [exact Hp |]. split; [exact A' |]. split; [exact Es' |]. split; [exact Ed' |].
                   intros p' d2 w2 Hp' A2 E2. rewrite (PUT p') by exact Hp'. apply (X p' d2 w2); assumption.
                ** destruct (Yj x (or_intror Hx)) as [X | (p & d' & w' & Hp & A' & Es' & Ed' & X)]; [auto |]. right. exists p, d', w'.
                   rewrite (PUT p) by exact Hp. split; [exact Hp |]. split; [exact A' |]. split; [exact Es' |]. split; [exact Ed' |].
                   intros p' d2 w2 Hp' A2 E2. rewrite (PUT p') by exact Hp'. apply (X p' d2 w2); assumption.
          -- intros p Hp. rewrite PUT by exact Hp. apply SA. exact Hp.
          -- intros p. unfold put. destruct (pos_eqb q p) eqn:Eq; [|apply LE]. apply pos_eqb_eq in Eq. subst p. pose proof (LE q). lia.
  Qed.
End Ratio.

Lemma C106_ucs_near_lowest_proof : forall b P D W go orig dest path lo hi,
  usable b P W -> valid P orig -> valid P dest -> go_inside P (move_of go) -> one_step P (move_of go) -> affordable D P go orig ->
  0 < lo <= hi -> entering_within D P go lo hi ->
  returns (fun fuel => ucs_on b P D fuel go orig dest) (Ok path) ->
  exists c k, follow_cost go orig path = Some (dest, c) /\ lowest_cost D go orig k dest /\ lo * c <= hi * k.
Proof.
  intros b P D W go orig dest path lo hi U V Vd HG O SC LH HR Hp. pose proof (usable_grid_type b P W U) as G. pose proof (grid_type_wf P G) as WF.
  destruct (ucs_on_outcome b P D W go orig dest U V Vd HG SC) as (r & Hr & Ho). pose proof (afford_HS D P go orig HG SC) as HS.
  pose proof (returns_unique _ _ _ Hr Hp). subst r.
  destruct Ho as [(X & _) | (c & hp & e & tr & R & Ed & N & RC & E)]; [discriminate |]. symmetry in E.
  assert (HH : forall p d q w, valid P p -> allowed D d -> go p d = Some (q, w) -> 0 <= w + 0).
  { intros p d q w Vp A Es. destruct (HS p d q w Vp Es). lia. }
  pose proof (inv0_run P D go (fun _ => 0) orig V HS SC _ _ _ R) as I. set (tr' := e :: tr) in *.
  assert (Pd : popped tr' dest) by (rewrite <- Ed; apply popped_head).
  assert (FIN : forall p, popped tr' p -> c p < COST_MAX) by (intros p (x & Hx & <-); apply (i_fin _ _ _ _ _ _ _ _ I); auto).
  assert (VAL : forall p, popped tr' p -> valid P p) by (intros p Hq; eapply (bounded_valid P D go orig V HS); [apply (i_bnd _ _ _ _ _ _ _ _ I) | apply FIN; exact Hq]).
  destruct (run_origins P D go orig V HS SC _ _ _ R) as [Op Oj].
  assert (OPT : forall p k, popped tr' p -> cost_walk D go orig k p -> c p <= k).
  { intros p k Hq Hk. apply (run_optimal P D go (fun _ => 0) orig V HS SC) with (hp := hp) (tr := tr') (p := p); try assumption. intros. lia. }
  destruct (bp_ratio P (lastdir tr') orig go c (popped tr') lo hi WF) with (n := maxn P) (p := dest) (path := path) as (k & F & L).
  - apply (i_bnd _ _ _ _ _ _ _ _ I).
  - intros p d Hq Nq Ef. destruct (lastdir_some tr' p Hq) as (x & Hx & Ex & El). rewrite El in Ef. injection Ef as <-.
    destruct (Oj x (or_intror Hx)) as [Z0 | (q & d & w & Pq & A & Es & Edx & X)]; [subst x; cbn in Ex; congruence |]. rewrite Ex in *.
    assert (ST : p = step q d) by (apply (O q d); [apply VAL; exact Pq |]; unfold move_of; rewrite Es; reflexivity).
    assert (BK : step p (e_dir x) = q) by (rewrite ST, Edx; apply step_opp). rewrite BK. split; [exact Pq |]. exists w.
    rewrite Edx, opp_opp. split; [exact Es |].
    destruct (HS q d p w (VAL q Pq) Es) as (_ & Hw).
    destruct (Op p (FIN p Hq)) as [Z0 | (p2 & d2 & w2 & P2 & A2 & E2 & C2)]; [congruence |].
    destruct (HS p2 d2 p w2 (VAL p2 P2) E2) as (_ & Hw2).
    pose proof (HR q d w p2 d2 w2 p (VAL q Pq) (VAL p2 P2) A A2 Es E2) as RA.
    destruct (X p2 d2 w2 P2 A2 E2) as [Y | Y]; nia.
  - exact Pd.
  - exact Vd.
  - exact E.
  - exists k, (c dest). split; [exact F |]. split; [|exact L]. split; [apply (i_walk _ _ _ _ _ _ _ _ I); apply FIN; exact Pd |].
    intros k' Hk. apply OPT; assumption.
Qed.

Lemma C107_ucs_octile_refuted_proof : exists b P W walls orig dest path c k,
  usable b P W /\ rows P = cols P /\ valid P orig /\ valid P dest /\
  returns (fun fuel => ucs_on b P true fuel (octile P walls) orig dest) (Ok path) /\
  follow_cost (octile P walls) orig path = Some (dest, c) /\ cost_walk true (octile P walls) orig k dest /\ k < c.
Proof.
  exists OnGrid, (Pos 5 5), 2, (fun q => pos_eqb q (2, 1) || pos_eqb q (3, 1)), (3, 0), (0, 5), [dSE; dSW; dSW; dSW; dSW], 70, 68.
  assert (U : usable OnGrid (Pos 5 5) 2) by (exists 5, 5; unfold u16_dims, cells, cols, rows; cbn; repeat split; lia).
  split; [exact U |]. split; [reflexivity |]. split; [cbv; repeat split; discriminate |]. split; [cbv; repeat split; discriminate |].
  split; [|split; [|split]].
  - apply (ucs_path_mono (Pos 5 5) true _ _ (octile (Pos 5 5) _) 100). vm_compute. reflexivity.
  - reflexivity.
  - exists [dW; dSW; dS; dS; dS; dSW]. split; [|reflexivity]. apply Forall_forall. intros d _. left. reflexivity.
  - lia.
Qed.

Lemma octile_facts : forall P walls p d q w, grid_type P -> valid P p -> octile P walls p d = Some (q, w) ->
  q = step p d /\ valid P q /\ 10 <= w <= 14.
Proof.
  intros P walls p d q w G V E. unfold octile, pos_dir_add_ok in E.
  destruct (add_inside P p d (grid_type_wf _ G) V) as [(Vs & Ea) | (_ & Ea)]; rewrite Ea in E; cbn [res_ok] in E; [|discriminate].
  destruct (walls (step p d)); inv E. split; [reflexivity |]. split; [exact Vs |]. destruct ((delta_x d =? 0) || (delta_y d =? 0)); lia.
Qed.

Lemma C107_ucs_octile_partial_proof : forall b P D W walls orig dest path,
  usable b P W -> valid P orig -> valid P dest ->
  returns (fun fuel => ucs_on b P D fuel (octile P walls) orig dest) (Ok path) ->
  exists c k, follow_cost (octile P walls) orig path = Some (dest, c) /\ lowest_cost D (octile P walls) orig k dest /\ 5 * c <= 7 * k.
Proof.
  intros b P D W walls orig dest path U V Vd Hp. pose proof (usable_grid_type b P W U) as G.
  assert (HG : go_inside P (move_of (octile P walls))).
  { intros p d q Vp E. unfold move_of in E. destruct (octile P walls p d) as [[r w]|] eqn:Eg; inv E. apply (octile_facts P walls p d q w G Vp Eg). }
  assert (O : one_step P (move_of (octile P walls))).
  { intros p d q Vp E. unfold move_of in E. destruct (octile P walls p d) as [[r w]|] eqn:Eg; inv E. apply (octile_facts P walls p d q w G Vp Eg). }
  assert (SC : affordable D P (octile P walls) orig).
  { apply C74_small_costs_suffice_proof; [exact G | exact V | exact HG |]. exists 14. split.
    - pose proof (cols_sq P G). destruct (grid_type_nums P G) as (E1 & E2 & HX & HY). unfold cells, cols, rows. nia.
    - intros p d q w Vp E. pose proof (octile_facts P walls p d q w G Vp E). lia. }
  apply (C106_ucs_near_lowest_proof b P D W (octile P walls) orig dest path 5 7 U V Vd HG O SC); [lia | | exact Hp].
  intros p d w p' d' w' q Vp Vp' _ _ E E'. pose proof (octile_facts P walls p d q w G Vp E). pose proof (octile_facts P walls p' d' q w' G Vp' E'). lia.
Qed.
