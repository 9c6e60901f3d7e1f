(** BeelineProofs.v -- A* search with diagonals on an open straight line. *)

From Coq Require Import ZArith List Bool Lia Permutation.
From Verif Require Import Rust BoundedInt Dir PosT Pos SetMap CameFrom Heap Astar
  Spec SpecSearch Lib Deque BoundedIntProofs PosTProofs PosTProofs2 PropDirProofs SetMapProofs Sim CameFromProofs BfProofs Fair FairSearch BestFirst SearchProofs AstarProofs.
Import ListNotations.
Open Scope Z_scope.

Definition cheb (p q : pos) : Z := Z.max (Z.abs (fst p - fst q)) (Z.abs (snd p - snd q)).

Lemma cheb_step : forall p d q, cheb p q - 1 <= cheb (step p d) q.
Proof. intros [x y] d [a b]. unfold cheb, step. cbn [fst snd]. destruct d; cbn [delta_x delta_y]; lia. Qed.

(** The direction of a beeline is the best one for the Manhattan distance. *)
Lemma beeline_geometry : forall p d dest d', p <> dest -> delta_x d = Z.sgn (fst dest - fst p) -> delta_y d = Z.sgn (snd dest - snd p) ->
  cheb (step p d) dest = cheb p dest - 1 /\
  1 + mdist (step p d) dest <= mdist p dest /\
  (d' = d \/ mdist (step p d) dest < mdist (step p d') dest).
Proof.
  intros [x y] d [a b] d' N Hx Hy. cbn [fst snd] in *.
  assert (N' : x <> a \/ y <> b) by (destruct (Z.eq_dec x a); [right; intros ->; apply N; subst; reflexivity | auto]).
  unfold cheb, mdist, step. cbn [fst snd].
  destruct d, d'; cbn [delta_x delta_y] in *; (split; [lia | split; [lia |]]); first [left; reflexivity | right; lia].
Qed.

Lemma beeline_cheb : forall go dest path p, beeline go dest p path -> Z.of_nat (length path) = cheb p dest.
Proof.
  intros go dest path. induction path as [|d ds IH]; intros p B; cbn [beeline length] in *.
  - subst p. unfold cheb. lia.
  - destruct B as (N & Hx & Hy & _ & B). rewrite Nat2Z.inj_succ, (IH _ B). destruct (beeline_geometry p d dest d N Hx Hy) as (H & _). lia.
Qed.

Lemma walk_cheb : forall P go D p n q, one_step P go -> go_inside P go -> valid P p -> walk D go p n q -> cheb p q <= Z.of_nat n.
Proof.
  intros P go D p n q O HG V (ds & <- & A & F). clear A. revert p V F. induction ds as [|d ds IH]; intros p V F; cbn [follow length] in *.
  - inv F. unfold cheb. lia.
  - destruct (go p d) as [r|] eqn:E; [|discriminate]. pose proof (IH r (HG p d r V E) F). rewrite (O p d r V E) in *.
    pose proof (cheb_step p d q). lia.
Qed.

Section Beeline.
  Context (P : post) (W : post_wf P) (go : pos -> dir -> option pos) (orig dest : pos).
  Context (Vo : valid P orig) (HG : go_inside P go) (O : one_step P go).
  Context (HA : affordable true P (unit_cost go) orig).
  Context (path : list dir) (BL : beeline go dest orig path).

  Notation succ := (unit_cost go).
  Notation h := (fun q => mdist q dest).
  Notation FRun := (FRun true succ h orig).

  (** The trace follows the line: [ds] are the moves made, last first. *)
  Inductive btr : list entry -> list dir -> pos -> Prop :=
  | btr0 : btr [e0 orig] [] orig
  | btr1 : forall e tr d ds p, btr tr ds p -> valid P p -> valid P (step p d) -> e_pos e = step p d -> e_dir e = opp d ->
      cheb (step p d) dest = cheb p dest - 1 -> btr (e :: tr) (d :: ds) (step p d).

  Definition next_entry (n : nat) (p : pos) (d : dir) : entry := (Z.of_nat n + 1 + mdist (step p d) dest, (step p d, opp d)).

  Definition on_line (c : pos -> Z) (hp : heap) (tr : list entry) : Prop :=
    exists ds p d todo others, btr tr ds p /\ path = rev ds ++ d :: todo /\ beeline go dest p (d :: todo) /\ valid P p /\
      Permutation hp (next_entry (length ds) p d :: others) /\
      (forall y, In y others -> e_prio (next_entry (length ds) p d) < e_prio y) /\
      c (step p d) = Z.of_nat (length ds) + 1 /\
      forall q, c q < COST_MAX -> cheb p dest - 1 <= cheb q dest.

  (** Expanding a position of the line. *)
  Lemma expand_line : forall c rest c' hp' n p d todo, expand true succ h p (c, rest) = (c', hp') ->
    valid P p -> beeline go dest p (d :: todo) -> c p = Z.of_nat n -> bounded true succ orig c -> c p < COST_MAX ->
    (forall y, In y rest -> Z.of_nat n + mdist p dest < e_prio y) ->
    (forall q, c q < COST_MAX -> cheb p dest <= cheb q dest) ->
    (exists others, Permutation hp' (next_entry n p d :: others) /\ (forall y, In y others -> e_prio (next_entry n p d) < e_prio y)) /\
    c' (step p d) = Z.of_nat n + 1 /\ forall q, c' q < COST_MAX -> cheb p dest - 1 <= cheb q dest.
  Proof.
    intros c rest c' hp' n p d todo E V (N & Hx & Hy & Eg & _) Hc B HL HR HF. assert (HM : forall q, c q <= COST_MAX) by (intros q; apply B).
    pose proof (fun d' => beeline_geometry p d dest d' N Hx Hy) as GEO.
    destruct (GEO d) as (G1 & G2 & _).
    assert (Hmax : c p + 1 < COST_MAX).
    { apply (bounded_sum P true succ h orig Vo (unit_HS P go HG) HA c p d (step p d) 1 B HL (or_introl eq_refl)); [unfold unit_cost; rewrite Eg; reflexivity |].
      specialize (HM (step p d)). specialize (HF (step p d)). lia. }
    set (Q := fun (c1 : pos -> Z) (hp1 : heap) => c1 p = Z.of_nat n /\
      (forall q, c1 q < COST_MAX -> cheb p dest - 1 <= cheb q dest) /\
      ((c1 (step p d) = COST_MAX /\ forall y, In y hp1 -> e_prio (next_entry n p d) < e_prio y) \/
       (c1 (step p d) = Z.of_nat n + 1 /\ exists others, Permutation hp1 (next_entry n p d :: others) /\
          (forall y, In y others -> e_prio (next_entry n p d) < e_prio y)))).
    assert (K : Q c' hp').
    { apply (expand_inv true succ h Q p c rest c' hp' E).
      - split; [exact Hc |]. split; [intros q Hq; specialize (HF q Hq); lia |]. left. split.
        + destruct (Z.eq_dec (c (step p d)) COST_MAX) as [E' | N']; [exact E' |]. exfalso.
          specialize (HM (step p d)). specialize (HF (step p d)). lia.
        + intros y Hy'. specialize (HR y Hy'). unfold next_entry. cbn [e_prio fst]. lia.
      - intros d1 c1 hp1 c2 hp2 _ (Q1 & Q2 & Q3) E1.
        destruct (relax_cases _ _ _ _ _ _ _ _ E1) as [(-> & -> & _) | (q & w & Es & L & -> & ->)]; [split; [|split]; assumption |].
        unfold unit_cost in Es. destruct (go p d1) as [r|] eqn:Eg1; inv Es. pose proof (O p d1 q V Eg1) as ->.
        assert (NP : step p d1 <> p) by apply step_neq.
        split; [rewrite put_neq by exact NP; exact Q1 |]. split.
        { intros q Hq. destruct (pos_dec (step p d1) q) as [<- | Nq]; [pose proof (cheb_step p d1 dest); lia |].
          rewrite put_neq in Hq by exact Nq. apply Q2. exact Hq. }
        destruct (GEO d1) as (_ & _ & [-> | G3]).
        + rewrite put_eq. right. split; [lia |]. destruct Q3 as [(C1 & Q3) | (C1 & _)]; [|lia].
          exists hp1. unfold next_entry in *. rewrite Q1. split; [apply Permutation_refl | exact Q3].
        + assert (NS : step p d1 <> step p d) by (intros X; rewrite X in G3; lia).
          rewrite put_neq by exact NS.
          assert (LT : e_prio (next_entry n p d) < e_prio (c1 p + 1 + mdist (step p d1) dest, (step p d1, opp d1))).
          { unfold next_entry. cbn [e_prio fst]. lia. }
          destruct Q3 as [(C1 & Q3) | (C1 & others & Pm & Q3)].
          * left. split; [exact C1 |]. intros y [<- | Hy']; [exact LT | apply Q3; exact Hy'].
          * right. split; [exact C1 |]. exists ((c1 p + 1 + mdist (step p d1) dest, (step p d1, opp d1)) :: others). split.
            -- rewrite Pm. apply perm_swap.
            -- intros y [<- | Hy']; [exact LT | apply Q3; exact Hy']. }
    destruct K as (K1 & K2 & [(K3 & _) | (K3 & K4)]); [|auto].
    exfalso. destruct (expand_mono P true succ h (unit_HS P go HG) _ _ _ _ _ V E) as (K5 & _ & K6).
    specialize (K6 d (step p d) 1 (or_introl eq_refl)). unfold unit_cost in K6. rewrite Eg in K6. specialize (K6 eq_refl). lia.
  Qed.

  Lemma pop_line : forall hp e rest x others, pops hp e rest -> Permutation hp (x :: others) ->
    (forall y, In y others -> e_prio x < e_prio y) -> e = x.
  Proof.
    intros hp e rest x others Ep Pm Ho. pose proof (proj1 Ep) as Pm2. rewrite Pm in Pm2.
    assert (Hin : In e (x :: others)) by (eapply Permutation_in; [symmetry; exact Pm2 | left; reflexivity]).
    destruct Hin as [<- | Hin]; [reflexivity |]. specialize (Ho e Hin). pose proof (pops_min _ _ _ Ep x) as HM.
    assert (In x hp) by (eapply Permutation_in; [symmetry; exact Pm | left; reflexivity]). specialize (HM H). lia.
  Qed.

  Lemma frun_on_line : forall c hp tr, FRun c hp tr -> ~ popped tr dest ->
    (tr = [] /\ hp = [e0 orig] /\ c = put (fun _ => COST_MAX) orig 0) \/ on_line c hp tr.
  Proof.
    intros c hp tr R. induction R as [|c hp tr e rest c' hp' R IH Ep Ee]; intros NP; [auto |]. right.
    assert (NP' : ~ popped tr dest) by (intros H; apply NP; apply popped_cons; exact H).
    pose proof (frun_bounded P true succ h orig Vo (unit_HS P go HG) HA _ _ _ R) as B.
    destruct (IH NP') as [(-> & -> & ->) | (ds & p & d & todo & others & BT & Ht & BLp & Vp & Pm & Ho & Hc & Hf)].
    - apply pops_one in Ep. destruct Ep as (-> & ->). cbn [e_pos e0 fst snd] in *.
      assert (PT : exists d todo, path = d :: todo).
      { revert BL. clear -NP. destruct path as [|d todo]; [|eauto]. intros BL. exfalso. apply NP. exists (e0 orig). split; [left; reflexivity | exact BL]. }
      destruct PT as (d & todo & PT). pose proof BL as BL'. rewrite PT in BL'.
      destruct (expand_line _ _ _ _ 0%nat orig d todo Ee Vo BL') as ((others & K1 & K2) & K3 & K4).
      + apply put_eq.
      + exact B.
      + rewrite put_eq. reflexivity.
      + intros y [].
      + intros q Hq. destruct (pos_dec orig q) as [<- | Nq]; [lia |]. rewrite put_neq in Hq by exact Nq. lia.
      + exists [], orig, d, todo, others. split; [constructor |]. split; [exact PT |]. split; [exact BL' |]. split; [exact Vo |]. auto.
    - pose proof (proj1 Ep) as Pm2. rewrite Pm in Pm2.
      pose proof (pop_line _ _ _ _ _ Ep Pm Ho) as EQ.
      subst e. apply Permutation_cons_inv in Pm2. set (q := step p d) in *.
      destruct BLp as (N & Hx & Hy & Eg & BLq). destruct (beeline_geometry p d dest d N Hx Hy) as (G1 & G2 & _).
      assert (Vq : valid P q) by (eapply HG; eassumption). change (e_pos (next_entry (length ds) p d)) with q in Ee.
      destruct todo as [|d' todo].
      { exfalso. apply NP. eexists. split; [left; reflexivity |]. exact BLq. }
      destruct (expand_line _ _ _ _ (S (length ds)) q d' todo Ee Vq BLq) as ((others' & K1 & K2) & K3 & K4).
      + lia.
      + exact B.
      + fold q in Hc.
        pose proof (frun_fin P true succ h orig Vo (unit_HS P go HG) HA _ _ _ (next_entry (length ds) p d) R) as (L & _); [|exact L].
        eapply Permutation_in; [symmetry; exact Pm | left; reflexivity].
      + intros y Hy'. assert (Hy2 : In y others) by (eapply Permutation_in; [symmetry; exact Pm2 | exact Hy']).
        specialize (Ho y Hy2). unfold next_entry in Ho. cbn [e_prio fst] in Ho. fold q in Ho. lia.
      + intros r Hr. specialize (Hf r Hr). fold q in G1. lia.
      + exists (d :: ds), q, d', todo, others'. split; [apply btr1; auto |]. split; [cbn [rev]; rewrite <- app_assoc; exact Ht |].
        split; [exact BLq |]. split; [exact Vq |]. auto.
  Qed.

  Lemma btr_cheb : forall tr ds p, btr tr ds p -> forall q, popped tr q -> cheb p dest <= cheb q dest.
  Proof.
    intros tr ds p B. induction B as [|e tr d ds p B IH V Vs Ee Ed C]; intros q (x & Hx & Eq).
    - destruct Hx as [<- | []]. cbn in Eq. subst q. lia.
    - destruct Hx as [<- | Hx]; [rewrite Ee in Eq; subst q; lia |]. assert (popped tr q) by (exists x; auto). specialize (IH q H). lia.
  Qed.

  Lemma lastdir_popped : forall tr p d, lastdir tr p = Some d -> popped tr p.
  Proof.
    intros tr p d. induction tr as [|e tr IH]; cbn [lastdir]; [discriminate |]. destruct (pos_eqb (e_pos e) p) eqn:E.
    - apply pos_eqb_eq in E. intros _. exists e. split; [left; reflexivity | exact E].
    - intros H. apply popped_cons. apply IH. exact H.
  Qed.

  Lemma btr_orig : forall tr ds p, btr tr ds p -> cheb p dest = cheb orig dest - Z.of_nat (length ds).
  Proof. intros tr ds p B. induction B as [|e tr d ds p B IH V Vs Ee Ed C]; cbn [length]; lia. Qed.

  Lemma btr_bp : forall tr ds p, btr tr ds p -> forall f, (forall q, popped tr q -> q <> orig -> f q = lastdir tr q) -> forall n ret,
    bp P f orig n p ret = if (length ds <? n)%nat then Ok (rev ds ++ ret) else Err Loop.
  Proof.
    intros tr ds p B. induction B as [|e tr d ds p B IH V Vs Ee Ed C]; intros f Hf n ret.
    - destruct n as [|n]; [reflexivity |]. cbn [bp length]. rewrite pos_eqb_refl. reflexivity.
    - destruct n as [|n]; [reflexivity |]. cbn [bp length].
      assert (NO : step p d <> orig). { intros X. pose proof (btr_orig _ _ _ B) as K. rewrite X in C. lia. }
      rewrite (proj2 (pos_eqb_neq _ _) NO). rewrite Hf; [|rewrite <- Ee; apply popped_head | exact NO].
      cbn [lastdir]. rewrite Ee, pos_eqb_refl, Ed.
      destruct (add_inside P (step p d) (opp d) W Vs) as [(_ & Ea) | (X & _)].
      + rewrite Ea, opp_opp, step_opp. rewrite (IH f).
        * rewrite Nat.ltb_compare, Nat.ltb_compare. cbn. destruct (Nat.compare (length ds) n); [reflexivity | | reflexivity].
          cbn [rev]. rewrite <- app_assoc. reflexivity.
        * intros q Hq Nq. rewrite Hf; [|apply popped_cons; exact Hq | exact Nq]. cbn [lastdir].
          destruct (pos_eqb (e_pos e) q) eqn:Eq; [|reflexivity]. apply pos_eqb_eq in Eq. rewrite Ee in Eq. subst q.
          pose proof (btr_cheb _ _ _ B _ Hq). lia.
      + rewrite step_opp in X. contradiction.
  Qed.

  (** The search returns the line, if it is short enough to be reconstructed. *)
  Lemma fline_outcome : forall r, foutcome P true succ h orig dest r ->
    r = if Z.of_nat (length path) <=? cols P * cols P then Ok path else Err Loop.
  Proof.
    intros r [(_ & NR) | (c & hp & e & tr & R & Ed & N & RC & ->)].
    - exfalso. apply NR. apply reachable_unit. exists (length path), path. split; [reflexivity |].
      split; [apply Forall_forall; intros d _; left; reflexivity |]. clear -BL. revert BL. generalize orig.
      induction path as [|d ds IH]; intros p B; cbn [beeline follow] in *; [congruence |]. destruct B as (_ & _ & _ & -> & B). apply IH. exact B.
    - assert (K : exists ds, btr (e :: tr) ds dest /\ path = rev ds).
      { destruct (frun_pop true succ h orig _ _ _ _ R) as (c1 & hp1 & rest & R1 & Ep & Ee).
        destruct (frun_on_line _ _ _ R1 N) as [(-> & -> & ->) | (ds & p & d & todo & others & BT & Ht & BLp & Vp & Pm & Ho & Hc & Hf)].
        - apply pops_one in Ep. destruct Ep as (-> & _). cbn in Ed. exists []. rewrite <- Ed. split; [constructor |].
          revert BL. rewrite <- Ed. clear. destruct path as [|d ds]; [reflexivity |]. intros (X & _). congruence.
        - pose proof (pop_line _ _ _ _ _ Ep Pm Ho) as ->. change (step p d = dest) in Ed.
          destruct BLp as (Np & Hx & Hy & Eg & BLq). destruct (beeline_geometry p d dest d Np Hx Hy) as (G1 & _).
          exists (d :: ds). split; [rewrite <- Ed; apply btr1; auto; eapply HG; eassumption |]. rewrite Ht. cbn [rev]. f_equal.
          destruct todo as [|x todo]; [reflexivity |]. destruct BLq as (X & _). congruence. }
      destruct K as (ds & BT & ->). rewrite rev_length, (btr_bp _ _ _ BT) by auto. rewrite app_nil_r.
      unfold maxn. pose proof (Z.square_nonneg (cols P)). destruct (Z.leb_spec (Z.of_nat (length ds)) (cols P * cols P)), (Nat.ltb_spec (length ds) (Z.to_nat (cols P * cols P + 1))); try reflexivity; lia.
  Qed.
End Beeline.

Lemma line_outcome : forall P, grid_type P -> forall go orig dest, valid P orig -> go_inside P go -> one_step P go -> forall path, beeline go dest orig path ->
  forall r, outcome P true (unit_cost go) (fun q => mdist q dest) orig dest r ->
  r = if Z.of_nat (length path) <=? cols P * cols P then Ok path else Err Loop.
Proof.
  intros P G go orig dest V HG O path BL r Ho. apply (fline_outcome P (grid_type_wf P G) go orig dest V HG O (unit_HA P G true go orig V HG) path BL).
  destruct Ho as [X | (c & hp & e & tr & R & X)]; [left; exact X | right]. exists c, hp, e, tr. split; [apply run_fair; exact R | exact X].
Qed.
