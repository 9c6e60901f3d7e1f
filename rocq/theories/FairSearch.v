(** FairSearch.v -- what the machine of Fair.v leads to, whichever entries of lowest
    priority are popped. *)

From Coq Require Import ZArith List Bool Lia.
From Verif Require Import Rust BoundedInt Dir PosT Pos SetMap CameFrom Heap Astar
  Spec SpecSearch Lib Deque BoundedIntProofs PosTProofs PosTProofs2 PropDirProofs SetMapProofs Sim CameFromProofs BfProofs Fair.
Import ListNotations.
Open Scope Z_scope.

Lemma bp_ext : forall P f g orig, (forall p, f p = g p) -> forall n p ret, bp P f orig n p ret = bp P g orig n p ret.
Proof.
  intros P f g orig E. induction n as [|n IH]; intros p ret; [reflexivity |]. cbn [bp]. rewrite E.
  destruct (pos_eqb p orig); [reflexivity |]. destruct (g p); [|reflexivity]. destruct (pos_dir_add P p d); [apply IH | reflexivity].
Qed.

Lemma bp_total : forall P f orig (Q : pos -> Prop), post_wf P ->
  (forall p, Q p -> valid P p /\ (p <> orig -> exists d, f p = Some d /\ Q (step p d))) ->
  forall n p ret, Q p -> (exists path, bp P f orig n p ret = Ok path) \/ bp P f orig n p ret = Err Loop.
Proof.
  intros P f orig Q W H. induction n as [|n IH]; intros p ret Hp; [right; reflexivity |]. cbn [bp].
  destruct (pos_eqb p orig) eqn:Ep; [left; eauto |]. apply pos_eqb_neq in Ep.
  destruct (H p Hp) as (V & K). destruct (K Ep) as (d & Ef & Qd). destruct (H _ Qd) as (Vd & _). rewrite Ef.
  destruct (add_inside P p d W V) as [(_ & ->) | (N & _)]; [|contradiction]. apply IH. exact Qd.
Qed.

(** The cost of a reconstructed path. *)
Lemma bp_cost : forall P f orig (succ : pos -> dir -> option (pos * Z)) (c : pos -> Z) (Q : pos -> Prop), post_wf P -> c orig = 0 ->
  (forall p d, Q p -> p <> orig -> f p = Some d ->
     Q (step p d) /\ exists w, succ (step p d) (opp d) = Some (p, w) /\ c (step p d) + w = c p) ->
  forall n p path, Q p -> valid P p -> bp P f orig n p [] = Ok path -> follow_cost succ orig path = Some (p, c p).
Proof.
  intros P f orig succ c Q W C0 HQ.
  assert (K : forall n p ret path, Q p -> valid P p -> bp P f orig n p ret = Ok path ->
    exists ds, path = ds ++ ret /\ follow_cost succ orig ds = Some (p, c p)).
  { induction n as [|n IH]; intros p ret path Hp V E; cbn [bp] in E; [discriminate |].
    destruct (pos_eqb p orig) eqn:Ep.
    - inv E. apply pos_eqb_eq in Ep. subst p. exists []. cbn. rewrite C0. auto.
    - apply pos_eqb_neq in Ep. destruct (f p) as [d|] eqn:Ef; [|discriminate].
      destruct (add_inside P p d W V) as [(Vs & Ea) | (_ & Ea)]; rewrite Ea in E; [|discriminate].
      destruct (HQ p d Hp Ep Ef) as (H1 & w & H2 & H3). destruct (IH _ _ _ H1 Vs E) as (ds & -> & H4).
      exists (ds ++ [opp d]). rewrite <- app_assoc. split; [reflexivity |]. rewrite <- H3. eapply follow_cost_snoc; eassumption. }
  intros n p path Hp V E. destruct (K n p [] path Hp V E) as (ds & -> & F). rewrite app_nil_r. exact F.
Qed.

Lemma grid_retraceable : forall P p q, grid_type P -> valid P p -> valid P q -> retraceable P p q.
Proof.
  intros P p q G Vp Vq. pose proof (cols_sq P G) as HC. destruct (grid_type_nums P G) as (E1 & E2 & HX & HY).
  apply (proj1 (valid_nums _ _ G)) in Vp, Vq. destruct p as [a b], q as [c d].
  unfold retraceable, measurable, in_bty. cbn [fst snd] in *. unfold XM, YM in *. rewrite E1, E2. lia.
Qed.

Section Loop.
  Context (P : post) (D : bool).
  Context (succ : pos -> dir -> option (pos * Z)) (h : pos -> Z) (orig : pos).
  Context (Vo : valid P orig).
  Context (HS : forall p d q w, valid P p -> succ p d = Some (q, w) -> valid P q /\ 0 <= w).
  Context (HA : affordable D P succ orig).

  Notation FRun := (FRun D succ h orig).
  Notation expand := (expand D succ h).
  Notation e0 := (e0 orig).
  Notation c0 := (put (fun _ : pos => COST_MAX) orig 0).

  Lemma frun_fin : forall c hp tr e, FRun c hp tr -> In e hp -> c (e_pos e) < COST_MAX /\ valid P (e_pos e).
  Proof.
    intros c hp tr e R He. pose proof (finv0_run P D succ h orig Vo HS HA _ _ _ R) as I.
    assert (L : c (e_pos e) < COST_MAX) by (apply (i_fin _ _ _ _ _ _ _ _ I); auto). split; [exact L |].
    eapply (bounded_valid P D succ orig Vo HS); [apply (i_bnd _ _ _ _ _ _ _ _ I) | exact L].
  Qed.

  Lemma frun_bounded : forall c hp tr, FRun c hp tr -> bounded D succ orig c.
  Proof. intros c hp tr R. apply (i_bnd _ _ _ _ _ _ _ _ (finv0_run P D succ h orig Vo HS HA _ _ _ R)). Qed.

  Lemma fmeasure_step : forall c hp tr e rest c' hp', FRun c hp tr -> pops hp e rest ->
    expand (e_pos e) (c, rest) = (c', hp') -> measure P c' hp' < measure P c hp.
  Proof.
    intros c hp tr e rest c' hp' R Ep Ee. pose proof (frun_bounded _ _ _ R) as B.
    destruct (frun_fin c hp tr e R) as (L & _); [apply (pops_In _ _ _ Ep); auto |].
    pose proof (measure_expand P D succ h orig Vo HS HA _ _ _ _ _ B L Ee) as M.
    pose proof (pops_length _ _ _ Ep). unfold measure in *. lia.
  Qed.

  Lemma fmeasure_nonneg : forall c hp tr, FRun c hp tr -> 0 <= measure P c hp.
  Proof.
    intros c hp tr R. pose proof (frun_bounded _ _ _ R) as (_ & B & _). pose proof (total_bound P c B). unfold measure. lia.
  Qed.

  (** The outcome of a search. *)
  Definition foutcome (dest : pos) (r : result (list dir)) : Prop :=
    (r = Err DestinationUnreachable /\ ~ reachable D (move_of succ) orig dest) \/
    (exists c hp e tr, FRun c hp (e :: tr) /\ e_pos e = dest /\ ~ popped tr dest /\
       reachable D (move_of succ) orig dest /\ r = bp P (lastdir (e :: tr)) orig (maxn P) dest []).

  (** The outcome of a search on any position type. *)
  Definition foutcome_any (dest : pos) (r : exec (result (list dir))) : Prop :=
    exists r0, foutcome dest r0 /\ (r = Ret r0 \/ (r = Panic /\ reachable D (move_of succ) orig dest)) /\
      (reachable D (move_of succ) orig dest -> (r = Panic <-> ~ retraceable P orig dest)).

  Lemma retraceable_dec : forall p, retraceable P orig p \/ ~ retraceable P orig p.
  Proof using.
    clear. intros p. unfold retraceable. destruct (valid_dec P (Z.abs (fst orig - fst p), Z.abs (snd orig - snd p))) as [M | M].
    - change (measurable P orig p) in M. generalize (Z.abs (fst orig - fst p) + Z.abs (snd orig - snd p)). intros z. generalize (cols P * cols P). intros c.
      destruct (Z_le_gt_dec (2 * z) 9223372036854775807); [|right; lia]. destruct (Z_le_gt_dec 0 (XM P)); [|right; lia].
      destruct (Z_le_gt_dec (c + 1) 18446744073709551615); [left; auto | right; lia].
    - right. intros (X & _). apply M. exact X.
  Qed.

  Context (W : post_wf P).
  Context (O : one_step P (move_of succ)).

  Lemma frun_valid : forall c hp tr p, FRun c hp tr -> popped tr p -> valid P p.
  Proof.
    intros c hp tr p R Hp. eapply (bounded_valid P D succ orig Vo HS); [eapply frun_bounded; exact R |].
    apply (frun_popped_reachable P D succ h orig Vo HS HA _ _ _ p R Hp).
  Qed.

  (** Either a path, which uses allowed moves, or Loop. *)
  Lemma foutcome_cases : forall dest r, foutcome dest r ->
    (r = Err DestinationUnreachable <-> ~ reachable D (move_of succ) orig dest) /\
    ((exists path, r = Ok path /\ follow (move_of succ) orig path = Some dest /\ Forall (allowed D) path /\
        Z.of_nat (length path) <= cols P * cols P) \/
     r = Err DestinationUnreachable \/ r = Err Loop).
  Proof.
    intros dest r [(-> & NR) | (c & hp & e & tr & R & Ed & N & RC & ->)]; [split; [tauto | auto] |].
    set (tr' := e :: tr) in *. assert (Pd : popped tr' dest) by (rewrite <- Ed; apply popped_head).
    pose proof W as W.
    assert (BACK : forall p, popped tr' p -> p <> orig -> exists e w, lastdir tr' p = Some (e_dir e) /\ popped tr' (step p (e_dir e)) /\
      allowed D (opp (e_dir e)) /\ succ (step p (e_dir e)) (opp (e_dir e)) = Some (p, w)).
    { intros p Hp Np. destruct (flastdir_back P D succ h orig Vo HS HA c hp tr' p O R Hp Np) as (x & w & _ & _ & H1 & H2 & H3 & H4 & _).
      exists x, w. auto. }
    destruct (bp_total P (lastdir tr') orig (popped tr') W) with (n := maxn P) (p := dest) (ret := @nil dir) as [(path & E) | E].
    - intros p Hp. split; [eapply frun_valid; eassumption |]. intros Np. destruct (BACK p Hp Np) as (x & w & H1 & H2 & _). eauto.
    - exact Pd.
    - rewrite E. split; [split; [discriminate | tauto] |]. left. exists path. split; [reflexivity |].
      destruct (bp_follow P W (lastdir tr') orig D (move_of succ) (popped tr')) with (n := maxn P) (p := dest) (ret := @nil dir) (path := path) as (ds & E1 & F & A).
      + intros p d Hp Np Ef. destruct (BACK p Hp Np) as (x & w & H1 & H2 & H3 & H4). rewrite H1 in Ef. inv Ef.
        split; [unfold move_of; rewrite H4; reflexivity |]. auto.
      + exact Pd.
      + eapply frun_valid; eassumption.
      + exact E.
      + rewrite app_nil_r in E1. subst ds. split; [exact F |]. split; [exact A |].
        destruct (bp_ok P W (lastdir tr') orig _ _ _ _ (frun_valid _ _ _ _ R Pd) E) as (ds & E1 & _ & _ & L). rewrite app_nil_r in E1. subst ds.
        unfold maxn in L. assert (0 <= cols P * cols P) by nia. lia.
    - rewrite E. split; [split; [discriminate | tauto] |]. auto.
  Qed.

  (** With a consistent estimate, Loop only occurs when the path is too long for
      the limit of the path reconstruction. *)
  Context (HH : forall p d q w, valid P p -> allowed D d -> succ p d = Some (q, w) -> h p <= w + h q).
  Context (H0 : forall p, valid P p -> 0 <= h p).

  Lemma foutcome_loop_gen : forall dest rs, foutcome dest (Err Loop) -> (forall q, reachable D (move_of succ) orig q -> In q rs) ->
    cols P * cols P < Z.of_nat (length rs).
  Proof.
    intros dest rs H Hrs. destruct H as [(X & _) | (c & hp & e & tr & R & Ed & N & RC & E)]; [discriminate |].
    assert (Pd : popped (e :: tr) dest) by (rewrite <- Ed; apply popped_head).
    destruct (frun_leads_back P D succ h orig Vo HS HA HH H0 c hp (e :: tr) dest O R Pd) as (k & Hk & Lk). specialize (Lk rs Hrs).
    destruct (Z_lt_le_dec (cols P * cols P) (Z.of_nat (length rs))) as [L | L]; [exact L |]. exfalso.
    destruct (bp_leads P W (lastdir (e :: tr)) orig k (maxn P) dest [] (frun_valid _ _ _ _ R Pd) Hk) as (ds & Eb & _); [unfold maxn; lia |].
    congruence.
  Qed.

  Lemma foutcome_loop : forall dest, grid_type P -> foutcome dest (Err Loop) -> cols P < rows P.
  Proof.
    intros dest G OU. assert (L : cols P * cols P < Z.of_nat (length (all_rows P))).
    { apply (foutcome_loop_gen dest); [exact OU |]. intros q (n & Hq). apply all_rows_In. eapply walk_valid; [|exact Vo | exact Hq].
      intros p d r Vp E. unfold move_of in E. destruct (succ p d) as [[r' w]|] eqn:Es; [|discriminate]. inv E. apply (HS p d r w Vp Es). }
    rewrite (all_rows_length P G) in L.
    pose proof (cols_pos P G). pose proof (rows_pos P G). unfold cells in L. nia.
  Qed.

  (** Loop means that going back takes more moves than the limit. *)
  Lemma foutcome_long : forall c hp e tr, FRun c hp (e :: tr) -> bp P (lastdir (e :: tr)) orig (maxn P) (e_pos e) [] = Err Loop ->
    exists path m, bp P (lastdir (e :: tr)) orig m (e_pos e) [] = Ok path /\ cols P * cols P < Z.of_nat (length path).
  Proof.
    intros c hp e tr R E. pose proof (popped_head e tr) as Pd.
    destruct (frun_leads_back P D succ h orig Vo HS HA HH H0 c hp (e :: tr) (e_pos e) O R Pd) as (k & Hk & _).
    destruct (bp_leads P W (lastdir (e :: tr)) orig k (S k) (e_pos e) [] (frun_valid _ _ _ _ R Pd) Hk) as (ds & Eb & L); [lia |].
    rewrite app_nil_r in Eb. exists ds, (S k). split; [exact Eb |].
    destruct (Z_lt_le_dec (cols P * cols P) (Z.of_nat (length ds))) as [X | X]; [exact X |]. exfalso.
    destruct (bp_leads P W (lastdir (e :: tr)) orig k (maxn P) (e_pos e) [] (frun_valid _ _ _ _ R Pd) Hk) as (ds' & Eb' & _); [unfold maxn; lia |].
    congruence.
  Qed.

  (** If no stale entry was popped, the path has the lowest cost. *)
  Lemma foutcome_optimal : forall dest path m c hp e tr, FRun c hp (e :: tr) -> e_pos e = dest ->
    bp P (lastdir (e :: tr)) orig m dest [] = Ok path ->
    (forall x, In x (e :: tr) -> e_pos x <> orig -> e_prio x = c (e_pos x) + h (e_pos x)) ->
    follow_cost succ orig path = Some (dest, c dest) /\ forall k, cost_walk D succ orig k dest -> c dest <= k.
  Proof.
    intros dest path m c hp e tr R Ed E EX. set (tr' := e :: tr) in *. assert (Pd : popped tr' dest) by (rewrite <- Ed; apply popped_head).
    destruct (finv1_run P D succ h orig Vo HS HA HH H0 c hp tr' R) as (ord & J); [discriminate |].
    split.
    - apply (bp_cost P (lastdir tr') orig succ c (popped tr') W) with (n := m); [apply (frun_bounded _ _ _ R) | | exact Pd | eapply frun_valid; eassumption | exact E].
      intros p d Hp Np Ef. destruct (flastdir_back P D succ h orig Vo HS HA c hp tr' p O R Hp Np) as (x & w & Hx & Ex & H1 & H2 & H3 & H4 & H5).
      rewrite H1 in Ef. inv Ef. split; [exact H2 |]. exists w. split; [exact H4 |].
      pose proof (j_closed _ _ _ _ _ _ _ _ J _ H2 _ _ _ H3 H4). pose proof (EX x Hx Np). lia.
    - intros k Hk. apply (frun_optimal P D succ h orig Vo HS HA HH H0 c hp tr' dest k R Pd Hk).
  Qed.

  Lemma frun_pop : forall c hp e tr, FRun c hp (e :: tr) ->
    exists c1 hp1 rest, FRun c1 hp1 tr /\ pops hp1 e rest /\ expand (e_pos e) (c1, rest) = (c, hp).
  Proof. intros c hp e tr R. inversion R; subst. eauto 8. Qed.

  Lemma frun_first : forall c hp, FRun c hp [] -> hp = [e0].
  Proof. intros c hp R. inversion R; subst. reflexivity. Qed.

  (** A position popped for the first time has its cost as priority. *)
  Lemma ffirst_pop_prio : forall c hp e tr, FRun c hp (e :: tr) -> ~ popped tr (e_pos e) -> e_pos e <> orig ->
    e_prio e = c (e_pos e) + h (e_pos e).
  Proof.
    intros c hp e tr R N NO. destruct (frun_pop _ _ _ _ R) as (c1 & hp1 & rest & R1 & Ep & Ee).
    pose proof (pops_In _ _ _ Ep) as Hin. assert (He : In e hp1) by (apply Hin; auto).
    destruct (frun_fin _ _ _ _ R1 He) as (L & V).
    destruct (expand_mono P D succ h HS _ _ _ _ _ V Ee) as (-> & _).
    pose proof (finv0_run P D succ h orig Vo HS HA _ _ _ R1) as I.
    destruct tr as [|t tr]; [pose proof (frun_first _ _ R1) as ->; destruct (pops_one _ _ _ Ep) as (-> & ->); cbn in NO; congruence |].
    destruct (finv1_run P D succ h orig Vo HS HA HH H0 _ _ _ R1) as (ord & J); [discriminate |].
    destruct (j_entry _ _ _ _ _ _ _ _ J _ L N) as (x & Hx & _ & Ex). pose proof (pops_min _ _ _ Ep x Hx).
    destruct (i_just _ _ _ _ _ _ _ _ I e (or_introl He)) as [-> | (p & d & w & _ & _ & _ & _ & _ & L2)]; [cbn in NO; congruence | lia].
  Qed.

  Lemma fpop_order : forall c hp e tr p, FRun c hp (e :: tr) -> popped tr p -> ~ popped tr (e_pos e) ->
    c p + h p <= c (e_pos e) + h (e_pos e).
  Proof.
    intros c hp e tr p R Hp N. assert (NO : e_pos e <> orig).
    { intros E. apply N. rewrite E. destruct (frun_pop _ _ _ _ R) as (c1 & hp1 & rest & R1 & Ep & Ee).
      destruct (finv1_run P D succ h orig Vo HS HA HH H0 _ _ _ R1) as (ord & J); [intros ->; destruct Hp as (x & [] & _) |].
      apply (j_ord _ _ _ _ _ _ _ _ J). destruct (j_last _ _ _ _ _ _ _ _ J) as (l & ->). apply in_or_app. right. left. reflexivity. }
    rewrite <- (ffirst_pop_prio c hp e tr R N NO). destruct (frun_pop _ _ _ _ R) as (c1 & hp1 & rest & R1 & Ep & Ee).
    pose proof (pops_In _ _ _ Ep) as Hin. assert (He : In e hp1) by (apply Hin; auto).
    destruct (frun_fin _ _ _ _ R1 He) as (L & V). destruct (expand_mono P D succ h HS _ _ _ _ _ V Ee) as (_ & M & _).
    destruct (finv1_run P D succ h orig Vo HS HA HH H0 _ _ _ R1) as (ord & J); [intros ->; destruct Hp as (x & [] & _) |].
    pose proof (j_low _ _ _ _ _ _ _ _ J p e Hp He). specialize (M p). lia.
  Qed.

  (** Later pops have higher priorities. *)
  Lemma fprio_order : forall c hp e tr x, FRun c hp (e :: tr) -> In x tr -> e_prio x <= e_prio e.
  Proof.
    intros c hp e tr x R Hx. destruct (frun_pop _ _ _ _ R) as (c1 & hp1 & rest & R1 & Ep & Ee).
    destruct (finv1_run P D succ h orig Vo HS HA HH H0 _ _ _ R1) as (ord & J); [intros ->; destruct Hx |].
    apply (j_prio _ _ _ _ _ _ _ _ J x e Hx). apply (pops_In _ _ _ Ep). auto.
  Qed.

  (** When a position is popped for the first time, everything below its priority
      has been popped. *)
  Lemma fbelow_popped : forall c hp e tr, FRun c hp (e :: tr) -> ~ popped tr (e_pos e) -> forall p k, cost_walk D succ orig k p ->
    valid P p /\ (popped tr p \/ c (e_pos e) + h (e_pos e) <= k + h p).
  Proof.
    intros c hp e tr R N p k Hk. destruct (frun_pop _ _ _ _ R) as (c1 & hp1 & rest & R1 & Ep & Ee).
    destruct tr as [|t tr].
    - pose proof (frun_first _ _ R1) as ->. destruct (pops_one _ _ _ Ep) as (-> & ->).
      assert (CO : c orig = 0) by apply (frun_bounded _ _ _ R). cbn [e_pos Fair.e0 fst snd]. rewrite CO.
      apply (cost_walk_ind D succ orig (fun p k => valid P p /\ (popped [] p \/ 0 + h orig <= k + h p))); [| | exact Hk].
      + split; [exact Vo | right; lia].
      + intros q j d r w _ (Vq & Hq) A E. destruct (HS q d r w Vq E) as (Vr & _). split; [exact Vr |]. right.
        pose proof (HH q d r w Vq A E). destruct Hq as [(x & [] & _) | Hq]. lia.
    - set (tr' := t :: tr) in *. assert (NO : e_pos e <> orig).
      { intros E. destruct (finv1_run P D succ h orig Vo HS HA HH H0 _ _ _ R1) as (ord & J); [discriminate |].
        apply N. rewrite E. apply (j_ord _ _ _ _ _ _ _ _ J). destruct (j_last _ _ _ _ _ _ _ _ J) as (l & ->). apply in_or_app. right. left. reflexivity. }
      rewrite <- (ffirst_pop_prio c hp e tr' R N NO).
      destruct (finv1_run P D succ h orig Vo HS HA HH H0 _ _ _ R1) as (ord & J); [discriminate |].
      assert (G : valid P p /\ ((popped tr' p /\ c1 p <= k) \/ e_prio e <= k + h p)).
      { apply (cost_walk_ind D succ orig (fun p k => valid P p /\ ((popped tr' p /\ c1 p <= k) \/ e_prio e <= k + h p))); [| | exact Hk].
        - split; [exact Vo |]. left. split.
          + apply (j_ord _ _ _ _ _ _ _ _ J). destruct (j_last _ _ _ _ _ _ _ _ J) as (l & ->). apply in_or_app. right. left. reflexivity.
          + pose proof (frun_bounded _ _ _ R1) as B. destruct B as (-> & _). lia.
        - intros q j d r w _ (Vq & Hq) A E. destruct (HS q d r w Vq E) as (Vr & _). split; [exact Vr |].
          destruct Hq as [(Pq & Lq) | Hq]; [|right; pose proof (HH q d r w Vq A E); lia].
          pose proof (j_closed _ _ _ _ _ _ _ _ J q Pq d r w A E) as CL.
          destruct (popped_dec tr' r) as [Pr | Nr]; [left; split; [exact Pr | lia] |]. right.
          assert (FIN : c1 r < COST_MAX).
          { apply (frun_popped_reachable P D succ h orig Vo HS HA _ _ _ q R1) in Pq. destruct Pq as (_ & Lm).
            pose proof (frun_bounded _ _ _ R1) as B. destruct (bounded_sum P D succ h orig Vo HS HA c1 q d r w B Lm A E) as (_ & X).
            destruct B as (_ & B & _). specialize (B r). destruct (Z.eq_dec (c1 r) COST_MAX) as [Q | Q]; [specialize (X Q)|]; lia. }
          destruct (j_entry _ _ _ _ _ _ _ _ J r FIN Nr) as (x & Hx & _ & Ex). pose proof (pops_min _ _ _ Ep x Hx). lia. }
      destruct G as (V & [(X & _) | X]); auto.
  Qed.
End Loop.

