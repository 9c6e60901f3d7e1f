(** PropAnyClosuresProofs.v -- proofs of the statements of PropAnyClosures.v. *)

From Coq Require Import ZArith List Bool Lia.
From Verif Require Import Rust BoundedInt Dir PosT Pos Grid Gridbool SetMap CameFrom Heap Bf Astar Ucs Closures Spec SpecSearch SpecMaze SpecClosures Lib BoundedIntProofs PosTProofs PosTProofs2 SetMapProofs Sim CameFromProofs PropSetMapProofs BfProofs PropBfProofs BestFirst SearchProofs PropPathProofs.
Import ListNotations.
Open Scope Z_scope.

Section Gives.
  Context {St : Type} (panics : Prop).
  Lemma gives_done : forall A (a : A) (Q : A -> Prop), Q a -> gives (St := St) panics (done a) Q.
  Proof using. intros A a Q H s. right. exists s, a. split; [reflexivity | exact H]. Qed.
  Lemma gives_apart : forall A (m : exec A) a (Q : A -> Prop), m = Ret a -> Q a -> gives (St := St) panics (apart m) Q.
  Proof using. intros A m a Q -> H s. right. exists s, a. split; [reflexivity | exact H]. Qed.
  Lemma gives_panic : forall A (m : exec A) (Q : A -> Prop), panics -> m = Panic -> gives (St := St) panics (apart m) Q.
  Proof using. intros A m Q HP -> s. left. split; [exact HP | reflexivity]. Qed.
  Lemma gives_bind : forall A B (m : act St A) (k : A -> act St B) (Q : A -> Prop) (R : B -> Prop),
    gives panics m Q -> (forall a, Q a -> gives panics (k a) R) -> gives panics (andthen m k) R.
  Proof using.
    intros A B m k Q R H K s. unfold andthen. destruct (H s) as [(HP & ->) | (s' & a & -> & HQ)]; [left; split; [exact HP | reflexivity] |]. cbn [bind]. apply K. exact HQ.
  Qed.
  Lemma gives_pure : forall A B (m : exec A) a (k : A -> act St B) (R : B -> Prop), m = Ret a -> gives panics (k a) R -> gives panics (andthen (apart m) k) R.
  Proof using. intros A B m a k R E K s. unfold andthen, apart. rewrite E. cbn [bind]. apply K. Qed.
  Lemma gives_fold : forall X I (f : X -> I -> act St X) (Q : X -> Prop) (l : list I),
    (forall x i, In i l -> Q x -> gives panics (f x i) Q) -> forall x, Q x -> gives panics (foldA f l x) Q.
  Proof using.
    intros X I f Q. induction l as [|i l IH]; intros H x Hx; cbn [foldA]; [apply gives_done; exact Hx |].
    eapply gives_bind; [apply H; [left; reflexivity | exact Hx] |]. cbn beta. intros x' Hx'. apply IH; [|exact Hx']. intros y j Hj. apply H. right. exact Hj.
  Qed.
  Lemma gives_weaken : forall A (m : act St A) (Q R : A -> Prop), gives panics m Q -> (forall a, Q a -> R a) -> gives panics m R.
  Proof using. intros A m Q R H K s. destruct (H s) as [H0 | (s' & a & E & HQ)]; [left; exact H0 | right; exists s', a; auto]. Qed.
End Gives.

(** ** Path reconstruction on the maps that occur *)

Definition way_back (P : post) (D : bool) (f : pos -> option dir) : Prop := forall p d, valid P p -> f p = Some d -> allowed D (opp d).

Lemma opp_allowed : forall D d, allowed D d -> allowed D (opp d).
Proof. intros D d [H | H]; [left; exact H | right]. destruct d, H as [H | H]; cbn in *; try discriminate H; auto. Qed.

Lemma way_back_put : forall P D f p d, way_back P D f -> allowed D d -> way_back P D (put f p (Some d)).
Proof.
  intros P D f p d H A q e V E. destruct (pos_dec p q) as [<- | N]; [rewrite put_eq in E; inv E; apply opp_allowed; exact A | rewrite put_neq in E by exact N; apply (H q); assumption].
Qed.

Lemma bp_allowed : forall P D f orig, post_wf P -> way_back P D f -> forall n p ret path,
  valid P p -> Forall (allowed D) ret -> bp P f orig n p ret = Ok path -> Forall (allowed D) path.
Proof.
  intros P D f orig W H. induction n as [|n IH]; intros p ret path V A E; cbn [bp] in E; [discriminate |].
  destruct (pos_eqb p orig); [inv E; exact A |]. destruct (f p) as [d|] eqn:Ef; [|discriminate].
  destruct (add_inside P p d W V) as [(Vs & Ea) | (_ & Ea)]; rewrite Ea in E; [|discriminate].
  apply (IH (step p d) (opp d :: ret) path Vs); [|exact E]. constructor; [apply (H p d V Ef) | exact A].
Qed.

Lemma into_path_any : forall P D M (mo : mapops (option dir) M) RM m f fuel orig dest,
  grid_type P -> lawful_map P mo RM -> RM m f -> way_back P D f -> valid P orig -> valid P dest -> (maxn P <= fuel)%nat ->
  exists r, camefrom_into_path P mo fuel m orig dest = Ret r /\
    match r with Ok path => grid_path P D orig path dest | Err e => search_error e end.
Proof.
  intros P D M mo RM m f fuel orig dest G LM HR HB Vo Vd Hf. pose proof (grid_type_wf P G) as WF.
  pose proof (into_path_bp P G f orig mo m fuel dest (fun p V => lm_get P mo RM LM m f p HR V) Vo Vd Hf) as E.
  eexists. split; [exact E |]. unfold search_error. destruct (f dest) as [d|]; [|auto].
  destruct (bp P f orig (maxn P) dest []) as [path | e] eqn:EB.
  - destruct (bp_ok P WF f orig _ _ _ _ Vd EB) as (ds & E1 & H1 & _ & _). rewrite app_nil_r in E1. subst ds. split; [exact H1 |].
    split; [apply (bp_allowed P D f orig WF HB _ _ _ _ Vd (Forall_nil _) EB) |]. apply (C118_camefrom_simple_proof M P mo m fuel orig dest path WF Vd E).
  - destruct (bp_err P f orig _ _ _ _ EB) as [-> | ->]; auto.
Qed.

(** ** Breadth-first search *)

Definition unseen (P : post) (f : pos -> bool) : nat := length (filter (fun p => negb (f p)) (all_rows P)).

Lemma unseen_put : forall P f q, valid P q -> (unseen P (put f q true) + (if f q then 0 else 1) <= unseen P f)%nat.
Proof.
  intros P f q V. unfold unseen. assert (Hin : In q (all_rows P)) by (apply all_rows_In; exact V). revert Hin.
  assert (LE : forall l, (length (filter (fun p => negb (put f q true p)) l) <= length (filter (fun p => negb (f p)) l))%nat).
  { induction l as [|p l IH]; [reflexivity |]. cbn [filter]. destruct (pos_dec q p) as [<- | N].
    - rewrite put_eq. cbn [negb]. destruct (negb (f q)); cbn [length]; lia.
    - rewrite put_neq by exact N. destruct (negb (f p)); cbn [length]; lia. }
  generalize (all_rows P). induction l as [|p l IH]; intros Hin; [destruct Hin |]. cbn [filter]. destruct (pos_dec q p) as [<- | N].
  - rewrite put_eq. cbn [negb]. specialize (LE l). destruct (f q); cbn [negb length]; lia.
  - rewrite put_neq by exact N. destruct Hin as [-> | Hin]; [congruence |]. specialize (IH Hin). destruct (negb (f p)); cbn [length]; lia.
Qed.

Section AnyBfs.
  Context {St S M : Type} (P : post) (G : grid_type P) (D : bool) (so : setops S) (RS : S -> (pos -> bool) -> Prop) (LS : lawful_set P so RS).
  Context (mo : mapops (option dir) M) (RM : M -> (pos -> option dir) -> Prop) (LM : lawful_map P mo RM) (panics : Prop).
  Context (go : pos -> dir -> act St (option pos)) (found : pos -> act St bool).
  Context (HG : forall p d, valid P p -> gives panics (go p d) (fun o => forall q, o = Some q -> valid P q)).
  Context (HF : forall p, valid P p -> gives panics (found p) (fun _ => True)).
  Definition front_ok (l : list (pos * dir)) : Prop := forall p d, In (p, d) l -> valid P p /\ allowed D d.
  Definition bf_inv (n : nat) (it : @bfit S) : Prop := exists f, RS (bf_visited it) f /\ front_ok (bf_nextfront it) /\ (unseen P f + length (bf_nextfront it) <= n)%nat.
  Lemma any_step_dir : forall n p it d, valid P p -> allowed D d -> bf_inv n it -> gives panics (bfa_step_dir so go p it d) (bf_inv n).
  Proof.
    intros n p it d V A (f & H1 & H2 & H3). unfold bfa_step_dir. eapply gives_bind; [apply HG; exact V |]. cbn beta. intros [q|] Hq; [|apply gives_done; exists f; auto].
    specialize (Hq q eq_refl). eapply gives_pure; [apply (ls_contains P so RS LS _ f q H1 Hq) |]. destruct (f q) eqn:Ef; [apply gives_done; exists f; auto |].
    eapply gives_pure; [apply dir_neg_opp |]. destruct (ls_insert P so RS LS _ f q H1 Hq) as (v & Ev & Hv). eapply gives_pure; [exact Ev |].
    apply gives_done. exists (put f q true). cbn [bf_visited bf_nextfront]. split; [exact Hv |]. split.
    - intros x e Hx. apply in_app_iff in Hx. destruct Hx as [Hx | [E | []]]; [apply H2; exact Hx |]. inv E. split; [exact Hq | apply opp_allowed; exact A].
    - pose proof (unseen_put P f q Hq) as L. rewrite Ef in L. rewrite app_length. cbn [length]. lia.
  Qed.
  Lemma any_step_pos : forall n it pd, valid P (fst pd) -> bf_inv n it -> gives panics (bfa_step_pos D so go it pd) (bf_inv n).
  Proof.
    intros n it pd V H. unfold bfa_step_pos. eapply gives_pure; [apply dir_iter_dirs |].
    eapply gives_bind; [apply (gives_fold panics _ _ (bfa_step_dir so go (fst pd)) (bf_inv n)); [|exact H]; intros x d Hd Hx; apply any_step_dir; [exact V | apply dirs_allowed; exact Hd | exact Hx] |].
    cbn beta. intros it' (f & H1 & H2 & H3). destruct (ls_insert P so RS LS _ f (fst pd) H1 V) as (v & Ev & Hv). eapply gives_pure; [exact Ev |].
    apply gives_done. exists (put f (fst pd) true). cbn [bf_visited bf_nextfront]. split; [exact Hv |]. split; [exact H2 |]. pose proof (unseen_put P f (fst pd) V). lia.
  Qed.
  Lemma any_next : forall n it, bf_inv n it ->
    gives panics (bfa_next D so go it) (fun r =>
      match fst r with
      | None => bf_nextfront it = []
      | Some l => l = bf_nextfront it /\ l <> [] /\ bf_inv (n - length l) (snd r)
      end).
  Proof.
    intros n it (f & H1 & H2 & H3). unfold bfa_next. destruct (bf_nextfront it) as [|x l] eqn:El; [apply gives_done; reflexivity |].
    assert (H : bf_inv (n - length (x :: l)) (BfIt (bf_visited it) [])). { exists f. cbn [bf_visited bf_nextfront]. split; [exact H1 |]. split; [intros p d [] |]. cbn [length] in *. lia. }
    eapply gives_bind; [apply (gives_fold panics _ _ (bfa_step_pos D so go) _ (x :: l)); [|exact H]; intros y pd Hpd Hy; apply any_step_pos; [destruct pd as [p d]; apply (H2 p d Hpd) | exact Hy] |].
    cbn beta. intros it' H'. apply gives_done. cbn [fst snd]. split; [reflexivity |]. split; [discriminate | exact H'].
  Qed.
  Lemma any_scan : forall front from f, front_ok front -> RM from f -> way_back P D f ->
    gives panics (bfa_scan mo found from front) (fun r => exists f', RM (fst r) f' /\ way_back P D f' /\ forall p, snd r = Some p -> valid P p).
  Proof.
    induction front as [|[p d] front IH]; intros from f HO HR HB; cbn [bfa_scan]; [apply gives_done; exists f; split; [exact HR |]; split; [exact HB | discriminate] |].
    destruct (HO p d (or_introl eq_refl)) as (V & A). destruct (lm_set P mo RM LM from f p (Some d) HR V) as (from' & Es & HR'). eapply gives_pure; [exact Es |].
    pose proof (way_back_put P D f p d HB A) as HB'. eapply gives_bind; [apply HF; exact V |]. cbn beta. intros [] _.
    - apply gives_done. exists (put f p (Some d)). split; [exact HR' |]. split; [exact HB' |]. cbn [snd]. intros q E. inv E. exact V.
    - apply (IH _ _ (fun q e Hq => HO q e (or_intror Hq)) HR' HB').
  Qed.
  Lemma any_loop : forall fuel n from f it, bf_inv n it -> RM from f -> way_back P D f -> (n + 1 <= fuel)%nat ->
    gives panics (bfa_search_loop D so mo go found fuel from it) (fun r =>
      match r with Ok (dest, m) => valid P dest /\ exists f', RM m f' /\ way_back P D f' | Err e => e = DestinationUnreachable end).
  Proof.
    induction fuel as [|fuel IH]; intros n from f it HI HR HB Hf; [lia |]. cbn [bfa_search_loop]. eapply gives_bind; [apply (any_next n it HI) |]. cbn beta. intros [[l|] it'] H; cbn [fst snd] in *.
    - destruct H as (El & Ne & HI'). assert (Hn : (length l <= n)%nat) by (destruct HI as (f0 & _ & _ & L); rewrite <- El in L; lia).
      assert (Hl : (0 < length l)%nat) by (destruct l; [congruence | cbn; lia]).
      eapply gives_bind; [apply (any_scan l from f); [|exact HR | exact HB]; destruct HI as (f0 & _ & HO & _); rewrite El; exact HO |]. cbn beta. intros [from' hit] (f' & HR' & HB' & HV). cbn [fst snd] in *. destruct hit as [p|].
      + apply gives_done. split; [apply HV; reflexivity |]. exists f'. auto.
      + apply (IH (n - length l)%nat from' f' it' HI' HR' HB'). lia.
    - apply gives_done. reflexivity.
  Qed.
  Lemma any_bfs : forall orig, valid P orig -> exists N, forall fuel, (N <= fuel)%nat ->
    gives panics (bfa_search_path P D so mo go found fuel orig) (fun r =>
      match r with Ok (dest, path) => valid P dest /\ grid_path P D orig path dest | Err e => search_error e end).
  Proof.
    intros orig Vo. exists (length (all_rows P) + 2 + maxn P)%nat. intros fuel Hf. unfold bfa_search_path, bfa_search_mapmov.
    assert (NEW : gives panics (bfa_new D so go orig) (bf_inv (length (all_rows P)))).
    { unfold bfa_new. destruct (ls_default P so RS LS) as (v & Ev & Hv). eapply gives_pure; [exact Ev |].
      assert (U : (unseen P (fun _ => false) <= length (all_rows P))%nat) by (unfold unseen; clear; induction (all_rows P) as [|p l IH]; cbn in *; lia).
      eapply gives_bind; [apply (any_next (length (all_rows P) + 1)) |].
      - exists (fun _ => false). cbn [bf_visited bf_nextfront length]. split; [exact Hv |]. split; [|lia].
        intros p d [E | []]. inv E. split; [exact Vo | right; left; reflexivity].
      - cbn beta. intros [[l|] it] H; cbn [fst snd bf_nextfront] in H; [|discriminate]. destruct H as (-> & _ & H). apply gives_done. cbn [length] in H. rewrite Nat.add_sub in H. exact H. }
    eapply gives_bind.
    - eapply gives_bind; [exact NEW |]. cbn beta. intros it HI. apply (any_loop fuel _ _ (fun _ => None) it HI); [apply (lm_default P mo RM LM) | intros p d _ E; discriminate | lia].
    - cbn beta. intros [[dest m] | e] H; [|apply gives_done; left; exact H]. destruct H as (Vd & f & HR & HB).
      destruct (into_path_any P D M mo RM m f fuel orig dest G LM HR HB Vo Vd ltac:(lia)) as (r & Er & Hr). eapply gives_pure; [exact Er |].
      destruct r as [path | e]; apply gives_done; [split; [exact Vd | exact Hr] | exact Hr].
  Qed.
End AnyBfs.

Lemma C123_bfs_any_closures_proof : forall St b P D W (panics : Prop) (goa : pos -> dir -> act St (option pos)) (fda : pos -> act St bool) orig,
  usable b P W -> valid P orig ->
  (forall p d, valid P p -> gives panics (goa p d) (fun o => forall q, o = Some q -> valid P q)) ->
  (forall p, valid P p -> gives panics (fda p) (fun _ => True)) ->
  exists N, forall fuel, (N <= fuel)%nat -> gives panics (bfs_acts b P D W fuel goa orig fda) (fun r =>
    match r with Ok (dest, path) => valid P dest /\ grid_path P D orig path dest | Err e => search_error e end).
Proof.
  intros St b P D W panics goa fda orig U V HG HF. pose proof (usable_grid_type b P W U) as G. destruct b; cbn [bfs_acts].
  - destruct U as (X & Y & DM & -> & HW). apply (any_bfs _ G D _ _ (usable_gridbool X Y W DM HW) _ _ (lawful_grid _ _ G) panics goa fda HG HF orig V).
  - apply (any_bfs P G D _ _ (lawful_hset P) _ _ (lawful_hmap _ _) panics goa fda HG HF orig V).
  - apply (any_bfs P G D _ _ (lawful_bset P) _ _ (lawful_bmap _ _) panics goa fda HG HF orig V).
Qed.

(** ** Uniform-cost search and A* *)

Definition costed (P : post) (c : pos -> Z) : Z := Z.of_nat (length (filter (fun p => c p <? COST_MAX) (all_rows P))).

Lemma costed_bound : forall P c, grid_type P -> 0 <= costed P c <= cells P.
Proof.
  intros P c G. unfold costed. rewrite <- (all_rows_length P G). split; [lia |]. generalize (all_rows P). intros l. induction l as [|p l IH]; cbn [filter]; [reflexivity |].
  destruct (c p <? COST_MAX); cbn [length]; lia.
Qed.

Lemma costed_put : forall P c q v, valid P q -> v < COST_MAX -> costed P (put c q v) = costed P c + (if c q <? COST_MAX then 0 else 1).
Proof.
  intros P c q v V L. unfold costed. assert (Hin : In q (all_rows P)) by (apply all_rows_In; exact V). pose proof (all_of_NoDup P true) as ND. cbn [all_of] in ND. revert Hin ND.
  generalize (all_rows P). intros l. induction l as [|p l IH]; intros Hin ND; [destruct Hin |]. inversion ND as [|? ? NI ND']. subst. cbn [filter]. destruct (pos_dec q p) as [<- | N].
  - rewrite put_eq. rewrite (proj2 (Z.ltb_lt _ _) L). assert (E : filter (fun p => put c q v p <? COST_MAX) l = filter (fun p => c p <? COST_MAX) l).
    { apply filter_ext_in. intros r Hr. rewrite put_neq; [reflexivity | intros ->; contradiction]. }
    rewrite E. destruct (c q <? COST_MAX); cbn [length]; lia.
  - rewrite put_neq by exact N. destruct Hin as [-> | Hin]; [congruence |]. specialize (IH Hin ND'). destruct (c p <? COST_MAX); cbn [length]; lia.
Qed.

Section AnyBest.
  Context (P : post) (G : grid_type P) (D : bool) (ovf : Prop) (K : Z) (HK : ovf \/ 0 <= K /\ K * cells P <= COST_MAX).
  Record best_inv (n : Z) (c : pos -> Z) (h : heap) : Prop := {
    bi_range : forall p, 0 <= c p <= COST_MAX;
    bi_small : ovf \/ forall p, valid P p -> c p < COST_MAX -> c p <= K * (costed P c - 1);
    bi_heap : forall e, In e h -> valid P (e_pos e) /\ c (e_pos e) < COST_MAX /\ allowed D (e_dir e);
    bi_total : total P c + Z.of_nat (length h) <= n }.
  Lemma best_sum : forall n c h p w, best_inv n c h -> valid P p -> c p < COST_MAX -> 0 <= w -> ovf \/ w <= K ->
    ovf \/ c p + w <= K * costed P c /\ K * costed P c <= COST_MAX.
  Proof.
    intros n c h p w H V L Hw HwK. destruct HK as [O | (K0 & KB)]; [left; exact O |]. destruct HwK as [O | HwK]; [left; exact O |].
    destruct (bi_small _ _ _ H) as [O | S]; [left; exact O |]. right. specialize (S p V L). pose proof (costed_bound P c G). nia.
  Qed.
  Lemma best_relax : forall n c h p w q d prio, best_inv n c h -> valid P p -> c p < COST_MAX -> 0 <= w -> ovf \/ w <= K ->
    valid P q -> c p + w < c q -> allowed D d ->
    best_inv n (put c q (c p + w)) ((prio, (q, d)) :: h) /\ put c q (c p + w) p < COST_MAX.
  Proof.
    intros n c h p w q d prio H V L Hw HwK Vq Lq A. pose proof (bi_range _ _ _ H) as HR.
    assert (N : q <> p) by (intros ->; lia). split; [|rewrite put_neq by exact N; exact L].
    assert (Lv : c p + w < COST_MAX) by (specialize (HR q); lia). constructor.
    - intros r. destruct (pos_dec q r) as [<- | Nr]; [rewrite put_eq; pose proof (HR p); lia | rewrite put_neq by exact Nr; apply HR].
    - destruct (best_sum n c h p w H V L Hw HwK) as [O | (S1 & S2)]; [left; exact O |]. destruct (bi_small _ _ _ H) as [O | S]; [left; exact O |]. destruct HK as [O | (K0 & KB)]; [left; exact O |].
      right. intros r Vr Lr. rewrite costed_put by assumption. destruct (pos_dec q r) as [<- | Nr].
      + rewrite put_eq in *. destruct (c q <? COST_MAX) eqn:Eq; [apply Z.ltb_lt in Eq; specialize (S q Vq Eq); lia |]. lia.
      + rewrite put_neq in * by exact Nr. specialize (S r Vr Lr). destruct (c q <? COST_MAX); nia.
    - intros e [<- | He]; [cbn; split; [exact Vq |]; split; [rewrite put_eq; exact Lv | exact A] |]. destruct (bi_heap _ _ _ H e He) as (H1 & H2 & H3).
      split; [exact H1 |]. split; [|exact H3]. destruct (pos_dec q (e_pos e)) as [<- | Ne]; [rewrite put_eq; exact Lv | rewrite put_neq by exact Ne; exact H2].
    - pose proof (bi_total _ _ _ H) as HT. rewrite (total_put P (fun _ _ => None) (fun _ => 0) ltac:(discriminate) c q _ Vq). cbn [length]. lia.
  Qed.
  Lemma best_pop : forall n c h e r, best_inv n c h -> heap_pop h = Some (e, r) -> best_inv (n - 1) c r /\ valid P (e_pos e) /\ c (e_pos e) < COST_MAX /\ allowed D (e_dir e).
  Proof.
    intros n c h e r H E. pose proof (heap_pop_In _ _ _ E) as HI. split; [|apply (bi_heap _ _ _ H); apply HI; left; reflexivity]. destruct H as [H1 H2 H3 H4]. constructor; [exact H1 | exact H2 | |].
    - intros x Hx. apply H3. apply HI. right. exact Hx.
    - rewrite (heap_pop_length _ _ _ E) in H4. lia.
  Qed.
  Lemma best_start : forall orig, ovf \/ 0 <= K -> valid P orig -> best_inv (COST_MAX * Z.of_nat (length (all_rows P)) + 1) (put (fun _ => COST_MAX) orig 0) [(0, (orig, dir_default))].
  Proof.
    intros orig HK0 Vo. assert (HR : forall p, 0 <= put (fun _ => COST_MAX) orig 0 p <= COST_MAX). { intros p. destruct (pos_dec orig p) as [<- | N]; [rewrite put_eq | rewrite put_neq by exact N]; unfold COST_MAX; lia. }
    constructor; [exact HR | | |].
    - destruct HK0 as [O | K0]; [left; exact O | right]. intros p V L. destruct (pos_dec orig p) as [<- | N]; [|rewrite put_neq in L by exact N; lia].
      rewrite put_eq. rewrite costed_put by (first [exact Vo | reflexivity]). rewrite Z.ltb_irrefl. pose proof (costed_bound P (fun _ => COST_MAX) G). nia.
    - intros e [<- | []]. cbn. split; [exact Vo |]. split; [rewrite put_eq; reflexivity | right; left; reflexivity].
    - pose proof (total_bound P _ HR). cbn [length]. lia.
  Qed.
  Lemma best_end : forall n c h e, best_inv n c h -> In e h -> 1 <= n.
  Proof. intros n c h e H He. pose proof (bi_total _ _ _ H). pose proof (total_bound P c (bi_range _ _ _ H)). destruct h; [destruct He | cbn [length] in *; lia]. Qed.
End AnyBest.

Section AnyUcs.
  Context {St MC M : Type} (P : post) (G : grid_type P) (D : bool) (co : mapops Z MC) (RC : MC -> (pos -> Z) -> Prop) (LC : lawful_map P co RC).
  Context (mo : mapops (option dir) M) (RM : M -> (pos -> option dir) -> Prop) (LM : lawful_map P mo RM) (panics ovf : Prop) (HO : ovf -> panics).
  Context (K : Z) (HK : ovf \/ 0 <= K /\ K * cells P <= COST_MAX).
  Context (go : pos -> dir -> act St (option (pos * Z))).
  Context (HG : forall p d, valid P p -> gives panics (go p d) (fun o => forall q w, o = Some (q, w) -> valid P q /\ 0 <= w /\ (ovf \/ w <= K))).
  Definition u_inv (n : Z) (it : @uit MC) : Prop := exists c, RC (u_cost it) c /\ best_inv P D ovf K n c (u_frontier it).
  Definition u_inv_at (n : Z) (p : pos) (it : @uit MC) : Prop := exists c, RC (u_cost it) c /\ best_inv P D ovf K n c (u_frontier it) /\ c p < COST_MAX.
  Lemma any_ustep : forall n p it d, valid P p -> allowed D d -> u_inv_at n p it -> gives panics (ucsa_step_dir co go p it d) (u_inv_at n p).
  Proof.
    intros n p it d V A (c & H1 & H2 & H3). unfold ucsa_step_dir. eapply gives_bind; [apply HG; exact V |]. cbn beta. intros [[q w]|] Hq; [|apply gives_done; exists c; auto].
    destruct (Hq q w eq_refl) as (Vq & Hw & HwK). eapply gives_pure; [apply (lm_get P co RC LC _ c p H1 V) |].
    pose proof (bi_range _ _ _ _ _ _ _ H2) as HR. destruct (Z_le_gt_dec (c p + w) COST_MAX) as [L | L].
    - eapply gives_pure; [unfold uadd; apply usize_arith; pose proof (HR p); unfold COST_MAX in *; lia |]. eapply gives_pure; [apply (lm_get P co RC LC _ c q H1 Vq) |].
      destruct (c p + w <? c q) eqn:Eq; [|apply gives_done; exists c; auto]. apply Z.ltb_lt in Eq. destruct (lm_set P co RC LC _ c q (c p + w) H1 Vq) as (m & Em & Hm). eapply gives_pure; [exact Em |].
      eapply gives_pure; [apply dir_neg_opp |]. apply gives_done. exists (put c q (c p + w)). cbn [u_cost u_frontier]. split; [exact Hm |].
      apply (best_relax P G D ovf K HK n c _ p w q (opp d) _ H2 V H3 Hw HwK Vq Eq (opp_allowed D d A)).
    - destruct (best_sum P G D ovf K HK n c _ p w H2 V H3 Hw HwK) as [O | (S1 & S2)]; [|lia]. eapply (gives_bind _ _ _ _ _ (fun _ => False)); [|intros a []].
      apply gives_panic; [apply HO; exact O |]. unfold uadd. apply arith_panic. right. cbn. unfold COST_MAX in L. lia.
  Qed.
  Lemma any_unext : forall n it, u_inv n it ->
    gives panics (ucsa_next D co go it) (fun r =>
      match fst r with
      | None => True
      | Some (p, d) => valid P p /\ allowed D d /\ 1 <= n /\ u_inv (n - 1) (snd r)
      end).
  Proof.
    intros n it (c & H1 & H2). unfold ucsa_next. destruct (heap_pop (u_frontier it)) as [[[prio [p d]] rest]|] eqn:Eh; [|apply gives_done; exact Logic.I].
    destruct (best_pop P D ovf K n c _ _ _ H2 Eh) as (H2' & V & L & A). cbn [e_pos e_dir fst snd] in *.
    pose proof (best_end P D ovf K n c _ _ H2 (proj2 (heap_pop_In _ _ _ Eh _) (or_introl eq_refl))) as Hn.
    eapply gives_pure; [apply dir_iter_dirs |].
    eapply gives_bind; [apply (gives_fold panics _ _ (ucsa_step_dir co go p) (u_inv_at (n - 1) p)); [|exists c; auto]; intros x e He Hx; apply any_ustep; [exact V | apply dirs_allowed; exact He | exact Hx] |].
    cbn beta. intros it' (c' & H1' & H2'' & _). apply gives_done. cbn [fst snd]. repeat (split; [assumption |]). exists c'. auto.
  Qed.
  Lemma any_uloop : forall fuel n dest from f it, u_inv n it -> RM from f -> way_back P D f -> n + 1 <= Z.of_nat fuel -> 0 <= n ->
    gives panics (ucsa_search_loop D co mo go fuel dest from it) (fun r =>
      match r with Ok m => exists f', RM m f' /\ way_back P D f' | Err e => e = DestinationUnreachable end).
  Proof.
    induction fuel as [|fuel IH]; intros n dest from f it HI HR HB Hf Hn; [lia |]. cbn [ucsa_search_loop]. eapply gives_bind; [apply (any_unext n it HI) |].
    cbn beta. intros [[[p d]|] it'] H; cbn [fst snd] in *; [|apply gives_done; reflexivity]. destruct H as (V & A & Hn1 & HI').
    destruct (lm_set P mo RM LM from f p (Some d) HR V) as (from' & Es & HR'). eapply gives_pure; [exact Es |]. pose proof (way_back_put P D f p d HB A) as HB'.
    destruct (pos_eqb p dest); [apply gives_done; exists (put f p (Some d)); auto | apply (IH (n - 1) dest from' _ it' HI' HR' HB'); lia].
  Qed.
  Lemma any_ucs : forall orig dest, valid P orig -> valid P dest -> exists N, forall fuel, (N <= fuel)%nat ->
    gives panics (ucsa_search_path P D co mo go fuel orig dest) (fun r => match r with Ok path => grid_path P D orig path dest | Err e => search_error e end).
  Proof.
    intros orig dest Vo Vd. exists (Z.to_nat (COST_MAX * Z.of_nat (length (all_rows P)) + 2) + maxn P)%nat. intros fuel Hf. unfold ucsa_search_path, ucsa_search_mapmov.
    destruct (lm_set P co RC LC _ _ orig 0 (lm_new P co RC LC COST_MAX) Vo) as (m & Em & Hm).
    eapply gives_bind.
    - unfold ucs_new. eapply gives_pure; [cbn beta; rewrite Em; reflexivity |].
      apply (any_uloop fuel (COST_MAX * Z.of_nat (length (all_rows P)) + 1) dest _ (fun _ => None)); [|apply (lm_default P mo RM LM) | intros p d _ E; discriminate | unfold COST_MAX in *; lia | unfold COST_MAX; lia].
      exists (put (fun _ => COST_MAX) orig 0). cbn [u_cost u_frontier]. split; [exact Hm |]. apply best_start; [exact G | destruct HK as [O | (K0 & _)]; [left; exact O | right; exact K0] | exact Vo].
    - cbn beta. intros [mm | e] H; [|apply gives_done; left; exact H]. destruct H as (f & HR & HB).
      destruct (into_path_any P D M mo RM mm f fuel orig dest G LM HR HB Vo Vd ltac:(lia)) as (r & Er & Hr). apply (gives_apart _ _ _ r _ Er). exact Hr.
  Qed.
End AnyUcs.

Lemma C123_ucs_any_closures_proof : forall St b P D W (panics : Prop) (goa : pos -> dir -> act St (option (pos * Z))) orig dest K,
  usable b P W -> valid P orig -> valid P dest -> 0 <= K -> K * cells P <= 18446744073709551615 ->
  (forall p d, valid P p -> gives panics (goa p d) (fun o => forall q w, o = Some (q, w) -> valid P q /\ 0 <= w <= K)) ->
  exists N, forall fuel, (N <= fuel)%nat -> gives panics (ucs_acts b P D fuel goa orig dest) (fun r =>
    match r with Ok path => grid_path P D orig path dest | Err e => search_error e end).
Proof.
  intros St b P D W panics goa orig dest K U Vo Vd K0 KB HG. pose proof (usable_grid_type b P W U) as G.
  assert (HG' : forall p d, valid P p -> gives panics (goa p d) (fun o => forall q w, o = Some (q, w) -> valid P q /\ 0 <= w /\ (False \/ w <= K))).
  { intros p d V. eapply gives_weaken; [apply (HG p d V) |]. cbn beta. intros o H q w E. destruct (H q w E) as (H1 & H2). split; [exact H1 |]. split; [lia | right; lia]. }
  assert (HK : False \/ 0 <= K /\ K * cells P <= COST_MAX) by (right; split; [exact K0 | unfold COST_MAX; exact KB]).
  destruct b; cbn [ucs_acts].
  - apply (any_ucs P G D _ _ (lawful_grid _ _ G) _ _ (lawful_grid _ _ G) panics False ltac:(tauto) K HK goa HG' orig dest Vo Vd).
  - apply (any_ucs P G D _ _ (lawful_hmap _ _) _ _ (lawful_hmap _ _) panics False ltac:(tauto) K HK goa HG' orig dest Vo Vd).
  - apply (any_ucs P G D _ _ (lawful_bmap _ _) _ _ (lawful_bmap _ _) panics False ltac:(tauto) K HK goa HG' orig dest Vo Vd).
Qed.

Lemma C123_ucs_any_costs_proof : forall St b P D W (goa : pos -> dir -> act St (option (pos * Z))) orig dest,
  usable b P W -> valid P orig -> valid P dest ->
  (forall p d, valid P p -> gives True (goa p d) (fun o => forall q w, o = Some (q, w) -> valid P q /\ 0 <= w)) ->
  exists N, forall fuel, (N <= fuel)%nat -> gives True (ucs_acts b P D fuel goa orig dest) (fun r =>
    match r with Ok path => grid_path P D orig path dest | Err e => search_error e end).
Proof.
  intros St b P D W goa orig dest U Vo Vd HG. pose proof (usable_grid_type b P W U) as G.
  assert (HG' : forall p d, valid P p -> gives True (goa p d) (fun o => forall q w, o = Some (q, w) -> valid P q /\ 0 <= w /\ (True \/ w <= 0))).
  { intros p d V. eapply gives_weaken; [apply (HG p d V) |]. cbn beta. intros o H q w E. destruct (H q w E) as (H1 & H2). auto. }
  assert (HK : True \/ 0 <= 0 /\ 0 * cells P <= COST_MAX) by (left; exact Logic.I).
  destruct b; cbn [ucs_acts].
  - apply (any_ucs P G D _ _ (lawful_grid _ _ G) _ _ (lawful_grid _ _ G) True True (fun x => x) 0 HK goa HG' orig dest Vo Vd).
  - apply (any_ucs P G D _ _ (lawful_hmap _ _) _ _ (lawful_hmap _ _) True True (fun x => x) 0 HK goa HG' orig dest Vo Vd).
  - apply (any_ucs P G D _ _ (lawful_bmap _ _) _ _ (lawful_bmap _ _) True True (fun x => x) 0 HK goa HG' orig dest Vo Vd).
Qed.

Section AnyAstar.
  Context {St MC M : Type} (P : post) (G : grid_type P) (D : bool) (co : mapops Z MC) (RC : MC -> (pos -> Z) -> Prop) (LC : lawful_map P co RC).
  Context (mo : mapops (option dir) M) (RM : M -> (pos -> option dir) -> Prop) (LM : lawful_map P mo RM) (panics : Prop).
  Context (go : pos -> dir -> act St (option pos)).
  Context (HG : forall p d, valid P p -> gives panics (go p d) (fun o => forall q, o = Some q -> valid P q)).
  Definition a_inv_at (n : Z) (p : pos) (it : @ait MC) : Prop := exists c, RC (a_cost it) c /\ best_inv P D False 1 n c (a_frontier it) /\ c p < COST_MAX.
  Definition a_inv (n : Z) (it : @ait MC) : Prop := exists c, RC (a_cost it) c /\ best_inv P D False 1 n c (a_frontier it).
  Lemma cells_small : 1 * cells P <= 4294967296.
  Proof. unfold cells. pose proof (cols_pos P G). pose proof (rows_pos P G). nia. Qed.
  Lemma any_astep : forall n dest p it d, valid P dest -> valid P p -> allowed D d -> a_inv_at n p it -> gives panics (astara_step_dir P co go dest p it d) (a_inv_at n p).
  Proof.
    intros n dest p it d Vd V A (c & H1 & H2 & H3). unfold astara_step_dir. pose proof cells_small as CS.
    assert (HK : False \/ 0 <= 1 /\ 1 * cells P <= COST_MAX) by (right; unfold COST_MAX; lia).
    pose proof (bi_range _ _ _ _ _ _ _ H2) as HR.
    destruct (best_sum P G D False 1 HK n c _ p 1 H2 V H3 ltac:(lia) ltac:(right; lia)) as [[] | (S1 & _)].
    pose proof (costed_bound P c G) as PB. eapply gives_pure; [apply (lm_get P co RC LC _ c p H1 V) |].
    eapply gives_pure; [unfold uadd; apply usize_arith; pose proof (HR p); lia |]. eapply gives_bind; [apply HG; exact V |]. cbn beta. intros [q|] Hq; [|apply gives_done; exists c; auto].
    specialize (Hq q eq_refl). eapply gives_pure; [apply (lm_get P co RC LC _ c q H1 Hq) |].
    destruct (c p + 1 <? c q) eqn:Eq; [|apply gives_done; exists c; auto]. apply Z.ltb_lt in Eq. destruct (lm_set P co RC LC _ c q (c p + 1) H1 Hq) as (m & Em & Hm). eapply gives_pure; [exact Em |].
    eapply gives_pure; [apply (manhattan_ok P q dest G Hq Vd) |].
    assert (B : 0 <= Z.abs (fst q - fst dest) + Z.abs (snd q - snd dest) <= 131070).
    { apply (proj1 (valid_nums _ _ G)) in Hq, Vd. destruct (grid_type_nums P G) as (_ & _ & HX & HY). destruct q, dest. cbn [fst snd] in *. lia. }
    eapply gives_pure; [unfold uadd; apply usize_arith; pose proof (HR p); lia |].
    eapply gives_pure; [apply dir_neg_opp |]. apply gives_done. exists (put c q (c p + 1)). cbn [a_cost a_frontier]. split; [exact Hm |].
    apply (best_relax P G D False 1 HK n c _ p 1 q (opp d) _ H2 V H3 ltac:(lia) ltac:(right; lia) Hq Eq (opp_allowed D d A)).
  Qed.
  Lemma any_anext : forall n dest it, valid P dest -> a_inv n it ->
    gives panics (astara_next P D co go dest it) (fun r =>
      match fst r with
      | None => True
      | Some (p, d) => valid P p /\ allowed D d /\ 1 <= n /\ a_inv (n - 1) (snd r)
      end).
  Proof.
    intros n dest it Vd (c & H1 & H2). unfold astara_next. destruct (heap_pop (a_frontier it)) as [[[prio [p d]] rest]|] eqn:Eh; [|apply gives_done; exact Logic.I].
    destruct (best_pop P D False 1 n c _ _ _ H2 Eh) as (H2' & V & L & A). cbn [e_pos e_dir fst snd] in *.
    pose proof (best_end P D False 1 n c _ _ H2 (proj2 (heap_pop_In _ _ _ Eh _) (or_introl eq_refl))) as Hn.
    eapply gives_pure; [apply dir_iter_dirs |].
    eapply gives_bind; [apply (gives_fold panics _ _ (astara_step_dir P co go dest p) (a_inv_at (n - 1) p)); [|exists c; auto]; intros x e He Hx; apply any_astep; [exact Vd | exact V | apply dirs_allowed; exact He | exact Hx] |].
    cbn beta. intros it' (c' & H1' & H2'' & _). apply gives_done. cbn [fst snd]. repeat (split; [assumption |]). exists c'. auto.
  Qed.
  Lemma any_aloop : forall fuel n dest from f it, valid P dest -> a_inv n it -> RM from f -> way_back P D f -> n + 1 <= Z.of_nat fuel -> 0 <= n ->
    gives panics (astara_search_loop P D co mo go fuel dest from it) (fun r =>
      match r with Ok m => exists f', RM m f' /\ way_back P D f' | Err e => e = DestinationUnreachable end).
  Proof.
    induction fuel as [|fuel IH]; intros n dest from f it Vd HI HR HB Hf Hn; [lia |]. cbn [astara_search_loop]. eapply gives_bind; [apply (any_anext n dest it Vd HI) |].
    cbn beta. intros [[[p d]|] it'] H; cbn [fst snd] in *; [|apply gives_done; reflexivity]. destruct H as (V & A & Hn1 & HI').
    destruct (lm_set P mo RM LM from f p (Some d) HR V) as (from' & Es & HR'). eapply gives_pure; [exact Es |]. pose proof (way_back_put P D f p d HB A) as HB'.
    destruct (pos_eqb p dest); [apply gives_done; exists (put f p (Some d)); auto | apply (IH (n - 1) dest from' _ it' Vd HI' HR' HB'); lia].
  Qed.
  Lemma any_astar : forall orig dest, valid P orig -> valid P dest -> exists N, forall fuel, (N <= fuel)%nat ->
    gives panics (astara_search_path P D co mo go fuel orig dest) (fun r => match r with Ok path => grid_path P D orig path dest | Err e => search_error e end).
  Proof.
    intros orig dest Vo Vd. exists (Z.to_nat (COST_MAX * Z.of_nat (length (all_rows P)) + 2) + maxn P)%nat. intros fuel Hf. unfold astara_search_path, astara_search_mapmov.
    destruct (lm_set P co RC LC _ _ orig 0 (lm_new P co RC LC COST_MAX) Vo) as (m & Em & Hm).
    eapply gives_bind.
    - unfold astar_new. eapply gives_pure; [cbn beta; rewrite Em; reflexivity |].
      apply (any_aloop fuel (COST_MAX * Z.of_nat (length (all_rows P)) + 1) dest _ (fun _ => None)); [exact Vd | | apply (lm_default P mo RM LM) | intros p d _ E; discriminate | unfold COST_MAX in *; lia | unfold COST_MAX; lia].
      exists (put (fun _ => COST_MAX) orig 0). cbn [a_cost a_frontier]. split; [exact Hm |]. apply best_start; [exact G | right; lia | exact Vo].
    - cbn beta. intros [mm | e] H; [|apply gives_done; left; exact H]. destruct H as (f & HR & HB).
      destruct (into_path_any P D M mo RM mm f fuel orig dest G LM HR HB Vo Vd ltac:(lia)) as (r & Er & Hr). apply (gives_apart _ _ _ r _ Er). exact Hr.
  Qed.
End AnyAstar.

Lemma C123_astar_any_closures_proof : forall St b P D W (panics : Prop) (goa : pos -> dir -> act St (option pos)) orig dest,
  usable b P W -> valid P orig -> valid P dest ->
  (forall p d, valid P p -> gives panics (goa p d) (fun o => forall q, o = Some q -> valid P q)) ->
  exists N, forall fuel, (N <= fuel)%nat -> gives panics (astar_acts b P D fuel goa orig dest) (fun r =>
    match r with Ok path => grid_path P D orig path dest | Err e => search_error e end).
Proof.
  intros St b P D W panics goa orig dest U Vo Vd HG. pose proof (usable_grid_type b P W U) as G. destruct b; cbn [astar_acts].
  - apply (any_astar P G D _ _ (lawful_grid _ _ G) _ _ (lawful_grid _ _ G) panics goa HG orig dest Vo Vd).
  - apply (any_astar P G D _ _ (lawful_hmap _ _) _ _ (lawful_hmap _ _) panics goa HG orig dest Vo Vd).
  - apply (any_astar P G D _ _ (lawful_bmap _ _) _ _ (lawful_bmap _ _) panics goa HG orig dest Vo Vd).
Qed.
