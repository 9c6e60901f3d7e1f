(** PropReleaseProofs.v -- proofs of the statements of PropRelease.v. *)

From Coq Require Import ZArith List Bool Lia.
From Verif Require Import Rust BoundedInt Dir PosT Pos Grid Gridbool SetMap CameFrom Heap Bf Astar Ucs Release Spec SpecSearch SpecMaze SpecRelease Lib BoundedIntProofs PosTProofs PosTProofs2 SetMapProofs Sim CameFromProofs PropSetMapProofs BfProofs PropBfProofs BestFirst SearchProofs PropPathProofs PropAnyClosuresProofs.
Import ListNotations.
Open Scope Z_scope.

(** ** Agreement with the debug build *)

Lemma wadd_small : forall a b v, uadd a b = Ret v -> wadd a b = v.
Proof.
  intros a b v E. unfold uadd, arith in E. destruct (in_ity usize (a + b)) eqn:Ei; [|discriminate]. injection E as <-. apply in_ity_true in Ei. cbn in Ei. unfold wadd. apply Z.mod_small. lia.
Qed.

Section Agree.
  Context {MC M : Type} (P : post) (D : bool) (co : mapops Z MC) (mo : mapops (option dir) M) (go : pos -> dir -> option (pos * Z)).
  Lemma agree_step : forall p it d it', ucs_step_dir co go p it d = Ret it' -> ucsr_step_dir co go p it d = Ret it'.
  Proof.
    intros p it d it' E. unfold ucs_step_dir in E. unfold ucsr_step_dir. destruct (go p d) as [[q w]|]; [|exact E].
    destruct (mp_get co (u_cost it) p) as [c | | |]; cbn [bind] in *; try discriminate. destruct (uadd c w) as [v | | |] eqn:Ev; cbn [bind] in E; try discriminate. rewrite (wadd_small _ _ _ Ev). exact E.
  Qed.
  Lemma agree_fold : forall p l it it', foldM (ucs_step_dir co go p) l it = Ret it' -> foldM (ucsr_step_dir co go p) l it = Ret it'.
  Proof.
    intros p. induction l as [|d l IH]; intros it it' E; cbn [foldM] in *; [exact E |]. destruct (ucs_step_dir co go p it d) as [it1 | | |] eqn:E1; cbn [bind] in E; try discriminate.
    rewrite (agree_step _ _ _ _ E1). cbn [bind]. apply IH. exact E.
  Qed.
  Lemma agree_next : forall it r, ucs_next D co go it = Ret r -> ucsr_next D co go it = Ret r.
  Proof.
    intros it r E. unfold ucs_next in E. unfold ucsr_next. destruct (heap_pop (u_frontier it)) as [[[prio mov] rest]|]; [|exact E].
    destruct (dir_iter_list D) as [ds | | |]; cbn [bind] in *; try discriminate. destruct (foldM (ucs_step_dir co go (fst mov)) ds (UIt (u_cost it) rest)) as [it1 | | |] eqn:E1; cbn [bind] in E; try discriminate.
    rewrite (agree_fold _ _ _ _ E1). exact E.
  Qed.
  Lemma agree_loop : forall fuel dest from it r, ucs_search_loop D co mo go fuel dest from it = Ret r -> ucsr_search_loop D co mo go fuel dest from it = Ret r.
  Proof.
    induction fuel as [|fuel IH]; intros dest from it r E; cbn [ucs_search_loop ucsr_search_loop] in *; [discriminate |].
    destruct (ucs_next D co go it) as [[o it1] | | |] eqn:E1; cbn [bind] in E; try discriminate. rewrite (agree_next _ _ E1). cbn [bind]. destruct o as [[p d]|]; [|exact E].
    destruct (mp_set mo from p (Some d)) as [from' | | |]; cbn [bind] in *; try discriminate. destruct (pos_eqb p dest); [exact E | apply IH; exact E].
  Qed.
  Lemma agree_path : forall fuel orig dest r, ucs_search_path P D co mo go fuel orig dest = Ret r -> ucsr_search_path P D co mo go fuel orig dest = Ret r.
  Proof.
    intros fuel orig dest r E. unfold ucs_search_path, ucs_search_mapmov in E. unfold ucsr_search_path, ucsr_search_mapmov. cbv zeta in *.
    destruct (ucs_new co orig) as [it | | |]; cbn [bind] in *; try discriminate. destruct (ucs_search_loop D co mo go fuel dest (mp_default mo None) it) as [x | | |] eqn:E1; cbn [bind] in E; try discriminate.
    rewrite (agree_loop _ _ _ _ _ E1). exact E.
  Qed.
End Agree.

Lemma C124_release_agrees_proof : forall b P D fuel go orig dest r,
  ucs_on b P D fuel go orig dest = Ret r -> ucs_release_on b P D fuel go orig dest = Ret r.
Proof. intros b P D fuel go orig dest r E. destruct b; exact (agree_path P D _ _ go fuel orig dest r E). Qed.

(** ** Outcome with any costs *)

Definition wp {A} (m : exec A) (Q : A -> Prop) : Prop := exists a, m = Ret a /\ Q a.

Lemma wp_bind : forall A B (m : exec A) (k : A -> exec B) (Q : A -> Prop) (R : B -> Prop), wp m Q -> (forall a, Q a -> wp (k a) R) -> wp (bind m k) R.
Proof. intros A B m k Q R (a & -> & H) K. apply K. exact H. Qed.

Lemma wp_fold : forall X I (f : X -> I -> exec X) (Q : list I -> X -> Prop) (l : list I),
  (forall pre x i, In i l -> Q pre x -> wp (f x i) (Q (i :: pre))) -> forall pre x, Q pre x -> wp (foldM f l x) (Q (rev l ++ pre)).
Proof.
  intros X I f Q. induction l as [|i l IH]; intros H pre x Hx; cbn [foldM rev app]; [exists x; auto |].
  eapply wp_bind; [apply H; [left; reflexivity | exact Hx] |]. cbn beta. intros x' Hx'. rewrite <- app_assoc. apply IH; [|exact Hx']. intros pre' y j Hj. apply H. right. exact Hj.
Qed.

Section Outcome.
  Context {MC M : Type} (P : post) (G : grid_type P) (D : bool) (co : mapops Z MC) (RC : MC -> (pos -> Z) -> Prop) (LC : lawful_map P co RC).
  Context (mo : mapops (option dir) M) (RM : M -> (pos -> option dir) -> Prop) (LM : lawful_map P mo RM).
  Context (go : pos -> dir -> option (pos * Z)) (HG : go_inside P (move_of go)) (orig : pos) (Vo : valid P orig).
  (** No walk's cost is usize::MAX after wrapping around. *)
  Definition avoided : Prop := forall k q, cost_walk D go orig k q -> k mod 18446744073709551616 <> COST_MAX.
  Definition comes (f : pos -> option dir) (q : pos) (e : dir) : Prop :=
    q = orig \/ exists p d w, valid P p /\ allowed D d /\ go p d = Some (q, w) /\ e = opp d /\ f p <> None.
  (** [cur] is the position being expanded, [pre] the directions done. *)
  Record rinv (n : Z) (c : pos -> Z) (h : heap) (f : pos -> option dir) (cur : option (pos * list dir)) : Prop := {
    ri_range : forall p, 0 <= c p <= COST_MAX;
    ri_valid : forall p, c p < COST_MAX -> valid P p;
    ri_orig : c orig < COST_MAX;
    ri_cost : forall p, c p < COST_MAX -> exists k, cost_walk D go orig k p /\ c p = k mod 18446744073709551616;
    ri_heap : forall e, In e h -> c (e_pos e) < COST_MAX /\ comes f (e_pos e) (e_dir e);
    ri_from : forall q e, f q = Some e -> c q < COST_MAX /\ comes f q e;
    ri_open : forall q, c q < COST_MAX -> f q <> None \/ exists e, In e h /\ e_pos e = q;
    ri_closed : avoided -> forall p d q w, f p <> None -> allowed D d -> go p d = Some (q, w) ->
      match cur with Some (p', pre) => p <> p' \/ In d pre | None => True end -> c q < COST_MAX;
    ri_total : total P c + Z.of_nat (length h) <= n }.
  Lemma comes_put : forall f q e p d, comes f q e -> comes (put f p (Some d)) q e.
  Proof.
    intros f q e p d [H | (r & x & w & H1 & H2 & H3 & H4 & H5)]; [left; exact H | right; exists r, x, w]. repeat (split; [assumption |]).
    destruct (pos_dec p r) as [<- | N]; [rewrite put_eq; discriminate | rewrite put_neq by exact N; exact H5].
  Qed.
  Lemma r_step : forall n p f it d pre, allowed D d -> f p <> None ->
    (exists c, RC (u_cost it) c /\ rinv n c (u_frontier it) f (Some (p, pre))) ->
    wp (ucsr_step_dir co go p it d) (fun it' => exists c, RC (u_cost it') c /\ rinv n c (u_frontier it') f (Some (p, d :: pre))).
  Proof.
    intros n p f it d pre A Fp (c & H1 & H2). pose proof H2 as [I1 I2 I0 I3 I4 I5 I6 I7 I8].
    assert (Lp : c p < COST_MAX) by (destruct (f p) as [e|] eqn:E; [apply (I5 p e E) | congruence]). pose proof (I2 p Lp) as V.
    unfold ucsr_step_dir. destruct (go p d) as [[q w]|] eqn:Eg.
    - assert (Vq : valid P q) by (apply (HG p d q V); unfold move_of; rewrite Eg; reflexivity).
      rewrite (lm_get P co RC LC _ c p H1 V). cbn [bind]. cbv zeta. rewrite (lm_get P co RC LC _ c q H1 Vq). cbn [bind].
      destruct (I3 p Lp) as (k & Wk & Ek).
      assert (Ew : wadd (c p) w = (k + w) mod 18446744073709551616) by (unfold wadd; rewrite Ek, Zplus_mod_idemp_l; reflexivity).
      pose proof (cost_walk_snoc D go orig p k d q w Wk A Eg) as Wq.
      assert (B0 : 0 <= wadd (c p) w <= COST_MAX). { unfold wadd, COST_MAX. pose proof (Z.mod_pos_bound (c p + w) 18446744073709551616 eq_refl). lia. }
      assert (AV : avoided -> wadd (c p) w < COST_MAX). { intros HA. destruct (Z.eq_dec (wadd (c p) w) COST_MAX) as [Ex | Ex]; [exfalso; apply (HA _ _ Wq); rewrite <- Ew; exact Ex | lia]. }
      destruct (wadd (c p) w <? c q) eqn:El.
      + apply Z.ltb_lt in El. set (v := wadd (c p) w) in *. destruct (lm_set P co RC LC _ c q v H1 Vq) as (m & Em & Hm). rewrite Em. cbn [bind]. rewrite dir_neg_opp. cbn [bind].
        eexists. split; [reflexivity |]. exists (put c q v). cbn [u_cost u_frontier]. split; [exact Hm |].
        assert (Lv : v < COST_MAX) by (pose proof (I1 q); lia).
        assert (DEC : forall r, c r < COST_MAX -> put c q v r < COST_MAX). { intros r Hr. destruct (pos_dec q r) as [<- | N]; [rewrite put_eq; exact Lv | rewrite put_neq by exact N; exact Hr]. }
        constructor.
        * intros r. destruct (pos_dec q r) as [<- | N]; [rewrite put_eq; lia | rewrite put_neq by exact N; apply I1].
        * intros r Hr. destruct (pos_dec q r) as [<- | N]; [exact Vq | rewrite put_neq in Hr by exact N; apply I2; exact Hr].
        * apply DEC. exact I0.
        * intros r Hr. destruct (pos_dec q r) as [<- | N]; [exists (k + w); rewrite put_eq; split; [exact Wq | exact Ew] | rewrite put_neq in * by exact N; apply I3; exact Hr].
        * intros e [<- | He]; [cbn; split; [rewrite put_eq; exact Lv |]; right; exists p, d, w; auto |]. destruct (I4 e He) as (J1 & J2). split; [apply DEC; exact J1 | exact J2].
        * intros r e Hr. destruct (I5 r e Hr) as (J1 & J2). split; [apply DEC; exact J1 | exact J2].
        * intros r Hr. destruct (pos_dec q r) as [<- | N]; [right; exists (v, (q, opp d)); split; [left; reflexivity | reflexivity] |].
          rewrite put_neq in Hr by exact N. destruct (I6 r Hr) as [J | (e & J1 & J2)]; [left; exact J | right; exists e; split; [right; exact J1 | exact J2]].
        * intros HA p1 d1 q1 w1 F1 A1 E1 C1. destruct (pos_dec q q1) as [<- | N]; [rewrite put_eq; exact Lv |]. rewrite put_neq by exact N.
          destruct C1 as [C1 | [C1 | C1]]; [apply (I7 HA p1 d1 q1 w1 F1 A1 E1); left; exact C1 | | apply (I7 HA p1 d1 q1 w1 F1 A1 E1); right; exact C1].
          subst d1. destruct (pos_dec p1 p) as [-> | Np]; [congruence | apply (I7 HA p1 d q1 w1 F1 A1 E1); left; exact Np].
        * rewrite (total_put P (fun _ _ => None) (fun _ => 0) ltac:(discriminate) c q _ Vq). unfold heap_push. cbn [length]. lia.
      + apply Z.ltb_ge in El. eexists. split; [reflexivity |]. exists c. split; [exact H1 |]. constructor; try assumption.
        intros HA p1 d1 q1 w1 F1 A1 E1 C1. destruct C1 as [C1 | [C1 | C1]]; [apply (I7 HA p1 d1 q1 w1 F1 A1 E1); left; exact C1 | | apply (I7 HA p1 d1 q1 w1 F1 A1 E1); right; exact C1].
        subst d1. destruct (pos_dec p1 p) as [-> | Np]; [|apply (I7 HA p1 d q1 w1 F1 A1 E1); left; exact Np]. specialize (AV HA). assert (q1 = q) by congruence. subst q1. lia.
    - eexists. split; [reflexivity |]. exists c. split; [exact H1 |]. constructor; try assumption.
      intros HA p1 d1 q1 w1 F1 A1 E1 C1. destruct C1 as [C1 | [C1 | C1]]; [apply (I7 HA p1 d1 q1 w1 F1 A1 E1); left; exact C1 | | apply (I7 HA p1 d1 q1 w1 F1 A1 E1); right; exact C1].
      subst d1. destruct (pos_dec p1 p) as [-> | Np]; [congruence | apply (I7 HA p1 d q1 w1 F1 A1 E1); left; exact Np].
  Qed.
  Definition r_at (n : Z) (f : pos -> option dir) (it : @uit MC) : Prop := exists c, RC (u_cost it) c /\ rinv n c (u_frontier it) f None.
  Lemma r_next : forall n f it, r_at n f it -> wp (ucsr_next D co go it) (fun r =>
      match fst r with
      | None => u_frontier it = []
      | Some (p, d) => valid P p /\ 1 <= n /\ r_at (n - 1) (put f p (Some d)) (snd r)
      end).
  Proof.
    intros n f it (c & H1 & H2). unfold ucsr_next. destruct (heap_pop (u_frontier it)) as [[[prio [p d]] rest]|] eqn:Eh.
    - pose proof H2 as [I1 I2 I0 I3 I4 I5 I6 I7 I8]. pose proof (heap_pop_In _ _ _ Eh) as HI. destruct (I4 _ (proj2 (HI _) (or_introl eq_refl))) as (Lp & CM). cbn [e_pos e_dir fst snd] in *.
      pose proof (I2 p Lp) as V. rewrite dir_iter_dirs. cbn [bind].
      pose proof (heap_pop_length _ _ _ Eh) as Hl. pose proof (total_bound P c I1) as TB.
      assert (START : rinv (n - 1) c rest (put f p (Some d)) (Some (p, []))).
      { constructor; try assumption.
        - intros e He. destruct (I4 e (proj2 (HI e) (or_intror He))) as (J1 & J2). split; [exact J1 | apply comes_put; exact J2].
        - intros q e E. destruct (pos_dec p q) as [<- | N]; [rewrite put_eq in E; inv E; split; [exact Lp | apply comes_put; exact CM] |].
          rewrite put_neq in E by exact N. destruct (I5 q e E) as (J1 & J2). split; [exact J1 | apply comes_put; exact J2].
        - intros q Hq. destruct (pos_dec p q) as [<- | N]; [left; rewrite put_eq; discriminate |]. rewrite put_neq by exact N. destruct (I6 q Hq) as [J | (e & J1 & J2)]; [left; exact J | right].
          exists e. split; [|exact J2]. apply HI in J1. destruct J1 as [-> | J1]; [cbn in J2; congruence | exact J1].
        - intros HA p1 d1 q1 w1 F1 A1 E1 [C1 | []]. rewrite put_neq in F1 by congruence. apply (I7 HA p1 d1 q1 w1 F1 A1 E1). exact Logic.I.
        - lia. }
      eapply wp_bind; [apply (wp_fold _ _ _ (fun pre x => exists c, RC (u_cost x) c /\ rinv (n - 1) c (u_frontier x) (put f p (Some d)) (Some (p, pre))) _) with (pre := []) |].
      + intros pre x e He Hx. apply r_step; [apply dirs_allowed; exact He | rewrite put_eq; discriminate | exact Hx].
      + exists c. split; [exact H1 | exact START].
      + cbn beta. intros it' (c' & H1' & H2'). eexists. split; [reflexivity |]. cbn [fst snd]. split; [exact V |]. split; [lia |]. exists c'. split; [exact H1' |].
        destruct H2' as [J1 J2 J0 J3 J4 J5 J6 J7 J8]. constructor; try assumption.
        intros HA p1 d1 q1 w1 F1 A1 E1 _. apply (J7 HA p1 d1 q1 w1 F1 A1 E1). right. rewrite app_nil_r. rewrite <- in_rev. apply dirs_allowed. exact A1.
    - eexists. split; [reflexivity |]. cbn [fst]. destruct (u_frontier it) as [|e h]; [reflexivity | cbn in Eh; destruct (heap_take e h); discriminate].
  Qed.
  Lemma r_loop : forall fuel n dest from f it, r_at n f it -> RM from f -> f dest = None -> n + 1 <= Z.of_nat fuel -> 0 <= n ->
    wp (ucsr_search_loop D co mo go fuel dest from it) (fun r =>
      match r with
      | Ok m => exists f', RM m f' /\ f' dest <> None /\ forall q e, f' q = Some e -> valid P q /\ comes f' q e
      | Err e => e = DestinationUnreachable /\ (avoided -> ~ reachable D (move_of go) orig dest)
      end).
  Proof.
    induction fuel as [|fuel IH]; intros n dest from f it HI HR Hd Hf Hn; [lia |]. cbn [ucsr_search_loop]. eapply wp_bind; [apply (r_next n f it HI) |].
    cbn beta. intros [[[p d]|] it'] H; cbn [fst snd] in *.
    - destruct H as (V & Hn1 & HI'). destruct (lm_set P mo RM LM from f p (Some d) HR V) as (from' & Es & HR'). rewrite Es. cbn [bind]. destruct (pos_eqb p dest) eqn:Ep.
      + apply pos_eqb_eq in Ep. subst p. eexists. split; [reflexivity |]. exists (put f dest (Some d)). split; [exact HR' |]. split; [rewrite put_eq; discriminate |].
        intros q e E. destruct HI' as (c & _ & I). destruct (ri_from _ _ _ _ _ I q e E) as (J1 & J2). split; [apply (ri_valid _ _ _ _ _ I); exact J1 | exact J2].
      + apply pos_eqb_neq in Ep. apply (IH (n - 1) dest from' (put f p (Some d)) it' HI' HR'); [rewrite put_neq by exact Ep; exact Hd | lia | lia].
    - eexists. split; [reflexivity |]. split; [reflexivity |]. intros HA HRch. destruct HI as (c & _ & I). rewrite H in I. apply reachable_cost in HRch. destruct HRch as (k & Wk).
      assert (ALL : f dest <> None).
      { apply (cost_walk_ind D go orig (fun q _ => f q <> None)) with (c := k); [| | exact Wk].
        - destruct (ri_open _ _ _ _ _ I orig (ri_orig _ _ _ _ _ I)) as [J | (e & [] & _)]. exact J.
        - intros q k' e r w _ Fq A E. destruct (ri_open _ _ _ _ _ I r) as [J | (x & [] & _)]; [apply (ri_closed _ _ _ _ _ I HA q e r w Fq A E); exact Logic.I | exact J]. }
      congruence.
  Qed.
  Context (H1 : one_step P (move_of go)).
  Lemma bp_comes : forall f dest, (forall q e, f q = Some e -> valid P q /\ comes f q e) ->
    forall n p ret, valid P p -> f p <> None -> Forall (allowed D) ret -> follow (move_of go) p ret = Some dest ->
    match bp P f orig n p ret with Ok path => Forall (allowed D) path /\ follow (move_of go) orig path = Some dest | Err e => e = Loop end.
  Proof.
    intros f dest HC. induction n as [|n IH]; intros p ret V Fp A F; cbn [bp]; [reflexivity |].
    destruct (pos_eqb p orig) eqn:Ep; [apply pos_eqb_eq in Ep; subst p; auto |]. apply pos_eqb_neq in Ep. destruct (f p) as [e|] eqn:Ef; [|congruence].
    destruct (HC p e Ef) as (_ & [E | (q & d & w & Vq & Ad & Eg & -> & Fq)]); [congruence |].
    assert (Eq : move_of go q d = Some p) by (unfold move_of; rewrite Eg; reflexivity). pose proof (H1 q d p Vq Eq) as Es.
    assert (Eb : step p (opp d) = q) by (rewrite Es; apply step_opp).
    destruct (add_inside P p (opp d) (grid_type_wf P G) V) as [(_ & Ea) | (NV & _)]; [|exfalso; apply NV; rewrite Eb; exact Vq].
    rewrite Ea, opp_opp, Eb. apply IH; [exact Vq | exact Fq | constructor; assumption |]. cbn [follow]. rewrite Eq. exact F.
  Qed.
  Lemma r_path : forall dest, valid P dest -> exists N, forall fuel, (N <= fuel)%nat -> wp (ucsr_search_path P D co mo go fuel orig dest) (fun r =>
    match r with
    | Ok path => Forall (allowed D) path /\ follow (move_of go) orig path = Some dest
    | Err e => e = Loop \/ e = DestinationUnreachable /\ (avoided -> ~ reachable D (move_of go) orig dest)
    end).
  Proof.
    intros dest Vd. exists (Z.to_nat (COST_MAX * Z.of_nat (length (all_rows P)) + 2) + maxn P)%nat. intros fuel Hf. unfold ucsr_search_path, ucsr_search_mapmov. cbv zeta.
    destruct (lm_set P co RC LC _ _ orig 0 (lm_new P co RC LC COST_MAX) Vo) as (m & Em & Hm).
    assert (HR : forall p, 0 <= put (fun _ => COST_MAX) orig 0 p <= COST_MAX). { intros p. destruct (pos_dec orig p) as [<- | N]; [rewrite put_eq | rewrite put_neq by exact N]; unfold COST_MAX; lia. }
    assert (ONLY : forall p, put (fun _ => COST_MAX) orig 0 p < COST_MAX -> p = orig). { intros p L. destruct (pos_dec orig p) as [<- | N]; [reflexivity | rewrite put_neq in L by exact N; lia]. }
    eapply wp_bind.
    - unfold ucs_new. rewrite Em. cbn [bind].
      apply (r_loop fuel (COST_MAX * Z.of_nat (length (all_rows P)) + 1) dest _ (fun _ => None)); [|apply (lm_default P mo RM LM) | reflexivity | unfold COST_MAX in *; lia | unfold COST_MAX; lia].
      exists (put (fun _ => COST_MAX) orig 0). cbn [u_cost u_frontier]. split; [exact Hm |]. constructor.
      + exact HR.
      + intros p L. rewrite (ONLY p L). exact Vo.
      + rewrite put_eq. reflexivity.
      + intros p L. rewrite (ONLY p L). exists 0. rewrite put_eq. split; [apply cost_walk_nil | reflexivity].
      + intros e [<- | []]. cbn. split; [rewrite put_eq; reflexivity | left; reflexivity].
      + discriminate.
      + intros q L. rewrite (ONLY q L). right. eexists. split; [left; reflexivity | reflexivity].
      + intros _ p d q w F. congruence.
      + pose proof (total_bound P _ HR). cbn [length heap_push]. lia.
    - cbn beta. intros [mm | e] H; [|eexists; split; [reflexivity | right; exact H]]. destruct H as (f & HM & Fd & HC).
      rewrite (into_path_bp P G f orig mo mm fuel dest (fun p V => lm_get P mo RM LM mm f p HM V) Vo Vd ltac:(lia)). eexists. split; [reflexivity |].
      destruct (f dest) as [d|] eqn:Ed; [|congruence]. rewrite <- Ed in Fd. pose proof (bp_comes f dest HC (maxn P) dest [] Vd Fd (Forall_nil _) eq_refl) as B. destruct (bp P f orig (maxn P) dest []); [exact B | left; exact B].
  Qed.
End Outcome.

Lemma C124_release_returns_proof : forall b P D W go orig dest,
  usable b P W -> valid P orig -> valid P dest -> go_inside P (move_of go) -> one_step P (move_of go) ->
  exists N, forall fuel, (N <= fuel)%nat -> exists r, ucs_release_on b P D fuel go orig dest = Ret r /\
    match r with
    | Ok path => Forall (allowed D) path /\ follow (move_of go) orig path = Some dest
    | Err e => e = Loop \/ e = DestinationUnreachable /\
        ((forall c q, cost_walk D go orig c q -> c mod 18446744073709551616 <> 18446744073709551615) -> ~ reachable D (move_of go) orig dest)
    end.
Proof.
  intros b P D W go orig dest U Vo Vd HG H1. pose proof (usable_grid_type b P W U) as G. destruct b; cbn [ucs_release_on].
  - apply (r_path P G D _ _ (lawful_grid _ _ G) _ _ (lawful_grid _ _ G) go HG orig Vo H1 dest Vd).
  - apply (r_path P G D _ _ (lawful_hmap _ _) _ _ (lawful_hmap _ _) go HG orig Vo H1 dest Vd).
  - apply (r_path P G D _ _ (lawful_bmap _ _) _ _ (lawful_bmap _ _) go HG orig Vo H1 dest Vd).
Qed.

(** Moves and their costs listed in a table. *)
Definition table (t : list (pos * dir * Z)) (p : pos) (d : dir) : option (pos * Z) :=
  match find (fun e => pos_eqb (fst (fst e)) p && (dir_index (snd (fst e)) =? dir_index d)) t with Some e => Some (step p d, snd e) | None => None end.

Lemma table_In : forall t p d q w, table t p d = Some (q, w) -> q = step p d /\ In (p, d, w) t.
Proof.
  intros t p d q w E. unfold table in E. destruct (find _ t) as [[[p' d'] w']|] eqn:F; [|discriminate]. apply find_some in F. destruct F as (Hin & F). cbn [fst snd] in *. apply andb_prop in F. destruct F as (F1 & F2).
  apply pos_eqb_eq in F1. subst p'. injection E as <- <-. split; [reflexivity |]. apply Z.eqb_eq in F2. replace d with d'; [exact Hin |]. destruct d, d'; cbn in F2; first [reflexivity | discriminate F2].
Qed.

Lemma table_ok : forall P t, Forall (fun e => valid P (step (fst (fst e)) (snd (fst e))) /\ 0 <= snd e <= 18446744073709551615) t ->
  go_inside P (move_of (table t)) /\ one_step P (move_of (table t)) /\ usize_costs P (table t).
Proof.
  intros P t H. rewrite Forall_forall in H. assert (MV : forall p d q, move_of (table t) p d = Some q -> exists w, table t p d = Some (q, w)).
  { intros p d q E. unfold move_of in E. destruct (table t p d) as [[r w]|] eqn:Et; [|discriminate]. injection E as ->. exists w. reflexivity. }
  split; [|split].
  - intros p d q V E. destruct (MV p d q E) as (w & Et). apply table_In in Et. destruct Et as (-> & Hin). apply (H _ Hin).
  - intros p d q V E. destruct (MV p d q E) as (w & Et). apply table_In in Et. apply Et.
  - intros p d q w V E. apply table_In in E. destruct E as (_ & Hin). apply (H _ Hin).
Qed.

Lemma C124_release_overflow_proof :
  (exists P go orig dest fuel, grid_type P /\ valid P orig /\ valid P dest /\ go_inside P (move_of go) /\ one_step P (move_of go) /\ usize_costs P go /\
    reachable false (move_of go) orig dest /\ ucs_release_on OnGrid P false fuel go orig dest = Ret (Err Loop)) /\
  (exists P go orig dest fuel path c c', grid_type P /\ valid P orig /\ valid P dest /\ go_inside P (move_of go) /\ one_step P (move_of go) /\ usize_costs P go /\
    ucs_release_on OnGrid P false fuel go orig dest = Ret (Ok path) /\ follow_cost go orig path = Some (dest, c) /\
    cost_walk false go orig c' dest /\ c' < c).
Proof.
  split.
  - set (t := [(((0, 0), dE), 18446744073709551605); (((1, 0), dE), 12); (((2, 0), dW), 1); (((1, 0), dS), 5)] : list (pos * dir * Z)).
    destruct (table_ok (Pos 2 1) t) as (T1 & T2 & T3). { repeat (constructor; [vm_compute; repeat split; discriminate |]). constructor. }
    exists (Pos 2 1), (table t), (0, 0), (1, 1), 50%nat. split; [apply Pos_grid_type; unfold u16_dims; lia |]. split; [vm_compute; repeat split; discriminate |]. split; [vm_compute; repeat split; discriminate |].
    split; [exact T1 |]. split; [exact T2 |]. split; [exact T3 |]. split; [|vm_compute; reflexivity].
    exists 2%nat, [dE; dS]. split; [reflexivity |]. split; [repeat constructor; right; cbn; auto | vm_compute; reflexivity].
  - set (t := [(((0, 0), dE), 18446744073709551605); (((0, 0), dS), 18446744073709551606); (((1, 0), dS), 12); (((1, 1), dW), 1)] : list (pos * dir * Z)).
    destruct (table_ok (Pos 1 1) t) as (T1 & T2 & T3). { repeat (constructor; [vm_compute; repeat split; discriminate |]). constructor. }
    exists (Pos 1 1), (table t), (0, 0), (0, 1), 50%nat, [dE; dS; dW], 18446744073709551618, 18446744073709551606. split; [apply Pos_grid_type; unfold u16_dims; lia |]. split; [vm_compute; repeat split; discriminate |]. split; [vm_compute; repeat split; discriminate |].
    split; [exact T1 |]. split; [exact T2 |]. split; [exact T3 |]. split; [vm_compute; reflexivity |]. split; [vm_compute; reflexivity |]. split; [|reflexivity].
    exists [dS]. split; [repeat constructor; right; cbn; auto | vm_compute; reflexivity].
Qed.
