(** PropFrameProofs.v -- proofs of the statements of PropFrame.v. *)

From Coq Require Import ZArith List Bool Lia.
From Verif Require Import Rust BoundedInt Dir PosT Pos Grid Gridbool SetMap CameFrom Bf Heap Astar Ucs Spec SpecSearch Lib Deque BoundedIntProofs PosTProofs PosTProofs2 PropDirProofs SetMapProofs Sim CameFromProofs PropSetMapProofs BfProofs PropBfProofs BestFirst SearchProofs UcsProofs PropUcsProofs.
Import ListNotations.
Open Scope Z_scope.

(** An entry of the frontier after scaling. *)
Definition up (k : Z) (e : entry) : entry := (k * e_prio e, snd e).

Lemma up_pos : forall k e, e_pos (up k e) = e_pos e.
Proof. reflexivity. Qed.

Lemma up_dir : forall k e, e_dir (up k e) = e_dir e.
Proof. reflexivity. Qed.

Lemma up_ltb : forall k a b, 0 < k -> entry_ltb (up k a) (up k b) = entry_ltb a b.
Proof.
  intros k a b K. unfold entry_ltb. rewrite !up_pos, !up_dir. change (e_prio (up k a)) with (k * e_prio a). change (e_prio (up k b)) with (k * e_prio b).
  replace (k * e_prio a =? k * e_prio b) with (e_prio a =? e_prio b).
  - destruct (e_prio a =? e_prio b); [reflexivity |]. destruct (Z.ltb_spec (e_prio b) (e_prio a)), (Z.ltb_spec (k * e_prio b) (k * e_prio a)); try reflexivity; exfalso; nia.
  - destruct (Z.eqb_spec (e_prio a) (e_prio b)), (Z.eqb_spec (k * e_prio a) (k * e_prio b)); try reflexivity; exfalso; nia.
Qed.

Lemma up_take : forall k hp e, 0 < k -> heap_take (up k e) (map (up k) hp) = (up k (fst (heap_take e hp)), map (up k) (snd (heap_take e hp))).
Proof.
  intros k hp. induction hp as [|x hp IH]; intros e K; [reflexivity |]. cbn [map heap_take]. rewrite up_ltb by exact K.
  destruct (entry_ltb e x); rewrite IH by exact K; destruct (heap_take _ hp) as [m r]; reflexivity.
Qed.

Lemma up_pop : forall k hp, 0 < k -> heap_pop (map (up k) hp) = match heap_pop hp with Some (e, r) => Some (up k e, map (up k) r) | None => None end.
Proof.
  intros k [|e hp] K; [reflexivity |]. cbn [map heap_pop]. rewrite up_take by exact K. destruct (heap_take e hp). reflexivity.
Qed.

(** The recorded costs after scaling. *)
Definition upc (k : Z) (c c' : pos -> Z) : Prop :=
  forall p, (c p = COST_MAX /\ c' p = COST_MAX) \/ (c p < COST_MAX /\ c' p = k * c p /\ k * c p < COST_MAX).

Section Scale.
  Context (P : post) (D : bool) (k : Z) (go go' : pos -> dir -> option (pos * Z)) (orig : pos).
  Context (K : 0 < k) (Vo : valid P orig).
  Context (HS : forall p d q w, valid P p -> go p d = Some (q, w) -> valid P q /\ 0 <= w).
  Context (HA : affordable D P go orig).
  Context (HS' : forall p d q w, valid P p -> go' p d = Some (q, w) -> valid P q /\ 0 <= w).
  Context (HA' : affordable D P go' orig).
  Context (HK : forall p d, valid P p -> go' p d = match go p d with Some (q, w) => Some (q, k * w) | None => None end).
  Notation h0 := (fun _ : pos => 0).

  Lemma scale_relax : forall p d c c' hp, bounded D go orig c -> bounded D go' orig c' -> c p < COST_MAX -> allowed D d -> upc k c c' ->
    exists c1 c1' hp1, relax go h0 p (c, hp) d = (c1, hp1) /\ relax go' h0 p (c', map (up k) hp) d = (c1', map (up k) hp1) /\
      upc k c1 c1' /\ bounded D go orig c1 /\ bounded D go' orig c1' /\ c1 p < COST_MAX.
  Proof using K Vo HS HA HS' HA' HK.
    intros p d c c' hp B B' L A U. pose proof (bounded_valid P D go orig Vo HS c p B L) as V.
    assert (L' : c' p = k * c p /\ c' p < COST_MAX) by (destruct (U p) as [(X & _) | (_ & X & Y)]; lia).
    destruct L' as (Ep & L').
    destruct (relax go h0 p (c, hp) d) as [c1 hp1] eqn:E1. destruct (relax go' h0 p (c', map (up k) hp) d) as [c1' hp1'] eqn:E1'.
    pose proof (bounded_relax P D go h0 orig Vo HS HA _ _ _ _ _ _ B L A E1) as B1.
    pose proof (bounded_relax P D go' h0 orig Vo HS' HA' _ _ _ _ _ _ B' L' A E1') as B1'.
    pose proof (relax_le go h0 p c hp d c1 hp1 E1 p) as L1.
    exists c1, c1', hp1. split; [reflexivity |].
    enough (X : hp1' = map (up k) hp1 /\ upc k c1 c1').
    { destruct X as (-> & X). split; [reflexivity |]. split; [exact X |]. split; [exact B1 |]. split; [exact B1' | lia]. }
    cbn [relax] in E1, E1'. rewrite HK in E1' by exact V.
    destruct (go p d) as [[q w]|] eqn:Eg; [|inversion E1; inversion E1'; subst; auto].
    assert (Eg' : go' p d = Some (q, k * w)) by (rewrite HK, Eg by exact V; reflexivity).
    destruct (bounded_sum P D go h0 orig Vo HS HA c p d q w B L A Eg) as (S1 & S2).
    destruct (bounded_sum P D go' h0 orig Vo HS' HA' c' p d q (k * w) B' L' A Eg') as (S1' & S2').
    assert (X : (c' p + k * w <? c' q) = (c p + w <? c q)).
    { destruct (U q) as [(Q1 & Q2) | (Q1 & Q2 & Q3)].
      - specialize (S2 Q1). specialize (S2' Q2). rewrite Q1, Q2. rewrite (proj2 (Z.ltb_lt _ _) S2), (proj2 (Z.ltb_lt _ _) S2'). reflexivity.
      - rewrite Ep, Q2. destruct (Z.ltb_spec (k * c p + k * w) (k * c q)), (Z.ltb_spec (c p + w) (c q)); try reflexivity; exfalso; nia. }
    rewrite X in E1'. destruct (c p + w <? c q) eqn:Lq; inversion E1; inversion E1'; subst; [|auto].
    apply Z.ltb_lt in Lq. assert (Lq' : c' p + k * w < c' q) by (apply Z.ltb_lt; exact X). split.
    - cbn [map]. f_equal. unfold up. cbn [e_prio fst snd]. f_equal. rewrite Ep. lia.
    - intros r. unfold put. destruct (pos_eqb q r) eqn:Er; [|apply U]. right. pose proof (proj1 (proj2 B) q). pose proof (proj1 (proj2 B') q). lia.
  Qed.

  Lemma scale_expand : forall p c c' hp, bounded D go orig c -> bounded D go' orig c' -> c p < COST_MAX -> upc k c c' ->
    exists c1 c1' hp1, expand D go h0 p (c, hp) = (c1, hp1) /\ expand D go' h0 p (c', map (up k) hp) = (c1', map (up k) hp1) /\
      upc k c1 c1' /\ bounded D go orig c1 /\ bounded D go' orig c1'.
  Proof using K Vo HS HA HS' HA' HK.
    intros p c c' hp B B' L U. unfold expand.
    assert (A : forall d, In d (dirs D) -> allowed D d) by (intros d; apply dirs_allowed).
    revert c c' hp B B' L U. generalize dependent (dirs D). intros l. induction l as [|d l IH]; intros A c c' hp B B' L U.
    - exists c, c', hp. auto.
    - destruct (scale_relax p d c c' hp B B' L (A d (or_introl eq_refl)) U) as (c1 & c1' & hp1 & E1 & E2 & U1 & B1 & B1' & L1).
      cbn [fold_left]. rewrite E1, E2. apply IH; auto. intros e He. apply A. right. exact He.
  Qed.

  Lemma scale_bloop : forall fuel dest f c c' hp tr tr', Run D go h0 orig c hp tr -> Run D go' h0 orig c' (map (up k) hp) tr' -> upc k c c' ->
    bloop D go' h0 fuel dest f (c', map (up k) hp) = bloop D go h0 fuel dest f (c, hp).
  Proof using K Vo HS HA HS' HA' HK.
    induction fuel as [|fuel IH]; intros dest f c c' hp tr tr' R R' U; [reflexivity |]. cbn [bloop fst snd]. rewrite up_pop by exact K.
    destruct (heap_pop hp) as [[e rest]|] eqn:Ep; [|reflexivity]. rewrite up_pos, up_dir. destruct (pos_eqb (e_pos e) dest); [reflexivity |].
    pose proof (run_bounded P D go h0 orig Vo HS HA _ _ _ R) as B. pose proof (run_bounded P D go' h0 orig Vo HS' HA' _ _ _ R') as B'.
    destruct (run_fin P D go h0 orig Vo HS HA c hp tr e R) as (L & _); [apply (heap_pop_In _ _ _ Ep); auto |].
    destruct (scale_expand (e_pos e) c c' rest B B' L U) as (c1 & c1' & hp1 & E1 & E2 & U1 & _).
    rewrite E1. transitivity (bloop D go' h0 fuel dest (put f (e_pos e) (Some (e_dir e))) (c1', map (up k) hp1)); [f_equal; exact E2 |].
    eapply IH; [| | exact U1].
    - eapply Run1; [exact R | exact Ep | exact E1].
    - eapply Run1; [exact R' | rewrite up_pop, Ep by exact K; reflexivity | exact E2].
  Qed.
End Scale.

Lemma C104_ucs_scaled_proof : forall b P D W k go go' orig dest fuel,
  usable b P W -> valid P orig -> valid P dest -> go_inside P (move_of go) -> 0 < k ->
  (forall p d, valid P p -> go' p d = match go p d with Some (q, c) => Some (q, k * c) | None => None end) ->
  affordable D P go orig -> affordable D P go' orig ->
  ucs_on b P D fuel go' orig dest = ucs_on b P D fuel go orig dest.
Proof.
  intros b P D W k go go' orig dest fuel U V Vd HG K HK HA HA'.
  assert (HG' : go_inside P (move_of go')).
  { intros p d q Vp. unfold move_of. rewrite HK by exact Vp. pose proof (HG p d q Vp) as H. unfold move_of in H.
    destruct (go p d) as [[r w]|]; exact H. }
  rewrite (ucs_on_f b P D W fuel go orig dest U V Vd HG), (ucs_on_f b P D W fuel go' orig dest U V Vd HG').
  pose proof (afford_HS D P go orig HG HA) as HS. pose proof (afford_HS D P go' orig HG' HA') as HS'.
  unfold ucs_search_path, ucs_search_mapmov, ucs_new. cbn [fmap mp_set mp_new mp_default bind heap_push].
  rewrite (ucs_loop_bloop P D go orig V HS HA dest fuel _ _ [] _ (Run0 D go (fun _ => 0) orig)).
  rewrite (ucs_loop_bloop P D go' orig V HS' HA' dest fuel _ _ [] _ (Run0 D go' (fun _ => 0) orig)).
  assert (E : [e0 orig] = map (up k) [e0 orig]) by (unfold up, e0; cbn [map e_prio fst snd]; rewrite Z.mul_0_r; reflexivity).
  set (c0 := put (fun _ : pos => COST_MAX) orig 0).
  assert (X : bloop D go' (fun _ => 0) fuel dest (fun _ => None) (c0, [e0 orig]) = bloop D go (fun _ => 0) fuel dest (fun _ => None) (c0, [e0 orig])).
  { rewrite E at 1. apply (scale_bloop P D k go go' orig K V HS HA HS' HA' HK fuel dest _ c0 c0 [e0 orig] [] []).
    - apply Run0.
    - rewrite <- E. apply Run0.
    - intros p. unfold c0, put. destruct (pos_eqb orig p); [right | left]; unfold COST_MAX; lia. }
  exact (f_equal (fun x => bind x _) X).
Qed.

(** ** Where the closures are consulted *)

(** The same execution, in which [I] holds of every state. *)
Definition same {A} (I : A -> Prop) (a b : A) : Prop := a = b /\ I a.

Section Frame.
  Context (P : post) (D : bool) (orig : pos).

  Lemma reach_snoc : forall go p d q, reachable D go orig p -> allowed D d -> go p d = Some q -> reachable D go orig q.
  Proof.
    intros go p d q (n & path & L & A & F) Ad E. exists (S n), (path ++ [d]). split; [rewrite app_length, L; cbn; lia |].
    split; [apply Forall_app; auto |]. clear - F E. revert orig F. induction path as [|e path IH]; intros o F; cbn in *.
    - inv F. rewrite E. reflexivity.
    - destruct (go o e); [|discriminate]. apply IH. exact F.
  Qed.

  Lemma reach_0 : forall go, reachable D go orig orig.
  Proof. intros go. exists 0%nat, []. cbn. auto. Qed.

  Section BfFrame.
    Context {S M : Type} (so : setops S) (mo : mapops (option dir) M) (go go' : pos -> dir -> option pos) (found found' : pos -> bool).
    Context (H : forall p d, reachable D go orig p -> allowed D d -> go' p d = go p d).
    Context (HF : forall p, reachable D go orig p -> found' p = found p).

    Definition bf_front (l : list (pos * dir)) : Prop := forall p d, In (p, d) l -> reachable D go orig p.
    Definition bf_ok (it : bfit (S := S)) : Prop := bf_front (bf_nextfront it).

    Lemma bf_step_dir_frame : forall p it d, reachable D go orig p -> allowed D d -> bf_ok it ->
      esim (same bf_ok) (bf_step_dir so go' p it d) (bf_step_dir so go p it d).
    Proof using H.
      intros p it d R A O. unfold bf_step_dir. rewrite H by assumption. destruct (go p d) as [q|] eqn:E; [|split; auto].
      apply esim_same. intros seen _. destruct seen; [split; auto |]. apply esim_same. intros nd _. apply esim_same. intros v _.
      split; [reflexivity |]. intros r e Hin. cbn [bf_nextfront] in Hin. apply in_app_or in Hin. destruct Hin as [Hin | [Hin | []]]; [eapply O; exact Hin |].
      inversion Hin; subst. eapply reach_snoc; eassumption.
    Qed.

    Lemma bf_next_frame : forall it, bf_ok it ->
      esim (same (fun x => bf_ok (snd x) /\ forall l, fst x = Some l -> bf_front l)) (bf_next D so go' it) (bf_next D so go it).
    Proof using H.
      intros it O. unfold bf_next. destruct (bf_nextfront it) as [|x l] eqn:El.
      - split; [reflexivity |]. split; [intros p d [] | discriminate].
      - eapply esim_bind with (R := same bf_ok).
        + apply esim_foldM; [|split; [reflexivity | intros p d []]]. intros [p d] s s' Hin (-> & Os). unfold bf_step_pos. rewrite dir_iter_dirs. cbn [bind fst].
          assert (Rp : reachable D go orig p) by (apply (O p d); rewrite El; exact Hin).
          eapply esim_bind with (R := same bf_ok).
          * apply esim_foldM; [|split; [reflexivity | exact Os]]. intros e t t' He (-> & Ot). apply bf_step_dir_frame; [exact Rp | apply dirs_allowed; exact He | exact Ot].
          * intros a b (-> & Ob). apply esim_same. intros v _. split; [reflexivity | exact Ob].
        + intros a b (-> & Ob). split; [reflexivity |]. split; [exact Ob |]. intros l' E'. inversion E'; subst. intros p d Hin. apply (O p d). rewrite El. exact Hin.
    Qed.

    Lemma bf_new_frame : esim (same bf_ok) (bf_new D so go' orig) (bf_new D so go orig).
    Proof using H.
      unfold bf_new. apply esim_same. intros v _. eapply esim_bind; [apply bf_next_frame |].
      - intros p d [E | []]. injection E as Ex _. rewrite <- Ex. apply reach_0.
      - intros [o it] b (<- & O & _). split; [reflexivity | exact O].
    Qed.

    Lemma bf_scan_frame : forall l m, bf_front l -> bf_scan mo found' m l = bf_scan mo found m l.
    Proof using HF.
      induction l as [|[p d] l IH]; intros m O; [reflexivity |]. cbn [bf_scan]. destruct (mp_set mo m p (Some d)) as [m' | | |]; [|reflexivity..]. cbn [bind].
      rewrite HF by (apply (O p d); left; reflexivity). destruct (found p); [reflexivity |]. apply IH. intros q e Hq. apply (O q e). right. exact Hq.
    Qed.

    Lemma bf_loop_frame : forall fuel m it, bf_ok it ->
      bf_search_loop D so mo go' fuel found' m it = bf_search_loop D so mo go fuel found m it.
    Proof using H HF.
      induction fuel as [|fuel IH]; intros m it O; [reflexivity |]. cbn [bf_search_loop]. apply esim_eq. eapply esim_bind; [apply bf_next_frame; exact O |].
      intros [o it'] b (<- & O' & Ol). destruct o as [l|]; [|reflexivity]. rewrite bf_scan_frame by (apply Ol; reflexivity).
      apply esim_same. intros [m' [q|]] _; [reflexivity |]. rewrite IH by exact O'. apply esim_refl.
    Qed.

    Lemma bf_path_frame : forall fuel, bf_search_path P D so mo go' fuel orig found' = bf_search_path P D so mo go fuel orig found.
    Proof using H HF.
      intros fuel. unfold bf_search_path, bf_search_mapmov, bf_iter. apply esim_eq.
      eapply esim_bind with (R := eq); [|intros a b <-; apply esim_refl].
      eapply esim_bind; [exact bf_new_frame |]. intros it it' (<- & O). rewrite bf_loop_frame by exact O. apply esim_refl.
    Qed.
  End BfFrame.

  Definition e_ok (go : pos -> dir -> option pos) (hp : heap) : Prop := forall e, In e hp -> reachable D go orig (e_pos e).

  Section UcsFrame.
    Context {MC M : Type} (co : mapops Z MC) (mo : mapops (option dir) M) (go go' : pos -> dir -> option (pos * Z)).
    Context (H : forall p d, reachable D (move_of go) orig p -> allowed D d -> go' p d = go p d).

    Lemma ucs_next_frame : forall it, e_ok (move_of go) (u_frontier it) ->
      esim (same (fun x => e_ok (move_of go) (u_frontier (snd x)))) (ucs_next D co go' it) (ucs_next D co go it).
    Proof using H.
      intros it O. unfold ucs_next. destruct (heap_pop (u_frontier it)) as [[[pr [p d]] rest]|] eqn:Ep; [|split; auto].
      rewrite dir_iter_dirs. cbn [bind fst]. pose proof (heap_pop_In _ _ _ Ep) as Hin.
      assert (Rp : reachable D (move_of go) orig p) by (apply (O (pr, (p, d))); apply Hin; auto).
      eapply esim_bind with (R := same (fun x => e_ok (move_of go) (u_frontier x))).
      - apply esim_foldM; [|split; [reflexivity | intros e He; apply O, Hin; auto]]. intros e t t' He (-> & Ot). apply dirs_allowed in He.
        unfold ucs_step_dir. rewrite H by assumption. destruct (go p e) as [[q w]|] eqn:E; [|split; auto].
        apply esim_same. intros c _. apply esim_same. intros n _. apply esim_same. intros c' _. destruct (n <? c'); [|split; auto].
        apply esim_same. intros cc _. apply esim_same. intros nd _. split; [reflexivity |]. intros x [<- | Hx]; [|apply Ot; exact Hx].
        apply (reach_snoc (move_of go) p e); [exact Rp | exact He |]. unfold move_of. rewrite E. reflexivity.
      - intros a b (-> & Ob). split; [reflexivity | exact Ob].
    Qed.

    Lemma ucs_path_frame : forall fuel dest, ucs_search_path P D co mo go' fuel orig dest = ucs_search_path P D co mo go fuel orig dest.
    Proof using H.
      intros fuel dest. unfold ucs_search_path, ucs_search_mapmov. apply esim_eq.
      eapply esim_bind with (R := eq); [|intros a b <-; apply esim_refl]. unfold ucs_new. destruct (mp_set co (mp_new co COST_MAX) orig 0) as [c | | |]; [|exact Logic.I..]. cbn [bind].
      assert (K : forall n m it, e_ok (move_of go) (u_frontier it) -> ucs_search_loop D co mo go' n dest m it = ucs_search_loop D co mo go n dest m it).
      { induction n as [|n IH]; intros m it O; [reflexivity |]. cbn [ucs_search_loop]. apply esim_eq. eapply esim_bind; [apply ucs_next_frame; exact O |].
        intros [o it'] b (<- & O'). destruct o as [[p d]|]; [|reflexivity]. apply esim_same. intros m' _. destruct (pos_eqb p dest); [reflexivity |].
        rewrite IH by exact O'. apply esim_refl. }
      rewrite K; [apply esim_refl |]. intros e [<- | []]. apply reach_0.
    Qed.
  End UcsFrame.

  Section AstarFrame.
    Context {MC M : Type} (co : mapops Z MC) (mo : mapops (option dir) M) (go go' : pos -> dir -> option pos).
    Context (H : forall p d, reachable D go orig p -> allowed D d -> go' p d = go p d).

    Lemma astar_next_frame : forall dest it, e_ok go (a_frontier it) ->
      esim (same (fun x => e_ok go (a_frontier (snd x)))) (astar_next P D co go' dest it) (astar_next P D co go dest it).
    Proof using H.
      intros dest it O. unfold astar_next. destruct (heap_pop (a_frontier it)) as [[[pr [p d]] rest]|] eqn:Ep; [|split; auto].
      rewrite dir_iter_dirs. cbn [bind fst]. pose proof (heap_pop_In _ _ _ Ep) as Hin.
      assert (Rp : reachable D go orig p) by (apply (O (pr, (p, d))); apply Hin; auto).
      eapply esim_bind with (R := same (fun x => e_ok go (a_frontier x))).
      - apply esim_foldM; [|split; [reflexivity | intros e He; apply O, Hin; auto]]. intros e t t' He (-> & Ot). apply dirs_allowed in He.
        unfold astar_step_dir. apply esim_same. intros c _. apply esim_same. intros n _. rewrite H by assumption. destruct (go p e) as [q|] eqn:E; [|split; auto].
        apply esim_same. intros c' _. destruct (n <? c'); [|split; auto].
        apply esim_same. intros cc _. apply esim_same. intros mh _. apply esim_same. intros pp _. apply esim_same. intros nd _.
        split; [reflexivity |]. intros x [<- | Hx]; [|apply Ot; exact Hx]. apply (reach_snoc go p e); assumption.
      - intros a b (-> & Ob). split; [reflexivity | exact Ob].
    Qed.

    Lemma astar_path_frame : forall fuel dest, astar_search_path P D co mo go' fuel orig dest = astar_search_path P D co mo go fuel orig dest.
    Proof using H.
      intros fuel dest. unfold astar_search_path, astar_search_mapmov. apply esim_eq.
      eapply esim_bind with (R := eq); [|intros a b <-; apply esim_refl]. unfold astar_new. destruct (mp_set co (mp_new co COST_MAX) orig 0) as [c | | |]; [|exact Logic.I..]. cbn [bind].
      assert (K : forall n m it, e_ok go (a_frontier it) -> astar_search_loop P D co mo go' n dest m it = astar_search_loop P D co mo go n dest m it).
      { induction n as [|n IH]; intros m it O; [reflexivity |]. cbn [astar_search_loop]. apply esim_eq. eapply esim_bind; [apply astar_next_frame; exact O |].
        intros [o it'] b (<- & O'). destruct o as [[p d]|]; [|reflexivity]. apply esim_same. intros m' _. destruct (pos_eqb p dest); [reflexivity |].
        rewrite IH by exact O'. apply esim_refl. }
      rewrite K; [apply esim_refl |]. intros e [<- | []]. apply reach_0.
    Qed.
  End AstarFrame.
End Frame.

Lemma C105_bfs_frame_proof : forall b P D W go go' found found' orig fuel,
  (forall p d, reachable D go orig p -> allowed D d -> go' p d = go p d) ->
  (forall p, reachable D go orig p -> found' p = found p) ->
  bfs_on b P D W fuel go' orig found' = bfs_on b P D W fuel go orig found.
Proof.
  intros b P D W go go' found found' orig fuel H HF. destruct b; cbn [bfs_on]; apply bf_path_frame; assumption.
Qed.

Lemma C105_ucs_frame_proof : forall b P D go go' orig dest fuel,
  (forall p d, reachable D (move_of go) orig p -> allowed D d -> go' p d = go p d) ->
  ucs_on b P D fuel go' orig dest = ucs_on b P D fuel go orig dest.
Proof.
  intros b P D go go' orig dest fuel H. destruct b; cbn [ucs_on]; apply ucs_path_frame; exact H.
Qed.

Lemma C105_astar_frame_proof : forall b P D go go' orig dest fuel,
  (forall p d, reachable D go orig p -> allowed D d -> go' p d = go p d) ->
  astar_on b P D fuel go' orig dest = astar_on b P D fuel go orig dest.
Proof.
  intros b P D go go' orig dest fuel H. destruct b; cbn [astar_on]; apply astar_path_frame; exact H.
Qed.

Definition corridor (p : pos) (d : dir) : option pos :=
  match d with
  | dS => if snd p <? 2 then Some (0, snd p + 1) else None
  | dN => if 0 <? snd p then Some (0, snd p - 1) else None
  | _ => None
  end.

Lemma corridor_reach : forall p, reachable false corridor (0, 0) p -> fst p = 0.
Proof.
  assert (K : forall path p q, fst p = 0 -> follow corridor p path = Some q -> fst q = 0).
  { induction path as [|d path IH]; intros p q L F; cbn [follow] in F; [injection F as <-; exact L |].
    destruct (corridor p d) as [r|] eqn:E; [|discriminate]. apply (IH r q); [|exact F].
    destruct d; cbn in E; try discriminate; [destruct (0 <? snd p) | destruct (snd p <? 2)]; inversion E; reflexivity. }
  intros p (n & path & _ & _ & F). exact (K path (0, 0) p eq_refl F).
Qed.
