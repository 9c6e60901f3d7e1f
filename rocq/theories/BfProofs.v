(** BfProofs.v -- breadth-first iteration and search, on plain functions. *)

From Coq Require Import ZArith List Bool Lia.
From Verif Require Import Rust BoundedInt Dir PosT Pos SetMap CameFrom Bf
  Spec SpecSearch Lib Deque BoundedIntProofs PosTProofs PosTProofs2 PropDirProofs SetMapProofs Sim CameFromProofs.
Import ListNotations.
Open Scope Z_scope.

Definition dirs (D : bool) : list dir := if D then ALL8 else ALL4.

Lemma dir_iter_dirs : forall D, dir_iter_list D = Ret (dirs D).
Proof. intros []; reflexivity. Qed.

Lemma dirs_allowed : forall D d, In d (dirs D) <-> allowed D d.
Proof.
  intros D d. unfold allowed. split.
  - destruct D; [auto |]. cbn. intros [<- | [<- | [<- | [<- | []]]]]; cbn; auto.
  - intros H. destruct D, d; cbn in *; try tauto; exfalso; destruct H as [H | [H | H]]; discriminate.
Qed.

Lemma follow_app : forall go ds1 ds2 p, follow go p (ds1 ++ ds2) = match follow go p ds1 with Some q => follow go q ds2 | None => None end.
Proof. intros go ds1. induction ds1 as [|d ds IH]; intros ds2 p; cbn; [reflexivity |]. destruct (go p d); [apply IH | reflexivity]. Qed.

Section Walks.
  Context (D : bool) (go : pos -> dir -> option pos).

  Lemma walk_0 : forall p q, walk D go p 0 q <-> p = q.
  Proof.
    intros p q. split.
    - intros (path & L & _ & F). destruct path; [|discriminate]. cbn in F. congruence.
    - intros ->. exists []. cbn. auto.
  Qed.

  Lemma walk_S : forall n p q, walk D go p (S n) q <-> exists r d, walk D go p n r /\ allowed D d /\ go r d = Some q.
  Proof.
    intros n p q. split.
    - intros (path & L & A & F). destruct (exists_last (l := path)) as (ds & d & ->); [intros ->; discriminate |].
      rewrite app_length in L. cbn in L. apply Forall_app in A. destruct A as (A1 & A2). rewrite follow_app in F.
      destruct (follow go p ds) as [r|] eqn:E; [|discriminate]. cbn in F. destruct (go r d) as [q'|] eqn:Eg; [|discriminate].
      inv F. exists r, d. split; [exists ds; split; [lia | auto] |]. inversion A2; subst. auto.
    - intros (r & d & (ds & L & A & F) & Ad & Eg). exists (ds ++ [d]). rewrite app_length, follow_app, F. cbn. rewrite Eg.
      split; [lia |]. split; [|reflexivity]. apply Forall_app. auto.
  Qed.

  Lemma walk_valid : forall P n p q, go_inside P go -> valid P p -> walk D go p n q -> valid P q.
  Proof.
    intros P n. induction n as [|n IH]; intros p q HG V H.
    - apply walk_0 in H. congruence.
    - apply walk_S in H. destruct H as (r & d & H & _ & E). eapply HG; [|exact E]. eapply IH; eassumption.
  Qed.

  Lemma at_distance_0 : forall p q, at_distance D go p 0 q <-> p = q.
  Proof. intros p q. unfold at_distance. rewrite walk_0. split; [tauto |]. intros ->. split; [reflexivity | lia]. Qed.

  Lemma at_distance_S : forall n p q, at_distance D go p (S n) q ->
    exists r d, at_distance D go p n r /\ allowed D d /\ go r d = Some q.
  Proof.
    intros n p q (H & N). apply walk_S in H. destruct H as (r & d & H & A & E). exists r, d.
    split; [|auto]. split; [exact H |]. intros j Hj H'. apply (N (S j)); [lia |]. apply walk_S. exists r, d. auto.
  Qed.

  Lemma at_distance_fun : forall m n p q, at_distance D go p m q -> at_distance D go p n q -> m = n.
  Proof.
    intros m n p q (H1 & N1) (H2 & N2). destruct (Nat.lt_trichotomy m n) as [L | [L | L]]; [|exact L|].
    - exfalso. apply (N2 m L H1).
    - exfalso. apply (N1 n L H2).
  Qed.

  Lemma at_distance_list : forall P n p q, go_inside P go -> valid P p -> at_distance D go p n q ->
    exists l, length l = S n /\ NoDup l /\ Forall (valid P) l /\ forall r, In r l -> exists j, (j <= n)%nat /\ at_distance D go p j r.
  Proof.
    intros P n. induction n as [|n IH]; intros p q HG V H.
    - apply at_distance_0 in H. subst q. exists [p]. split; [reflexivity |].
      split; [constructor; [intros [] | constructor] |]. split; [constructor; [exact V | constructor] |].
      intros r [<- | []]. exists 0%nat. split; [lia | apply at_distance_0; reflexivity].
    - destruct (at_distance_S n p q H) as (r & d & Hr & _ & _). destruct (IH p r HG V Hr) as (l & L & ND & F & Hl).
      exists (q :: l). cbn [length]. split; [lia |]. split.
      + constructor; [|exact ND]. intros Hin. destruct (Hl q Hin) as (j & Hj & Hd).
        pose proof (at_distance_fun _ _ _ _ H Hd). lia.
      + split; [constructor; [eapply walk_valid; [exact HG | exact V | apply H] | exact F] |].
        intros s [<- | Hs]; [exists (S n); split; [lia | exact H] |]. destruct (Hl s Hs) as (j & Hj & Hd). exists j. split; [lia | exact Hd].
  Qed.

  Lemma at_distance_bound : forall P n p q, grid_type P -> go_inside P go -> valid P p -> at_distance D go p n q -> Z.of_nat n < cells P.
  Proof.
    intros P n p q G HG V H. destruct (at_distance_list P n p q HG V H) as (l & L & ND & F & _).
    pose proof (valid_list_short P G l ND F). lia.
  Qed.

  Lemma at_distance_short : forall P n p q, go_inside P go -> valid P p -> at_distance D go p n q -> (n < length (all_rows P))%nat.
  Proof.
    intros P n p q HG V H. destruct (at_distance_list P n p q HG V H) as (l & L & ND & F & _).
    enough (length l <= length (all_rows P))%nat by lia. apply NoDup_incl_length; [exact ND |].
    intros r Hr. apply all_rows_In. rewrite Forall_forall in F. apply F. exact Hr.
  Qed.
End Walks.

Section BF.
  Context (P : post) (G : grid_type P) (D : bool) (go : pos -> dir -> option pos) (orig : pos).
  Context (HG : go_inside P go) (Vo : valid P orig).

  Notation bstate := (@bfit (pos -> bool)).

  (** What one round of expansion does, starting from visited set [v0], for
      positions [S] to expand. *)
  Definition grown (v0 : pos -> bool) (from : pos -> Prop) (it : bstate) : Prop :=
    NoDup (map fst (bf_nextfront it)) /\
    (forall q, bf_visited it q = true <-> v0 q = true \/ In q (map fst (bf_nextfront it))) /\
    (forall q d, In (q, d) (bf_nextfront it) -> v0 q = false /\ exists p e, from p /\ allowed D e /\ go p e = Some q /\ d = opp e).

  Lemma grown_dir : forall v0 from p d it, grown v0 from it -> from p -> allowed D d ->
    exists it', bf_step_dir fset go p it d = Ret it' /\ grown v0 from it' /\
      (forall q, bf_visited it q = true -> bf_visited it' q = true) /\ (forall q, go p d = Some q -> bf_visited it' q = true).
  Proof.
    intros v0 from p d it H Hp Hd. unfold bf_step_dir. destruct (go p d) as [q|] eqn:E.
    - cbn [fset sp_contains bind]. destruct (bf_visited it q) eqn:Ev.
      + exists it. split; [reflexivity |]. split; [exact H |]. split; [auto |]. intros q' Eq. inv Eq. exact Ev.
      + rewrite dir_neg_opp. cbn [bind sp_insert]. eexists. split; [reflexivity |]. destruct H as (H1 & H2 & H3).
        assert (N : ~ In q (map fst (bf_nextfront it))).
        { intros Hin. assert (K : bf_visited it q = true) by (apply H2; auto). congruence. }
        split; [|split].
        * unfold grown. cbn [bf_nextfront bf_visited]. rewrite map_app. cbn [map fst]. split; [|split].
          -- apply NoDup_Add with (a := q) (l := map fst (bf_nextfront it)); [|split; assumption].
             rewrite <- (app_nil_r (map fst (bf_nextfront it))) at 1. apply Add_app.
          -- intros r. unfold put. rewrite in_app_iff. cbn [In]. destruct (pos_eqb q r) eqn:Er.
             ++ apply pos_eqb_eq in Er. split; [auto | reflexivity].
             ++ apply pos_eqb_neq in Er. rewrite H2. split; [tauto |]. intros [? | [? | [? | []]]]; [auto | auto | contradiction].
          -- intros r e Hin. apply in_app_or in Hin. destruct Hin as [Hin | [Hin | []]]; [apply H3; exact Hin |].
             inv Hin. split; [|exists p, d; auto]. destruct (v0 r) eqn:Ev0; [|reflexivity].
             assert (K : bf_visited it r = true) by (apply H2; auto). congruence.
        * intros r Hr. cbn. unfold put. destruct (pos_eqb q r); auto.
        * intros r Er. inv Er. cbn. unfold put. rewrite pos_eqb_refl. reflexivity.
    - exists it. split; [reflexivity |]. split; [exact H |]. split; [auto | discriminate].
  Qed.

  Lemma grown_dirs : forall v0 from p ds it, grown v0 from it -> from p -> Forall (allowed D) ds ->
    exists it', foldM (bf_step_dir fset go p) ds it = Ret it' /\ grown v0 from it' /\
      (forall q, bf_visited it q = true -> bf_visited it' q = true) /\
      (forall d q, In d ds -> go p d = Some q -> bf_visited it' q = true).
  Proof.
    intros v0 from p ds. induction ds as [|d ds IH]; intros it H Hp A.
    - exists it. split; [reflexivity |]. split; [exact H |]. split; [auto | intros d q []].
    - inversion A; subst. destruct (grown_dir v0 from p d it H Hp) as (it1 & E1 & H1 & M1 & K1); [assumption |].
      destruct (IH it1 H1 Hp) as (it2 & E2 & H2' & M2 & K2); [assumption |].
      exists it2. cbn [foldM]. rewrite E1. cbn [bind]. split; [exact E2 |]. split; [exact H2' |]. split; [auto |].
      intros d' q [<- | Hin] Eq; [apply M2; apply K1; exact Eq | eapply K2; eassumption].
  Qed.

  (** One position; already visited, so that marking it changes nothing. *)
  Lemma grown_pos : forall v0 (from : pos -> Prop) pd it, grown v0 from it -> from (fst pd) -> v0 (fst pd) = true ->
    exists it', bf_step_pos D fset go it pd = Ret it' /\ grown v0 from it' /\
      (forall q, bf_visited it q = true -> bf_visited it' q = true) /\
      (forall d q, allowed D d -> go (fst pd) d = Some q -> bf_visited it' q = true).
  Proof.
    intros v0 from [p pd] it H Hp Hv. cbn [fst] in *. unfold bf_step_pos. rewrite dir_iter_dirs. cbn [bind fst].
    destruct (grown_dirs v0 from p (dirs D) it H Hp) as (it1 & E & H1 & M & K).
    { apply Forall_forall. intros d. apply dirs_allowed. }
    rewrite E. cbn [bind fset sp_insert]. eexists. split; [reflexivity |].
    assert (EQ : forall q, put (bf_visited it1) p true q = bf_visited it1 q).
    { intros q. unfold put. destruct (pos_eqb p q) eqn:Eq; [|reflexivity]. apply pos_eqb_eq in Eq. subst q.
      symmetry. apply H1. auto. }
    destruct H1 as (A1 & A2 & A3). split; [|split].
    - unfold grown. cbn [bf_nextfront bf_visited]. split; [exact A1 |]. split; [intros q; rewrite EQ; apply A2 | exact A3].
    - intros q Hq. cbn. rewrite EQ. auto.
    - intros d q Ad Eq. cbn. rewrite EQ. eapply K; [|exact Eq]. apply dirs_allowed. exact Ad.
  Qed.

  Lemma grown_front : forall v0 (from : pos -> Prop) front it, grown v0 from it ->
    (forall pd, In pd front -> from (fst pd) /\ v0 (fst pd) = true) ->
    exists it', foldM (bf_step_pos D fset go) front it = Ret it' /\ grown v0 from it' /\
      (forall q, bf_visited it q = true -> bf_visited it' q = true) /\
      (forall pd d q, In pd front -> allowed D d -> go (fst pd) d = Some q -> bf_visited it' q = true).
  Proof.
    intros v0 from front. induction front as [|pd front IH]; intros it H Hf.
    - exists it. split; [reflexivity |]. split; [exact H |]. split; [auto | intros pd d q []].
    - destruct (Hf pd (or_introl eq_refl)) as (F1 & F2).
      destruct (grown_pos v0 from pd it H F1 F2) as (it1 & E1 & H1 & M1 & K1).
      destruct (IH it1 H1) as (it2 & E2 & H2 & M2 & K2); [intros x Hx; apply Hf; right; exact Hx |].
      exists it2. cbn [foldM]. rewrite E1. cbn [bind]. split; [exact E2 |]. split; [exact H2 |]. split; [auto |].
      intros x d q [<- | Hin] Ad Eq; [apply M2; eapply K1; eassumption | eapply K2; eassumption].
  Qed.

  (** Level [k] is pending. *)
  Definition on_level (k : nat) (p : pos) : Prop :=
    at_distance D go orig k p \/ (p = orig /\ k = 1%nat /\ stays D go orig).

  Definition level_inv (k : nat) (it : bstate) : Prop :=
    NoDup (map fst (bf_nextfront it)) /\
    (forall p, In p (map fst (bf_nextfront it)) <-> on_level k p) /\
    (forall p, bf_visited it p = true <-> exists j, (j <= k)%nat /\ walk D go orig j p) /\
    (forall p d, In (p, d) (bf_nextfront it) -> exists q e, at_distance D go orig (k - 1) q /\ allowed D e /\ go q e = Some p /\ d = opp e).

  Lemma bf_new_level : exists it, bf_new D fset go orig = Ret it /\ level_inv 1 it.
  Proof.
    unfold bf_new. cbn [fset sp_default bind bf_next bf_nextfront bf_visited foldM]. unfold bf_step_pos.
    rewrite dir_iter_dirs. cbn [bind fst].
    assert (H0 : grown (fun _ => false) (eq orig) (BfIt (fun _ => false) [])).
    { split; [constructor |]. split; [intros q; cbn; intuition | intros q d []]. }
    destruct (grown_dirs (fun _ => false) (eq orig) orig (dirs D) _ H0 eq_refl) as (it1 & E & (A1 & A2 & A3) & _ & K).
    { apply Forall_forall. intros d. apply dirs_allowed. }
    match goal with |- context [foldM ?f ?l ?s] => change (foldM f l s) with (foldM (bf_step_dir fset go orig) (dirs D) s) end.
    unfold fset in E |- *. rewrite E. cbn [bind sp_insert]. eexists. split; [reflexivity |].
    assert (IN : forall p, In p (map fst (bf_nextfront it1)) <-> walk D go orig 1 p).
    { intros p. rewrite walk_S. split.
      - intros Hin. apply in_map_iff in Hin. destruct Hin as ([q d] & Eq & Hin). cbn in Eq. subst q.
        destruct (A3 p d Hin) as (_ & q & e & <- & Ae & Eg & _). exists orig, e. split; [apply walk_0; reflexivity | auto].
      - intros (r & d & H & Ad & Eg). apply walk_0 in H. subst r.
        assert (V : bf_visited it1 p = true) by (eapply K; [apply dirs_allowed; exact Ad | exact Eg]).
        apply A2 in V. destruct V as [V | V]; [discriminate | exact V]. }
    unfold level_inv. cbn [bf_nextfront bf_visited]. split; [exact A1 |]. split; [|split].
    - intros p. rewrite IN. unfold on_level. split.
      + intros H. destruct (pos_dec orig p) as [<- | N].
        * right. split; [reflexivity |]. split; [reflexivity |]. apply walk_S in H. destruct H as (r & d & H & Ad & Eg).
          apply walk_0 in H. subst r. exists d. auto.
        * left. split; [exact H |]. intros j Hj. replace j with 0%nat by lia. rewrite walk_0. exact N.
      + intros [(H & _) | (-> & _ & d & Ad & Eg)]; [exact H |]. apply walk_S. exists orig, d. split; [apply walk_0; reflexivity | auto].
    - intros p. unfold put. destruct (pos_eqb orig p) eqn:Ep.
      + apply pos_eqb_eq in Ep. subst p. split; [|reflexivity]. intros _. exists 0%nat. split; [lia | apply walk_0; reflexivity].
      + apply pos_eqb_neq in Ep. rewrite A2, IN. split.
        * intros [H | H]; [discriminate |]. exists 1%nat. auto.
        * intros (j & Hj & H). right. destruct j as [|[|j]]; [apply walk_0 in H; contradiction | exact H | lia].
    - intros p d Hin. destruct (A3 p d Hin) as (_ & q & e & <- & Ae & Eg & Ed). exists orig, e.
      split; [apply at_distance_0; reflexivity | auto].
  Qed.

  Lemma bf_next_level : forall k it, level_inv (S k) it ->
    exists it', bf_next D fset go it = Ret (match bf_nextfront it with [] => None | l => Some l end, it') /\ level_inv (S (S k)) it'.
  Proof.
    intros k it (I1 & I2 & I3 & I4). unfold bf_next.
    set (v0 := bf_visited it).
    assert (H0 : grown v0 (on_level (S k)) (BfIt v0 [])).
    { split; [constructor |]. split; [intros q; cbn; intuition | intros q d []]. }
    assert (F : forall pd, In pd (bf_nextfront it) -> on_level (S k) (fst pd) /\ v0 (fst pd) = true).
    { intros pd Hin. assert (Hl : on_level (S k) (fst pd)) by (apply I2; apply in_map; exact Hin). split; [exact Hl |].
      apply I3. destruct Hl as [(Hw & _) | (-> & _ & _)]; [exists (S k); split; [lia | exact Hw] |].
      exists 0%nat. split; [lia | apply walk_0; reflexivity]. }
    destruct (grown_front v0 (on_level (S k)) (bf_nextfront it) (BfIt v0 []) H0 F) as (it' & E & (A1 & A2 & A3) & _ & K).
    assert (NEXT : level_inv (S (S k)) it').
    { assert (FWD : forall q d, In (q, d) (bf_nextfront it') ->
                exists p e, at_distance D go orig (S k) p /\ allowed D e /\ go p e = Some q /\ d = opp e).
      { intros q d Hin. destruct (A3 q d Hin) as (Hv & p & e & Hp & Ae & Eg & Ed).
        destruct Hp as [Hp | (-> & Hk & _)]; [exists p, e; auto |]. exfalso.
        assert (V : v0 q = true); [|congruence]. apply I3. exists 1%nat. split; [lia |].
        apply walk_S. exists orig, e. split; [apply walk_0; reflexivity | auto]. }
      assert (IN : forall q, In q (map fst (bf_nextfront it')) <-> at_distance D go orig (S (S k)) q).
      { intros q. split.
        - intros Hin. apply in_map_iff in Hin. destruct Hin as ([q' d] & Eq & Hin). cbn in Eq. subst q'.
          destruct (FWD q d Hin) as (p & e & (Hp & _) & Ae & Eg & _). destruct (A3 q d Hin) as (Hv & _).
          split; [apply walk_S; exists p, e; auto |]. intros j Hj Hw.
          assert (V : v0 q = true) by (apply I3; exists j; split; [lia | exact Hw]). congruence.
        - intros Hq. destruct (at_distance_S D go _ _ _ Hq) as (p & e & Hp & Ae & Eg).
          assert (Hin : In p (map fst (bf_nextfront it))) by (apply I2; left; exact Hp).
          apply in_map_iff in Hin. destruct Hin as (pd & Epd & Hin).
          assert (V : bf_visited it' q = true) by (eapply K; [exact Hin | exact Ae | rewrite Epd; exact Eg]).
          apply A2 in V. destruct V as [V | V]; [|exact V]. exfalso. apply I3 in V. destruct V as (j & Hj & Hw).
          destruct Hq as (_ & N). apply (N j); [lia | exact Hw]. }
      split; [exact A1 |]. split; [|split].
      - intros p. rewrite IN. unfold on_level. split; [auto |]. intros [H | (_ & H & _)]; [exact H | lia].
      - intros p. rewrite A2, IN. unfold v0. split.
        + intros [V | (H & _)]; [apply I3 in V; destruct V as (j & Hj & Hw); exists j; split; [lia | exact Hw] |].
          exists (S (S k)). auto.
        + intros (j & Hj & Hw). destruct (bf_visited it p) eqn:Ev; [auto | right].
          assert (N : forall i, (i <= S k)%nat -> ~ walk D go orig i p).
          { intros i Hi Hwi. assert (V : bf_visited it p = true) by (apply I3; exists i; auto). congruence. }
          destruct (Nat.eq_dec j (S (S k))) as [-> | Nj]; [|exfalso; apply (N j); [lia | exact Hw]].
          split; [exact Hw |]. intros i Hi. apply N. lia.
      - intros q d Hin. destruct (FWD q d Hin) as (p & e & Hp & Ae & Eg & Ed). exists p, e.
        replace (S (S k) - 1)%nat with (S k) by lia. auto. }
    destruct (bf_nextfront it) as [|x l] eqn:El.
    - exists (BfIt v0 []). split; [reflexivity |]. cbn [foldM] in E. inv E. exact NEXT.
    - exists it'. rewrite E. cbn [bind]. auto.
  Qed.

  (** The sequence of fronts. *)
  Fixpoint state_at (k : nat) : bstate :=
    match k with
    | O => match bf_new D fset go orig with Ret it => it | _ => BfIt (fun _ => false) [] end
    | S k' => match bf_next D fset go (state_at k') with Ret (_, it) => it | _ => BfIt (fun _ => false) [] end
    end.
  Definition front_at (k : nat) : list (pos * dir) := bf_nextfront (state_at (k - 1)).

  Lemma state_at_inv : forall k, level_inv (S k) (state_at k).
  Proof.
    induction k as [|k IH]; cbn [state_at].
    - destruct bf_new_level as (it & E & H). rewrite E. exact H.
    - destruct (bf_next_level k _ IH) as (it' & E & H). rewrite E. exact H.
  Qed.

  Lemma next_at : forall k, bf_next D fset go (state_at k) =
    Ret (match front_at (S k) with [] => None | l => Some l end, state_at (S k)).
  Proof.
    intros k. unfold front_at. replace (S k - 1)%nat with k by lia. cbn [state_at].
    destruct (bf_next_level k _ (state_at_inv k)) as (it' & E & _). rewrite E. reflexivity.
  Qed.

  Lemma bf_new_at : bf_new D fset go orig = Ret (state_at 0).
  Proof. cbn [state_at]. destruct bf_new_level as (it & E & _). rewrite E. reflexivity. Qed.

  Lemma front_facts : forall k, NoDup (map fst (front_at (S k))) /\
    (forall p, In p (map fst (front_at (S k))) <-> on_level (S k) p) /\
    (forall p d, In (p, d) (front_at (S k)) -> exists q e, at_distance D go orig k q /\ allowed D e /\ go q e = Some p /\ d = opp e).
  Proof.
    intros k. unfold front_at. replace (S k - 1)%nat with k by lia. destruct (state_at_inv k) as (H1 & H2 & _ & H4).
    replace (S k - 1)%nat with k in H4 by lia. auto.
  Qed.

  Lemma front_empty_gen : forall k, (length (all_rows P) < k)%nat -> front_at k = [].
  Proof using HG Vo.
    clear G. intros [|k] Hk; [lia |]. destruct (front_facts k) as (_ & H & _). destruct (front_at (S k)) as [|[p d] l]; [reflexivity |].
    exfalso. assert (Hl : on_level (S k) p) by (apply H; left; reflexivity).
    destruct Hl as [Hd | (_ & Hk' & _)].
    - pose proof (at_distance_short D go P _ _ _ HG Vo Hd). lia.
    - assert (X : In orig (all_rows P)) by (apply all_rows_In; exact Vo). destruct (all_rows P); [destruct X | cbn in Hk; lia].
  Qed.

  Lemma front_empty : forall k, (Z.to_nat (cells P) < k)%nat -> front_at k = [].
  Proof.
    intros [|k] Hk; [lia |]. destruct (front_facts k) as (_ & H & _). destruct (front_at (S k)) as [|[p d] l]; [reflexivity |].
    exfalso. assert (Hl : on_level (S k) p) by (apply H; left; reflexivity).
    destruct Hl as [Hd | (_ & Hk' & _)].
    - pose proof (at_distance_bound D go P _ _ _ G HG Vo Hd). lia.
    - pose proof (cols_pos P G). pose proof (rows_pos P G). assert (1 <= cells P) by (unfold cells; nia). lia.
  Qed.

  Lemma front_empty_after : forall k, front_at (S k) = [] -> front_at (S (S k)) = [].
  Proof.
    intros k E. destruct (front_facts (S k)) as (_ & H & _). destruct (front_at (S (S k))) as [|[p d] l]; [reflexivity |].
    exfalso. assert (Hl : on_level (S (S k)) p) by (apply H; left; reflexivity).
    destruct Hl as [Hd | (_ & Hk' & _)]; [|lia]. destruct (at_distance_S D go _ _ _ Hd) as (q & e & Hq & _ & _).
    destruct (front_facts k) as (_ & Hk & _). assert (X : In q (map fst (front_at (S k)))) by (apply Hk; left; exact Hq).
    rewrite E in X. destruct X.
  Qed.

  Lemma next_calls_at : forall n k, next_calls (bf_next D fset go) n (state_at k) =
    Ret (map (fun j => match front_at (S j) with [] => None | l => Some l end) (seq k n)).
  Proof.
    induction n as [|n IH]; intros k; [reflexivity |]. cbn [next_calls seq map]. rewrite next_at. cbn [bind].
    rewrite IH. reflexivity.
  Qed.
End BF.

(** ** Search *)

Section Search.
  Context (P : post) (G : grid_type P) (D : bool) (go : pos -> dir -> option pos) (orig : pos).
  Context (HG : go_inside P go) (Vo : valid P orig).

  Lemma walk_min : forall n q, walk D go orig n q -> exists j, (j <= n)%nat /\ at_distance D go orig j q.
  Proof.
    intros n. induction n as [n IH] using lt_wf_ind. intros q H.
    destruct n as [|n]; [exists 0%nat; split; [lia |]; apply at_distance_0; apply walk_0 in H; exact H |].
    destruct n as [|n].
    - destruct (pos_dec orig q) as [<- | N]; [exists 0%nat; split; [lia |]; apply at_distance_0; reflexivity |].
      exists 1%nat. split; [lia |]. split; [exact H |]. intros j Hj. replace j with 0%nat by lia. rewrite walk_0. exact N.
    - destruct (state_at_inv D go orig n) as (_ & _ & I3 & _).
      destruct (bf_visited (state_at D go orig n) q) eqn:E.
      + apply I3 in E. destruct E as (j & Hj & Hw). destruct (IH j ltac:(lia) q Hw) as (i & Hi & Hd). exists i. split; [lia | exact Hd].
      + exists (S (S n)). split; [lia |]. split; [exact H |]. intros j Hj Hw.
        assert (V : bf_visited (state_at D go orig n) q = true) by (apply I3; exists j; split; [lia | exact Hw]). congruence.
  Qed.

  Lemma at_distance_below : forall n q j, at_distance D go orig n q -> (j <= n)%nat -> exists r, at_distance D go orig j r.
  Proof.
    induction n as [|n IH]; intros q j H Hj.
    - replace j with 0%nat by lia. exists q. exact H.
    - destruct (Nat.eq_dec j (S n)) as [-> | N]; [exists q; exact H |].
      destruct (at_distance_S D go _ _ _ H) as (r & d & Hr & _). apply (IH r j Hr). lia.
  Qed.

  Lemma at_distance_orig : forall n, at_distance D go orig n orig -> n = 0%nat.
  Proof. intros n H. eapply at_distance_fun; [exact H |]. apply at_distance_0. reflexivity. Qed.

  Context (H1 : one_step P go).

  Lemma no_stays : ~ stays D go orig.
  Proof. intros (d & _ & E). apply (H1 _ _ _ Vo) in E. symmetry in E. apply step_neq in E. exact E. Qed.

  Notation front_at := (front_at D go orig).
  Notation state_at := (state_at D go orig).

  Lemma front_In : forall k p, In p (map fst (front_at (S k))) <-> at_distance D go orig (S k) p.
  Proof.
    intros k p. destruct (front_facts D go orig k) as (_ & H & _). rewrite H. unfold on_level. split; [|auto].
    intros [X | (_ & _ & X)]; [exact X | destruct (no_stays X)].
  Qed.

  Definition recorded (k : nat) (f : pos -> option dir) (p : pos) : Prop :=
    forall d, f p = Some d -> exists j q e, (j <= k)%nat /\ at_distance D go orig (S j) p /\ at_distance D go orig j q /\
      allowed D e /\ go q e = Some p /\ d = opp e.

  Definition scan_inv (k : nat) (f : pos -> option dir) : Prop :=
    (forall p, recorded k f p) /\
    (forall j p, (j < k)%nat -> at_distance D go orig (S j) p -> f p <> None).

  Definition hits (found : pos -> bool) (l : list (pos * dir)) : Prop := exists p d, In (p, d) l /\ found p = true.

  Lemma scan_spec : forall found l k f, (forall x, In x l -> In x (front_at (S k))) -> scan_inv k f ->
    exists f' o, bf_scan fmap found f l = Ret (f', o) /\ (forall p, recorded k f' p) /\
      (forall p, f p <> None -> f' p <> None) /\
      match o with
      | Some p => found p = true /\ In p (map fst l) /\ f' p <> None
      | None => (forall p, In p (map fst l) -> found p = false /\ f' p <> None)
      end.
  Proof.
    intros found l k. induction l as [|[p d] l IH]; intros f Hl (I1 & I2).
    - exists f, None. split; [reflexivity |]. split; [exact I1 |]. split; [auto |]. intros p [].
    - cbn [bf_scan fmap mp_set bind]. set (f1 := put f p (Some d)).
      assert (R1 : forall q, recorded k f1 q).
      { intros q e E. unfold f1, put in E. destruct (pos_eqb p q) eqn:Eq; [|apply I1; exact E].
        apply pos_eqb_eq in Eq. subst q. inv E. assert (Hin : In (p, e) (front_at (S k))) by (apply Hl; left; reflexivity).
        destruct (front_facts D go orig k) as (_ & _ & H). destruct (H p e Hin) as (q & e' & Hq & Ae & Eg & Ed).
        exists k, q, e'. split; [lia |]. split; [|auto]. apply front_In. apply in_map_iff. exists (p, e). auto. }
      assert (M1 : forall q, f q <> None -> f1 q <> None).
      { intros q Hq. unfold f1, put. destruct (pos_eqb p q); [discriminate | exact Hq]. }
      assert (P1 : f1 p <> None) by (unfold f1, put; rewrite pos_eqb_refl; discriminate).
      destruct (found p) eqn:Ef.
      + exists f1, (Some p). split; [reflexivity |]. split; [exact R1 |]. split; [exact M1 |]. cbn. auto.
      + destruct (IH f1) as (f' & o & E & R & M & K).
        * intros x Hx. apply Hl. right. exact Hx.
        * split; [exact R1 |]. intros j q Hj Hq. apply M1. eapply I2; eassumption.
        * exists f', o. split; [exact E |]. split; [exact R |]. split; [auto |]. destruct o as [q|].
          -- destruct K as (K1 & K2 & K3). cbn. auto.
          -- intros q [<- | Hq]; [auto | apply K; exact Hq].
  Qed.

  Definition outcome_ok (found : pos -> bool) (k : nat) (r : result (pos * (pos -> option dir))) : Prop :=
    match r with
    | Ok (p, f) => exists n, (k <= n)%nat /\ at_distance D go orig (S n) p /\ found p = true /\ scan_inv n f /\ f p <> None /\
        forall j q, (k <= j < n)%nat -> at_distance D go orig (S j) q -> found q = false
    | Err DestinationUnreachable => forall j q, (k <= j)%nat -> at_distance D go orig (S j) q -> found q = false
    | Err _ => False
    end.

  Lemma search_spec : forall found m k f, scan_inv k f -> (k + m = S (length (all_rows P)))%nat ->
    exists r, (forall fuel, (m < fuel)%nat -> bf_search_loop D fset fmap go fuel found f (state_at k) = Ret r) /\ outcome_ok found k r.
  Proof.
    intros found m. induction m as [|m IH]; intros k f I Hm.
    - exists (Err DestinationUnreachable). split.
      + intros fuel Hf. destruct fuel as [|fuel]; [lia |]. cbn [bf_search_loop]. rewrite next_at. cbn [bind].
        rewrite (front_empty_gen P D go orig HG Vo) by lia. reflexivity.
      + intros j q Hj Hq. pose proof (at_distance_short D go P _ _ _ HG Vo Hq). lia.
    - destruct (front_at (S k)) as [|x l] eqn:El.
      + exists (Err DestinationUnreachable). split.
        * intros fuel Hf. destruct fuel as [|fuel]; [lia |]. cbn [bf_search_loop]. rewrite next_at, El. cbn [bind]. reflexivity.
        * intros j q Hj Hq. destruct (at_distance_below _ _ (S k) Hq ltac:(lia)) as (r & Hr). apply front_In in Hr. rewrite El in Hr. destruct Hr.
      + destruct (scan_spec found (front_at (S k)) k f (fun x H => H) I) as (f' & o & E & R & M & K).
        assert (I' : o = None -> scan_inv (S k) f').
        { intros ->. split; [intros p d E'; destruct (R p d E') as (j & q & e & Hj & X); exists j, q, e; split; [lia | exact X] |]. intros j p Hj Hp. destruct (Nat.eq_dec j k) as [-> | N].
          - apply K. apply front_In. exact Hp.
          - apply M. destruct I as (_ & I2). apply (I2 j); [lia | exact Hp]. }
        destruct o as [p|].
        * exists (Ok (p, f')). split.
          -- intros fuel Hf. destruct fuel as [|fuel]; [lia |]. cbn [bf_search_loop]. rewrite next_at, El. cbn [bind].
             rewrite <- El, E. cbn [bind]. reflexivity.
          -- destruct K as (K1 & K2 & K3). exists k. split; [lia |]. split; [apply front_In; exact K2 |]. split; [exact K1 |].
             split; [|split; [exact K3 | lia]]. split; [exact R |]. intros j q Hj Hq. apply M. destruct I as (_ & I2). eapply I2; eassumption.
        * destruct (IH (S k) f' (I' eq_refl) ltac:(lia)) as (r & Er & Or). exists r. split.
          -- intros fuel Hf. destruct fuel as [|fuel]; [lia |]. cbn [bf_search_loop]. rewrite next_at, El. cbn [bind].
             rewrite <- El, E. cbn [bind]. apply Er. lia.
          -- assert (NK : forall q, at_distance D go orig (S k) q -> found q = false) by (intros q Hq; apply K; apply front_In; exact Hq).
             destruct r as [[p f''] | e]; cbn [outcome_ok] in *.
             ++ destruct Or as (n & Hn & O1 & O2 & O3 & O4 & O5). exists n. split; [lia |]. split; [exact O1 |]. split; [exact O2 |].
                split; [exact O3 |]. split; [exact O4 |]. intros j q Hj Hq. destruct (Nat.eq_dec j k) as [-> | N]; [apply NK; exact Hq |].
                apply (O5 j); [lia | exact Hq].
             ++ destruct e; try contradiction. intros j q Hj Hq. destruct (Nat.eq_dec j k) as [-> | N]; [apply NK; exact Hq |].
                apply (Or j); [lia | exact Hq].
  Qed.

  Lemma recorded_leads : forall n f, scan_inv n f -> forall j p, (j <= S n)%nat -> at_distance D go orig j p -> (j = 0%nat \/ f p <> None) ->
    leads_back P f orig j p.
  Proof.
    intros n f (I1 & I2). induction j as [|j IH]; intros p Hj Hp Hf; cbn [leads_back].
    - apply at_distance_0 in Hp. congruence.
    - split; [intros ->; apply at_distance_orig in Hp; discriminate |].
      destruct Hf as [Hf | Hf]; [discriminate |]. destruct (f p) as [d|] eqn:E; [|contradiction].
      destruct (I1 p d E) as (j' & q & e & _ & Hp' & Hq & Ae & Eg & Ed). pose proof (at_distance_fun D go _ _ _ _ Hp Hp') as X. inv X.
      assert (Es : step p (opp e) = q) by (apply H1 in Eg; [subst p; apply step_opp | eapply walk_valid; [exact HG | exact Vo | apply Hq]]).
      exists (opp e). rewrite Es. split; [reflexivity |]. split; [eapply walk_valid; [exact HG | exact Vo | apply Hq] |].
      apply IH; [lia | exact Hq |]. destruct j' as [|j']; [auto | right]. apply (I2 j'); [lia | exact Hq].
  Qed.

  Lemma recorded_follow : forall k f, (forall p, recorded k f p) -> forall p d, p <> orig -> f p = Some d ->
    go (step p d) (opp d) = Some p /\ allowed D (opp d).
  Proof.
    intros k f I1 p d N E. destruct (I1 p d E) as (j & q & e & _ & _ & Hq & Ae & Eg & ->). rewrite opp_opp.
    assert (Es : step p (opp e) = q) by (apply H1 in Eg; [subst p; apply step_opp | eapply walk_valid; [exact HG | exact Vo | apply Hq]]). rewrite Es. auto.
  Qed.

  Lemma distance_goal : forall found n p, at_distance D go orig (S n) p -> found p = true ->
    (forall j q, (j < n)%nat -> at_distance D go orig (S j) q -> found q = false) -> nearest_goal D go orig found (S n).
  Proof.
    intros found n p Hp Hf Hn. split.
    - exists p. split; [intros ->; apply at_distance_orig in Hp; discriminate |]. split; [exact Hf | apply Hp].
    - intros j q Hj Nq Fq Hw. destruct (walk_min j q Hw) as (i & Hi & Hd). destruct i as [|i].
      + apply at_distance_0 in Hd. congruence.
      + rewrite (Hn i q ltac:(lia) Hd) in Fq. discriminate.
  Qed.

  Lemma bfs_exact : forall found, exists r, returns (fun fuel => bf_search_path P D fset fmap go fuel orig found) r /\
    match r with
    | Ok (dest, path) => found dest = true /\ dest <> orig /\ Forall (allowed D) path /\ follow go orig path = Some dest /\
        nearest_goal D go orig found (length path) /\ (length path <= Z.to_nat (cols P * cols P))%nat
    | Err DestinationUnreachable => forall q, q <> orig -> found q = true -> ~ reachable D go orig q
    | Err Loop => exists k, (Z.to_nat (cols P * cols P) < k)%nat /\ nearest_goal D go orig found k
    | Err _ => False
    end.
  Proof.
    intros found. pose proof (cols_sq P G) as CS.
    destruct (search_spec found (S (length (all_rows P))) 0%nat (fun _ => None)) as (r & Er & Or); [split | lia |].
    { intros p d E. discriminate. } { intros j p Hj. lia. }
    destruct r as [[p f] | e]; cbn [outcome_ok] in Or.
    - destruct Or as (n & _ & Hp & Fp & I & Np & Hn).
      assert (V : valid P p) by (eapply walk_valid; [exact HG | exact Vo | apply Hp]).
      assert (NG : nearest_goal D go orig found (S n)) by (eapply distance_goal; [exact Hp | exact Fp | intros j q Hj; apply Hn; lia]).
      pose proof (recorded_leads n f I (S n) p ltac:(lia) Hp (or_intror Np)) as LB.
      exists (match bp P f orig (maxn P) p [] with Ok path => Ok (p, path) | Err e => Err e end). split.
      + exists (S (S (length (all_rows P))) + maxn P)%nat. intros fuel Hf. unfold bf_search_path, bf_search_mapmov, bf_iter.
        rewrite bf_new_at. cbn [bind]. change (mp_default fmap None) with (fun _ : pos => @None dir). rewrite Er by lia. cbn [bind].
        rewrite (into_path_bp P G f orig fmap f fuel p) by (try assumption; try lia; reflexivity).
        destruct (f p); [|contradiction]. cbn [bind]. destruct (bp P f orig (maxn P) p []); reflexivity.
      + destruct (le_lt_dec (S n) (Z.to_nat (cols P * cols P))) as [L | L].
        * destruct (bp_leads P (grid_type_wf P G) f orig (S n) (maxn P) p [] V LB ltac:(unfold maxn; lia)) as (ds & E & Ld). rewrite app_nil_r in E. rewrite E.
          destruct (bp_follow P (grid_type_wf P G) f orig D go (fun _ => True)) with (n := maxn P) (p := p) (ret := @nil dir) (path := ds) as (ds' & E1 & E2 & E3); try assumption; [|exact Logic.I |].
          { intros q d _ Nq Eq. destruct I as (I1 & _). destruct (recorded_follow n f I1 q d Nq Eq). auto. }
          rewrite app_nil_r in E1. subst ds'.
          split; [exact Fp |]. split; [intros ->; apply at_distance_orig in Hp; discriminate |].
          split; [exact E3 |]. split; [exact E2 |]. rewrite Ld. auto.
        * assert (GO : goes_on P f orig (maxn P) p).
          { apply goes_on_le with (m := S n); [unfold maxn; lia |]. clear -LB. revert p LB. generalize (S n). intros m.
            induction m as [|m IH]; intros p H; [exact I |]. cbn in *. destruct H as (A & d & B & C & H). split; [exact A |]. exists d. auto. }
          rewrite (proj2 (bp_loop P (grid_type_wf P G) f orig _ _ [] V) GO). exists (S n). auto.
    - exists (Err e). split.
      + exists (S (S (length (all_rows P))))%nat. intros fuel Hf. unfold bf_search_path, bf_search_mapmov, bf_iter.
        rewrite bf_new_at. cbn [bind]. change (mp_default fmap None) with (fun _ : pos => @None dir). rewrite Er by lia. reflexivity.
      + destruct e; try contradiction. intros q Nq Fq (n & Hw). destruct (walk_min n q Hw) as (j & _ & Hd). destruct j as [|j].
        * apply at_distance_0 in Hd. congruence.
        * rewrite (Or j q ltac:(lia) Hd) in Fq. discriminate.
  Qed.
End Search.

(** ** Search on any position type *)

Section SearchAny.
  Context (P : post) (W : post_wf P) (D : bool) (go : pos -> dir -> option pos) (orig : pos).
  Context (HG : go_inside P go) (Vo : valid P orig) (H1 : one_step P go).

  Lemma bfs_any : forall found, exists r, settles (fun fuel => bf_search_path P D fset fmap go fuel orig found) r /\
    ((r = Ret (Err DestinationUnreachable) /\ forall q, q <> orig -> found q = true -> ~ reachable D go orig q) \/
     exists dest n, found dest = true /\ dest <> orig /\ at_distance D go orig n dest /\ nearest_goal D go orig found n /\
       (~ retraceable P orig dest -> r = Panic) /\
       (retraceable P orig dest -> (n <= Z.to_nat (cols P * cols P))%nat -> exists path, r = Ret (Ok (dest, path)) /\
          length path = n /\ Forall (allowed D) path /\ follow go orig path = Some dest) /\
       (retraceable P orig dest -> (Z.to_nat (cols P * cols P) < n)%nat -> r = Ret (Err Loop))).
  Proof.
    intros found.
    destruct (search_spec P D go orig HG Vo H1 found (S (length (all_rows P))) 0%nat (fun _ => None)) as (r & Er & Or); [split | lia |].
    { intros p d E. discriminate. } { intros j p Hj. lia. }
    set (N := S (S (length (all_rows P)))). set (mx := Z.to_nat (cols P * cols P + 1)).
    assert (Run0 : forall fuel, (N <= fuel)%nat -> bf_search_path P D fset fmap go fuel orig found =
      match r with Err e => Ret (Err e) | Ok (dest, f) => bind (camefrom_into_path P fmap fuel f orig dest)
        (fun r' => match r' with Err e => Ret (Err e) | Ok path => Ret (Ok (dest, path)) end) end).
    { intros fuel Hf. unfold bf_search_path, bf_search_mapmov, bf_iter. rewrite bf_new_at. cbn [bind].
      change (mp_default fmap None) with (fun _ : pos => @None dir). rewrite Er by (unfold N in Hf; lia). cbn [bind]. destruct r as [[? ?] | ?]; reflexivity. }
    destruct r as [[p f] | e]; cbn [outcome_ok] in Or.
    - destruct Or as (n & _ & Hp & Fp & I & Np & Hn).
      assert (V : valid P p) by (eapply walk_valid; [exact HG | exact Vo | apply Hp]).
      assert (NG : nearest_goal D go orig found (S n)) by (eapply distance_goal; [exact Hp | exact Fp | intros j q Hj; apply Hn; lia]).
      pose proof (recorded_leads P D go orig HG Vo H1 n f I (S n) p ltac:(lia) Hp (or_intror Np)) as LB.
      assert (No : p <> orig) by (intros ->; apply at_distance_orig in Hp; discriminate).
      assert (DEC : retraceable P orig p \/ ~ retraceable P orig p).
      { unfold retraceable. destruct (valid_dec P (Z.abs (fst orig - fst p), Z.abs (snd orig - snd p))) as [M | M].
        - change (measurable P orig p) in M. generalize (Z.abs (fst orig - fst p) + Z.abs (snd orig - snd p)). intros z. generalize (cols P * cols P). intros c.
          destruct (Z_le_gt_dec (2 * z) 9223372036854775807); [|right; lia]. destruct (Z_le_gt_dec 0 (XM P)); [|right; lia].
          destruct (Z_le_gt_dec (c + 1) 18446744073709551615); [left; auto | right; lia].
        - right. intros (X & _). apply M. exact X. }
      destruct DEC as [RT | RT].
      + exists (match bp P f orig mx p [] with Ok path => Ret (Ok (p, path)) | Err e => Ret (Err e) end). split.
        * exists (N + mx)%nat. intros fuel Hf. rewrite Run0 by lia. rewrite (into_path_gen P f orig p fuel W V RT) by (fold mx; (lia || assumption)). cbn [bind]. fold mx.
          destruct (bp P f orig mx p []); reflexivity.
        * right. exists p, (S n). split; [exact Fp |]. split; [exact No |]. split; [exact Hp |]. split; [exact NG |]. split; [intros X; destruct (X RT) |].
          assert (HX : 0 <= cols P * cols P) by nia. split.
          -- intros _ L. destruct (bp_leads P W f orig (S n) mx p [] V LB ltac:(unfold mx; lia)) as (ds & E & Ld). rewrite app_nil_r in E. rewrite E.
             destruct (bp_follow P W f orig D go (fun _ => True)) with (n := mx) (p := p) (ret := @nil dir) (path := ds) as (ds' & E1 & E2 & E3); try assumption; [|exact Logic.I |].
             { intros q d _ Nq Eq. destruct I as (I1 & _). destruct (recorded_follow P D go orig HG Vo H1 n f I1 q d Nq Eq). auto. }
             rewrite app_nil_r in E1. subst ds'. exists ds. auto.
          -- intros _ L. assert (GO : goes_on P f orig mx p).
             { apply goes_on_le with (m := S n); [unfold mx; lia |]. clear -LB. revert p LB. generalize (S n). intros m.
               induction m as [|m IH]; intros p H; [exact I |]. cbn in *. destruct H as (A & d & B & C & H). split; [exact A |]. exists d. auto. }
             rewrite (proj2 (bp_loop P W f orig _ _ [] V) GO). reflexivity.
      + exists Panic. split.
        * exists N. intros fuel Hf. rewrite Run0 by exact Hf. rewrite (into_path_panics P f orig p fuel W V RT Np). reflexivity.
        * right. exists p, (S n). split; [exact Fp |]. split; [exact No |]. split; [exact Hp |]. split; [exact NG |]. split; [auto |].
          split; intros X; destruct (RT X).
    - destruct e; try contradiction. exists (Ret (Err DestinationUnreachable)). split; [exists N; exact Run0 |]. left. split; [reflexivity |].
      intros q Nq Fq (n & Hw). destruct (walk_min D go orig n q Hw) as (j & _ & Hd). destruct j as [|j].
      + apply at_distance_0 in Hd. congruence.
      + rewrite (Or j q ltac:(lia) Hd) in Fq. discriminate.
  Qed.
End SearchAny.
