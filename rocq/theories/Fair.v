(** Fair.v -- best-first search on plain functions: costs, a frontier of entries, and
    the trace of popped entries.  Any entry of lowest priority may be popped next. *)

From Coq Require Import ZArith List Bool Lia Permutation.
From Verif Require Import Rust BoundedInt Dir PosT Pos SetMap CameFrom Heap Astar
  Spec SpecSearch Lib Deque BoundedIntProofs PosTProofs PosTProofs2 PropDirProofs SetMapProofs Sim CameFromProofs BfProofs.
Import ListNotations.
Open Scope Z_scope.

(** [e] is an entry of lowest priority, and [rest] are the others. *)
Definition pops (hp : heap) (e : entry) (rest : heap) : Prop :=
  Permutation hp (e :: rest) /\ forall x, In x hp -> e_prio e <= e_prio x.

Lemma pops_In : forall hp e rest, pops hp e rest -> forall x, In x hp <-> x = e \/ In x rest.
Proof.
  intros hp e rest (H & _) x. split; intros Hx.
  - apply (Permutation_in _ H) in Hx. destruct Hx as [<- | Hx]; auto.
  - apply (Permutation_in _ (Permutation_sym H)). destruct Hx as [-> | Hx]; [left; reflexivity | right; exact Hx].
Qed.

Lemma pops_length : forall hp e rest, pops hp e rest -> length hp = S (length rest).
Proof. intros hp e rest (H & _). exact (Permutation_length H). Qed.

Lemma pops_min : forall hp e rest, pops hp e rest -> forall x, In x hp -> e_prio e <= e_prio x.
Proof. intros hp e rest H. apply H. Qed.

Lemma pops_one : forall x e rest, pops [x] e rest -> e = x /\ rest = [].
Proof. intros x e rest (H & _). apply Permutation_length_1_inv in H. injection H as -> ->. auto. Qed.

(** ** Walks with costs *)

Section CostWalks.
  Context (D : bool) (succ : pos -> dir -> option (pos * Z)).

  Lemma follow_cost_snoc : forall ds p q c d r w, follow_cost succ p ds = Some (q, c) -> succ q d = Some (r, w) ->
    follow_cost succ p (ds ++ [d]) = Some (r, c + w).
  Proof.
    induction ds as [|e ds IH]; intros p q c d r w H E; cbn in *.
    - inv H. rewrite E. f_equal. f_equal. lia.
    - destruct (succ p e) as [[p' c1]|]; [|discriminate]. destruct (follow_cost succ p' ds) as [[q' c2]|] eqn:F; [|discriminate].
      inv H. rewrite (IH _ _ _ _ _ _ F E). f_equal. f_equal. lia.
  Qed.

  Lemma cost_walk_snoc : forall p q c d r w, cost_walk D succ p c q -> allowed D d -> succ q d = Some (r, w) -> cost_walk D succ p (c + w) r.
  Proof.
    intros p q c d r w (ds & A & F) Ad E. exists (ds ++ [d]). split; [apply Forall_app; auto |]. eapply follow_cost_snoc; eassumption.
  Qed.

  Lemma cost_walk_nil : forall p, cost_walk D succ p 0 p.
  Proof. intros p. exists []. cbn. auto. Qed.

  (** Induction from the front of the walk to its end. *)
  Lemma cost_walk_ind : forall p (R : pos -> Z -> Prop), R p 0 ->
    (forall q c d r w, cost_walk D succ p c q -> R q c -> allowed D d -> succ q d = Some (r, w) -> R r (c + w)) ->
    forall q c, cost_walk D succ p c q -> R q c.
  Proof.
    intros p R H0 HS q c (ds & A & F). revert q c A F. induction ds as [|d ds IH] using rev_ind; intros q c A F.
    - cbn in F. inv F. exact H0.
    - apply Forall_app in A. destruct A as (A1 & A2). inversion A2; subst. clear A2.
      assert (exists r c1 w, follow_cost succ p ds = Some (r, c1) /\ succ r d = Some (q, w) /\ c = c1 + w) as (r & c1 & w & F1 & E & ->).
      { clear - F. revert p q c F. induction ds as [|e ds IH]; intros p q c F; cbn in F.
        - destruct (succ p d) as [[q' w]|] eqn:E; [|discriminate]. inv F. exists p, 0, w. cbn. split; [reflexivity |]. split; [exact E | lia].
        - destruct (succ p e) as [[p' c0]|] eqn:E0; [|discriminate].
          destruct (follow_cost succ p' (ds ++ [d])) as [[q' c2]|] eqn:F2; [|discriminate]. inv F.
          destruct (IH _ _ _ F2) as (r & c1 & w & F1 & E & ->). exists r, (c0 + c1), w. cbn. rewrite E0, F1.
          split; [reflexivity |]. split; [exact E | lia]. }
      apply (HS r c1 d q w); [exists ds; auto | apply IH; assumption | assumption | exact E].
  Qed.

  Lemma follow_move_of : forall ds p q c, follow_cost succ p ds = Some (q, c) -> follow (move_of succ) p ds = Some q.
  Proof.
    induction ds as [|d ds IH]; intros p q c F; cbn in *; [congruence |]. unfold move_of at 1.
    destruct (succ p d) as [[r w]|]; [|discriminate]. destruct (follow_cost succ r ds) as [[q' c']|] eqn:E; [|discriminate].
    inv F. eapply IH; exact E.
  Qed.

  Lemma follow_cost_of : forall ds p q, follow (move_of succ) p ds = Some q -> exists c, follow_cost succ p ds = Some (q, c).
  Proof.
    induction ds as [|d ds IH]; intros p q F; cbn in *; [inv F; eauto |]. unfold move_of at 1 in F.
    destruct (succ p d) as [[r w]|]; [|discriminate]. destruct (IH _ _ F) as (c & ->). eauto.
  Qed.

  Lemma reachable_cost : forall p q, reachable D (move_of succ) p q <-> exists c, cost_walk D succ p c q.
  Proof.
    intros p q. split.
    - intros (n & ds & _ & A & F). destruct (follow_cost_of _ _ _ F) as (c & E). exists c, ds. auto.
    - intros (c & ds & A & F). exists (length ds), ds. split; [reflexivity |]. split; [exact A |]. eapply follow_move_of; exact F.
  Qed.
End CostWalks.

(** ** The machine *)

Section Machine.
  Context (P : post) (D : bool).
  Context (succ : pos -> dir -> option (pos * Z)) (h : pos -> Z) (orig : pos).
  Context (Vo : valid P orig).
  Context (HS : forall p d q w, valid P p -> succ p d = Some (q, w) -> valid P q /\ 0 <= w).
  Context (HA : affordable D P succ orig).

  Definition e0 : entry := (0, (orig, dir_default)).
  Definition popped (tr : list entry) (p : pos) : Prop := exists e, In e tr /\ e_pos e = p.

  Definition relax (p : pos) (s : (pos -> Z) * heap) (d : dir) : (pos -> Z) * heap :=
    let '(c, hp) := s in
    match succ p d with
    | Some (q, w) =>
        if c p + w <? c q then (put c q (c p + w), (c p + w + h q, (q, opp d)) :: hp) else s
    | None => s
    end.

  Definition expand (p : pos) (s : (pos -> Z) * heap) : (pos -> Z) * heap := fold_left (relax p) (dirs D) s.

  Inductive FRun : (pos -> Z) -> heap -> list entry -> Prop :=
  | FRun0 : FRun (put (fun _ => COST_MAX) orig 0) [e0] []
  | FRun1 : forall c hp tr e rest c' hp', FRun c hp tr -> pops hp e rest ->
      expand (e_pos e) (c, rest) = (c', hp') -> FRun c' hp' (e :: tr).

  (** What a step does. *)
  Lemma relax_cases : forall p c hp d c' hp', relax p (c, hp) d = (c', hp') ->
    (c' = c /\ hp' = hp /\ forall q w, succ p d = Some (q, w) -> c q <= c p + w) \/
    (exists q w, succ p d = Some (q, w) /\ c p + w < c q /\ c' = put c q (c p + w) /\ hp' = (c p + w + h q, (q, opp d)) :: hp).
  Proof using.
    intros p c hp d c' hp' E. cbn in E. destruct (succ p d) as [[q w]|] eqn:Es.
    - destruct (c p + w <? c q) eqn:L; inv E.
      + apply Z.ltb_lt in L. right. exists q, w. auto.
      + apply Z.ltb_ge in L. left. split; [reflexivity |]. split; [reflexivity |]. intros q' w' Eq. inv Eq. exact L.
    - inv E. left. split; [reflexivity |]. split; [reflexivity |]. discriminate.
  Qed.

  (** An invariant of all single steps is an invariant of an expansion. *)
  Lemma expand_inv : forall (I : (pos -> Z) -> heap -> Prop) p c hp c' hp', expand p (c, hp) = (c', hp') -> I c hp ->
    (forall d c1 hp1 c2 hp2, allowed D d -> I c1 hp1 -> relax p (c1, hp1) d = (c2, hp2) -> I c2 hp2) -> I c' hp'.
  Proof.
    intros I p c hp c' hp' E H0 HI. unfold expand in E.
    assert (A : forall d, In d (dirs D) -> allowed D d) by (intros d; apply dirs_allowed).
    revert c hp E H0. generalize dependent (dirs D). intros l. induction l as [|d l IH]; intros A c hp E H0; cbn [fold_left] in E; [inv E; exact H0 |].
    destruct (relax p (c, hp) d) as [c1 hp1] eqn:E1. eapply IH; [intros d' Hd'; apply A; right; exact Hd' | exact E |].
    eapply HI; [apply A; left; reflexivity | exact H0 | exact E1].
  Qed.

  Definition closed (c : pos -> Z) (p : pos) : Prop :=
    forall d q w, allowed D d -> succ p d = Some (q, w) -> c q <= c p + w.

  Lemma put_eq : forall {A} (f : pos -> A) p v, put f p v p = v.
  Proof using. intros A f p v. unfold put. rewrite pos_eqb_refl. reflexivity. Qed.

  Lemma put_neq : forall {A} (f : pos -> A) p v q, p <> q -> put f p v q = f q.
  Proof using. intros A f p v q N. unfold put. rewrite (proj2 (pos_eqb_neq p q) N). reflexivity. Qed.

  (** Costs only decrease; the cost of the expanded position stays; it becomes closed. *)
  Lemma expand_mono : forall p c hp c' hp', valid P p -> expand p (c, hp) = (c', hp') ->
    c' p = c p /\ (forall q, c' q <= c q) /\ closed c' p.
  Proof.
    intros p c hp c' hp' V E. unfold expand in E.
    assert (K : forall l c hp, fold_left (relax p) l (c, hp) = (c', hp') ->
      c' p = c p /\ (forall q, c' q <= c q) /\ forall d q w, In d l -> succ p d = Some (q, w) -> c' q <= c p + w).
    { clear c hp E. induction l as [|d l IH]; intros c hp E; cbn [fold_left] in E.
      - inv E. split; [reflexivity |]. split; [intros q; lia | intros d q w []].
      - destruct (relax p (c, hp) d) as [c1 hp1] eqn:E1. destruct (IH _ _ E) as (K1 & K2 & K3).
        assert (H : c1 p = c p /\ (forall q, c1 q <= c q) /\ forall q w, succ p d = Some (q, w) -> c1 q <= c p + w).
        { destruct (relax_cases _ _ _ _ _ _ E1) as [(-> & -> & H) | (q & w & Es & L & -> & ->)].
          - split; [reflexivity |]. split; [intros q; lia | exact H].
          - destruct (HS p d q w V Es) as (_ & Hw). assert (N : q <> p) by (intros ->; lia). split; [apply put_neq; exact N |]. split.
            + intros r. unfold put. destruct (pos_eqb q r) eqn:Er; [apply pos_eqb_eq in Er; subst r; lia | lia].
            + intros q' w' Eq. rewrite Es in Eq. inv Eq. rewrite put_eq. lia. }
        destruct H as (H1 & H2 & H3). rewrite H1 in *. split; [exact K1 |]. split; [intros q; specialize (K2 q); specialize (H2 q); lia |].
        intros d' q w [<- | Hin] Es; [specialize (K2 q); specialize (H3 q w Es); lia | eapply K3; eassumption]. }
    destruct (K _ _ _ E) as (K1 & K2 & K3). split; [exact K1 |]. split; [exact K2 |].
    intros d q w A Es. rewrite K1. eapply K3; [apply dirs_allowed; exact A | exact Es].
  Qed.

  (** ** Bounds on costs *)

  (** The cost of [q] was once found along a walk that meets no position twice;
      since then, costs along that walk may have decreased. *)
  Inductive trail (c : pos -> Z) : list pos -> pos -> Z -> Prop :=
  | trail0 : trail c [orig] orig 0
  | trail1 : forall l p k d q w, trail c l p k -> allowed D d -> succ p d = Some (q, w) -> c q <= k + w -> ~ In q l ->
      trail c (q :: l) q (k + w).

  Definition bounded (c : pos -> Z) : Prop :=
    c orig = 0 /\ (forall p, 0 <= c p <= COST_MAX) /\ forall p, c p < COST_MAX -> exists l, trail c l p (c p).

  Lemma trail_valid : forall c l p k, trail c l p k -> NoDup l /\ Forall (valid P) l /\ valid P p.
  Proof.
    intros c l p k T. induction T as [|l p k d q w T (ND & F & V) A Es L N].
    - split; [constructor; [intros [] | constructor] |]. split; [constructor; [exact Vo | constructor] | exact Vo].
    - destruct (HS p d q w V Es) as (Vq & _). split; [constructor; assumption |]. split; [constructor; assumption | exact Vq].
  Qed.

  Lemma trail_mono : forall c c' l p k, c' orig = 0 -> (forall q, c' q <= c q) -> trail c l p k -> trail c' l p k.
  Proof.
    clear HS HA. intros c c' l p k H0 M T. induction T as [|l p k d q w T IH A Es L N]; [constructor |].
    eapply trail1; [exact IH | exact A | exact Es | specialize (M q); lia | exact N].
  Qed.

  Lemma trail_in : forall c l p k, c orig = 0 -> trail c l p k -> 0 <= k /\ forall q, In q l -> c q <= k.
  Proof.
    intros c l p k H0 T. induction T as [|l p k d q w T (K & IH) A Es L N].
    - split; [lia |]. intros q [<- | []]. lia.
    - destruct (trail_valid _ _ _ _ T) as (_ & _ & V). destruct (HS p d q w V Es) as (_ & Hw). split; [lia |].
      intros r [<- | Hr]; [exact L | specialize (IH r Hr); lia].
  Qed.

  Lemma visits_snoc : forall path p q c d r w, follow_cost succ p path = Some (q, c) -> succ q d = Some (r, w) ->
    visits succ p (path ++ [d]) = visits succ p path ++ [r].
  Proof.
    clear HS HA. induction path as [|e path IH]; intros p q c d r w F E; cbn in *; [inv F; rewrite E; reflexivity |].
    destruct (succ p e) as [[p' c1]|]; [|discriminate]. destruct (follow_cost succ p' path) as [[q' c2]|] eqn:F'; [|discriminate].
    inv F. rewrite (IH _ _ _ _ _ _ F' E). reflexivity.
  Qed.

  Lemma trail_walk : forall c l p k, trail c l p k ->
    exists path, Forall (allowed D) path /\ follow_cost succ orig path = Some (p, k) /\ visits succ orig path = rev l /\ length l = S (length path).
  Proof.
    clear HS HA. intros c l p k T. induction T as [|l p k d q w T (path & A & F & Vi & Le) Ad Es L N].
    - exists []. cbn. auto.
    - exists (path ++ [d]). split; [apply Forall_app; auto |]. split; [eapply follow_cost_snoc; eassumption |].
      split; [rewrite (visits_snoc _ _ _ _ _ _ _ F Es), Vi; reflexivity |]. rewrite app_length. cbn. lia.
  Qed.

  Lemma bounded_valid : forall c p, bounded c -> c p < COST_MAX -> valid P p.
  Proof. intros c p (_ & _ & B) L. destruct (B p L) as (l & T). apply (trail_valid _ _ _ _ T). Qed.

  Lemma max_pos : 0 < COST_MAX.
  Proof using. reflexivity. Qed.

  (** The new cost of a neighbour never overflows, and it is not COST_MAX if the
      neighbour has no cost yet. *)
  Lemma bounded_sum : forall c p d q w, bounded c -> c p < COST_MAX -> allowed D d -> succ p d = Some (q, w) ->
    0 <= c p + w <= COST_MAX /\ (c q = COST_MAX -> c p + w < COST_MAX).
  Proof.
    intros c p d q w B L A Es. pose proof (bounded_valid c p B L) as V. destruct (HS p d q w V Es) as (Vq & Hw).
    destruct B as (B0 & Hr & B). destruct (B p L) as (l & T). destruct (trail_walk _ _ _ _ T) as (path & Ap & F & Vi & _).
    destruct (trail_valid _ _ _ _ T) as (ND & _). destruct HA as (_ & HA').
    assert (ND' : NoDup (visits succ orig path)) by (rewrite Vi; apply NoDup_rev; exact ND).
    pose proof (proj2 (HA' path p (c p) Ap F ND') d q w A Es) as S1. specialize (Hr p). unfold COST_MAX. split; [lia |].
    intros Eq. assert (Nq : ~ In q l) by (intros Hq; pose proof (proj2 (trail_in _ _ _ _ B0 T) q Hq); unfold COST_MAX in *; lia).
    apply (HA' (path ++ [d]) q); [apply Forall_app; auto | eapply follow_cost_snoc; eassumption |].
    rewrite (visits_snoc _ _ _ _ _ _ _ F Es), Vi. change (NoDup (rev (q :: l))). apply NoDup_rev. constructor; assumption.
  Qed.

  Lemma bounded_relax : forall p c hp d c' hp', bounded c -> c p < COST_MAX -> allowed D d -> relax p (c, hp) d = (c', hp') -> bounded c'.
  Proof.
    intros p c hp d c' hp' B L A E. destruct (relax_cases _ _ _ _ _ _ E) as [(-> & _ & _) | (q & w & Es & Lq & -> & _)]; [exact B |].
    pose proof (bounded_sum c p d q w B L A Es) as (S1 & S2). pose proof (bounded_valid c p B L) as V.
    destruct (HS p d q w V Es) as (Vq & Hw). destruct B as (B0 & Hr & B). pose proof (Hr p) as Hp. pose proof (Hr q) as Hq.
    assert (C0 : put c q (c p + w) orig = 0) by (rewrite put_neq; [exact B0 |]; intros ->; lia).
    assert (M : forall r, put c q (c p + w) r <= c r).
    { intros r. unfold put. destruct (pos_eqb q r) eqn:Er; [apply pos_eqb_eq in Er; subst r; lia | lia]. }
    split; [exact C0 |]. split.
    - intros r. unfold put. destruct (pos_eqb q r); [lia | apply Hr].
    - intros r Lr. destruct (pos_dec q r) as [<- | N].
      + rewrite put_eq. destruct (B p L) as (l & T). exists (q :: l). eapply trail1; [apply (trail_mono c); [exact C0 | exact M | exact T] | exact A | exact Es | |].
        * rewrite put_eq. lia.
        * intros Hin. pose proof (proj2 (trail_in _ _ _ _ B0 T) q Hin). lia.
      + rewrite put_neq in * by exact N. destruct (B r Lr) as (l & T). exists l. apply (trail_mono c); assumption.
  Qed.

  Lemma bounded_0 : bounded (put (fun _ => COST_MAX) orig 0).
  Proof.
    pose proof max_pos. split; [apply put_eq |]. split.
    - intros p. unfold put. destruct (pos_eqb orig p); lia.
    - intros p L. destruct (pos_dec orig p) as [<- | N]; [rewrite put_eq; exists [orig]; constructor |].
      rewrite put_neq in L by exact N. lia.
  Qed.

  Lemma bounded_expand : forall p c hp c' hp', bounded c -> c p < COST_MAX -> expand p (c, hp) = (c', hp') -> bounded c'.
  Proof.
    intros p c hp c' hp' B L E.
    refine (proj1 (expand_inv (fun c1 _ => bounded c1 /\ c1 p < COST_MAX) p c hp c' hp' E (conj B L) _)).
    intros d c1 hp1 c2 hp2 A (B1 & L1) E1. split; [eapply bounded_relax; eassumption |].
    destruct (relax_cases _ _ _ _ _ _ E1) as [(-> & _ & _) | (q & w & Es & Lq & -> & _)]; [exact L1 |].
    pose proof (bounded_valid c1 p B1 L1) as V. destruct (HS p d q w V Es) as (_ & Hw). rewrite put_neq; [exact L1 | intros ->; lia].
  Qed.

  (** ** Termination *)

  Definition total (c : pos -> Z) : Z := fold_right Z.add 0 (map c (all_rows P)).
  Definition measure (c : pos -> Z) (hp : heap) : Z := 2 * total c + Z.of_nat (length hp).

  Lemma total_put : forall c q v, valid P q -> total (put c q v) = total c - c q + v.
  Proof.
    intros c q v V. unfold total. pose proof (all_of_NoDup P true) as ND. cbn [all_of] in ND.
    assert (Hin : In q (all_rows P)) by (apply all_rows_In; exact V).
    revert ND Hin. generalize (all_rows P). intros l. induction l as [|p l IH]; intros ND Hin; [destruct Hin |].
    inversion ND; subst. cbn [map fold_right]. destruct (pos_dec q p) as [-> | N].
    - rewrite put_eq. assert (E : map (put c p v) l = map c l).
      { apply map_ext_in. intros r Hr. apply put_neq. intros ->. contradiction. }
      rewrite E. lia.
    - rewrite put_neq by exact N. destruct Hin as [-> | Hin]; [congruence |]. rewrite IH by assumption. lia.
  Qed.

  Lemma total_bound : forall c, (forall p, 0 <= c p <= COST_MAX) -> 0 <= total c <= COST_MAX * Z.of_nat (length (all_rows P)).
  Proof using.
    intros c H. unfold total. generalize (all_rows P). intros l. clear - H. induction l as [|p l IH]; cbn [map fold_right length]; [lia |].
    specialize (H p). lia.
  Qed.

  Lemma measure_expand : forall p c hp c' hp', bounded c -> c p < COST_MAX -> expand p (c, hp) = (c', hp') -> measure c' hp' <= measure c hp.
  Proof.
    intros p c hp c' hp' B L E.
    refine (proj2 (expand_inv (fun c1 hp1 => (bounded c1 /\ c1 p < COST_MAX) /\ measure c1 hp1 <= measure c hp) p c hp c' hp' E (conj (conj B L) (Z.le_refl _)) _)).
    intros d c1 hp1 c2 hp2 A ((B1 & L1) & M1) E1.
    pose proof (bounded_relax _ _ _ _ _ _ B1 L1 A E1) as B2. split.
    - split; [exact B2 |]. pose proof (bounded_valid c1 p B1 L1) as V. destruct (relax_cases _ _ _ _ _ _ E1) as [(-> & _ & _) | (q & w & Es & Lq & -> & _)]; [exact L1 |].
      destruct (HS p d q w V Es) as (_ & Hw). rewrite put_neq; [exact L1 | intros ->; lia].
    - pose proof (bounded_valid c1 p B1 L1) as V. destruct (relax_cases _ _ _ _ _ _ E1) as [(-> & -> & _) | (q & w & Es & Lq & -> & ->)]; [exact M1 |].
      destruct (HS p d q w V Es) as (Vq & Hw). unfold measure in *. rewrite total_put by exact Vq. cbn [length]. lia.
  Qed.

  (** ** The general invariant *)

  Definition just (c : pos -> Z) (tr : list entry) (e : entry) : Prop :=
    e = e0 \/ exists p d w, popped tr p /\ allowed D d /\ succ p d = Some (e_pos e, w) /\ e_dir e = opp d /\
      c p + w + h (e_pos e) <= e_prio e /\ c (e_pos e) + h (e_pos e) <= e_prio e.

  Record inv0 (c : pos -> Z) (hp : heap) (tr : list entry) (skip : pos -> Prop) : Prop := {
    i_bnd : bounded c;
    i_fin : forall e, In e hp \/ In e tr -> c (e_pos e) < COST_MAX;
    i_walk : forall q, c q < COST_MAX -> cost_walk D succ orig (c q) q;
    i_just : forall e, In e hp \/ In e tr -> just c tr e;
    i_seen : forall q, c q < COST_MAX -> (exists e, In e hp /\ e_pos e = q) \/ popped tr q;
    i_closed : forall q, c q < COST_MAX -> skip q \/ (exists e, In e hp /\ e_pos e = q) \/ closed c q }.

  Lemma just_mono : forall c c' tr tr' e, (forall q, c' q <= c q) -> (forall p, popped tr p -> popped tr' p) -> just c tr e -> just c' tr' e.
  Proof.
    intros c c' tr tr' e M Hp [E | (p & d & w & H1 & H2 & H3 & H4 & H5 & H6)]; [left; exact E |]. right. exists p, d, w.
    pose proof (M p). pose proof (M (e_pos e)). repeat split; auto; lia.
  Qed.

  Lemma popped_cons : forall e tr p, popped tr p -> popped (e :: tr) p.
  Proof. intros e tr p (x & Hx & E). exists x. split; [right; exact Hx | exact E]. Qed.

  Lemma popped_head : forall e tr, popped (e :: tr) (e_pos e).
  Proof. intros e tr. exists e. split; [left |]; reflexivity. Qed.

  Lemma relax_le : forall p c hp d c' hp', relax p (c, hp) d = (c', hp') -> forall q, c' q <= c q.
  Proof using.
    clear HS HA. intros p c hp d c' hp' E q. destruct (relax_cases _ _ _ _ _ _ E) as [(-> & _) | (r & w & _ & L & -> & _)]; [lia |].
    unfold put. destruct (pos_eqb r q) eqn:Er; [apply pos_eqb_eq in Er; subst; lia | lia].
  Qed.

  Lemma inv0_relax : forall p c hp tr d c' hp', popped tr p -> inv0 c hp tr (eq p) -> allowed D d -> relax p (c, hp) d = (c', hp') ->
    inv0 c' hp' tr (eq p).
  Proof.
    intros p c hp tr d c' hp' Pp I A E. pose proof I as [Ib If Iw Ij Is Ic].
    assert (L : c p < COST_MAX) by (destruct Pp as (x & Hx & <-); apply If; auto).
    pose proof (bounded_relax _ _ _ _ _ _ Ib L A E) as B'. pose proof (relax_le _ _ _ _ _ _ E) as M.
    destruct (relax_cases _ _ _ _ _ _ E) as [(-> & -> & _) | (q & w & Es & Lq & -> & ->)]; [exact I |].
    pose proof (bounded_valid c p Ib L) as V. destruct (HS p d q w V Es) as (Vq & Hw).
    assert (Npq : q <> p) by (intros ->; lia). pose proof (proj1 (proj2 Ib)) as Hr.
    assert (Cp : put c q (c p + w) p = c p) by (apply put_neq; exact Npq).
    assert (Cq : put c q (c p + w) q = c p + w) by apply put_eq.
    assert (Lq' : c p + w < COST_MAX) by (specialize (Hr q); lia).
    constructor.
    - exact B'.
    - intros e [[<- | He] | He].
      + cbn [e_pos fst snd]. rewrite Cq. exact Lq'.
      + pose proof (If e (or_introl He)). pose proof (M (e_pos e)). lia.
      + pose proof (If e (or_intror He)). pose proof (M (e_pos e)). lia.
    - intros r Hr'. destruct (pos_dec q r) as [<- | N].
      + rewrite Cq. eapply cost_walk_snoc; [apply Iw; exact L | exact A | exact Es].
      + rewrite put_neq in * by exact N. apply Iw. exact Hr'.
    - intros e [[<- | He] | He].
      + right. exists p, d, w. cbn [e_pos e_dir e_prio fst snd]. rewrite Cp, Cq. repeat split; auto; lia.
      + apply just_mono with (c := c) (tr := tr); [exact M | auto | apply Ij; auto].
      + apply just_mono with (c := c) (tr := tr); [exact M | auto | apply Ij; auto].
    - intros r Hr'. destruct (pos_dec q r) as [<- | N].
      + left. eexists. split; [left; reflexivity | reflexivity].
      + rewrite put_neq in Hr' by exact N. destruct (Is r Hr') as [(e & He & Er) | H]; [|right; exact H].
        left. exists e. split; [right; exact He | exact Er].
    - intros r Hr'. destruct (pos_dec q r) as [<- | N].
      + right. left. eexists. split; [left; reflexivity | reflexivity].
      + rewrite put_neq in Hr' by exact N. destruct (Ic r Hr') as [H | [(e & He & Er) | H]].
        * left. exact H.
        * right. left. exists e. split; [right; exact He | exact Er].
        * right. right. intros d' r' w' A' Es'. rewrite (put_neq c q _ r) by exact N. specialize (H d' r' w' A' Es'). specialize (M r'). lia.
  Qed.

  Lemma finv0_run : forall c hp tr, FRun c hp tr -> inv0 c hp tr (fun _ => False).
  Proof.
    intros c hp tr R. induction R as [|c hp tr e rest c' hp' R I Ep Ee].
    - constructor.
      + exact bounded_0.
      + intros e [[<- | []] | []]. cbn. rewrite put_eq. reflexivity.
      + intros q Hq. destruct (pos_dec orig q) as [<- | N]; [rewrite put_eq; apply cost_walk_nil |].
        rewrite put_neq in Hq by exact N. lia.
      + intros e [[<- | []] | []]. left. reflexivity.
      + intros q Hq. destruct (pos_dec orig q) as [<- | N]; [left; exists e0; split; [left |]; reflexivity |].
        rewrite put_neq in Hq by exact N. lia.
      + intros q Hq. destruct (pos_dec orig q) as [<- | N]; [right; left; exists e0; split; [left |]; reflexivity |].
        rewrite put_neq in Hq by exact N. lia.
    - pose proof (pops_In _ _ _ Ep) as Hin. set (p := e_pos e) in *.
      assert (I1 : inv0 c rest (e :: tr) (eq p)).
      { destruct I as [Ib If Iw Ij Is Ic]. constructor.
        - exact Ib.
        - intros x [Hx | [<- | Hx]]; apply If; [left; apply Hin; auto | left; apply Hin; auto | auto].
        - exact Iw.
        - intros x Hx. apply just_mono with (c := c) (tr := tr); [intros; lia | apply popped_cons |]. apply Ij.
          destruct Hx as [Hx | [<- | Hx]]; [left; apply Hin; auto | left; apply Hin; auto | auto].
        - intros q Hq. destruct (Is q Hq) as [(x & Hx & E) | H]; [|right; apply popped_cons; exact H].
          apply Hin in Hx. destruct Hx as [-> | Hx]; [right; subst q; apply popped_head | left; exists x; auto].
        - intros q Hq. destruct (Ic q Hq) as [[] | [(x & Hx & E) | H]]; [|auto].
          apply Hin in Hx. destruct Hx as [-> | Hx]; [left; exact E | right; left; exists x; auto]. }
      assert (I2 : inv0 c' hp' (e :: tr) (eq p)).
      { apply (expand_inv (fun c1 hp1 => inv0 c1 hp1 (e :: tr) (eq p)) p c rest c' hp' Ee I1).
        intros d c1 hp1 c2 hp2 A H E1. eapply inv0_relax; [apply popped_head | exact H | exact A | exact E1]. }
      assert (V : valid P p).
      { eapply bounded_valid; [apply (i_bnd _ _ _ _ I) |]. apply (i_fin _ _ _ _ I). left. apply Hin. auto. }
      destruct (expand_mono _ _ _ _ _ V Ee) as (_ & _ & Cl). destruct I2 as [Ib If Iw Ij Is Ic].
      constructor; auto. intros q Hq. right. destruct (Ic q Hq) as [<- | [H | H]]; auto.
  Qed.

  (** ** Consequences of the general invariant *)

  Lemma frun_popped_reachable : forall c hp tr p, FRun c hp tr -> popped tr p -> reachable D (move_of succ) orig p /\ c p < COST_MAX.
  Proof.
    intros c hp tr p R (e & He & <-). destruct (finv0_run _ _ _ R) as [Ib If Iw _ _ _].
    assert (L : c (e_pos e) < COST_MAX) by (apply If; auto). split; [|exact L].
    apply reachable_cost. exists (c (e_pos e)). apply Iw. exact L.
  Qed.

  Lemma frun_end_popped : forall c tr q, FRun c [] tr -> reachable D (move_of succ) orig q -> popped tr q.
  Proof.
    intros c tr q R H. destruct (finv0_run _ _ _ R) as [Ib If Iw _ Is Ic].
    assert (L : c q < COST_MAX).
    { apply reachable_cost in H. destruct H as (k & H). revert q k H. apply cost_walk_ind.
      - rewrite (proj1 Ib). reflexivity.
      - intros r k d s w _ L A Es. pose proof (bounded_sum c r d s w Ib L A Es) as (S1 & S2).
        destruct (Ic r L) as [[] | [(e & [] & _) | Cl]]. pose proof (Cl d s w A Es) as K. pose proof (proj1 (proj2 Ib) s) as Hs.
        destruct (Z.eq_dec (c s) COST_MAX) as [E | N]; [pose proof (S2 E); lia | lia]. }
    destruct (Is q L) as [(e & [] & _) | H']. exact H'.
  Qed.

  (** The map of directions after a trace. *)
  Fixpoint lastdir (tr : list entry) (p : pos) : option dir :=
    match tr with
    | [] => None
    | e :: tr' => if pos_eqb (e_pos e) p then Some (e_dir e) else lastdir tr' p
    end.

  Lemma lastdir_some : forall tr p, popped tr p -> exists e, In e tr /\ e_pos e = p /\ lastdir tr p = Some (e_dir e).
  Proof.
    induction tr as [|e tr IH]; intros p (x & Hx & E); [destruct Hx |]. cbn [lastdir].
    destruct (pos_eqb (e_pos e) p) eqn:Ee; [apply pos_eqb_eq in Ee; exists e; cbn; auto |].
    apply pos_eqb_neq in Ee. destruct Hx as [-> | Hx]; [congruence |]. destruct (IH p) as (y & Hy & E1 & E2); [exists x; auto |].
    exists y. cbn. auto.
  Qed.

  (** Each recorded direction leads to the position the move came from. *)
  Lemma flastdir_back : forall c hp tr p, one_step P (move_of succ) -> FRun c hp tr -> popped tr p -> p <> orig ->
    exists e w, In e tr /\ e_pos e = p /\ lastdir tr p = Some (e_dir e) /\ popped tr (step p (e_dir e)) /\
      allowed D (opp (e_dir e)) /\ succ (step p (e_dir e)) (opp (e_dir e)) = Some (p, w) /\
      c (step p (e_dir e)) + w + h p <= e_prio e.
  Proof.
    intros c hp tr p O R Hp N. destruct (lastdir_some tr p Hp) as (e & He & Ee & El).
    destruct (finv0_run _ _ _ R) as [Ib If Iw Ij Is Ic]. destruct (Ij e (or_intror He)) as [E | (q & d & w & Pq & A & Es & Ed & L1 & L2)].
    - subst e p. cbn in N. congruence.
    - subst p. assert (S : e_pos e = step q d) by (apply (O q d); [eapply bounded_valid; [exact Ib | destruct Pq as (x & Hx & <-); apply If; auto] |]; unfold move_of; rewrite Es; reflexivity).
      assert (Q : step (e_pos e) (e_dir e) = q) by (rewrite S, Ed; apply step_opp).
      exists e, w. rewrite Q. rewrite Ed in *. rewrite opp_opp. repeat split; auto.
  Qed.

  (** ** The consistent case *)

  Section Consistent.
  Context (HH : forall p d q w, valid P p -> allowed D d -> succ p d = Some (q, w) -> h p <= w + h q).
  Context (H0 : forall p, valid P p -> 0 <= h p).

  (** [p] comes before [q] in the order of first pops ([ord] has the latest first). *)
  Definition before (ord : list pos) (p q : pos) : Prop :=
    In p ord /\ (~ In q ord \/ exists l1 l2, ord = l1 ++ q :: l2 /\ In p l2).

  Definition just2 (c : pos -> Z) (ord : list pos) (e : entry) : Prop :=
    e = e0 \/ exists p d w, before ord p (e_pos e) /\ allowed D d /\ succ p d = Some (e_pos e, w) /\ e_dir e = opp d /\
      c p + w + h (e_pos e) <= e_prio e.

  Record inv1 (c : pos -> Z) (hp : heap) (tr : list entry) (ord : list pos) : Prop := {
    j_nodup : NoDup ord;
    j_ord : forall p, In p ord <-> popped tr p;
    j_last : exists l, ord = l ++ [orig];
    j_sorted : forall l1 q l2 p, ord = l1 ++ q :: l2 -> In p l2 -> c p + h p <= c q + h q;
    j_low : forall p e, popped tr p -> In e hp -> c p + h p <= e_prio e;
    j_entry : forall q, c q < COST_MAX -> ~ popped tr q -> exists e, In e hp /\ e_pos e = q /\ e_prio e = c q + h q;
    j_closed : forall p, popped tr p -> closed c p;
    j_prio : forall e e', In e tr -> In e' hp -> e_prio e <= e_prio e';
    j_just : forall e, In e hp \/ In e tr -> just2 c ord e }.

  Lemma before_cons : forall ord u p q, before ord p q -> u <> p -> before (u :: ord) p q.
  Proof.
    intros ord u p q (Hp & Hq) N. split; [right; exact Hp |]. destruct Hq as [Hq | (l1 & l2 & -> & Hl)].
    - destruct (pos_dec u q) as [-> | Nu]; [right; exists [], ord; auto |]. left. intros [? | ?]; contradiction.
    - right. exists (u :: l1), l2. auto.
  Qed.

  Lemma popped_dec : forall tr p, {popped tr p} + {~ popped tr p}.
  Proof.
    induction tr as [|e tr IH]; intros p; [right; intros (x & [] & _) |].
    destruct (pos_dec (e_pos e) p) as [<- | N]; [left; apply popped_head |].
    destruct (IH p) as [H | H]; [left; apply popped_cons; exact H |]. right. intros (x & [-> | Hx] & E); [contradiction |].
    apply H. exists x. auto.
  Qed.

  (** Expanding a position whose neighbours cannot be improved. *)
  Lemma expand_closed : forall p c hp, closed c p -> expand p (c, hp) = (c, hp).
  Proof.
    intros p c hp Cl. destruct (expand p (c, hp)) as [c' hp'] eqn:E.
    refine ((fun X => _) (expand_inv (fun c1 hp1 => c1 = c /\ hp1 = hp) p c hp c' hp' E (conj eq_refl eq_refl) _)).
    - destruct X as (-> & ->). reflexivity.
    - intros d c1 hp1 c2 hp2 A (-> & ->) E1. destruct (relax_cases _ _ _ _ _ _ E1) as [(-> & -> & _) | (q & w & Es & L & _)]; [auto |].
      pose proof (Cl d q w A Es). lia.
  Qed.

  (** Facts kept while the newly popped position [u] is expanded; [pr] is its priority. *)
  Record mid (c0 c : pos -> Z) (hp : heap) (tr : list entry) (ord : list pos) (u : pos) (pr : Z) : Prop := {
    m_same : forall p, popped tr p -> c p = c0 p;
    m_le : forall p, c p <= c0 p;
    m_low : forall e, In e hp -> pr <= e_prio e;
    m_entry : forall q, c q < COST_MAX -> ~ popped tr q -> exists e, In e hp /\ e_pos e = q /\ e_prio e = c q + h q;
    m_just : forall e, In e hp -> just2 c ord e }.

  Lemma mid_relax : forall c0 c hp tr ord u d c' hp', valid P u -> popped tr u -> In u ord -> (forall p, In p ord <-> popped tr p) ->
    (forall p, popped tr p -> c0 p + h p <= c0 u + h u) ->
    mid c0 c hp tr ord u (c0 u + h u) -> allowed D d -> relax u (c, hp) d = (c', hp') -> mid c0 c' hp' tr ord u (c0 u + h u).
  Proof.
    intros c0 c hp tr ord u d c' hp' V Pu Hu Ho Hlow M A E. pose proof M as [Ms Ml Mw Me Mj].
    destruct (relax_cases _ _ _ _ _ _ E) as [(-> & -> & _) | (q & w & Es & Lq & -> & ->)]; [exact M |].
    destruct (HS u d q w V Es) as (Vq & Hw). pose proof (HH u d q w V A Es) as Hc. pose proof (Ms u Pu) as Eu.
    assert (Nq : ~ popped tr q).
    { intros Pq. pose proof (Hlow q Pq). pose proof (Ms q Pq). lia. }
    assert (Nqu : q <> u) by (intros ->; contradiction).
    constructor.
    - intros p Hp. rewrite put_neq by (intros ->; contradiction). apply Ms. exact Hp.
    - intros p. unfold put. destruct (pos_eqb q p) eqn:Eq; [|apply Ml]. apply pos_eqb_eq in Eq. subst p. pose proof (Ml q). lia.
    - intros e [<- | He]; [cbn; lia | apply Mw; exact He].
    - intros r Hr Nr. destruct (pos_dec q r) as [<- | N].
      + eexists. split; [left; reflexivity |]. cbn. rewrite put_eq. auto.
      + rewrite put_neq in * by exact N. destruct (Me r Hr Nr) as (e & He & K). exists e. split; [right; exact He | exact K].
    - intros e [<- | He].
      + right. exists u, d, w. cbn [e_pos e_dir e_prio fst snd]. rewrite put_neq by exact Nqu.
        split; [split; [exact Hu | left; rewrite Ho; exact Nq] |]. repeat split; auto; lia.
      + destruct (Mj e He) as [K | (p & d' & w' & B & A' & Es' & Ed & L)]; [left; exact K |].
        right. exists p, d', w'. split; [exact B |]. split; [exact A' |]. split; [exact Es' |]. split; [exact Ed |].
        assert (Np : q <> p) by (intros ->; apply Nq; apply Ho; apply B). rewrite put_neq by exact Np. exact L.
  Qed.

  Lemma finv1_run : forall c hp tr, FRun c hp tr -> tr <> [] -> exists ord, inv1 c hp tr ord.
  Proof.
    intros c hp tr R. induction R as [|c hp tr e rest c' hp' R IH Ep Ee]; intros NE; [congruence |]. clear NE.
    pose proof (finv0_run _ _ _ R) as I. pose proof (pops_In _ _ _ Ep) as Hin. pose proof (pops_min _ _ _ Ep) as Hmin.
    assert (Fe : c (e_pos e) < COST_MAX) by (apply (i_fin _ _ _ _ I); left; apply Hin; auto).
    pose proof (bounded_valid c _ (i_bnd _ _ _ _ I) Fe) as V. set (u := e_pos e) in *.
    destruct (expand_mono _ _ _ _ _ V Ee) as (M1 & M2 & Cl).
    destruct tr as [|t tr0].
    - (* the first pop *)
      inversion R; subst. destruct (pops_one _ _ _ Ep) as (-> & ->). subst u. cbn [e_pos e0 fst snd] in *. clear IH.
      assert (Ho : forall p, In p [orig] <-> popped [e0] p).
      { intros p. split; [intros [<- | []]; exists e0; cbn; auto |]. intros (x & [<- | []] & <-). left. reflexivity. }
      assert (C0 : put (fun _ => COST_MAX) orig 0 orig = 0) by apply put_eq.
      assert (M : mid (put (fun _ => COST_MAX) orig 0) c' hp' [e0] [orig] orig (put (fun _ => COST_MAX) orig 0 orig + h orig)).
      { apply (expand_inv (fun c1 hp1 => mid (put (fun _ => COST_MAX) orig 0) c1 hp1 [e0] [orig] orig (put (fun _ => COST_MAX) orig 0 orig + h orig)) orig _ _ _ _ Ee).
        - constructor; [auto | intros; lia | intros x [] | | intros x []].
          intros q Hq Nq. exfalso. destruct (pos_dec orig q) as [<- | N]; [apply Nq; apply Ho; left; reflexivity |].
          rewrite put_neq in Hq by exact N. lia.
        - intros d c1 hp1 c2 hp2 A Hm E1.
          apply (mid_relax _ c1 hp1 [e0] [orig] orig d c2 hp2 V); [apply Ho; left; reflexivity | left; reflexivity | exact Ho | | exact Hm | exact A | exact E1].
          intros p Hp. apply Ho in Hp. destruct Hp as [<- | []]. lia. }
      destruct M as [Ms Ml Mw Me Mj]. exists [orig]. rewrite C0 in *. pose proof (H0 orig Vo). constructor.
      + constructor; [intros [] | constructor].
      + exact Ho.
      + exists []. reflexivity.
      + intros l1 q l2 p El Hp. destruct l1 as [|x l1]; [cbn in El; inv El; destruct Hp |]. destruct l1; discriminate.
      + intros p x Hp Hx. apply Ho in Hp. destruct Hp as [<- | []]. rewrite M1. apply Mw. exact Hx.
      + exact Me.
      + intros p Hp. apply Ho in Hp. destruct Hp as [<- | []]. exact Cl.
      + intros x y [<- | []] Hy. pose proof (Mw y Hy). cbn. lia.
      + intros x [Hx | [<- | []]]; [apply Mj; exact Hx | left; reflexivity].
    - destruct (IH ltac:(discriminate)) as (ord & [Jn Jo Jl Js Jw Je Jc Jp Jj]). clear IH. set (tr := t :: tr0) in *.
      destruct (popped_dec tr u) as [Pu | Nu].
      + (* a stale entry *)
        pose proof (Jc u Pu) as Clu. rewrite (expand_closed u c rest Clu) in Ee. inv Ee.
        assert (Hp : forall p, popped (e :: tr) p <-> popped tr p).
        { intros p. split; [|apply popped_cons]. intros (x & [<- | Hx] & <-); [exact Pu | exists x; auto]. }
        exists ord. constructor.
        * exact Jn.
        * intros p. rewrite Jo, Hp. reflexivity.
        * exact Jl.
        * exact Js.
        * intros p x Hp' Hx. apply Jw; [apply Hp; exact Hp' | apply Hin; auto].
        * intros q Hq Nq. rewrite Hp in Nq. destruct (Je q Hq Nq) as (x & Hx & Ex & Ex').
          exists x. split; [|auto]. apply Hin in Hx. destruct Hx as [-> | Hx]; [|exact Hx]. exfalso. apply Nq. rewrite <- Ex. exact Pu.
        * intros p Hp'. apply Jc. apply Hp. exact Hp'.
        * intros x y [<- | Hx] Hy; [apply Hmin; apply Hin; auto | apply Jp; [exact Hx | apply Hin; auto]].
        * intros x Hx. apply Jj. destruct Hx as [Hx | [<- | Hx]]; [left; apply Hin; auto | left; apply Hin; auto | auto].
      + (* a new position *)
        assert (Epr : e_prio e = c u + h u).
        { destruct (Je u Fe Nu) as (x & Hx & _ & Ex). pose proof (Hmin x Hx) as L1.
          assert (In e hp) as He by (apply Hin; auto).
          destruct (i_just _ _ _ _ I e (or_introl He)) as [K | (p & d & w & _ & _ & _ & _ & _ & L2)]; [|fold u in L2; lia].
          exfalso. apply Nu. unfold u. rewrite K. cbn. apply Jo. destruct Jl as (l & ->). apply in_or_app. right. left. reflexivity. }
        assert (Ho : forall p, In p (u :: ord) <-> popped (e :: tr) p).
        { intros p. cbn [In]. rewrite Jo. split.
          - intros [<- | H]; [apply popped_head | apply popped_cons; exact H].
          - intros (x & [<- | Hx] & <-); [left; reflexivity | right; exists x; auto]. }
        assert (Hlow : forall p, popped (e :: tr) p -> c p + h p <= c u + h u).
        { intros p Hp. apply Ho in Hp. destruct Hp as [<- | Hp]; [lia |]. rewrite <- Epr. apply Jw; [apply Jo; exact Hp | apply Hin; auto]. }
        assert (Hj : forall x, In x hp \/ In x tr -> just2 c (u :: ord) x).
        { intros x Hx. destruct (Jj x Hx) as [K | (p & d & w & B & A & Es & Ed & L)]; [left; exact K |].
          right. exists p, d, w. split; [|auto]. apply before_cons; [exact B |]. intros K. apply Nu. apply Jo. rewrite K. apply B. }
        assert (M : mid c c' hp' (e :: tr) (u :: ord) u (c u + h u)).
        { apply (expand_inv (fun c1 hp1 => mid c c1 hp1 (e :: tr) (u :: ord) u (c u + h u)) u _ _ _ _ Ee).
          - constructor; [auto | intros; lia | | |].
            + intros x Hx. rewrite <- Epr. apply Hmin. apply Hin. auto.
            + intros q Hq Nq. assert (Nq' : ~ popped tr q) by (intros K; apply Nq; apply popped_cons; exact K).
              destruct (Je q Hq Nq') as (x & Hx & Ex). exists x. split; [|exact Ex]. apply Hin in Hx.
              destruct Hx as [-> | Hx]; [|exact Hx]. exfalso. apply Nq. rewrite <- (proj1 Ex). apply popped_head.
            + intros x Hx. apply Hj. left. apply Hin. auto.
          - intros d c1 hp1 c2 hp2 A Hm E1.
            apply (mid_relax c c1 hp1 (e :: tr) (u :: ord) u d c2 hp2 V); [apply popped_head | left; reflexivity | exact Ho | exact Hlow | exact Hm | exact A | exact E1]. }
        destruct M as [Ms Ml Mw Me Mj]. exists (u :: ord). constructor.
        * constructor; [rewrite Jo; exact Nu | exact Jn].
        * exact Ho.
        * destruct Jl as (l & ->). exists (u :: l). reflexivity.
        * intros l1 q l2 p El Hp.
          assert (Hp' : popped (e :: tr) p) by (apply Ho; rewrite El; apply in_or_app; right; right; exact Hp).
          assert (Hq' : popped (e :: tr) q) by (apply Ho; rewrite El; apply in_or_app; right; left; reflexivity).
          rewrite (Ms p Hp'), (Ms q Hq'). destruct l1 as [|x l1]; cbn in El; inv El.
          -- apply Hlow. exact Hp'.
          -- eapply Js; [reflexivity | exact Hp].
        * intros p x Hp Hx. rewrite (Ms p Hp). pose proof (Hlow p Hp). pose proof (Mw x Hx). lia.
        * exact Me.
        * intros p Hp. apply Ho in Hp. destruct Hp as [<- | Hp]; [exact Cl |]. apply Jo in Hp.
          intros d q w A Es. rewrite (Ms p (popped_cons e tr p Hp)). pose proof (Jc p Hp d q w A Es). pose proof (Ml q). lia.
        * intros x y [<- | Hx] Hy; [pose proof (Mw y Hy); lia |]. pose proof (Mw y Hy).
          pose proof (Jp x e Hx (proj2 (Hin e) (or_introl eq_refl))). lia.
        * intros x [Hx | Hx]; [apply Mj; exact Hx |].
          assert (K : just2 c (u :: ord) x) by (apply Hj; destruct Hx as [<- | Hx]; [left; apply Hin; auto | auto]).
          destruct K as [K | (p & d & w & B & A & Es & Ed & L)]; [left; exact K |]. right. exists p, d, w.
          rewrite (Ms p) by (apply Ho; apply B). auto.
  Qed.

  (** Popped positions have their true lowest cost. *)
  Lemma frun_optimal : forall c hp tr p k, FRun c hp tr -> popped tr p -> cost_walk D succ orig k p -> c p <= k.
  Proof.
    intros c hp tr p k R Hp W. pose proof (finv0_run _ _ _ R) as I.
    destruct (finv1_run c hp tr R) as (ord & J); [intros ->; destruct Hp as (x & [] & _) |].
    assert (K : valid P p /\ ((popped tr p /\ c p <= k) \/ exists e, In e hp /\ e_prio e <= k + h p)).
    { clear Hp. revert p k W. apply cost_walk_ind.
      - split; [exact Vo |]. left. split; [|rewrite (proj1 (i_bnd _ _ _ _ I)); lia]. apply (j_ord _ _ _ _ J). destruct (j_last _ _ _ _ J) as (l & ->).
        apply in_or_app. right. left. reflexivity.
      - intros q k d r w W (V & H) A Es. destruct (HS q d r w V Es) as (Vr & Hw). pose proof (HH q d r w V A Es) as Hc. split; [exact Vr |].
        destruct H as [(Pq & Hq) | (e & He & Hq)]; [|right; exists e; split; [exact He | lia]].
        pose proof (j_closed _ _ _ _ J q Pq d r w A Es) as Cl. destruct (popped_dec tr r) as [Pr | Nr]; [left; split; [exact Pr | lia] |].
        right. assert (Lq : c q < COST_MAX) by (apply (frun_popped_reachable _ _ _ _ R Pq)).
        pose proof (bounded_sum c q d r w (i_bnd _ _ _ _ I) Lq A Es) as (S1 & S2).
        assert (Lr : c r < COST_MAX).
        { destruct (Z.eq_dec (c r) COST_MAX) as [E | N]; [pose proof (S2 E); lia |].
          pose proof (proj1 (proj2 (i_bnd _ _ _ _ I)) r). lia. }
        destruct (j_entry _ _ _ _ J r Lr Nr) as (e & He & _ & Ee). exists e. split; [exact He | lia]. }
    destruct K as (_ & [(_ & K) | (e & He & K)]); [exact K |]. pose proof (j_low _ _ _ _ J p e Hp He). lia.
  Qed.

  (** The first time a position is popped, it comes from a position popped before,
      along a move that gives its cost. *)
  Lemma ffirst_pop : forall c hp tr e, FRun c hp (e :: tr) -> ~ popped tr (e_pos e) ->
    e = e0 \/ exists p d w, popped tr p /\ allowed D d /\ succ p d = Some (e_pos e, w) /\ e_dir e = opp d /\ c (e_pos e) = c p + w.
  Proof.
    intros c' hp' tr e R N. destruct (finv1_run c' hp' (e :: tr) R) as (ord' & J'); [discriminate |].
    inversion R as [|c hp tr' e' rest c1 hp1 R0 Ep Ee]; subst. pose proof (finv0_run _ _ _ R0) as I.
    pose proof (pops_In _ _ _ Ep) as Hin. pose proof (pops_min _ _ _ Ep) as Hmin.
    assert (He : In e hp) by (apply Hin; auto). pose proof (i_fin _ _ _ _ I e (or_introl He)) as Fe.
    pose proof (bounded_valid c _ (i_bnd _ _ _ _ I) Fe) as V. destruct (expand_mono _ _ _ _ _ V Ee) as (M1 & _ & _).
    destruct (j_just _ _ _ _ J' e (or_intror (or_introl eq_refl))) as [E | (p & d & w & (Bp & B) & A & Es & Ed & L)]; [left; exact E |].
    assert (Hu : In (e_pos e) ord') by (apply (j_ord _ _ _ _ J'); apply popped_head).
    destruct B as [B | (l1 & l2 & El & Hp)]; [contradiction |].
    assert (Npu : p <> e_pos e).
    { intros ->. pose proof (j_nodup _ _ _ _ J') as ND. rewrite El in ND. apply NoDup_remove_2 in ND. apply ND. apply in_or_app. right. exact Hp. }
    apply (j_ord _ _ _ _ J') in Bp. assert (Pp : popped tr p) by (destruct Bp as (x & [<- | Hx] & Ex); [congruence | exists x; auto]).
    right. exists p, d, w. split; [exact Pp |]. split; [exact A |]. split; [exact Es |]. split; [exact Ed |].
    pose proof (j_closed _ _ _ _ J' p (popped_cons e tr p Pp) d _ w A Es) as Cl.
    destruct (finv1_run c hp tr R0) as (ord & J); [intros ->; destruct Pp as (x & [] & _) |].
    destruct (j_entry _ _ _ _ J (e_pos e) Fe N) as (x & Hx & _ & Ex). pose proof (Hmin x Hx). lia.
  Qed.

  (** The recorded directions lead back to the origin. *)
  Lemma frun_leads_back : forall c hp tr p, one_step P (move_of succ) -> FRun c hp tr -> popped tr p ->
    exists k, leads_back P (lastdir tr) orig k p /\
      forall rs, (forall q, reachable D (move_of succ) orig q -> In q rs) -> (k < length rs)%nat.
  Proof.
    intros c hp tr p O R Hp. destruct (finv1_run c hp tr R) as (ord & J); [intros ->; destruct Hp as (x & [] & _) |].
    assert (PV : forall q, popped tr q -> valid P q).
    { intros q Hq. eapply bounded_valid; [apply (i_bnd _ _ _ _ (finv0_run _ _ _ R)) | apply (frun_popped_reachable _ _ _ _ R Hq)]. }
    assert (K : forall n q l1 l2, (length l2 <= n)%nat -> ord = l1 ++ q :: l2 -> exists k, leads_back P (lastdir tr) orig k q /\ (k <= length l2)%nat).
    { induction n as [|n IH]; intros q l1 l2 Ln El.
      - destruct l2; [|cbn in Ln; lia]. destruct (j_last _ _ _ _ J) as (l & El'). rewrite El in El'. apply app_inj_tail in El'.
        exists 0%nat. cbn. split; [apply El' | lia].
      - destruct (pos_dec q orig) as [-> | N]; [exists 0%nat; split; [reflexivity | lia] |].
        assert (Pq : popped tr q) by (apply (j_ord _ _ _ _ J); rewrite El; apply in_or_app; right; left; reflexivity).
        destruct (lastdir_some tr q Pq) as (e & He & Ee & Ed).
        destruct (j_just _ _ _ _ J e (or_intror He)) as [E | (r & d & w & (Br & B) & A & Es & Edd & _)]; [subst e q; cbn in N; congruence |].
        rewrite Ee in *. assert (Sq : q = step r d) by (apply (O r d); [apply PV; apply (j_ord _ _ _ _ J); exact Br |]; unfold move_of; rewrite Es; reflexivity).
        assert (Q : step q (e_dir e) = r) by (rewrite Sq, Edd; apply step_opp).
        destruct B as [B | (m1 & m2 & El' & Hr)]; [exfalso; apply B; rewrite El; apply in_or_app; right; left; reflexivity |].
        assert (m2 = l2) as ->.
        { pose proof (j_nodup _ _ _ _ J) as ND. rewrite El in ND, El'. clear - ND El'. revert m1 El'. induction l1 as [|x l1 IHl]; intros m1 El'.
          - destruct m1 as [|y m1]; cbn in El'; inv El'; [reflexivity |]. exfalso. inversion ND; subst. apply H1. apply in_or_app. right. left. reflexivity.
          - destruct m1 as [|y m1]; cbn in El'; inv El'.
            + exfalso. inversion ND; subst. apply H1. apply in_or_app. right. left. reflexivity.
            + inversion ND; subst. eapply IHl; eassumption. }
        apply in_split in Hr. destruct Hr as (n1 & n2 & En).
        destruct (IH r (l1 ++ q :: n1) n2) as (k & Hk & Lk).
        + rewrite En, app_length in Ln. cbn in Ln. lia.
        + rewrite El, En. rewrite <- app_assoc. reflexivity.
        + exists (S k). split; [|rewrite En, app_length; cbn; lia]. cbn. split; [exact N |]. exists (e_dir e). rewrite Q. split; [exact Ed |]. split; [|exact Hk].
          apply PV. apply (j_ord _ _ _ _ J). exact Br. }
    assert (Hin : In p ord) by (apply (j_ord _ _ _ _ J); exact Hp). apply in_split in Hin. destruct Hin as (l1 & l2 & El).
    destruct (K (length l2) p l1 l2 (Nat.le_refl _) El) as (k & Hk & Lk). exists k. split; [exact Hk |]. intros rs Hrs.
    assert (LO : (length ord <= length rs)%nat).
    { apply NoDup_incl_length; [apply (j_nodup _ _ _ _ J) |]. intros q Hq. apply Hrs.
      apply (frun_popped_reachable _ _ _ _ R). apply (j_ord _ _ _ _ J). exact Hq. }
    rewrite El, app_length in LO. cbn in LO. lia.
  Qed.
  End Consistent.
End Machine.
