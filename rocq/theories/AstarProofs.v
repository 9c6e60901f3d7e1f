(** AstarProofs.v -- A* search, on plain functions. *)

From Coq Require Import ZArith List Bool Lia.
From Verif Require Import Rust BoundedInt Dir PosT Pos SetMap CameFrom Heap Astar Ucs
  Spec SpecSearch Lib Deque BoundedIntProofs PosTProofs PosTProofs2 PropDirProofs SetMapProofs Sim CameFromProofs BfProofs BestFirst SearchProofs UcsProofs.
Import ListNotations.
Open Scope Z_scope.

(** Every move costs 1. *)
Definition unit_cost (go : pos -> dir -> option pos) (p : pos) (d : dir) : option (pos * Z) :=
  match go p d with Some q => Some (q, 1) | None => None end.

(** Manhattan distance. *)
Definition mdist (p q : pos) : Z := Z.abs (fst p - fst q) + Z.abs (snd p - snd q).

Section Unit.
  Context (D : bool) (go : pos -> dir -> option pos).

  Lemma move_of_unit : forall p d, move_of (unit_cost go) p d = go p d.
  Proof. intros p d. unfold move_of, unit_cost. destruct (go p d); reflexivity. Qed.

  Lemma follow_unit : forall ds p, follow (move_of (unit_cost go)) p ds = follow go p ds.
  Proof. induction ds as [|d ds IH]; intros p; cbn; [reflexivity |]. rewrite move_of_unit. destruct (go p d); auto. Qed.

  Lemma follow_cost_unit : forall ds p q, follow go p ds = Some q -> follow_cost (unit_cost go) p ds = Some (q, Z.of_nat (length ds)).
  Proof.
    induction ds as [|d ds IH]; intros p q F; cbn [follow follow_cost length] in *; [inv F; reflexivity |]. unfold unit_cost at 1.
    destruct (go p d) as [r|]; [|discriminate]. rewrite (IH r q F). f_equal. f_equal. lia.
  Qed.

  Lemma reachable_unit : forall p q, reachable D (move_of (unit_cost go)) p q <-> reachable D go p q.
  Proof.
    intros p q. unfold reachable, walk. split; intros (n & ds & H1 & H2 & H3); exists n, ds; rewrite follow_unit in *; auto.
  Qed.

  Lemma cost_walk_unit : forall p k q, cost_walk D (unit_cost go) p k q <-> exists n, k = Z.of_nat n /\ walk D go p n q.
  Proof.
    intros p k q. split.
    - intros (ds & A & F). pose proof (follow_move_of _ _ _ _ _ F) as F'. rewrite follow_unit in F'.
      rewrite (follow_cost_unit _ _ _ F') in F. inv F. exists (length ds). split; [reflexivity |]. exists ds. auto.
    - intros (n & -> & ds & <- & A & F). exists ds. split; [exact A |]. apply follow_cost_unit. exact F.
  Qed.

  Lemma one_step_unit : forall P, one_step P go -> one_step P (move_of (unit_cost go)).
  Proof. intros P O p d q V E. rewrite move_of_unit in E. apply (O p d q V E). Qed.
End Unit.

Lemma mdist_nonneg : forall p q, 0 <= mdist p q.
Proof. intros p q. unfold mdist. lia. Qed.

(** With unit costs, a cost is the length of a walk. *)
Lemma trail_unit : forall D P go orig c l p k, trail D (unit_cost go) orig c l p k -> valid P orig -> go_inside P go ->
  Z.of_nat (length l) = k + 1 /\ NoDup l /\ Forall (valid P) l /\ valid P p /\ reachable D go orig p.
Proof.
  intros D P go orig c l p k T Vo HG. induction T as [|l p k d q w T (IH1 & IH2 & IH3 & IH4 & IH5) A Es L N].
  - split; [reflexivity |]. split; [constructor; [intros [] | constructor] |]. split; [constructor; [exact Vo | constructor] |].
    split; [exact Vo |]. exists 0%nat, []. cbn. auto.
  - unfold unit_cost in Es. destruct (go p d) as [r|] eqn:E; inv Es. pose proof (HG p d q IH4 E) as Vq.
    split; [cbn [length]; lia |]. split; [constructor; assumption |]. split; [constructor; assumption |]. split; [exact Vq |].
    destruct IH5 as (n & ds & Ln & Ad & F). exists (S n), (ds ++ [d]). split; [rewrite app_length; cbn; lia |].
    split; [apply Forall_app; auto |]. rewrite follow_app, F. cbn. rewrite E. reflexivity.
Qed.

Lemma visits_valid : forall P go ds p, go_inside P go -> valid P p -> Forall (valid P) (visits (unit_cost go) p ds).
Proof.
  intros P go ds. induction ds as [|d ds IH]; intros p HG V; cbn [visits]; [constructor; [exact V | constructor] |].
  unfold unit_cost at 1. destruct (go p d) as [q|] eqn:E; constructor; try exact V; [|constructor]. apply IH; [exact HG | eapply HG; eassumption].
Qed.

Lemma visits_length : forall go ds p q, follow go p ds = Some q -> length (visits (unit_cost go) p ds) = S (length ds).
Proof.
  intros go ds. induction ds as [|d ds IH]; intros p q F; cbn [visits follow length] in *; [reflexivity |].
  unfold unit_cost at 1. destruct (go p d) as [r|]; [|discriminate]. rewrite (IH r q F). reflexivity.
Qed.

Lemma unit_HS : forall P go, go_inside P go -> forall p d q w, valid P p -> unit_cost go p d = Some (q, w) -> valid P q /\ 0 <= w.
Proof.
  intros P go HG p d q w V E. unfold unit_cost in E. destruct (go p d) as [r|] eqn:Eg; inv E. split; [eapply HG; eassumption | lia].
Qed.

Lemma unit_reach : forall D go orig p d q, reachable D go orig p -> allowed D d -> go p d = Some q -> reachable D go orig q.
Proof.
  intros D go orig p d q (n & ds & Ln & Ad & F) A E. exists (S n), (ds ++ [d]). split; [rewrite app_length; cbn; lia |].
  split; [apply Forall_app; auto |]. rewrite follow_app, F. cbn. rewrite E. reflexivity.
Qed.

Lemma visits_reach : forall D go orig ds p, reachable D go orig p -> Forall (allowed D) ds -> Forall (reachable D go orig) (visits (unit_cost go) p ds).
Proof.
  intros D go orig ds. induction ds as [|d ds IH]; intros p R A; cbn [visits]; [constructor; [exact R | constructor] |].
  inv A. unfold unit_cost at 1. destruct (go p d) as [q|] eqn:E; constructor; try exact R; [|constructor]. apply IH; [|assumption].
  eapply unit_reach; eassumption.
Qed.

Lemma reach_orig : forall D go orig, reachable D go orig orig.
Proof. intros D go orig. exists 0%nat, []. cbn. auto. Qed.

Lemma unit_HA_gen : forall D P go orig rs, go_inside P go -> (forall q, reachable D go orig q -> In q rs) -> Z.of_nat (length rs) <= COST_MAX ->
  affordable D P (unit_cost go) orig.
Proof.
  intros D P go orig rs HG HR HB. split; [intros p d q c V E; apply (unit_HS P go HG p d q c V E) |].
  intros path p c A F ND. pose proof (follow_move_of _ _ _ _ _ F) as F'. rewrite follow_unit in F'.
  rewrite (follow_cost_unit _ _ _ _ F') in F. inv F.
  assert (L : (length (visits (unit_cost go) orig path) <= length rs)%nat).
  { apply NoDup_incl_length; [exact ND |]. intros q Hq. apply HR.
    exact (proj1 (Forall_forall _ _) (visits_reach D go orig path orig (reach_orig _ _ _) A) q Hq). }
  rewrite (visits_length _ _ _ _ F') in L.
  unfold COST_MAX in HB. split; [lia |]. intros d q w _ E. unfold unit_cost in E. destruct (go p d); inv E. lia.
Qed.

Section AstarGen.
  Context (P : post) (W : post_wf P) (D : bool) (go : pos -> dir -> option pos) (orig dest : pos).
  Context (Vo : valid P orig) (Vd : valid P dest) (HG : go_inside P go).
  Context (rs : list pos) (HR : forall q, reachable D go orig q -> In q rs) (HL : Z.of_nat (length rs) <= COST_MAX).

  Notation succ := (unit_cost go).
  Notation h := (fun p => mdist p dest).

  (** The numbers computed for a position [q] exist. *)
  Definition computable (q : pos) : Prop := measurable P q dest /\ Z.of_nat (length rs) + mdist q dest <= COST_MAX.

  (** A position whose numbers may not exist can be reached. *)
  Definition too_far : Prop := exists q, reachable D go orig q /\ ~ computable q.

  Lemma computable_dec : forall q, computable q \/ ~ computable q.
  Proof. intros q. unfold computable, measurable, in_bty. lia. Qed.

  Lemma gen_HA : affordable D P succ orig.
  Proof. apply (unit_HA_gen D P go orig rs); assumption. Qed.

  Lemma trail_reach : forall c l p k, trail D succ orig c l p k -> reachable D go orig p /\ Forall (reachable D go orig) l.
  Proof.
    intros c l p k T. induction T as [|l p k d q w T (IH1 & IH2) A Es L N].
    - split; [apply reach_orig | constructor; [apply reach_orig | constructor]].
    - unfold unit_cost in Es. destruct (go p d) as [r|] eqn:E; inv Es.
      assert (RQ : reachable D go orig q) by (eapply unit_reach; eassumption). split; [exact RQ | constructor; assumption].
  Qed.

  Lemma astar_step_relax : forall p c hp d, bounded D succ orig c -> c p < COST_MAX -> allowed D d ->
    astar_step_dir P fmap go dest p (AIt c hp) d = Ret (let '(c', hp') := relax succ h p (c, hp) d in AIt c' hp') \/
    (too_far /\ astar_step_dir P fmap go dest p (AIt c hp) d = Panic).
  Proof.
    intros p c hp d B L A. unfold astar_step_dir, relax. cbn [fmap mp_get mp_set bind a_cost a_frontier].
    destruct B as (_ & Hr & B). destruct (B p L) as (l & T).
    destruct (trail_unit D P go orig c l p (c p) T Vo HG) as (Ll & ND & _ & V & RC).
    assert (LS : (length l <= length rs)%nat).
    { apply NoDup_incl_length; [exact ND |]. intros q Hq. apply HR. exact (proj1 (Forall_forall _ _) (proj2 (trail_reach _ _ _ _ T)) q Hq). }
    pose proof (Hr p) as Hp. unfold uadd.
    rewrite usize_arith by (unfold COST_MAX in *; lia). cbn [bind]. unfold unit_cost.
    destruct (go p d) as [q|] eqn:E; [|left; reflexivity].
    pose proof (unit_reach D go orig p d q RC A E) as RQ.
    destruct (c p + 1 <? c q); [|left; reflexivity].
    destruct (computable_dec q) as [(M & Q) | N].
    - left. pose proof (mdist_nonneg q dest). unfold mdist in *.
      rewrite manhattan_measurable by (first [exact W | exact M | unfold COST_MAX in *; lia]). cbn [bind].
      rewrite usize_arith by (unfold COST_MAX in *; lia). cbn [bind]. rewrite dir_neg_opp. cbn [bind]. reflexivity.
    - assert (TF : too_far) by (exists q; auto).
      assert (X : (measurable P q dest /\ mdist q dest <= 18446744073709551615) \/ ~ (measurable P q dest /\ mdist q dest <= 18446744073709551615)).
      { unfold measurable, in_bty. lia. }
      destruct X as [(M & Q) | X]; [|right; split; [exact TF |]; rewrite manhattan_panics; [reflexivity | exact W | exact X]].
      rewrite manhattan_measurable; [|exact W | exact M | exact Q]. cbn [bind]. fold (mdist q dest).
      unfold arith. destruct (in_ity usize (c p + 1 + mdist q dest)); cbn [bind]; [|right; auto].
      rewrite dir_neg_opp. cbn [bind]. left. reflexivity.
  Qed.

  Lemma astar_next_run_gen : forall c hp tr, Run D succ h orig c hp tr -> astar_next P D fmap go dest (AIt c hp) =
    match heap_pop hp with
    | None => Ret (None, AIt c hp)
    | Some (e, rest) => let '(c', hp') := expand D succ h (e_pos e) (c, rest) in Ret (Some (e_pos e, e_dir e), AIt c' hp')
    end \/ (too_far /\ heap_pop hp <> None /\ astar_next P D fmap go dest (AIt c hp) = Panic).
  Proof.
    intros c hp tr R. unfold astar_next. cbn [a_frontier a_cost]. destruct (heap_pop hp) as [[e rest]|] eqn:Ep; [|left; reflexivity].
    destruct (run_fin P D succ h orig Vo (unit_HS P go HG) gen_HA c hp tr e R) as (L & V); [apply (heap_pop_In _ _ _ Ep); auto |].
    pose proof (run_bounded P D succ h orig Vo (unit_HS P go HG) gen_HA _ _ _ R) as B.
    destruct e as [pr [p d]]. cbn [e_pos e_dir fst snd] in *. rewrite dir_iter_dirs. cbn [bind].
    assert (K : forall ds c hp, (forall d, In d ds -> allowed D d) -> bounded D succ orig c -> c p < COST_MAX ->
      foldM (astar_step_dir P fmap go dest p) ds (AIt c hp) = Ret (let '(c', hp') := fold_left (relax succ h p) ds (c, hp) in AIt c' hp') \/
      (too_far /\ foldM (astar_step_dir P fmap go dest p) ds (AIt c hp) = Panic)).
    { clear - W V Vo Vd HG HR HL. induction ds as [|d ds IH]; intros c hp A B L; [left; reflexivity |]. cbn [foldM fold_left].
      pose proof (A d (or_introl eq_refl)) as Ad.
      destruct (astar_step_relax p c hp d B L Ad) as [-> | (TF & ->)]; [|right; auto].
      destruct (relax succ h p (c, hp) d) as [c1 hp1] eqn:E1. cbn [bind]. apply IH.
      - intros d' Hd'. apply A. right. exact Hd'.
      - eapply (bounded_relax P D succ h orig Vo (unit_HS P go HG) gen_HA); [exact B | exact L | exact Ad | exact E1].
      - pose proof (relax_le succ h p c hp d c1 hp1 E1 p). lia. }
    destruct (K (dirs D) c rest (fun d => proj1 (dirs_allowed D d)) B L) as [-> | (TF & ->)].
    - left. unfold expand. destruct (fold_left (relax succ h p) (dirs D) (c, rest)) as [c' hp']. reflexivity.
    - right. split; [exact TF |]. split; [discriminate | reflexivity].
  Qed.

  Lemma astar_loop_bloop_gen : forall fuel c hp tr f, Run D succ h orig c hp tr ->
    astar_search_loop P D fmap fmap go fuel dest f (AIt c hp) = bloop D succ h fuel dest f (c, hp) \/
    (too_far /\ forall fuel', (fuel <= fuel')%nat -> astar_search_loop P D fmap fmap go fuel' dest f (AIt c hp) = Panic).
  Proof.
    intros fuel. induction fuel as [|fuel IH]; intros c hp tr f R; [left; reflexivity |]. cbn [astar_search_loop bloop snd fst].
    destruct (astar_next_run_gen c hp tr R) as [E | (TF & Np & E)].
    - rewrite E. destruct (heap_pop hp) as [[e rest]|] eqn:Ep; [|left; reflexivity].
      destruct (expand D succ h (e_pos e) (c, rest)) as [c' hp'] eqn:Ee. cbn [bind fmap mp_set].
      destruct (pos_eqb (e_pos e) dest) eqn:Eq; [left; reflexivity |].
      destruct (IH c' hp' (e :: tr) (put f (e_pos e) (Some (e_dir e)))) as [-> | (TF & K)]; [eapply Run1; eassumption | left; reflexivity |].
      right. split; [exact TF |]. intros [|fuel'] L; [lia |]. cbn [astar_search_loop]. rewrite E. cbn [bind fmap mp_set]. rewrite Eq. apply K. lia.
    - right. split; [exact TF |]. intros [|fuel'] L; [lia |]. cbn [astar_search_loop]. rewrite E. reflexivity.
  Qed.

  Lemma astar_loop_more : forall fuel fuel' f it s, (fuel <= fuel')%nat -> astar_search_loop P D fmap fmap go fuel dest f it = Ret s ->
    astar_search_loop P D fmap fmap go fuel' dest f it = Ret s.
  Proof using.
    clear. induction fuel as [|fuel IH]; intros [|fuel'] f it s L E; [discriminate | discriminate | lia |]. cbn [astar_search_loop] in *.
    destruct (astar_next P D fmap go dest it) as [[[[p d]|] it'] | | |]; cbn [bind fmap mp_set] in *; try discriminate; [|exact E].
    destruct (pos_eqb p dest); [exact E |]. apply IH; [lia | exact E].
  Qed.

  Lemma astar_outcome_far :
    exists r, settles (fun fuel => astar_search_path P D fmap fmap go fuel orig dest) r /\ (outcome_any P D succ h orig dest r \/ (too_far /\ r = Panic)).
  Proof.
    set (c0 := put (fun _ : pos => COST_MAX) orig 0).
    destruct (search_outcome_any P D succ h orig Vo (unit_HS P go HG) gen_HA dest
      (fun fuel => bind (bloop D succ h fuel dest (fun _ => None) (c0, [e0 orig]))
       (fun r => match r with Err e => Ret (Err e) | Ok m => camefrom_into_path P fmap fuel m orig dest end)) W Vd (fun _ => eq_refl)) as (r & (n & Hn) & OU).
    assert (E : forall fuel, astar_search_path P D fmap fmap go fuel orig dest =
      bind (astar_search_loop P D fmap fmap go fuel dest (fun _ => None) (AIt c0 [e0 orig]))
       (fun r => match r with Err e => Ret (Err e) | Ok m => camefrom_into_path P fmap fuel m orig dest end)) by reflexivity.
    destruct (bloop_spec P D succ h orig Vo (unit_HS P go HG) gen_HA dest (Z.to_nat (measure P c0 [e0 orig]))
      c0 [e0 orig] [] (fun _ => None)) as (s & Hs & _).
    - reflexivity.
    - apply Run0.
    - intros (x & [] & _).
    - reflexivity.
    - set (m := Z.to_nat (measure P c0 [e0 orig])) in *.
      destruct (astar_loop_bloop_gen (S m) c0 [e0 orig] [] (fun _ => None) (Run0 D succ h orig)) as [K | (TF & K)].
      + exists r. split; [|left; exact OU]. exists (S m + n)%nat. intros fuel L. rewrite E. rewrite Hs in K by lia.
        rewrite (astar_loop_more (S m) fuel _ _ s) by (lia || exact K). pose proof (Hn fuel ltac:(lia)) as Hf. cbn beta in Hf. pose proof (Hs fuel ltac:(lia)) as Hq. unfold heap in Hq. rewrite Hq in Hf. exact Hf.
      + exists Panic. split; [|right; auto]. exists (S m). intros fuel L. rewrite E, K by lia. reflexivity.
  Qed.

  (** If the numbers exist for all positions that can be reached, nothing panics. *)
  Context (HC : forall q, reachable D go orig q -> computable q).

  Lemma not_far : ~ too_far.
  Proof using HC. intros (q & R & N). apply N. apply HC. exact R. Qed.

  Lemma astar_outcome_any :
    exists r, settles (fun fuel => astar_search_path P D fmap fmap go fuel orig dest) r /\ outcome_any P D succ h orig dest r.
  Proof. destruct astar_outcome_far as (r & S & [K | (TF & _)]); [exists r; auto | destruct (not_far TF)]. Qed.

  Lemma astar_next_run_ok : forall c hp tr, Run D succ h orig c hp tr -> astar_next P D fmap go dest (AIt c hp) =
    match heap_pop hp with
    | None => Ret (None, AIt c hp)
    | Some (e, rest) => let '(c', hp') := expand D succ h (e_pos e) (c, rest) in Ret (Some (e_pos e, e_dir e), AIt c' hp')
    end.
  Proof. intros c hp tr R. destruct (astar_next_run_gen c hp tr R) as [E | (TF & _)]; [exact E | destruct (not_far TF)]. Qed.

  Lemma astar_trace_gen : exists es : list entry,
    (forall n, astar_yields_with fmap P D go orig dest n = Ret (items_then_none (map snd es) n)) /\
    (forall n, exists c hp, (forall p, astar_records_with fmap P D go orig dest n p = Ret (c p)) /\ Run D succ h orig c hp (rev (firstn n es))) /\
    exists c, Run D succ h orig c [] (rev es).
  Proof.
    destruct (iter_trace P D succ h orig Vo (unit_HS P go HG) gen_HA (fun c hp => AIt c hp) (astar_next P D fmap go dest) astar_next_run_ok
      (Z.to_nat (measure P (put (fun _ : pos => COST_MAX) orig 0) [e0 orig])) _ _ [] (Nat.le_refl _) (Run0 D succ h orig)) as (es & K1 & K2 & c & K3).
    rewrite app_nil_r in K3. exists es. split; [exact K1 |]. split; [|eauto].
    intros n. destruct (K2 n) as (c' & hp' & E & R). rewrite app_nil_r in R. exists c', hp'. split; [|exact R].
    intros p. change (bind (calls_state (astar_next P D fmap go dest) n (AIt (put (fun _ : pos => COST_MAX) orig 0) [e0 orig])) (fun it' => mp_get fmap (a_cost it') p) = Ret (c' p)).
    rewrite E. reflexivity.
  Qed.
End AstarGen.

Section Astar.
  Context (P : post) (G : grid_type P) (D : bool) (go : pos -> dir -> option pos) (orig dest : pos).
  Context (Vo : valid P orig) (Vd : valid P dest) (HG : go_inside P go).

  Notation succ := (unit_cost go).
  Notation h := (fun p => mdist p dest).

  Lemma mdist_bound : forall p, valid P p -> 0 <= mdist p dest <= 131070.
  Proof.
    intros p V. destruct (grid_type_nums P G) as (_ & _ & HX & HY).
    pose proof V as V'. pose proof Vd as Vd'. apply (proj1 (valid_nums _ _ G)) in V', Vd'. unfold mdist.
    clear -V' Vd' HX HY. revert Vd'. destruct p as [a b]. generalize dest. intros [c d]. cbn [fst snd] in *. lia.
  Qed.

  Lemma grid_valid : forall q, reachable D go orig q -> valid P q.
  Proof. intros q (n & H). eapply walk_valid; [exact HG | exact Vo | exact H]. Qed.

  Lemma grid_HR : forall q, reachable D go orig q -> In q (all_rows P).
  Proof. intros q R. apply all_rows_In. apply grid_valid. exact R. Qed.

  Lemma grid_HL : Z.of_nat (length (all_rows P)) <= COST_MAX.
  Proof. rewrite (all_rows_length P G). pose proof (cells_pos P G). unfold COST_MAX. lia. Qed.

  Lemma grid_HC : forall q, reachable D go orig q -> computable P dest (all_rows P) q.
  Proof.
    intros q R. pose proof (grid_valid q R) as V. split.
    - exact (proj1 (grid_retraceable P q dest G V Vd)).
    - rewrite (all_rows_length P G). pose proof (cells_pos P G). pose proof (mdist_bound q V). unfold COST_MAX. lia.
  Qed.

  Lemma astar_loop_bloop : forall fuel c hp tr f, Run D succ h orig c hp tr ->
    astar_search_loop P D fmap fmap go fuel dest f (AIt c hp) = bloop D succ h fuel dest f (c, hp).
  Proof.
    intros fuel c hp tr f R.
    destruct (astar_loop_bloop_gen P (grid_type_wf P G) D go orig dest Vo HG (all_rows P) grid_HR grid_HL fuel c hp tr f R) as [E | (TF & _)]; [exact E |].
    destruct (not_far P D go orig dest (all_rows P) grid_HC TF).
  Qed.

  Lemma unit_HA : affordable D P succ orig.
  Proof.
    apply (unit_HA_gen D P go orig (all_rows P)); [exact HG | exact grid_HR | exact grid_HL].
  Qed.

  Lemma astar_outcome :
    exists r, returns (fun fuel => astar_search_path P D fmap fmap go fuel orig dest) r /\ outcome P D succ h orig dest r.
  Proof.
    destruct (astar_outcome_any P (grid_type_wf P G) D go orig dest Vo Vd HG (all_rows P) grid_HR grid_HL grid_HC) as (r & S & r0 & OU & [-> | (-> & RC)] & NP).
    - exists r0. split; [exact S | exact OU].
    - exfalso. apply (proj1 (NP RC) eq_refl). apply grid_retraceable; assumption.
  Qed.

  Lemma astar_trace : exists es : list entry,
    (forall n, astar_yields_with fmap P D go orig dest n = Ret (items_then_none (map snd es) n)) /\
    (forall n, exists c hp, (forall p, astar_records_with fmap P D go orig dest n p = Ret (c p)) /\ Run D succ h orig c hp (rev (firstn n es))) /\
    exists c, Run D succ h orig c [] (rev es).
  Proof. exact (astar_trace_gen P (grid_type_wf P G) D go orig dest Vo HG (all_rows P) grid_HR grid_HL grid_HC). Qed.
End Astar.

(** Without diagonals, the Manhattan distance is consistent. *)
Lemma mdist_step : forall p d q, allowed false d -> mdist p q <= 1 + mdist (step p d) q.
Proof.
  intros [x y] d [a b] A. unfold mdist, step. cbn [fst snd].
  destruct d, A as [A | [A | A]]; try discriminate; cbn [delta_x delta_y]; lia.
Qed.

Lemma mdist_consistent : forall P go dest p d q w, one_step P go -> valid P p -> allowed false d -> unit_cost go p d = Some (q, w) ->
  mdist p dest <= w + mdist q dest.
Proof.
  intros P go dest p d q w O V A E. unfold unit_cost in E. destruct (go p d) as [r|] eqn:Eg; inv E.
  rewrite (O p d q V Eg). apply mdist_step. exact A.
Qed.

(** A walk without diagonals is at least as long as the Manhattan distance. *)
Lemma walk_mdist : forall P go p n q, one_step P go -> go_inside P go -> valid P p -> walk false go p n q -> mdist p q <= Z.of_nat n.
Proof.
  intros P go p n q O HG V (ds & <- & A & F). revert p V A F. induction ds as [|d ds IH]; intros p V A F; cbn [follow length] in *.
  - inv F. unfold mdist. lia.
  - destruct (go p d) as [r|] eqn:E; [|discriminate]. inversion A; subst. pose proof (IH r (HG p d r V E) H2 F). rewrite (O p d r V E) in *.
    pose proof (mdist_step p d q H1). lia.
Qed.
