(** PropBfProofs.v -- proofs of the statements of PropBf.v. *)

From Coq Require Import ZArith List Bool Lia.
From Verif Require Import Rust BoundedInt Dir PosT Pos Grid Gridbool SetMap CameFrom Bf Spec SpecSearch Lib Deque BoundedIntProofs PosTProofs PosTProofs2 PropDirProofs SetMapProofs Sim CameFromProofs PropSetMapProofs BfProofs.
Import ListNotations.
Open Scope Z_scope.

Lemma next_calls_sim : forall {S} P D (so : setops S) RS go, growing_set P so RS -> go_inside P go ->
  forall n it it', Rbf P RS it it' -> next_calls (bf_next D so go) n it = next_calls (bf_next D fset go) n it'.
Proof.
  intros S P D so RS go L HG n. induction n as [|n IH]; intros it it' H; [reflexivity |].
  apply esim_eq. cbn [next_calls]. eapply esim_bind; [apply (bf_next_sim P D so RS L go HG); exact H |].
  intros [o a] [o' b] (E & _ & Hab). cbn [fst snd] in *. subst o'. rewrite (IH a b Hab). apply esim_refl.
Qed.

Lemma bf_yields_f : forall b P D W go orig n, usable b P W -> valid P orig -> go_inside P go ->
  bf_yields b P D W go orig n = Ret (map (fun j => match front_at D go orig (S j) with [] => None | l => Some l end) (seq 0 n)).
Proof.
  intros b P D W go orig n U V HG. pose proof (usable_grid_type b P W U) as G. pose proof (grid_type_wf P G) as WF.
  rewrite <- (next_calls_at D go orig n 0).
  assert (GEN : forall S (so : setops S) RS, lawful_set P so RS ->
    bind (bf_iter D so go orig) (fun it => next_calls (bf_next D so go) n it) = next_calls (bf_next D fset go) n (state_at D go orig 0)).
  { intros S so RS L. pose proof (bf_new_sim P D so RS L go HG orig V) as H. rewrite (bf_new_at D go orig) in H.
    unfold bf_iter. destruct (bf_new D so go orig) as [it | | |]; cbn in H; try contradiction. cbn [bind].
    apply (next_calls_sim P D so RS go L HG). exact H. }
  destruct b; cbn [bf_yields].
  - destruct U as (X & Y & DM & -> & HW). apply (GEN _ _ _ (usable_gridbool X Y W DM HW)).
  - apply (GEN _ _ _ (lawful_hset P)).
  - apply (GEN _ _ _ (lawful_bset P)).
Qed.

Lemma C72_bf_levels_exact_proof : forall b P D W go orig,
  usable b P W -> valid P orig -> go_inside P go ->
  exists level : nat -> list (pos * dir),
    (forall n, bf_yields b P D W go orig n =
       Ret (map (fun k => match level k with [] => None | l => Some l end) (seq 1 n))) /\
    forall k, (1 <= k)%nat ->
      NoDup (map fst (level k)) /\
      (forall p, In p (map fst (level k)) <->
         at_distance D go orig k p \/ (k = 1%nat /\ p = orig /\ stays D go orig)) /\
      (forall p d, In (p, d) (level k) ->
         exists q e, at_distance D go orig (k - 1) q /\ allowed D e /\ go q e = Some p /\ heading d = (heading e + 4) mod 8).
Proof.
  intros b P D W go orig U V HG. exists (front_at D go orig). split.
  - intros n. rewrite (bf_yields_f b P D W go orig n U V HG). f_equal. rewrite <- seq_shift, map_map. reflexivity.
  - intros [|k] Hk; [lia |]. destruct (front_facts D go orig k) as (H1 & H2 & H3). split; [exact H1 |]. split.
    + intros p. rewrite H2. unfold on_level. tauto.
    + intros p d Hin. destruct (H3 p d Hin) as (q & e & Hq & Ae & Eg & ->). exists q, e.
      replace (S k - 1)%nat with k by lia. split; [exact Hq |]. split; [exact Ae |]. split; [exact Eg |]. destruct e; reflexivity.
Qed.

Lemma C46_bf_levels_refuted_proof : exists b P D W go orig front,
  usable b P W /\ valid P orig /\ go_inside P go /\
  bf_yields b P D W go orig 1 = Ret [Some front] /\ In orig (map fst front).
Proof.
  exists OnHash, (Pos 1 1), false, 0, (fun p d => match pos_dir_add_ok (Pos 1 1) p d with Some q => Some q | None => Some p end), (0, 0).
  exists [((0, 0), dS); ((1, 0), dW); ((0, 1), dN)].
  assert (U : grid_type (Pos 1 1)) by (apply Pos_grid_type; unfold u16_dims; lia).
  split; [exact U |]. split; [cbv; repeat split; discriminate |]. split.
  - intros p d q V E. unfold pos_dir_add_ok in E. destruct (add_inside (Pos 1 1) p d (grid_type_wf _ U) V) as [(Vs & Ea) | (_ & Ea)]; rewrite Ea in E; cbn in E; inv E; assumption.
  - split; [vm_compute; reflexivity | cbn; auto].
Qed.

Lemma C46_bf_levels_partial_proof : forall b P D W go orig,
  usable b P W -> valid P orig -> go_inside P go -> ~ stays D go orig ->
  exists level : nat -> list (pos * dir),
    (forall n, bf_yields b P D W go orig n =
       Ret (map (fun k => match level k with [] => None | l => Some l end) (seq 1 n))) /\
    forall k, (1 <= k)%nat ->
      NoDup (map fst (level k)) /\
      (forall p, In p (map fst (level k)) <-> at_distance D go orig k p) /\
      (forall p d, In (p, d) (level k) ->
         exists q e, at_distance D go orig (k - 1) q /\ allowed D e /\ go q e = Some p /\
           heading d = (heading e + 4) mod 8 /\ (one_step P go -> step p d = q)).
Proof.
  intros b P D W go orig U V HG NS. destruct (C72_bf_levels_exact_proof b P D W go orig U V HG) as (level & H1 & H2).
  exists level. split; [exact H1 |]. intros k Hk. destruct (H2 k Hk) as (A & B & C). split; [exact A |]. split.
  - intros p. rewrite B. tauto.
  - intros p d Hin. destruct (C p d Hin) as (q & e & Hq & Ae & Eg & Hd). exists q, e. split; [exact Hq |]. split; [exact Ae |].
    split; [exact Eg |]. split; [exact Hd |]. intros O. apply O in Eg; [|eapply walk_valid; [exact HG | exact V | apply Hq]]. subst p.
    assert (d = opp e) as -> by (destruct d, e; cbn in Hd; try discriminate; reflexivity). apply step_opp.
Qed.

Lemma levels_then_none : forall {A} (g : nat -> list A) n a K,
  (forall j, (j < K)%nat -> g (a + j)%nat <> []) -> (forall j, (K <= j)%nat -> g (a + j)%nat = []) ->
  map (fun j => match g j with [] => None | l => Some l end) (seq a n) = items_then_none (map g (seq a K)) n.
Proof.
  intros A g n. induction n as [|n IH]; intros a K H1 H2; [unfold items_then_none; rewrite firstn_O; cbn; reflexivity |].
  cbn [seq map]. destruct K as [|K].
  - specialize (H2 0%nat (le_n 0)) as E. rewrite Nat.add_0_r in E. rewrite E. rewrite (IH (S a) 0%nat); [unfold items_then_none; cbn; rewrite firstn_nil, Nat.sub_0_r; reflexivity | intros; lia |].
    intros j _. replace (S a + j)%nat with (a + S j)%nat by lia. apply H2. lia.
  - specialize (H1 0%nat ltac:(lia)) as E. rewrite Nat.add_0_r in E. rewrite (IH (S a) K).
    + unfold items_then_none. cbn [seq map firstn length app Nat.sub]. destruct (g a); [contradiction | reflexivity].
    + intros j Hj. replace (S a + j)%nat with (a + S j)%nat by lia. apply H1. lia.
    + intros j Hj. replace (S a + j)%nat with (a + S j)%nat by lia. apply H2. lia.
Qed.

Lemma first_empty : forall {A} (g : nat -> list A) N, g N = [] -> (forall j, g j = [] -> g (S j) = []) ->
  exists K, (K <= N)%nat /\ (forall j, (j < K)%nat -> g j <> []) /\ (forall j, (K <= j)%nat -> g j = []).
Proof.
  intros A g N E H.
  assert (UP : forall j k, (j <= k)%nat -> g j = [] -> g k = []).
  { intros j k L Ej. induction L as [|k L IHL]; [exact Ej | apply H; exact IHL]. }
  induction N as [|N IH].
  - exists 0%nat. split; [lia |]. split; [intros; lia |]. intros j Hj. eapply UP; [|exact E]. lia.
  - destruct (g N) as [|x l] eqn:EN.
    + destruct (IH eq_refl) as (K & L & A1 & A2). exists K. split; [lia | auto].
    + exists (S N). split; [lia |]. split.
      * intros j Hj Ej. assert (X : g N = []) by (eapply UP; [|exact Ej]; lia). congruence.
      * intros j Hj. eapply UP; [|exact E]. lia.
Qed.

Lemma C47_bf_complete_proof : forall b P D W go orig,
  usable b P W -> valid P orig -> go_inside P go ->
  exists vectors : list (list (pos * dir)),
    (forall n, bf_yields b P D W go orig n = Ret (items_then_none vectors n)) /\
    Z.of_nat (length vectors) <= cells P /\ ~ In [] vectors /\
    NoDup (map fst (concat vectors)) /\
    (forall p, p <> orig -> (In p (map fst (concat vectors)) <-> reachable D go orig p)) /\
    (In orig (map fst (concat vectors)) <-> stays D go orig).
Proof.
  intros b P D W go orig U V HG. pose proof (usable_grid_type b P W U) as G.
  set (g := fun j => front_at D go orig (S j)).
  destruct (first_empty g (Z.to_nat (cells P))) as (K & LK & NE & EM).
  { apply (front_empty P G D go orig HG V). lia. }
  { intros j. apply front_empty_after. }
  exists (map g (seq 0 K)). split; [|split; [|split]].
  - intros n. rewrite (bf_yields_f b P D W go orig n U V HG). f_equal.
    apply (levels_then_none g n 0 K); intros j Hj; cbn [Nat.add]; [apply NE | apply EM]; exact Hj.
  - rewrite map_length, seq_length. pose proof (cols_pos P G). pose proof (rows_pos P G). unfold cells in *. nia.
  - intros Hin. apply in_map_iff in Hin. destruct Hin as (j & E & Hj). apply in_seq in Hj. apply (NE j); [lia | exact E].
  - assert (IN : forall p, In p (map fst (concat (map g (seq 0 K)))) <-> exists j, on_level D go orig (S j) p).
    { intros p. rewrite in_map_iff. split.
      - intros (x & Ex & Hx). apply in_concat in Hx. destruct Hx as (l & Hl & Hx). apply in_map_iff in Hl. destruct Hl as (j & El & _). subst l.
        exists j. apply (front_facts D go orig j). apply in_map_iff. exists x. auto.
      - intros (j & Hj). apply (front_facts D go orig j) in Hj. apply in_map_iff in Hj. destruct Hj as (x & Ex & Hx). exists x. split; [exact Ex |].
        apply in_concat. exists (g j). split; [|exact Hx]. apply in_map. apply in_seq. split; [lia |].
        destruct (le_lt_dec K j) as [L | L]; [|lia]. pose proof (EM j L) as E. unfold g in E. rewrite E in Hx. destruct Hx. }
    split; [|split].
    + assert (ND : forall n a, NoDup (map fst (concat (map g (seq a n))))); [|apply ND].
      induction n as [|n IH]; intros a; [constructor |]. cbn [seq map concat]. rewrite map_app.
      assert (DISJ : forall p, In p (map fst (g a)) -> ~ In p (map fst (concat (map g (seq (S a) n))))).
      { intros p H1 H2. apply (front_facts D go orig a) in H1. apply in_map_iff in H2. destruct H2 as (x & Ex & Hx).
        apply in_concat in Hx. destruct Hx as (l & Hl & Hx). apply in_map_iff in Hl. destruct Hl as (j & El & Hj). subst l. apply in_seq in Hj.
        assert (H2 : on_level D go orig (S j) p) by (apply (front_facts D go orig j); apply in_map_iff; exists x; auto).
        destruct H2 as [H2 | (_ & H2 & _)]; [|lia]. destruct H1 as [H1 | (-> & _ & _)].
        - pose proof (at_distance_fun D go _ _ _ _ H1 H2). lia.
        - apply at_distance_orig in H2. discriminate. }
      specialize (IH (S a)). destruct (front_facts D go orig a) as (ND1 & _). fold (g a) in ND1.
      clear -IH ND1 DISJ. induction (map fst (g a)) as [|x l IHl]; [exact IH |]. inversion ND1; subst. cbn. constructor.
      * rewrite in_app_iff. intros [X | X]; [contradiction | apply (DISJ x); [left; reflexivity | exact X]].
      * apply IHl; try assumption. intros p Hp. apply DISJ. right. exact Hp.
    + intros p Np. rewrite IN. split.
      * intros (j & [(H & _) | (E & _)]); [exists (S j); exact H | contradiction].
      * intros (n & H). destruct (walk_min D go orig n p H) as (j & _ & Hd). destruct j as [|j]; [apply at_distance_0 in Hd; congruence |].
        exists j. left. exact Hd.
    + rewrite IN. split.
      * intros (j & [H | (_ & _ & H)]); [apply at_distance_orig in H; discriminate | exact H].
      * intros H. exists 0%nat. right. auto.
Qed.

Lemma returns_unique : forall {A} (run : nat -> exec A) r r', returns run r -> returns run r' -> r = r'.
Proof.
  intros A run r r' (n & H) (n' & H'). specialize (H (n + n')%nat ltac:(lia)). specialize (H' (n + n')%nat ltac:(lia)). congruence.
Qed.

Lemma returns_ext : forall {A} (run run' : nat -> exec A) r, (forall n, run n = run' n) -> returns run r -> returns run' r.
Proof. intros A run run' r E (n & H). exists n. intros fuel Hf. rewrite <- E. apply H. exact Hf. Qed.

Lemma nearest_unique : forall D go orig found m n, nearest_goal D go orig found m -> nearest_goal D go orig found n -> m = n.
Proof.
  intros D go orig found m n ((q & Nq & Fq & Wq) & H1) ((r & Nr & Fr & Wr) & H2).
  destruct (Nat.lt_trichotomy m n) as [L | [L | L]]; [|exact L|]; exfalso; [eapply (H2 m q) | eapply (H1 n r)]; eassumption.
Qed.

Lemma bfs_on_exact : forall b P D W go orig found,
  usable b P W -> valid P orig -> go_inside P go -> one_step P go ->
  exists r, returns (fun fuel => bfs_on b P D W fuel go orig found) r /\
    match r with
    | Ok (dest, path) => found dest = true /\ dest <> orig /\ Forall (allowed D) path /\ follow go orig path = Some dest /\
        nearest_goal D go orig found (length path) /\ (length path <= Z.to_nat (cols P * cols P))%nat
    | Err DestinationUnreachable => forall q, q <> orig -> found q = true -> ~ reachable D go orig q
    | Err Loop => exists k, (Z.to_nat (cols P * cols P) < k)%nat /\ nearest_goal D go orig found k
    | Err _ => False
    end.
Proof.
  intros b P D W go orig found U V HG H1. pose proof (usable_grid_type b P W U) as G.
  destruct (bfs_exact P G D go orig HG V H1 found) as (r & Hr & K). exists r. split; [|exact K].
  eapply returns_ext; [|exact Hr]. intros fuel. cbn. symmetry. apply bfs_on_f; assumption.
Qed.

Lemma C48_bfs_shortest_proof : forall b P D W go orig found dest path,
  usable b P W -> valid P orig -> go_inside P go -> one_step P go ->
  returns (fun fuel => bfs_on b P D W fuel go orig found) (Ok (dest, path)) ->
  found dest = true /\ Forall (allowed D) path /\ follow go orig path = Some dest /\
  forall q n, q <> orig -> found q = true -> walk D go orig n q -> (length path <= n)%nat.
Proof.
  intros b P D W go orig found dest path U V HG H1 H. destruct (bfs_on_exact b P D W go orig found U V HG H1) as (r & Hr & K).
  pose proof (returns_unique _ _ _ H Hr). subst r. destruct K as (K1 & _ & K2 & K3 & (_ & K4) & _).
  split; [exact K1 |]. split; [exact K2 |]. split; [exact K3 |]. intros q n Nq Fq Hw.
  destruct (le_lt_dec (length path) n) as [L | L]; [exact L |]. exfalso. apply (K4 n q L Nq Fq Hw).
Qed.

Lemma C73_bfs_exact_proof : forall b P D W go orig found,
  usable b P W -> valid P orig -> go_inside P go -> one_step P go ->
  let limit := Z.to_nat (cols P * cols P) in
  exists r, returns (fun fuel => bfs_on b P D W fuel go orig found) r /\
    (r = Err DestinationUnreachable <-> forall q, q <> orig -> found q = true -> ~ reachable D go orig q) /\
    (forall n, (exists dest path, r = Ok (dest, path) /\ length path = n) <-> nearest_goal D go orig found n /\ (n <= limit)%nat) /\
    (r = Err Loop <-> exists n, nearest_goal D go orig found n /\ (limit < n)%nat).
Proof.
  intros b P D W go orig found U V HG H1 limit. destruct (bfs_on_exact b P D W go orig found U V HG H1) as (r & Hr & K).
  fold limit in K. exists r. split; [exact Hr |].
  assert (NR : forall n, nearest_goal D go orig found n -> ~ forall q, q <> orig -> found q = true -> ~ reachable D go orig q).
  { intros n ((q & Nq & Fq & Wq) & _) H. apply (H q Nq Fq). exists n. exact Wq. }
  destruct r as [[dest path] | e].
  - destruct K as (_ & _ & _ & _ & K & L). split; [|split].
    + split; [discriminate |]. intros H. destruct (NR _ K H).
    + intros n. split.
      * intros (d & p & E & <-). inv E. auto.
      * intros (Hn & _). exists dest, path. split; [reflexivity |]. eapply nearest_unique; eassumption.
    + split; [discriminate |]. intros (n & Hn & Ln). pose proof (nearest_unique _ _ _ _ _ _ K Hn). lia.
  - destruct e; try contradiction.
    + destruct K as (k & Lk & K). split; [|split].
      * split; [discriminate |]. intros H. destruct (NR _ K H).
      * intros n. split; [intros (d & p & E & _); discriminate |]. intros (Hn & Ln). pose proof (nearest_unique _ _ _ _ _ _ K Hn). lia.
      * split; [|reflexivity]. intros _. exists k. auto.
    + split; [|split].
      * split; auto.
      * intros n. split; [intros (d & p & E & _); discriminate |]. intros (Hn & _). destruct (NR _ Hn K).
      * split; [discriminate |]. intros (n & Hn & _). destruct (NR _ Hn K).
Qed.

Lemma south_inside : go_inside (Pos 0 2) (fun p d => match d with dS => if snd p <? 2 then Some (step p d) else None | _ => None end) /\
  one_step (Pos 0 2) (fun p d => match d with dS => if snd p <? 2 then Some (step p d) else None | _ => None end).
Proof.
  split.
  - intros [x y] d q V E. destruct d; try discriminate. cbn [snd] in E. destruct (y <? 2) eqn:Ey; inv E.
    unfold valid, in_bty, step in *. cbn in *. bool2prop. lia.
  - intros p d q _ E. destruct d; try discriminate. destruct (snd p <? 2); inv E. reflexivity.
Qed.

Lemma C49_bfs_tall_grid_refuted_proof : exists b P D W go orig found q,
  usable b P W /\ valid P orig /\ go_inside P go /\ one_step P go /\
  q <> orig /\ found q = true /\ reachable D go orig q /\
  returns (fun fuel => bfs_on b P D W fuel go orig found) (Err Loop).
Proof.
  exists OnGrid, (Pos 0 2), false, 1, (fun p d => match d with dS => if snd p <? 2 then Some (step p d) else None | _ => None end), (0, 0), (fun p => pos_eqb p (0, 2)), (0, 2).
  split; [exists 0, 2; unfold u16_dims, cells, cols, rows; cbn; repeat split; lia |].
  split; [cbv; repeat split; discriminate |]. split; [apply south_inside |]. split; [apply south_inside |].
  split; [discriminate |]. split; [reflexivity |]. split.
  - exists 2%nat, [dS; dS]. split; [reflexivity |]. split; [|reflexivity]. apply Forall_forall; intros d Hd; apply dirs_allowed; cbn in *; tauto.
  - exists 3%nat. intros fuel Hf. destruct fuel as [|[|[|fuel]]]; [lia | lia | lia |]. reflexivity.
Qed.

Lemma C49_bfs_origin_refuted_proof : exists b P D W go orig found,
  usable b P W /\ valid P orig /\ go_inside P go /\ one_step P go /\
  found orig = true /\ walk D go orig 0 orig /\ walk D go orig 2 orig /\
  returns (fun fuel => bfs_on b P D W fuel go orig found) (Err DestinationUnreachable).
Proof.
  pose (go := fun (p : pos) d => match d with dE => if pos_eqb p (0, 0) then Some (1, 0) else None | dW => if pos_eqb p (1, 0) then Some (0, 0) else None | _ => None end).
  exists OnGrid, (Pos 1 0), false, 1, go, (0, 0), (fun p => pos_eqb p (0, 0)).
  split; [exists 1, 0; unfold u16_dims, cells, cols, rows; cbn; repeat split; lia |].
  split; [cbv; repeat split; discriminate |]. split; [|split].
  - intros p d q V E. unfold go in E. destruct d; try discriminate; [destruct (pos_eqb p (0, 0)) | destruct (pos_eqb p (1, 0))]; inv E; cbv; repeat split; discriminate.
  - intros p d q _ E. unfold go in E. destruct d; try discriminate.
    + destruct (pos_eqb p (0, 0)) eqn:Ep; inv E. apply pos_eqb_eq in Ep. subst. reflexivity.
    + destruct (pos_eqb p (1, 0)) eqn:Ep; inv E. apply pos_eqb_eq in Ep. subst. reflexivity.
  - split; [reflexivity |]. split; [apply walk_0; reflexivity |]. split.
    + exists [dE; dW]. split; [reflexivity |]. split; [|reflexivity]. apply Forall_forall; intros d Hd; apply dirs_allowed; cbn in *; tauto.
    + exists 3%nat. intros fuel Hf. destruct fuel as [|[|[|fuel]]]; [lia | lia | lia |]. reflexivity.
Qed.

Lemma C49_bfs_complete_partial_proof : forall b P D W go orig found,
  usable b P W -> rows P <= cols P -> valid P orig -> go_inside P go -> one_step P go ->
  exists r, returns (fun fuel => bfs_on b P D W fuel go orig found) r /\
    (r = Err DestinationUnreachable <-> forall q, q <> orig -> found q = true -> ~ reachable D go orig q) /\
    (r <> Err DestinationUnreachable -> exists dest path, r = Ok (dest, path)).
Proof.
  intros b P D W go orig found U HRC V HG H1. destruct (C73_bfs_exact_proof b P D W go orig found U V HG H1) as (r & Hr & K1 & K2 & K3).
  exists r. split; [exact Hr |]. split; [exact K1 |]. intros N.
  destruct (bfs_on_exact b P D W go orig found U V HG H1) as (r' & Hr' & K). pose proof (returns_unique _ _ _ Hr Hr'). subst r'.
  destruct r as [[dest path] | e]; [eauto |]. exfalso. destruct e; try contradiction; try congruence.
  destruct K as (k & Lk & ((q & Nq & Fq & Wq) & Hk)). pose proof (usable_grid_type b P W U) as G.
  destruct (walk_min D go orig k q Wq) as (j & Hj & Hd).
  assert (j = k).
  { destruct (Nat.eq_dec j k) as [E | N']; [exact E |]. exfalso. apply (Hk j q ltac:(lia) Nq Fq). apply Hd. }
  subst j. pose proof (at_distance_bound D go P _ _ _ G HG V Hd). pose proof (cols_pos P G). pose proof (rows_pos P G).
  assert (cells P <= cols P * cols P) by (unfold cells; nia). lia.
Qed.
