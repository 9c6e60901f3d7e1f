(** PropEntryProofs.v -- proofs of the statements of PropEntry.v. *)

From Coq Require Import ZArith List Bool Lia.
From Verif Require Import Rust BoundedInt Dir PosT Pos Grid Gridbool SetMap CameFrom Bf Heap Astar Ucs Spec SpecSearch Lib Deque BoundedIntProofs PosTProofs PosTProofs2 GridProofs GridProofs2 PropDirProofs SetMapProofs Sim CameFromProofs PropSetMapProofs BfProofs PropBfProofs BestFirst SearchProofs UcsProofs AstarProofs PropUcsProofs.
Import ListNotations.
Open Scope Z_scope.

Definition R_big {Item} (P : post) (g : grid Item) (f : pos -> Item) : Prop :=
  cells P <= Z.of_nat (length g) /\ forall p, valid P p -> grid_get P g p = Ret (f p).

Lemma lawful_big_grid : forall Item P SIZE, grid_type P -> cells P <= SIZE -> lawful_map P (@map_grid Item P SIZE) (R_big P).
Proof.
  intros Item P SIZE G L. pose proof (cells_pos P G) as CP. constructor.
  - intros d. split.
    + cbn. rewrite default_length. lia.
    + intros p V. cbn. rewrite get_nth by assumption. pose proof (index_bound P p G V) as B. unfold grid_default.
      erewrite map_nth_error; [reflexivity |]. apply zrange_nth_error. lia.
  - intros d. split.
    + cbn. unfold grid_repeat. rewrite repeat_length. lia.
    + intros p V. cbn. rewrite get_nth by assumption. pose proof (index_bound P p G V) as B. unfold grid_repeat.
      rewrite nth_error_repeat by lia. reflexivity.
  - intros m f p (_ & H) V. apply H. exact V.
  - intros m f p v (HL & H) V. pose proof (index_bound P p G V) as B. exists (list_set m (Z.to_nat (index_of P p)) v). split; [|split].
    + cbn. unfold grid_set. rewrite to_usize_ok by assumption. cbn [bind]. apply array_set_unchecked_ok. lia.
    + rewrite list_set_length. exact HL.
    + intros q Vq. unfold put. rewrite get_nth by assumption. destruct (pos_eqb p q) eqn:E.
      * apply pos_eqb_eq in E. subst q. rewrite list_set_nth_same by lia. reflexivity.
      * apply pos_eqb_neq in E. rewrite list_set_nth_other; [|].
        -- rewrite <- get_nth by assumption. apply H. exact Vq.
        -- intros X. pose proof (index_bound P q G Vq). apply E. apply (index_inj P p q G V Vq). lia.
Qed.

Lemma C80_grid_storage_refuted_proof : exists P D SIZE WORDS orig dest,
  grid_type P /\ valid P orig /\ valid P dest /\ 0 < SIZE /\
  (forall fuel, ucs_path P D SIZE (S fuel) (fun p d => match pos_dir_add_ok P p d with Some q => Some (q, 1) | None => None end) orig dest = UB) /\
  (forall fuel, astar_path P D SIZE (S fuel) (pos_dir_add_ok P) orig dest = UB) /\
  (forall fuel, bfs_path P D WORDS SIZE (S fuel) (pos_dir_add_ok P) orig (pos_eqb dest) = UB).
Proof.
  exists (Pos 2 2), false, 1, 1, (1, 1), (2, 2). split; [apply Pos_grid_type; unfold u16_dims; lia |].
  split; [cbv; repeat split; discriminate |]. split; [cbv; repeat split; discriminate |]. split; [lia |].
  split; [|split]; intros fuel; vm_compute; reflexivity.
Qed.

Lemma C80_grid_storage_partial_proof : forall P D SIZE,
  grid_type P -> cells P <= SIZE -> forall fuel orig dest, valid P orig -> valid P dest ->
  (forall go, go_inside P (move_of go) -> ucs_path P D SIZE fuel go orig dest = ucs_path_hash P D fuel go orig dest) /\
  (forall go, go_inside P go -> astar_path P D SIZE fuel go orig dest = astar_path_hash P D fuel go orig dest) /\
  (forall WORDS go found, usable OnGrid P WORDS -> go_inside P go ->
     bfs_path P D WORDS SIZE fuel go orig found = bfs_path_hash P D fuel go orig found).
Proof.
  intros P D SIZE G L fuel orig dest Vo Vd. pose proof (grid_type_wf P G) as WF. split; [|split].
  - intros go HG. unfold ucs_path, ucs_path_grid, ucs_path_hash.
    rewrite (ucs_search_path_sim P D _ _ _ _ (lawful_big_grid _ _ _ G L) (lawful_big_grid _ _ _ G L) WF go HG) by assumption.
    symmetry. apply (ucs_search_path_sim P D _ _ _ _ (lawful_hmap _ _) (lawful_hmap _ _) WF go HG); assumption.
  - intros go HG. unfold astar_path, astar_path_grid, astar_path_hash.
    rewrite (astar_search_path_sim P D _ _ _ _ (lawful_big_grid _ _ _ G L) (lawful_big_grid _ _ _ G L) WF go HG) by assumption.
    symmetry. apply (astar_search_path_sim P D _ _ _ _ (lawful_hmap _ _) (lawful_hmap _ _) WF go HG); assumption.
  - intros WORDS go found (X & Y & DM & -> & HW) HG. unfold bfs_path, bfs_path_grid, bfs_path_hash.
    rewrite (bf_search_path_sim (Pos X Y) D _ _ (usable_gridbool X Y WORDS DM HW) WF go HG _ _ (lawful_big_grid _ _ _ G L)) by assumption.
    symmetry. apply (bf_search_path_sim (Pos X Y) D _ _ (lawful_hset _) WF go HG _ _ (lawful_hmap _ _)). exact Vo.
Qed.

Lemma C80_origin_outside_ub_proof : forall P D SIZE fuel orig dest,
  grid_type P -> valid P orig -> 0 <= SIZE <= index_of P orig ->
  (forall go, ucs_path P D SIZE fuel go orig dest = UB) /\ (forall go, astar_path P D SIZE fuel go orig dest = UB).
Proof.
  intros P D SIZE fuel orig dest G V L.
  assert (E : @mp_set Z _ (map_grid P SIZE) (mp_new (map_grid P SIZE) COST_MAX) orig 0 = UB).
  { cbn. unfold grid_set. rewrite to_usize_ok by assumption. cbn [bind]. unfold array_set_unchecked, grid_repeat. rewrite repeat_length.
    replace (index_of P orig <? Z.of_nat (Z.to_nat SIZE)) with false by (symmetry; apply Z.ltb_ge; lia). rewrite andb_false_r. reflexivity. }
  split; intros go.
  - unfold ucs_path, ucs_path_grid, ucs_search_path, ucs_search_mapmov, ucs_new. rewrite E. reflexivity.
  - unfold astar_path, astar_path_grid, astar_search_path, astar_search_mapmov, astar_new. rewrite E. reflexivity.
Qed.

Lemma bf_yields_any : forall b P D W go orig n, b <> OnGrid -> post_wf P -> valid P orig -> go_inside P go ->
  bf_yields b P D W go orig n = Ret (map (fun j => match front_at D go orig (S j) with [] => None | l => Some l end) (seq 0 n)).
Proof.
  intros b P D W go orig n NB WF V HG. rewrite <- (next_calls_at D go orig n 0).
  assert (GEN : forall S (so : setops S) RS, lawful_set P so RS ->
    bind (bf_iter D so go orig) (fun it => next_calls (bf_next D so go) n it) = next_calls (bf_next D fset go) n (state_at D go orig 0)).
  { intros S so RS L. pose proof (bf_new_sim P D so RS L go HG orig V) as H. rewrite (bf_new_at D go orig) in H.
    unfold bf_iter. destruct (bf_new D so go orig) as [it | | |]; cbn in H; try contradiction. cbn [bind].
    apply (next_calls_sim P D so RS go L HG). exact H. }
  destruct b; cbn [bf_yields]; [congruence | apply (GEN _ _ _ (lawful_hset P)) | apply (GEN _ _ _ (lawful_bset P))].
Qed.

Lemma C81_bf_any_type_proof : forall b P D W go orig,
  b = OnHash \/ b = OnBTree -> post_wf P -> valid P orig -> go_inside P go ->
  exists vectors : list (list (pos * dir)),
    (forall n, bf_yields b P D W go orig n = Ret (items_then_none vectors n)) /\ ~ In [] vectors /\
    (forall k l, nth_error vectors k = Some l ->
       NoDup (map fst l) /\
       (forall p, In p (map fst l) <-> at_distance D go orig (S k) p \/ (k = 0%nat /\ p = orig /\ stays D go orig)) /\
       (forall p d, In (p, d) l ->
          exists q e, at_distance D go orig k q /\ allowed D e /\ go q e = Some p /\ heading d = (heading e + 4) mod 8)) /\
    (forall p, reachable D go orig p -> p = orig \/ In p (map fst (concat vectors))).
Proof.
  intros b P D W go orig Hb WF V HG. assert (NB : b <> OnGrid) by (destruct Hb; subst; discriminate).
  set (g := fun j => front_at D go orig (S j)).
  destruct (first_empty g (length (all_rows P))) as (K & LK & NE & EM).
  { apply (front_empty_gen P D go orig HG V). lia. }
  { intros j. apply front_empty_after. }
  exists (map g (seq 0 K)).
  assert (IN : forall j, (j < K)%nat -> nth_error (map g (seq 0 K)) j = Some (g j)).
  { intros j Hj. apply map_nth_error. rewrite (nth_error_nth' _ 0%nat) by (rewrite seq_length; exact Hj). rewrite seq_nth by exact Hj. reflexivity. }
  split; [|split; [|split]].
  - intros n. rewrite (bf_yields_any b P D W go orig n NB WF V HG). f_equal.
    apply (levels_then_none g n 0 K); intros j Hj; cbn [Nat.add]; [apply NE | apply EM]; exact Hj.
  - intros Hin. apply in_map_iff in Hin. destruct Hin as (j & E & Hj). apply in_seq in Hj. apply (NE j); [lia | exact E].
  - intros k l E. assert (Hk : (k < K)%nat).
    { assert (X : (k < length (map g (seq 0 K)))%nat) by (apply nth_error_Some; congruence). rewrite map_length, seq_length in X. exact X. }
    rewrite IN in E by exact Hk. inv E. destruct (front_facts D go orig k) as (H1 & H2 & H3). split; [exact H1 |]. split.
    + intros p. unfold g. rewrite H2. unfold on_level. split.
      * intros [X | (X & Y & Z)]; [auto |]. right. split; [lia | auto].
      * intros [X | (X & Y & Z)]; [auto |]. right. subst. auto.
    + intros p d Hin. destruct (H3 p d Hin) as (q & e & Hq & Ae & Eg & ->). exists q, e.
      split; [exact Hq |]. split; [exact Ae |]. split; [exact Eg |]. destruct e; reflexivity.
  - intros p (n & H). destruct (walk_min D go orig n p H) as (j & _ & Hd). destruct j as [|j]; [left; apply at_distance_0 in Hd; congruence |].
    right. assert (X : In p (map fst (g j))) by (apply (front_facts D go orig j); left; exact Hd).
    apply in_map_iff in X. destruct X as (x & Ex & Hx). apply in_map_iff. exists x. split; [exact Ex |]. apply in_concat. exists (g j). split; [|exact Hx].
    apply in_map. apply in_seq. split; [lia |]. destruct (le_lt_dec K j) as [L | L]; [|lia]. rewrite (EM j L) in Hx. destruct Hx.
Qed.

Lemma C82_bfs_any_type_proof : forall b P D W go orig found,
  b = OnHash \/ b = OnBTree -> post_wf P -> valid P orig -> go_inside P go -> one_step P go ->
  let limit := Z.to_nat (cols P * cols P) in
  exists r, settles (fun fuel => bfs_on b P D W fuel go orig found) r /\
    (r = Ret (Err DestinationUnreachable) <-> forall q, q <> orig -> found q = true -> ~ reachable D go orig q) /\
    forall n, nearest_goal D go orig found n ->
      exists dest, found dest = true /\ dest <> orig /\ walk D go orig n dest /\
        (~ retraceable P orig dest -> r = Panic) /\
        (retraceable P orig dest -> (n <= limit)%nat -> exists path, r = Ret (Ok (dest, path)) /\
           length path = n /\ Forall (allowed D) path /\ follow go orig path = Some dest) /\
        (retraceable P orig dest -> (limit < n)%nat -> r = Ret (Err Loop)).
Proof.
  intros b P D W go orig found Hb WF V HG H1 limit. destruct (bfs_any P WF D go orig HG V H1 found) as (r & Hr & K). exists r. split.
  - destruct Hr as (n & Hr). exists n. intros fuel Hf. rewrite <- (Hr fuel Hf). destruct Hb; subst b; cbn [bfs_on].
    + apply (bf_search_path_sim P D _ _ (lawful_hset P) WF go HG _ _ (lawful_hmap _ _)). exact V.
    + apply (bf_search_path_sim P D _ _ (lawful_bset P) WF go HG _ _ (lawful_bmap _ _)). exact V.
  - destruct K as [(-> & K) | (dest & n & F & N & Hd & NG & K1 & K2 & K3)].
    + split; [split; auto |]. intros n ((q & Nq & Fq & Wq) & _). destruct (K q Nq Fq). exists n. exact Wq.
    + split.
      * split; [|intros K; destruct (K dest N F); exists n; apply Hd]. intros ->.
        destruct (valid_dec P (Z.abs (fst orig - fst dest), Z.abs (snd orig - snd dest))) as [M | M].
        -- destruct (Z_le_gt_dec (2 * (Z.abs (fst orig - fst dest) + Z.abs (snd orig - snd dest))) 9223372036854775807) as [L1 | L1].
           ++ destruct (Z_le_gt_dec 0 (XM P)) as [L2 | L2].
              ** destruct (Z_le_gt_dec (cols P * cols P + 1) 18446744073709551615) as [L3 | L3].
                 --- destruct (le_lt_dec n limit) as [L | L].
                     +++ destruct (K2 (conj M (conj L1 (conj L2 L3))) L) as (path & E & _). discriminate.
                     +++ discriminate (K3 (conj M (conj L1 (conj L2 L3))) L).
                 --- discriminate K1. intros (_ & _ & _ & X). lia.
              ** discriminate K1. intros (_ & _ & X & _). lia.
           ++ discriminate K1. intros (_ & X & _). lia.
        -- discriminate K1. intros (X & _). apply M. exact X.
      * intros m Hm. pose proof (nearest_unique _ _ _ _ _ _ NG Hm). subst m. exists dest. split; [exact F |]. split; [exact N |].
        split; [apply Hd |]. auto.
Qed.

Lemma C82_bfs_wide_tuples_panic_proof : forall b t D W go orig found,
  b = OnHash \/ b = OnBTree -> In t [u32; u64; u128] -> valid (IntTuple t) orig ->
  go_inside (IntTuple t) go -> one_step (IntTuple t) go ->
  (exists q, q <> orig /\ found q = true /\ reachable D go orig q) ->
  settles (fun fuel => bfs_on b (IntTuple t) D W fuel go orig found) Panic.
Proof.
  intros b t D W go orig found Hb Ht V HG H1 (q & Nq & Fq & Rq).
  assert (WF : post_wf (IntTuple t)).
  { assert (X : bty_wf (Builtin t)) by (destruct Ht as [<- | [<- | [<- | []]]]; (split; [cbn; tauto | cbn; lia])). split; exact X. }
  assert (NR : forall dest, ~ retraceable (IntTuple t) orig dest).
  { intros dest (_ & _ & _ & X). unfold cols in X. destruct Ht as [<- | [<- | [<- | []]]]; cbn in X; lia. }
  destruct (bfs_any (IntTuple t) WF D go orig HG V H1 found) as (r & (n & Hr) & K).
  destruct K as [(_ & K) | (dest & m & F & N & Hd & NG & K1 & _)]; [destruct (K q Nq Fq Rq) |].
  rewrite (K1 (NR dest)) in Hr. exists n. intros fuel Hf. rewrite <- (Hr fuel Hf). destruct Hb; subst b; cbn [bfs_on].
  - apply (bf_search_path_sim _ D _ _ (lawful_hset _) WF go HG _ _ (lawful_hmap _ _)). exact V.
  - apply (bf_search_path_sim _ D _ _ (lawful_bset _) WF go HG _ _ (lawful_bmap _ _)). exact V.
Qed.

Lemma C83_ucs_any_type_proof : forall b P D go orig dest,
  b = OnHash \/ b = OnBTree -> post_wf P -> valid P orig -> valid P dest ->
  go_inside P (move_of go) -> one_step P (move_of go) -> affordable D P go orig ->
  exists r, settles (fun fuel => ucs_on b P D fuel go orig dest) r /\
    (r = Ret (Err DestinationUnreachable) <-> ~ reachable D (move_of go) orig dest) /\
    (r = Panic <-> reachable D (move_of go) orig dest /\ ~ retraceable P orig dest) /\
    (r = Ret (Err DestinationUnreachable) \/ r = Panic \/
     (r = Ret (Err Loop) /\ forall rs, (forall p, reachable D (move_of go) orig p -> In p rs) -> cols P * cols P < Z.of_nat (length rs)) \/
     exists path, r = Ret (Ok path) /\ Forall (allowed D) path /\ follow (move_of go) orig path = Some dest /\
       Z.of_nat (length path) <= cols P * cols P /\
       (cost_of_entering D P go -> exists c, follow_cost go orig path = Some (dest, c) /\ lowest_cost D go orig c dest)).
Proof.
  intros b P D go orig dest Hb WF V Vd HG O SC. pose proof (afford_HS D P go orig HG SC) as HS.
  destruct (ucs_outcome_any P D go orig V HS SC dest WF Vd) as (r & Hr & r0 & Ho & Hc & Hp). exists r. split.
  - destruct Hr as (n & Hr). exists n. intros fuel Hf. rewrite <- (Hr fuel Hf). destruct Hb; subst b; cbn [ucs_on].
    + apply (ucs_search_path_sim P D _ _ _ _ (lawful_hmap _ _) (lawful_hmap _ _) WF go HG); assumption.
    + apply (ucs_search_path_sim P D _ _ _ _ (lawful_bmap _ _) (lawful_bmap _ _) WF go HG); assumption.
  - destruct (outcome_cases P D go (fun _ => 0) orig V HS SC WF O dest r0 Ho) as (K1 & K2).
    assert (RD : reachable D (move_of go) orig dest \/ ~ reachable D (move_of go) orig dest) by (destruct Ho as [(_ & NR) | (? & ? & ? & ? & _ & _ & _ & RC & _)]; auto).
    split; [|split].
    + destruct Hc as [-> | (-> & RC)]; [|split; [discriminate | contradiction]]. rewrite <- K1. split; [congruence | intros ->; reflexivity].
    + split.
      * intros E. destruct RD as [RC | NR]; [|destruct Hc as [-> | (_ & RC)]; [discriminate | contradiction]].
        split; [exact RC |]. apply Hp; assumption.
      * intros (RC & NT). apply Hp; assumption.
    + destruct Hc as [-> | (-> & _)]; [|auto]. destruct K2 as [(path & -> & F & A & L) | [-> | ->]]; [|auto|].
      * right. right. right. exists path. split; [reflexivity |]. split; [exact A |]. split; [exact F |]. split; [exact L |]. intros HU.
        destruct Ho as [(X & _) | (c & hp & e & tr & R & Ed & N & RC & E)]; [discriminate |]. symmetry in E.
        destruct (outcome_optimal P D go (fun _ => 0) orig V HS SC WF O) with (dest := dest) (path := path) (m := maxn P) (c := c) (hp := hp) (e := e) (tr := tr) as (F' & L'); try assumption.
        -- intros p d q w Vp Ad Es. destruct (HS p d q w Vp Es). lia.
        -- intros. lia.
        -- intros x Hx _. rewrite Z.add_0_r. apply (x_prio _ _ _ _ _ _ (exact_run P D go orig V HS SC HU _ _ _ R)). auto.
        -- exists (c dest). split; [exact F' |]. split; [|exact L']. exists path. auto.
      * right. right. left. split; [reflexivity |]. intros rs Hrs. apply (outcome_loop_gen P D go (fun _ => 0) orig V HS SC WF O) with (dest := dest).
        -- intros p d q w Vp Ad E. destruct (HS p d q w Vp E). lia.
        -- intros. lia.
        -- exact Ho.
        -- exact Hrs.
Qed.

Lemma astar_far_cases : forall b P D go orig dest rs,
  b = OnHash \/ b = OnBTree -> post_wf P -> valid P orig -> valid P dest -> go_inside P go -> one_step P go ->
  (forall p, reachable D go orig p -> In p rs) -> Z.of_nat (length rs) <= COST_MAX ->
  exists r, settles (fun fuel => astar_on b P D fuel go orig dest) r /\
    ((too_far P D go orig dest rs /\ r = Panic) \/
     (r = Ret (Err DestinationUnreachable) <-> ~ reachable D go orig dest) /\
     (r = Panic <-> reachable D go orig dest /\ ~ retraceable P orig dest) /\
     (r = Ret (Err DestinationUnreachable) \/ r = Panic \/
      (r = Ret (Err Loop) /\ (D = false -> cols P * cols P < Z.of_nat (length rs))) \/
      exists path, r = Ret (Ok path) /\ Forall (allowed D) path /\ follow go orig path = Some dest /\
        Z.of_nat (length path) <= cols P * cols P)).
Proof.
  intros b P D go orig dest rs Hb WF V Vd HG O HR HL.
  destruct (astar_outcome_far P WF D go orig dest V Vd HG rs HR HL) as (r & Hr & Hx). exists r. split.
  - destruct Hr as (n & Hr). exists n. intros fuel Hf. rewrite <- (Hr fuel Hf). destruct Hb; subst b; cbn [astar_on].
    + apply (astar_search_path_sim P D _ _ _ _ (lawful_hmap _ _) (lawful_hmap _ _) WF go HG); assumption.
    + apply (astar_search_path_sim P D _ _ _ _ (lawful_bmap _ _) (lawful_bmap _ _) WF go HG); assumption.
  - destruct Hx as [(r0 & Ho & Hc & Hp) | TF]; [right | left; exact TF].
    pose proof (gen_HA P D go orig HG rs HR HL) as HA. pose proof (unit_HS P go HG) as HS.
    destruct (outcome_cases P D (unit_cost go) (fun q => mdist q dest) orig V HS HA WF (one_step_unit go P O) dest r0 Ho) as (K1 & K2).
    rewrite reachable_unit in *.
    assert (RD : reachable D go orig dest \/ ~ reachable D go orig dest).
    { destruct Ho as [(_ & NR) | (? & ? & ? & ? & _ & _ & _ & RC & _)]; rewrite reachable_unit in *; auto. }
    split; [|split].
    + destruct Hc as [-> | (-> & RC)]; [|split; [discriminate | contradiction]]. rewrite <- K1. split; [congruence | intros ->; reflexivity].
    + split.
      * intros E. destruct RD as [RC | NR]; [|destruct Hc as [-> | (_ & RC)]; [discriminate | contradiction]].
        split; [exact RC |]. apply Hp; assumption.
      * intros (RC & NT). apply Hp; assumption.
    + destruct Hc as [-> | (-> & _)]; [|auto]. destruct K2 as [(path & -> & F & A & L) | [-> | ->]]; [|auto|].
      * right. right. right. exists path. rewrite follow_unit in F. auto.
      * right. right. left. split; [reflexivity |]. intros ->.
        apply (outcome_loop_gen P false (unit_cost go) (fun q => mdist q dest) orig V HS HA WF (one_step_unit go P O)) with (dest := dest).
        -- intros p d q w Vp Ad E. apply (mdist_consistent P go dest p d q w O Vp Ad E).
        -- intros. apply mdist_nonneg.
        -- exact Ho.
        -- intros q Hq. apply HR. apply (reachable_unit false go). exact Hq.
Qed.

Lemma C84_astar_any_type_proof : forall b P D go orig dest rs,
  b = OnHash \/ b = OnBTree -> post_wf P -> valid P orig -> valid P dest -> go_inside P go -> one_step P go ->
  (forall p, reachable D go orig p -> In p rs) ->
  (forall p, reachable D go orig p -> measurable P p dest /\
     Z.of_nat (length rs) + (Z.abs (fst p - fst dest) + Z.abs (snd p - snd dest)) <= 18446744073709551615) ->
  exists r, settles (fun fuel => astar_on b P D fuel go orig dest) r /\
    (r = Ret (Err DestinationUnreachable) <-> ~ reachable D go orig dest) /\
    (r = Panic <-> reachable D go orig dest /\ ~ retraceable P orig dest) /\
    (r = Ret (Err DestinationUnreachable) \/ r = Panic \/
     (r = Ret (Err Loop) /\ (D = false -> cols P * cols P < Z.of_nat (length rs))) \/
     exists path, r = Ret (Ok path) /\ Forall (allowed D) path /\ follow go orig path = Some dest /\
       Z.of_nat (length path) <= cols P * cols P).
Proof.
  intros b P D go orig dest rs Hb WF V Vd HG O HR HM.
  assert (HL : Z.of_nat (length rs) <= COST_MAX).
  { destruct (HM orig (reach_orig D go orig)) as (_ & L). unfold COST_MAX. lia. }
  destruct (astar_far_cases b P D go orig dest rs Hb WF V Vd HG O HR HL) as (r & Hr & [((q & Rq & Nq) & _) | K]).
  - destruct Nq. exact (HM q Rq).
  - exists r. split; [exact Hr | exact K].
Qed.

Lemma C84_astar_panics_only_far_proof : forall b P D go orig dest rs,
  b = OnHash \/ b = OnBTree -> post_wf P -> valid P orig -> valid P dest -> go_inside P go -> one_step P go ->
  (forall p, reachable D go orig p -> In p rs) -> Z.of_nat (length rs) <= 18446744073709551615 ->
  exists r, settles (fun fuel => astar_on b P D fuel go orig dest) r /\
    (r = Ret (Err DestinationUnreachable) -> ~ reachable D go orig dest) /\
    (reachable D go orig dest -> ~ retraceable P orig dest -> r = Panic) /\
    (r = Panic -> (reachable D go orig dest /\ ~ retraceable P orig dest) \/
       exists p, reachable D go orig p /\ ~ (measurable P p dest /\
         Z.of_nat (length rs) + (Z.abs (fst p - fst dest) + Z.abs (snd p - snd dest)) <= 18446744073709551615)) /\
    (r = Ret (Err DestinationUnreachable) \/ r = Panic \/
     (r = Ret (Err Loop) /\ (D = false -> cols P * cols P < Z.of_nat (length rs))) \/
     exists path, r = Ret (Ok path) /\ Forall (allowed D) path /\ follow go orig path = Some dest /\
       Z.of_nat (length path) <= cols P * cols P).
Proof.
  intros b P D go orig dest rs Hb WF V Vd HG O HR HL.
  destruct (astar_far_cases b P D go orig dest rs Hb WF V Vd HG O HR HL) as (r & Hr & [((q & Rq & Nq) & ->) | (K1 & K2 & K3)]).
  - exists Panic. split; [exact Hr |]. split; [discriminate |]. split; [auto |]. split; [|auto]. intros _. right. exists q. split; [exact Rq | exact Nq].
  - exists r. split; [exact Hr |]. split; [apply K1 |]. split; [intros R N; apply K2; auto |]. split; [|exact K3]. intros E. left. apply K2. exact E.
Qed.

Lemma C84_astar_far_destination_panics_proof : forall b P D go orig dest d q fuel,
  b = OnHash \/ b = OnBTree -> post_wf P -> valid P orig -> valid P dest -> go_inside P go ->
  allowed D d -> go orig d = Some q -> q <> orig -> ~ measurable P q dest ->
  astar_on b P D (S fuel) go orig dest = Panic.
Proof.
  intros b P D go orig dest d q fuel Hb WF V Vd HG A Eg Nq NM.
  assert (K : astar_search_path P D fmap fmap go (S fuel) orig dest = Panic).
  { unfold astar_search_path, astar_search_mapmov, astar_new. cbn [fmap mp_set mp_new mp_default bind heap_push].
    cbn [astar_search_loop]. unfold astar_next. cbn [a_frontier heap_pop heap_take]. rewrite dir_iter_dirs. cbn [bind fst snd a_cost].
    assert (F : forall ds c hp, In d ds -> c orig = 0 -> c q = COST_MAX -> foldM (astar_step_dir P fmap go dest orig) ds (AIt c hp) = Panic).
    { clear - Eg Nq NM WF. induction ds as [|d' ds IH]; intros c hp Hin C0 Cq; [destruct Hin |]. cbn [foldM].
      unfold astar_step_dir at 1. cbn [fmap mp_get mp_set bind a_cost a_frontier]. rewrite C0. unfold uadd at 1. rewrite usize_arith by lia. cbn [bind].
      destruct (go orig d') as [r|] eqn:Er.
      - destruct (0 + 1 <? c r) eqn:L.
        + destruct (pos_dec r q) as [-> | Nr].
          * rewrite manhattan_panics; [reflexivity | exact WF |]. intros (X & _). contradiction.
          * assert (MP : manhattan P r dest = Panic \/ exists m, manhattan P r dest = Ret m).
            { destruct (valid_dec P (Z.abs (fst r - fst dest), Z.abs (snd r - snd dest))) as [M | M].
              - destruct (Z_le_gt_dec (Z.abs (fst r - fst dest) + Z.abs (snd r - snd dest)) 18446744073709551615) as [L' | L'].
                + right. eexists. apply manhattan_measurable; [exact WF | exact M | exact L'].
                + left. apply manhattan_panics; [exact WF |]. intros (_ & X). lia.
              - left. apply manhattan_panics; [exact WF |]. intros (X & _). apply M. exact X. }
            destruct MP as [-> | (m & ->)]; [reflexivity |]. cbn [bind].
            assert (UP : forall x, uadd (0 + 1) x = Panic \/ exists y, uadd (0 + 1) x = Ret y).
            { intros x. unfold uadd, arith. destruct (in_ity usize (0 + 1 + x)); eauto. }
            destruct (UP m) as [-> | (y & ->)]; [reflexivity |]. cbn [bind]. rewrite dir_neg_opp. cbn [bind].
            apply IH.
            -- destruct Hin as [-> | Hin]; [congruence | exact Hin].
            -- rewrite put_neq; [exact C0 |]. intros ->. rewrite C0 in L. discriminate.
            -- rewrite put_neq by exact Nr. exact Cq.
        + cbn [bind]. apply IH; [|exact C0 | exact Cq]. destruct Hin as [-> | Hin]; [|exact Hin]. rewrite Eg in Er. inv Er. rewrite Cq in L. discriminate.
      - cbn [bind]. apply IH; [|exact C0 | exact Cq]. destruct Hin as [-> | Hin]; [congruence | exact Hin]. }
    change (heap_pop (heap_push [] (0, (orig, dir_default)))) with (Some ((0, (orig, dir_default)), @nil entry)). cbn [fst snd].
    rewrite F; [reflexivity | apply dirs_allowed; exact A | apply put_eq |].
    rewrite put_neq by congruence. reflexivity. }
  rewrite <- K. destruct Hb; subst b; cbn [astar_on].
  - apply (astar_search_path_sim P D _ _ _ _ (lawful_hmap _ _) (lawful_hmap _ _) WF go HG); assumption.
  - apply (astar_search_path_sim P D _ _ _ _ (lawful_bmap _ _) (lawful_bmap _ _) WF go HG); assumption.
Qed.
