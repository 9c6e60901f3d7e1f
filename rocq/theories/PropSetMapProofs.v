(** PropSetMapProofs.v -- proofs of the statements of PropSetMap.v. *)

From Coq Require Import ZArith List Bool Lia.
From Verif Require Import Rust BoundedInt Dir PosT Pos Grid Gridbool SetMap CameFrom Bf Heap Astar Ucs Spec SpecSearch Lib Deque BoundedIntProofs PosTProofs PosTProofs2 PropGridboolProofs SetMapProofs Sim CameFromProofs.
Import ListNotations.
Open Scope Z_scope.

Lemma lawful_set_runs : forall {S} P (so : setops S) R, lawful_set P so R -> forall ops s f, R s f ->
  Forall (fun o => valid P (set_op_pos o)) ops -> run_set_ops so s ops = Ret (set_answers f ops).
Proof.
  intros S P so R L ops. induction ops as [|o ops IH]; intros s f HR F; [reflexivity |].
  inversion F as [|? ? V F']; subst. destruct o as [p | p | p b | p]; cbn [run_set_ops set_answers set_op_pos] in *.
  - destruct (ls_insert _ _ _ L _ _ p HR V) as (s' & E & HR'). rewrite E. cbn [bind]. apply (IH _ _ HR' F').
  - destruct (ls_remove _ _ _ L _ _ p HR V) as (s' & E & HR'). rewrite E. cbn [bind]. apply (IH _ _ HR' F').
  - unfold sp_set. destruct b.
    + destruct (ls_insert _ _ _ L _ _ p HR V) as (s' & E & HR'). rewrite E. cbn [bind]. apply (IH _ _ HR' F').
    + destruct (ls_remove _ _ _ L _ _ p HR V) as (s' & E & HR'). rewrite E. cbn [bind]. apply (IH _ _ HR' F').
  - rewrite (ls_contains _ _ _ L _ _ p HR V). cbn [bind]. rewrite (IH _ _ HR F'). reflexivity.
Qed.

Lemma lawful_map_runs : forall {Item M} P (mo : mapops Item M) R, lawful_map P mo R -> forall ops m f, R m f ->
  Forall (fun o => valid P (map_op_pos o)) ops -> run_map_ops mo m ops = Ret (map_answers f ops).
Proof.
  intros Item M P mo R L ops. induction ops as [|o ops IH]; intros m f HR F; [reflexivity |].
  inversion F as [|? ? V F']; subst. destruct o as [p v | p]; cbn [run_map_ops map_answers map_op_pos] in *.
  - destruct (lm_set _ _ _ L _ _ p v HR V) as (m' & E & HR'). rewrite E. cbn [bind]. apply (IH _ _ HR' F').
  - rewrite (lm_get _ _ _ L _ _ p HR V). cbn [bind]. rewrite (IH _ _ HR F'). reflexivity.
Qed.

Lemma usable_gridbool : forall X Y W, u16_dims X Y -> cells (Pos X Y) <= 32 * W <= cells (Pos X Y) + 32 ->
  lawful_set (Pos X Y) (set_gridbool (Pos X Y) W) (R_gridbool (Pos X Y)).
Proof.
  intros X Y W D HW. pose proof (Pos_grid_type X Y D) as G. pose proof (cols_pos _ G). pose proof (rows_pos _ G).
  assert (C : 1 <= cells (Pos X Y) <= 4294967296) by (unfold cells in *; nia).
  assert (I : in_ity usize W = true).
  { apply in_ity_true. unfold usize, u64. cbn [imin imax]. lia. }
  destruct (C37_gridbool_repeat_proof X Y W false D I) as (H1 & _). destruct (H1 HW) as (g & _ & R & _ & V & _ & E).
  destruct (E eq_refl) as (_ & E'). apply (lawful_gridbool (Pos X Y) W g); assumption.
Qed.

Lemma C43_set_backends_gridbool_proof : forall X Y WORDS ops, let P := Pos X Y in
  u16_dims X Y -> cells P <= 32 * WORDS <= cells P + 32 ->
  Forall (fun o => valid P (set_op_pos o)) ops ->
  bind (gb_default P WORDS) (fun s => run_set_ops (set_gridbool P WORDS) s ops) =
    Ret (set_answers (fun _ => false) ops).
Proof.
  intros X Y W ops P D HW F. pose proof (usable_gridbool X Y W D HW) as L.
  destruct (ls_default _ _ _ L) as (s & E & HR). cbn [set_gridbool sp_default] in E. fold P in E. rewrite E. cbn [bind].
  apply (lawful_set_runs P _ _ L); assumption.
Qed.

Lemma C43_set_backends_std_proof : forall P ops, Forall (fun o => valid P (set_op_pos o)) ops ->
  run_set_ops set_hash [] ops = Ret (set_answers (fun _ => false) ops) /\
  run_set_ops set_btree [] ops = Ret (set_answers (fun _ => false) ops).
Proof.
  intros P ops F. split.
  - destruct (ls_default _ _ _ (lawful_hset P)) as (s & E & HR). inv E. apply (lawful_set_runs P _ _ (lawful_hset P)); assumption.
  - destruct (ls_default _ _ _ (lawful_bset P)) as (s & E & HR). inv E. apply (lawful_set_runs P _ _ (lawful_bset P)); assumption.
Qed.

Lemma C43_map_backends_proof : forall Item P (dflt : Item) ops, grid_type P ->
  Forall (fun o => valid P (map_op_pos o)) ops ->
  let answers := map_answers (fun _ => dflt) ops in
  run_map_ops (map_grid P (cells P)) (mp_new (map_grid P (cells P)) dflt) ops = Ret answers /\
  run_map_ops (map_grid P (cells P)) (mp_default (map_grid P (cells P)) dflt) ops = Ret answers /\
  run_map_ops map_hash (mp_new map_hash dflt) ops = Ret answers /\
  run_map_ops map_hash (mp_default map_hash dflt) ops = Ret answers /\
  run_map_ops map_btree (mp_new map_btree dflt) ops = Ret answers /\
  run_map_ops map_btree (mp_default map_btree dflt) ops = Ret answers.
Proof.
  intros Item P dflt ops G F answers. pose proof (lawful_grid Item P G) as L1. pose proof (lawful_hmap Item P) as L2.
  pose proof (lawful_bmap Item P) as L3.
  split; [apply (lawful_map_runs P _ _ L1); [apply (lm_new _ _ _ L1) | exact F] |].
  split; [apply (lawful_map_runs P _ _ L1); [apply (lm_default _ _ _ L1) | exact F] |].
  split; [apply (lawful_map_runs P _ _ L2); [apply (lm_new _ _ _ L2) | exact F] |].
  split; [apply (lawful_map_runs P _ _ L2); [apply (lm_default _ _ _ L2) | exact F] |].
  split; [apply (lawful_map_runs P _ _ L3); [apply (lm_new _ _ _ L3) | exact F] |].
  apply (lawful_map_runs P _ _ L3); [apply (lm_default _ _ _ L3) | exact F].
Qed.

Lemma C44_camefrom_sound_proof : forall M P (mo : mapops (option dir) M) m f orig dest,
  grid_type P -> valid P orig -> valid P dest ->
  (forall p, valid P p -> mp_get mo m p = Ret (f p)) ->
  exists r, returns (fun fuel => camefrom_into_path P mo fuel m orig dest) r /\
    (r = Err DestinationUnreachable <-> f dest = None) /\
    (forall path, r = Ok path -> walk_inside P orig path dest).
Proof.
  intros M P mo m f orig dest G Vo V Hm. eexists. split.
  - exists (maxn P). intros fuel Hf. apply (into_path_bp P G f orig mo m fuel dest Hm Vo V Hf).
  - destruct (f dest) as [d|] eqn:E; cbn.
    + split.
      * split; [|discriminate]. intros H. apply bp_err in H. destruct H; discriminate.
      * intros path H. destruct (bp_ok P (grid_type_wf P G) f orig _ _ _ _ V H) as (ds & -> & H1 & _). rewrite app_nil_r. exact H1.
    + split; [tauto | discriminate].
Qed.

Lemma C71_camefrom_exact_proof : forall M P (mo : mapops (option dir) M) m f orig dest,
  grid_type P -> valid P orig -> valid P dest ->
  (forall p, valid P p -> mp_get mo m p = Ret (f p)) -> f dest <> None ->
  let limit := Z.to_nat (cols P * cols P) in
  exists r, returns (fun fuel => camefrom_into_path P mo fuel m orig dest) r /\
    (forall n, (exists path, r = Ok path /\ length path = n) <-> (n <= limit)%nat /\ leads_back P f orig n dest) /\
    (r = Err Loop <-> goes_on P f orig (S limit) dest) /\
    (r = Err InvalidMovement <-> (~ exists n, (n <= limit)%nat /\ leads_back P f orig n dest) /\ ~ goes_on P f orig (S limit) dest).
Proof.
  intros M P mo m f orig dest G Vo V Hm Hd limit.
  assert (EL : maxn P = S limit) by (unfold maxn, limit; pose proof (cols_sq P G); lia).
  exists (bp P f orig (maxn P) dest []). split.
  { exists (maxn P). intros fuel Hf. rewrite (into_path_bp P G f orig mo m fuel dest Hm Vo V Hf).
    destruct (f dest); [reflexivity | contradiction]. }
  assert (OK : forall n, (exists path, bp P f orig (maxn P) dest [] = Ok path /\ length path = n) <-> (n <= limit)%nat /\ leads_back P f orig n dest).
  { intros n. split.
    - intros (path & E & L). destruct (bp_ok P (grid_type_wf P G) f orig _ _ _ _ V E) as (ds & -> & _ & H1 & H2).
      rewrite app_nil_r in L. subst n. split; [lia | exact H1].
    - intros (Hn & H). destruct (bp_leads P (grid_type_wf P G) f orig n (maxn P) dest [] V H ltac:(lia)) as (ds & E & L).
      exists ds. rewrite app_nil_r in E. auto. }
  split; [exact OK |]. rewrite <- EL. split; [apply (bp_loop P (grid_type_wf P G) f orig); exact V |].
  split.
  - intros E. split.
    + intros (n & Hn). apply OK in Hn. destruct Hn as (path & E' & _). congruence.
    + intros H. apply (bp_loop P (grid_type_wf P G) f orig _ _ [] V) in H. congruence.
  - intros (H1 & H2). destruct (bp P f orig (maxn P) dest []) as [path | e] eqn:E.
    + exfalso. apply H1. exists (length path). apply OK. exists path. auto.
    + destruct (bp_err _ _ _ _ _ _ _ E) as [-> | ->]; [|reflexivity]. apply (bp_loop P (grid_type_wf P G) f orig _ _ [] V) in E. contradiction.
Qed.

Lemma C45_camefrom_loop_refuted_proof : exists X Y (g : grid (option dir)) orig dest f,
  u16_dims X Y /\ let P := Pos X Y in
  proper P g /\ valid P orig /\ valid P dest /\ (forall p, valid P p -> grid_get P g p = Ret (f p)) /\
  leads_back P f orig 2 dest /\
  returns (fun fuel => camefrom_into_path P (map_grid P (cells P)) fuel g orig dest) (Err Loop).
Proof.
  exists 0, 2, [None; Some dN; Some dN], (0, 0), (0, 2), (fun p => if snd p =? 0 then None else Some dN).
  split; [unfold u16_dims; lia |]. cbv zeta.
  split; [reflexivity |]. split; [cbv; repeat split; discriminate |]. split; [cbv; repeat split; discriminate |].
  assert (V : forall p, valid (Pos 0 2) p -> p = (0, 0) \/ p = (0, 1) \/ p = (0, 2)).
  { intros [x y] H. unfold valid, in_bty in H. cbn in H. assert (x = 0) by lia. subst x.
    assert (Hy : y = 0 \/ y = 1 \/ y = 2) by lia. destruct Hy as [-> | [-> | ->]]; auto. }
  split; [intros p Hp; destruct (V p Hp) as [-> | [-> | ->]]; reflexivity |].
  split.
  { cbn [leads_back]. split; [discriminate |]. exists dN. split; [reflexivity |]. split; [cbv; repeat split; discriminate |].
    split; [discriminate |]. exists dN. split; [reflexivity |]. split; [cbv; repeat split; discriminate | reflexivity]. }
  exists 2%nat. intros fuel Hf. destruct fuel as [|[|fuel]]; [lia | lia |]. reflexivity.
Qed.

Lemma C45_camefrom_loop_partial_proof : forall M P (mo : mapops (option dir) M) m f orig dest,
  grid_type P -> rows P <= cols P -> valid P orig -> valid P dest ->
  (forall p, valid P p -> mp_get mo m p = Ret (f p)) -> f dest <> None ->
  exists r, returns (fun fuel => camefrom_into_path P mo fuel m orig dest) r /\
    (r = Err Loop <-> forall n, goes_on P f orig n dest) /\
    (forall n, (exists path, r = Ok path /\ length path = n) <-> leads_back P f orig n dest).
Proof.
  intros M P mo m f orig dest G HRC Vo V Hm Hd.
  destruct (C71_camefrom_exact_proof M P mo m f orig dest G Vo V Hm Hd) as (r & H1 & H2 & H3 & _).
  pose proof (cols_pos P G). pose proof (rows_pos P G).
  assert (HC : cells P <= cols P * cols P) by (unfold cells; nia).
  exists r. split; [exact H1 |]. split.
  - rewrite H3. split; [|auto]. intros H4. refine (goes_for_ever P G f orig _ _ V _ H4). lia.
  - intros n. rewrite H2. split; [tauto |]. intros H4. split; [|exact H4].
    pose proof (leads_short P G f orig n dest V H4). lia.
Qed.

Lemma usable_grid_type : forall b P W, usable b P W -> grid_type P.
Proof.
  intros [] P W H; cbn in H; [|exact H | exact H]. destruct H as (X & Y & D & -> & _). apply Pos_grid_type. exact D.
Qed.

Lemma bfs_on_f : forall b P D W fuel go orig found, usable b P W -> valid P orig -> go_inside P go ->
  bfs_on b P D W fuel go orig found = bf_search_path P D fset fmap go fuel orig found.
Proof.
  intros b P D W fuel go orig found U V HG. pose proof (usable_grid_type b P W U) as G. pose proof (grid_type_wf P G) as WF.
  destruct b; cbn [bfs_on].
  - destruct U as (X & Y & DM & E & HW). subst P.
    apply (bf_search_path_sim (Pos X Y) D _ _ (usable_gridbool X Y W DM HW) WF go HG _ _ (lawful_grid _ _ G)). exact V.
  - apply (bf_search_path_sim P D _ _ (lawful_hset P) WF go HG _ _ (lawful_hmap _ _)). exact V.
  - apply (bf_search_path_sim P D _ _ (lawful_bset P) WF go HG _ _ (lawful_bmap _ _)). exact V.
Qed.

Lemma astar_on_f : forall b P D W fuel go orig dest, usable b P W -> valid P orig -> valid P dest -> go_inside P go ->
  astar_on b P D fuel go orig dest = astar_search_path P D fmap fmap go fuel orig dest.
Proof.
  intros b P D W fuel go orig dest U V Vd HG. pose proof (usable_grid_type b P W U) as G. pose proof (grid_type_wf P G) as WF.
  destruct b; cbn [astar_on].
  - apply (astar_search_path_sim P D _ _ _ _ (lawful_grid _ _ G) (lawful_grid _ _ G) WF go HG); assumption.
  - apply (astar_search_path_sim P D _ _ _ _ (lawful_hmap _ _) (lawful_hmap _ _) WF go HG); assumption.
  - apply (astar_search_path_sim P D _ _ _ _ (lawful_bmap _ _) (lawful_bmap _ _) WF go HG); assumption.
Qed.

Lemma ucs_on_f : forall b P D W fuel go orig dest, usable b P W -> valid P orig -> valid P dest -> go_inside P (move_of go) ->
  ucs_on b P D fuel go orig dest = ucs_search_path P D fmap fmap go fuel orig dest.
Proof.
  intros b P D W fuel go orig dest U V Vd HG. pose proof (usable_grid_type b P W U) as G. pose proof (grid_type_wf P G) as WF.
  destruct b; cbn [ucs_on].
  - apply (ucs_search_path_sim P D _ _ _ _ (lawful_grid _ _ G) (lawful_grid _ _ G) WF go HG); assumption.
  - apply (ucs_search_path_sim P D _ _ _ _ (lawful_hmap _ _) (lawful_hmap _ _) WF go HG); assumption.
  - apply (ucs_search_path_sim P D _ _ _ _ (lawful_bmap _ _) (lawful_bmap _ _) WF go HG); assumption.
Qed.

Lemma C57_backend_independence_proof : forall b1 b2 P D W1 W2 fuel orig dest,
  usable b1 P W1 -> usable b2 P W2 -> valid P orig -> valid P dest ->
  (forall go found, go_inside P go ->
    bfs_on b1 P D W1 fuel go orig found = bfs_on b2 P D W2 fuel go orig found /\
    astar_on b1 P D fuel go orig dest = astar_on b2 P D fuel go orig dest) /\
  (forall go, go_inside P (move_of go) ->
    ucs_on b1 P D fuel go orig dest = ucs_on b2 P D fuel go orig dest).
Proof.
  intros b1 b2 P D W1 W2 fuel orig dest U1 U2 V Vd. split.
  - intros go found HG. split.
    + rewrite (bfs_on_f b1), (bfs_on_f b2) by assumption. reflexivity.
    + rewrite (astar_on_f b1 P D W1), (astar_on_f b2 P D W2) by assumption. reflexivity.
  - intros go HG. rewrite (ucs_on_f b1 P D W1), (ucs_on_f b2 P D W2) by assumption. reflexivity.
Qed.
