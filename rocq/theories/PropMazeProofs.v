(** PropMazeProofs.v -- proofs of the statements of PropMaze.v. *)

From Coq Require Import ZArith List Bool Lia.
From Verif Require Import Rust BoundedInt Dir PosT Pos Grid Gridbool SetMap CameFrom Bf Heap Astar Ucs Spec SpecSearch SpecMaze Lib Deque BoundedIntProofs PosTProofs PosTProofs2 PropDirProofs PropPosProofs GridProofs GridProofs2 PropGridProofs GridboolProofs PropGridboolProofs SetMapProofs Sim CameFromProofs PropSetMapProofs BfProofs PropBfProofs.
Import ListNotations.
Open Scope Z_scope.

Lemma next_to_dir : forall D p q, next_to D p q <-> exists d, allowed D d /\ q = step p d.
Proof.
  intros D [a b] [c e]. unfold next_to, allowed, step. cbn [fst snd]. split.
  - intros (N & Hx & Hy & HD).
    assert (K : forall d, delta_x d = c - a -> delta_y d = e - b -> exists d, (D = true \/ delta_x d = 0 \/ delta_y d = 0) /\ (c, e) = (a + delta_x d, b + delta_y d)).
    { intros d E1 E2. exists d. rewrite E1, E2. split; [intuition lia | f_equal; lia]. }
    assert (c - a = -1 \/ c - a = 0 \/ c - a = 1) as [X | [X | X]] by lia; assert (e - b = -1 \/ e - b = 0 \/ e - b = 1) as [Y | [Y | Y]] by lia.
    + apply (K dNW); rewrite ?X, ?Y; reflexivity.
    + apply (K dW); rewrite ?X, ?Y; reflexivity.
    + apply (K dSW); rewrite ?X, ?Y; reflexivity.
    + apply (K dN); rewrite ?X, ?Y; reflexivity.
    + exfalso. apply N. f_equal; lia.
    + apply (K dS); rewrite ?X, ?Y; reflexivity.
    + apply (K dNE); rewrite ?X, ?Y; reflexivity.
    + apply (K dE); rewrite ?X, ?Y; reflexivity.
    + apply (K dSE); rewrite ?X, ?Y; reflexivity.
  - intros (d & A & E). inversion E; subst. destruct d; cbn [delta_x delta_y] in *; repeat split; try lia; try (intros Q; inversion Q; lia); destruct A as [A | [A | A]]; auto; lia.
Qed.

Lemma maze_go_some : forall P walls p d q, grid_type P -> valid P p ->
  (maze_go P walls p d = Some q <-> q = step p d /\ valid P q /\ gb_get P walls q = Ret false).
Proof.
  intros P walls p d q G V. unfold maze_go, pos_dir_add_ok.
  destruct (add_inside P p d (grid_type_wf P G) V) as [(Vs & Ea) | (N & Ea)]; rewrite Ea; cbn [res_ok].
  - destruct (gb_get P walls (step p d)) as [[|] | | |] eqn:E; split; intros K; try discriminate; try (destruct K as (-> & _ & K); congruence).
    inversion K; subst. auto.
  - split; [discriminate |]. intros (-> & V' & _). contradiction.
Qed.

Lemma maze_inside : forall P walls, grid_type P -> go_inside P (maze_go P walls).
Proof. intros P walls G p d q V E. apply (maze_go_some P walls p d q G V) in E. tauto. Qed.

Lemma maze_one_step : forall P walls, grid_type P -> one_step P (maze_go P walls).
Proof. intros P walls G p d q V E. apply (maze_go_some P walls p d q G V) in E. tauto. Qed.

Lemma maze_path : forall P D walls, grid_type P -> forall path p q, valid P p -> Forall (allowed D) path -> follow (maze_go P walls) p path = Some q ->
  route D P walls p (places p path) q.
Proof.
  intros P D walls G. induction path as [|d path IH]; intros p q V A F; cbn [follow places route] in *; [inversion F; reflexivity |].
  destruct (maze_go P walls p d) as [r|] eqn:E; [|discriminate]. apply (maze_go_some P walls p d r G V) in E. destruct E as (-> & Vr & Er).
  inversion A; subst. split; [apply next_to_dir; exists d; auto |]. split; [exact Vr |]. split; [exact Er |]. apply IH; assumption.
Qed.

Lemma places_length : forall path p, length (places p path) = length path.
Proof. induction path as [|d path IH]; intros p; cbn; [reflexivity | rewrite IH; reflexivity]. Qed.

Lemma route_walk : forall P D walls n p q, grid_type P -> valid P p ->
  ((exists l, length l = n /\ route D P walls p l q) <-> walk D (maze_go P walls) p n q).
Proof.
  intros P D walls n p q G V. split.
  - intros (l & <- & R). revert p V R. induction l as [|r l IH]; intros p V R; cbn [route length] in *.
    + subst q. exists []. cbn. auto.
    + destruct R as (N & Vr & Er & R). apply next_to_dir in N. destruct N as (d & A & Ed).
      destruct (IH r Vr R) as (path & Ln & Ap & F). exists (d :: path). split; [cbn; lia |]. split; [constructor; assumption |].
      cbn [follow]. rewrite (proj2 (maze_go_some P walls p d r G V)) by auto. exact F.
  - intros (path & <- & A & F). exists (places p path). split; [apply places_length |]. apply maze_path; assumption.
Qed.

Lemma C114_maze_bfs_proof : forall b P D W walls orig dest,
  usable b P W -> roomy P walls -> valid P orig -> dest <> orig ->
  exists r, returns (fun fuel => bfs_on b P D W fuel (maze_go P walls) orig (fun p => pos_eqb p dest)) r /\
    (r = Err DestinationUnreachable <-> ~ exists l, route D P walls orig l dest) /\
    (forall q path, r = Ok (q, path) -> q = dest /\ route D P walls orig (places orig path) dest /\
       forall l, route D P walls orig l dest -> (length path <= length l)%nat) /\
    (r = Err Loop <-> (exists l, route D P walls orig l dest) /\ forall l, route D P walls orig l dest -> cols P * cols P < Z.of_nat (length l)) /\
    ((exists l, route D P walls orig l dest /\ Z.of_nat (length l) <= cols P * cols P) -> exists path, r = Ok (dest, path)).
Proof.
  intros b P D W walls orig dest U R V N. pose proof (usable_grid_type b P W U) as G.
  pose proof (maze_inside P walls G) as HG. pose proof (maze_one_step P walls G) as OS. set (go := maze_go P walls) in *.
  set (found := fun p => pos_eqb p dest). destruct (C73_bfs_exact_proof b P D W go orig found U V HG OS) as (r & Hr & K1 & K2 & K3).
  assert (RW : forall l, route D P walls orig l dest -> walk D go orig (length l) dest) by (intros l Hl; apply (route_walk P D walls _ orig dest G V); eauto).
  assert (WR : forall n, walk D go orig n dest -> exists l, length l = n /\ route D P walls orig l dest) by (intros n H; apply (route_walk P D walls n orig dest G V); exact H).
  assert (FD : forall q, found q = true <-> q = dest) by (intros q; apply pos_eqb_eq).
  assert (NG : forall n, nearest_goal D go orig found n <-> (exists l, length l = n /\ route D P walls orig l dest) /\ forall l, route D P walls orig l dest -> (n <= length l)%nat).
  { intros n. split.
    - intros ((q & Nq & Fq & Wq) & Mn). apply FD in Fq. subst q. split; [apply WR; exact Wq |]. intros l Hl.
      destruct (Nat.le_gt_cases n (length l)) as [L | L]; [exact L |]. exfalso. apply (Mn (length l) dest L N); [apply FD; reflexivity | apply RW; exact Hl].
    - intros ((l & Ln & Hl) & Mn). split; [exists dest; split; [exact N |]; split; [apply FD; reflexivity | rewrite <- Ln; apply RW; exact Hl] |].
      intros j q Lj _ Fq Wq. apply FD in Fq. subst q. destruct (WR j Wq) as (l' & Ll & Hl'). specialize (Mn l' Hl'). lia. }
  assert (OKP : forall q path, r = Ok (q, path) -> q = dest /\ route D P walls orig (places orig path) dest /\ forall l, route D P walls orig l dest -> (length path <= length l)%nat).
  { intros q path ->. destruct (C48_bfs_shortest_proof b P D W go orig found q path U V HG OS Hr) as (Fq & A & F & M). apply FD in Fq. subst q.
    split; [reflexivity |]. split; [apply maze_path; assumption |]. intros l Hl. apply (M dest); [exact N | apply FD; reflexivity | apply RW; exact Hl]. }
  assert (SH : (exists l, route D P walls orig l dest) -> exists n, nearest_goal D go orig found n).
  { intros (l & Hl). destruct (walk_min D go orig _ _ (RW l Hl)) as (j & Lj & Wj & Mj). exists j. apply NG. split; [apply WR; exact Wj |].
    intros l' Hl'. destruct (Nat.le_gt_cases j (length l')) as [L | L]; [exact L |]. exfalso. apply (Mj _ L). apply RW. exact Hl'. }
  assert (C0 : 0 <= cols P * cols P) by apply Z.square_nonneg.
  exists r. split; [exact Hr |]. split; [|split; [exact OKP | split]].
  - rewrite K1. split.
    + intros H (l & Hl). apply (H dest N); [apply FD; reflexivity |]. exists (length l). apply RW. exact Hl.
    + intros H q Nq Fq (n & Wq). apply FD in Fq. subst q. destruct (WR n Wq) as (l & _ & Hl). apply H. eauto.
  - rewrite K3. split.
    + intros (n & Hn & Ln). apply NG in Hn. destruct Hn as ((l & _ & Hl) & Mn). split; [eauto |]. intros l' Hl'. specialize (Mn l' Hl'). lia.
    + intros (EX & L). destruct (SH EX) as (n & Hn). exists n. split; [exact Hn |]. apply NG in Hn. destruct Hn as ((l & Ln & Hl) & _). specialize (L l Hl). lia.
  - intros (l & Hl & Ll). destruct (SH (ex_intro _ l Hl)) as (n & Hn). destruct (proj2 (K2 n)) as (q & path & -> & _).
    + split; [exact Hn |]. apply NG in Hn. destruct Hn as (_ & Mn). specialize (Mn l Hl). lia.
    + destruct (OKP q path eq_refl) as (-> & _). eauto.
Qed.

Lemma maze_stays : forall P D walls p, grid_type P -> valid P p -> ~ stays D (maze_go P walls) p.
Proof.
  intros P D walls [x y] G V (d & _ & E). apply (maze_go_some P walls (x, y) d (x, y) G V) in E. destruct E as (E & _).
  unfold step in E. cbn [fst snd] in E. inversion E. destruct d; cbn [delta_x delta_y] in *; lia.
Qed.

Lemma numbered_keys : forall vs i, map fst (numbered i vs) = map fst (concat vs).
Proof. induction vs as [|v vs IH]; intros i; cbn; [reflexivity |]. rewrite !map_app, IH, map_map. reflexivity. Qed.

Lemma numbered_In : forall vs i p k, In (p, k) (numbered i vs) <-> exists n v, nth_error vs n = Some v /\ k = i + 1 + Z.of_nat n /\ In p (map fst v).
Proof.
  induction vs as [|v vs IH]; intros i p k; cbn [numbered].
  - split; [intros [] |]. intros ([|n] & w & E & _); discriminate.
  - rewrite in_app_iff, IH, in_map_iff. split.
    + intros [(pd & E & H) | (n & w & E & -> & H)].
      * inversion E; subst. exists 0%nat, v. split; [reflexivity |]. split; [cbn; lia | apply in_map; exact H].
      * exists (S n), w. split; [exact E |]. split; [lia | exact H].
    + intros ([|n] & w & E & -> & H).
      * cbn in E. inversion E; subst. left. apply in_map_iff in H. destruct H as (pd & <- & H). exists pd. split; [f_equal; cbn; lia | exact H].
      * right. exists n, w. split; [exact E |]. split; [lia | exact H].
Qed.

Lemma vectors_levels : forall (vectors : list (list (pos * dir))) level, ~ In [] vectors ->
  (forall n, items_then_none vectors n = map (fun k => match level k with [] => None | l => Some l end) (seq 1 n)) ->
  (forall n v, nth_error vectors n = Some v -> level (S n) = v) /\ forall n, (length vectors <= n)%nat -> level (S n) = [].
Proof.
  intros vectors level NE H. split.
  - intros n v E. specialize (H (S n)). apply (f_equal (fun l => nth_error l n)) in H.
    rewrite nth_error_map, (nth_error_nth' _ 0%nat) in H by (rewrite seq_length; lia). rewrite seq_nth in H by lia. cbn [option_map] in H. change (1 + n)%nat with (S n) in H.
    unfold items_then_none in H. rewrite nth_error_app1 in H.
    2: { rewrite map_length, firstn_length. apply (f_equal (fun o => match o with Some _ => true | None => false end)) in E as E'. assert (nth_error vectors n <> None) by congruence. apply nth_error_Some in H0. lia. }
    rewrite nth_error_map in H. assert (F : nth_error (firstn (S n) vectors) n = Some v).
    { rewrite <- E. clear. revert vectors. induction n as [|n IH]; intros [|a l]; cbn; try reflexivity. apply IH. }
    rewrite F in H. cbn in H. destruct (level (S n)) eqn:EL; inversion H; subst; reflexivity.
  - intros n L. specialize (H (S n)). apply (f_equal (fun l => nth_error l n)) in H.
    rewrite nth_error_map, (nth_error_nth' _ 0%nat) in H by (rewrite seq_length; lia). rewrite seq_nth in H by lia. cbn [option_map] in H. change (1 + n)%nat with (S n) in H.
    unfold items_then_none in H. rewrite firstn_all2 in H by lia. rewrite nth_error_app2 in H by (rewrite map_length; lia).
    destruct (nth_error (repeat None (S n - length vectors)) (n - length (map Some vectors))) as [o|] eqn:E.
    + apply nth_error_In, repeat_spec in E. subst o. destruct (level (S n)); [reflexivity | discriminate].
    + apply nth_error_None in E. rewrite repeat_length, map_length in E. lia.
Qed.

Lemma C115_flood_fill_proof : forall b X Y D W WORDS walls orig, u16_dims X Y -> in_ity usize WORDS = true ->
  let P := Pos X Y in
  usable b P W -> cells P <= 32 * WORDS <= cells P + 32 -> roomy P walls -> valid P orig ->
  exists vectors filled,
    (forall n, bf_yields b P D W (maze_go P walls) orig n = Ret (items_then_none vectors n)) /\
    gb_from_positions P WORDS (map fst (concat vectors)) = Ret filled /\ roomy P filled /\
    forall p, valid P p ->
      (gb_get P filled p = Ret true <-> p <> orig /\ exists l, route D P walls orig l p) /\
      (gb_get P filled p = Ret false <-> ~ (p <> orig /\ exists l, route D P walls orig l p)).
Proof.
  intros b X Y D W WORDS walls orig DI IW P U HW R V. pose proof (Pos_grid_type X Y DI) as G. fold P in G.
  pose proof (maze_inside P walls G) as HG. set (go := maze_go P walls) in *.
  destruct (C47_bf_complete_proof b P D W go orig U V HG) as (vectors & Y1 & _ & _ & ND & RE & ST).
  destruct (proj1 (C37_gridbool_repeat_proof X Y WORDS false DI IW) HW) as (g0 & E0 & _).
  assert (NO : ~ In orig (map fst (concat vectors))) by (rewrite ST; apply maze_stays; assumption).
  assert (IN : forall p, In p (map fst (concat vectors)) <-> p <> orig /\ exists l, route D P walls orig l p).
  { intros p. split.
    - intros H. assert (N : p <> orig) by (intros ->; contradiction). split; [exact N |]. apply (RE p N) in H. destruct H as (n & H).
      apply (route_walk P D walls n orig p G V) in H. destruct H as (l & _ & H). eauto.
    - intros (N & l & H). apply (RE p N). exists (length l). apply (route_walk P D walls _ orig p G V). eauto. }
  assert (VP : forall p, In p (map fst (concat vectors)) -> valid P p).
  { intros p H. apply IN in H. destruct H as (N & l & H). clear - H V. revert V H. generalize orig as o. induction l as [|r l IH]; intros o V H; cbn in H; [subst; exact V |]. destruct H as (_ & Vr & _ & H). apply (IH r Vr H). }
  destruct (C39_gridbool_from_positions_proof X Y WORDS g0 _ DI IW E0 VP) as (g & Eg & Rg & K).
  exists vectors, g. split; [exact Y1 |]. split; [exact Eg |]. split; [exact Rg |]. intros p Vp. destruct (K p Vp) as (K1 & K2). fold P in K1, K2. rewrite K1, K2, IN. tauto.
Qed.

Lemma C116_distance_map_proof : forall b P D W walls orig (g : list Z),
  usable b P W -> roomy P walls -> valid P orig -> proper P g ->
  exists vectors g',
    (forall n, bf_yields b P D W (maze_go P walls) orig n = Ret (items_then_none vectors n)) /\
    grid_extend P g (numbered 0 vectors) = Ret g' /\ proper P g' /\
    forall p, valid P p ->
      (forall l, p <> orig -> route D P walls orig l p -> (forall l', route D P walls orig l' p -> (length l <= length l')%nat) ->
         grid_get P g' p = Ret (Z.of_nat (length l))) /\
      (p = orig \/ (forall l, ~ route D P walls orig l p) -> grid_get P g' p = grid_get P g p).
Proof.
  intros b P D W walls orig g U R V PR. pose proof (usable_grid_type b P W U) as G.
  pose proof (maze_inside P walls G) as HG. pose proof (maze_stays P D walls orig G V) as NS. set (go := maze_go P walls) in *.
  destruct (C47_bf_complete_proof b P D W go orig U V HG) as (vectors & Y1 & _ & NE & ND & RE & ST).
  destruct (C46_bf_levels_partial_proof b P D W go orig U V HG NS) as (level & Y2 & LV).
  assert (NO : ~ In orig (map fst (concat vectors))) by (rewrite ST; exact NS).
  assert (WR : forall p l, route D P walls orig l p -> walk D go orig (length l) p) by (intros p l H; apply (route_walk P D walls _ orig p G V); eauto).
  assert (RW : forall n p, walk D go orig n p -> exists l, length l = n /\ route D P walls orig l p) by (intros n p H; apply (route_walk P D walls n orig p G V); exact H).
  destruct (vectors_levels vectors level NE) as (L1 & L2).
  { intros n. specialize (Y1 n). rewrite Y2 in Y1. inversion Y1. reflexivity. }
  assert (VP : forall p k, In (p, k) (numbered 0 vectors) -> valid P p).
  { intros p k H. apply (in_map fst) in H. rewrite numbered_keys in H. cbn [fst] in H. assert (N : p <> orig) by (intros ->; contradiction).
    apply (RE p N) in H. destruct H as (n & path & _ & _ & F). clear - F HG V. revert V F. generalize orig as o. induction path as [|d path IH]; intros o V F; cbn in F; [inversion F; subst; exact V |].
    destruct (go o d) as [r|] eqn:E; [|discriminate]. apply (IH r); [apply (HG o d); assumption | exact F]. }
  destruct (C36_grid_extend_proof Z P g (numbered 0 vectors) G PR VP) as (g' & Eg & Pg & K).
  exists vectors, g'. split; [exact Y1 |]. split; [exact Eg |]. split; [exact Pg |]. intros p Vp. rewrite (K p Vp). split.
  - intros l N Rl M. assert (AD : at_distance D go orig (length l) p).
    { split; [apply WR; exact Rl |]. intros j Lj Wj. destruct (RW j p Wj) as (l' & <- & Rl'). specialize (M l' Rl'). lia. }
    destruct (length l) as [|k] eqn:El; [destruct l; [|discriminate]; cbn in Rl; congruence |].
    assert (last_given (numbered 0 vectors) p = Some (Z.of_nat (S k))) as ->; [|reflexivity].
    apply last_given_keys; [rewrite numbered_keys; exact ND |]. apply numbered_In.
    assert (IL : In p (map fst (level (S k)))) by (apply (LV (S k)); [lia | exact AD]).
    destruct (nth_error vectors k) as [v|] eqn:Ev.
    + exists k, v. split; [exact Ev |]. split; [lia |]. rewrite <- (L1 k v Ev). exact IL.
    + apply nth_error_None in Ev. rewrite (L2 k Ev) in IL. destruct IL.
  - intros H. assert (last_given (numbered 0 vectors) p = None) as ->; [|reflexivity]. apply last_given_None. rewrite numbered_keys.
    destruct H as [-> | H]; [exact NO |]. destruct (pos_eqb p orig) eqn:E; [apply pos_eqb_eq in E; subst; exact NO |].
    intros I0. apply RE in I0; [|intros ->; rewrite (proj2 (pos_eqb_eq _ _) eq_refl) in E; discriminate]. destruct I0 as (n & Wn). destruct (RW n p Wn) as (l & _ & Rl). exact (H l Rl).
Qed.

Lemma C117_grid_reverse_proof : forall (T : Type) P (g : list T), grid_type P -> proper P g ->
  proper P (rev g) /\
  (forall x y, valid P (x, y) -> grid_get P (rev g) (XM P - x, YM P - y) = grid_get P g (x, y)) /\
  bind (grid_flip_h P g) (fun h => grid_flip_v P h) = Ret (rev g) /\
  bind (grid_flip_v P g) (fun h => grid_flip_h P h) = Ret (rev g).
Proof.
  intros T P g G PR.
  assert (VM : forall x y, valid P (x, y) -> valid P (XM P - x, YM P - y) /\ valid P (XM P - x, y) /\ valid P (x, YM P - y)).
  { intros x y V. apply (valid_nums P _ G) in V. cbn [fst snd] in V. split; [|split]; apply (valid_nums P _ G); cbn [fst snd]; lia. }
  assert (PR' : proper P (rev g)) by (unfold proper in *; rewrite rev_length; exact PR).
  assert (GR : forall x y, valid P (x, y) -> grid_get P (rev g) (XM P - x, YM P - y) = grid_get P g (x, y)).
  { intros x y V. destruct (VM x y V) as (V' & _). rewrite (get_nth P G _ _ V), (get_nth P G _ _ V').
    pose proof (index_bound P _ G V) as B. pose proof (index_bound P _ G V') as B'. unfold proper in PR.
    replace (nth_error (rev g) (Z.to_nat (index_of P (XM P - x, YM P - y)))) with (nth_error g (Z.to_nat (index_of P (x, y)))); [reflexivity |].
    assert (LR : forall n, (n < length g)%nat -> nth_error (rev g) (length g - S n) = nth_error g n).
    { intros n Hn. destruct (nth_error g n) as [v|] eqn:E; [|apply nth_error_None in E; lia].
      destruct g as [|d0 g0]; [cbn in Hn; lia |]. rewrite (nth_error_nth' _ d0) by (rewrite rev_length; lia). f_equal. rewrite rev_nth by lia.
      replace (length (d0 :: g0) - S (length (d0 :: g0) - S n))%nat with n by lia. apply nth_error_nth. exact E. }
    rewrite <- LR by lia. f_equal. unfold index_of, cells, cols, rows in *. cbn [fst snd] in *. nia. }
  split; [exact PR' |]. split; [exact GR |].
  destruct (C31_grid_flips_proof T P g G PR) as (gh & gv & Eh & Ev & Ph & Pv & _ & _ & Kh & Kv & _).
  rewrite Eh, Ev. cbn [bind].
  destruct (C31_grid_flips_proof T P gh G Ph) as (_ & ghv & _ & Ehv & _ & Phv & _ & _ & _ & Khv & _).
  destruct (C31_grid_flips_proof T P gv G Pv) as (gvh & _ & Evh & _ & Pvh & _ & _ & _ & Kvh & _).
  rewrite Ehv, Evh. split; f_equal; apply (grid_ext P G); try assumption; intros [x y] V; destruct (VM x y V) as (V' & V1 & V2);
    specialize (GR _ _ V'); replace (XM P - (XM P - x)) with x in GR by lia; replace (YM P - (YM P - y)) with y in GR by lia; rewrite GR.
  - destruct (Khv _ _ V2) as (_ & E1). replace (YM P - (YM P - y)) with y in E1 by lia. rewrite E1.
    destruct (Kh _ _ V') as (_ & E2). replace (XM P - (XM P - x)) with x in E2 by lia. exact E2.
  - destruct (Kvh _ _ V1) as (_ & E1). replace (XM P - (XM P - x)) with x in E1 by lia. rewrite E1.
    destruct (Kv _ _ V') as (_ & E2). replace (YM P - (YM P - y)) with y in E2 by lia. exact E2.
Qed.
