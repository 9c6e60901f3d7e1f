(** PropPathProofs.v -- proofs of the statements of PropPath.v. *)

From Coq Require Import ZArith List Bool Lia.
From Verif Require Import Rust BoundedInt Dir PosT Pos Grid Gridbool SetMap CameFrom Bf Heap Astar Ucs Spec SpecSearch SpecMaze Lib Deque BoundedIntProofs PosTProofs PosTProofs2 PropDirProofs PropPosProofs GridProofs GridProofs2 PropGridProofs GridboolProofs PropGridboolProofs SetMapProofs Sim CameFromProofs PropSetMapProofs BfProofs PropBfProofs BestFirst SearchProofs UcsProofs PropUcsProofs AstarProofs PropAstarProofs PropAgreeProofs PropMazeProofs.
Import ListNotations.
Open Scope Z_scope.

(** Going back from [p] to [orig] takes [n] moves. *)
Fixpoint back {M} (mo : mapops (option dir) M) (m : M) (orig : pos) (n : nat) (p : pos) : Prop :=
  match n with
  | O => p = orig
  | S n' => p <> orig /\ exists d, mp_get mo m p = Ret (Some d) /\ back mo m orig n' (step p d)
  end.

Lemma back_unique : forall M (mo : mapops (option dir) M) m orig n n' p, back mo m orig n p -> back mo m orig n' p -> n = n'.
Proof.
  intros M mo m orig. induction n as [|n IH]; intros [|n'] p H H'; cbn in *; try tauto.
  destruct H as (_ & d & E & H), H' as (_ & d' & E' & H'). rewrite E in E'. inv E'. f_equal. eapply IH; eassumption.
Qed.

Lemma places_app : forall l l' p, places p (l ++ l') = places p l ++ places (last (places p l) p) l'.
Proof.
  induction l as [|d l IH]; intros l' p; [reflexivity |]. cbn [places app]. rewrite IH. f_equal. f_equal. f_equal.
  destruct (places (step p d) l) as [|q r] eqn:E; [reflexivity |]. change (last (q :: r) (step p d) = last (q :: r) p).
  clear. revert q. induction r as [|x r IH]; intros q; [reflexivity |]. cbn [last]. apply IH.
Qed.

Lemma NoDup_app_one : forall (l : list pos) p, NoDup l -> ~ In p l -> NoDup (l ++ [p]).
Proof. intros l p ND N. eapply Permutation.Permutation_NoDup; [apply Permutation.Permutation_cons_append | constructor; assumption]. Qed.

Lemma camefrom_loop_back : forall M P (mo : mapops (option dir) M) m orig, post_wf P -> forall fuel ret p k path, valid P p ->
  camefrom_loop P mo fuel m orig ret p k = Ret (Ok path) ->
  exists ds, path = ds ++ ret /\ last (places orig ds) orig = p /\ NoDup (orig :: places orig ds) /\ back mo m orig (length ds) p /\
    forall q, In q (orig :: places orig ds) -> exists j, (j <= length ds)%nat /\ back mo m orig j q.
Proof.
  intros M P mo m orig W. induction fuel as [|fuel IH]; intros ret p k path V E; cbn [camefrom_loop] in E; [discriminate |].
  destruct (pos_eqb p orig) eqn:Ep; cbn [negb] in E.
  - inv E. apply pos_eqb_eq in Ep. subst p. exists []. split; [reflexivity |]. split; [reflexivity |].
    split; [constructor; [intros [] | constructor] |]. split; [reflexivity |]. intros q [<- | []]. exists 0%nat. split; [lia | reflexivity].
  - apply pos_eqb_neq in Ep. destruct (mp_get mo m p) as [[d|] | | |] eqn:Eg; cbn [bind] in E; try discriminate.
    rewrite dir_neg_opp in E. cbn [bind] in E.
    destruct (add_inside P p d W V) as [(Vs & Ea) | (_ & Ea)]; rewrite Ea in E; [|discriminate].
    destruct (usub k 1) as [k' | | |]; cbn [bind] in E; try discriminate. destruct (k' =? 0); [discriminate |].
    destruct (IH _ _ _ _ Vs E) as (ds & -> & L & ND & B & K).
    assert (B' : back mo m orig (S (length ds)) p) by (split; [exact Ep |]; exists d; auto).
    assert (EP : places orig (ds ++ [opp d]) = places orig ds ++ [p]) by (rewrite places_app, L; cbn [places]; rewrite step_opp; reflexivity).
    exists (ds ++ [opp d]). rewrite <- app_assoc, EP, app_length. cbn [length]. rewrite Nat.add_1_r.
    split; [reflexivity |]. split; [apply last_last |]. split.
    + change (NoDup ((orig :: places orig ds) ++ [p])). apply NoDup_app_one; [exact ND |]. intros Hp. destruct (K p Hp) as (j & Hj & Bj).
      pose proof (back_unique _ _ _ _ _ _ _ Bj B'). lia.
    + split; [exact B' |]. intros q Hq. change (In q ((orig :: places orig ds) ++ [p])) in Hq. apply in_app_or in Hq.
      destruct Hq as [Hq | [<- | []]]; [destruct (K q Hq) as (j & Hj & Bj); exists j; split; [lia | exact Bj] | exists (S (length ds)); auto].
Qed.

(** * Simple paths *)

Lemma C118_camefrom_simple_proof : forall M P (mo : mapops (option dir) M) m fuel orig dest path,
  post_wf P -> valid P dest -> camefrom_into_path P mo fuel m orig dest = Ret (Ok path) ->
  NoDup (orig :: places orig path) /\ last (places orig path) orig = dest.
Proof.
  intros M P mo m fuel orig dest path W V E. unfold camefrom_into_path in E.
  destruct (manhattan P orig dest) as [dist | | |]; cbn [bind] in E; try discriminate.
  destruct (umul 2 dist) as [cap | | |]; cbn [bind] in E; try discriminate.
  destruct (arith isize cap) as [? | | |]; cbn [bind] in E; try discriminate.
  destruct (mp_get mo m dest) as [[d|] | | |]; cbn [bind] in E; try discriminate.
  destruct (width P) as [w | | |]; cbn [bind] in E; try discriminate.
  destruct (umul w w) as [ww | | |]; cbn [bind] in E; try discriminate.
  destruct (uadd ww 1) as [k | | |]; cbn [bind] in E; try discriminate.
  destruct (camefrom_loop_back M P mo m orig W fuel [] dest k path V E) as (ds & -> & L & ND & _). rewrite app_nil_r. auto.
Qed.

Lemma C118_ucs_simple_proof : forall b P D fuel go orig dest path,
  post_wf P -> valid P dest -> ucs_on b P D fuel go orig dest = Ret (Ok path) ->
  NoDup (orig :: places orig path) /\ last (places orig path) orig = dest.
Proof.
  intros b P D fuel go orig dest path W V E.
  destruct b; cbn [ucs_on] in E; unfold ucs_path_grid, ucs_path_hash, ucs_path_btree, ucs_search_path in E;
    match type of E with bind ?x _ = _ => destruct x as [[m | e] | | |]; cbn [bind] in E; try discriminate end;
    eapply C118_camefrom_simple_proof; eassumption.
Qed.

Lemma C118_astar_simple_proof : forall b P D fuel go orig dest path,
  post_wf P -> valid P dest -> astar_on b P D fuel go orig dest = Ret (Ok path) ->
  NoDup (orig :: places orig path) /\ last (places orig path) orig = dest.
Proof.
  intros b P D fuel go orig dest path W V E.
  destruct b; cbn [astar_on] in E; unfold astar_path_grid, astar_path_hash, astar_path_btree, astar_search_path in E;
    match type of E with bind ?x _ = _ => destruct x as [[m | e] | | |]; cbn [bind] in E; try discriminate end;
    eapply C118_camefrom_simple_proof; eassumption.
Qed.

Lemma C118_bfs_simple_proof : forall b P D W go orig found dest path,
  usable b P W -> valid P orig -> go_inside P go -> one_step P go ->
  returns (fun fuel => bfs_on b P D W fuel go orig found) (Ok (dest, path)) ->
  NoDup (orig :: places orig path) /\ last (places orig path) orig = dest.
Proof.
  intros b P D W go orig found dest path U V HG O R.
  destruct (C48_bfs_shortest_proof b P D W go orig found dest path U V HG O R) as (_ & A & F & _).
  assert (Vd : valid P dest) by (eapply walk_valid; [exact HG | exact V |]; exists path; eauto).
  pose proof (grid_type_wf P (usable_grid_type b P W U)) as Wf.
  destruct R as (n & R). specialize (R n (Nat.le_refl _)).
  destruct b; cbn [bfs_on] in R; unfold bfs_path_grid, bfs_path_hash, bfs_path_btree, bf_search_path in R;
    match type of R with bind ?x _ = _ => destruct x as [[[q m] | e] | | |]; cbn [bind] in R; try discriminate end;
    match type of R with bind ?x _ = _ => destruct x as [[l | e] | | |] eqn:E; cbn [bind] in R; try discriminate end;
    injection R as -> ->; eapply C118_camefrom_simple_proof; eassumption.
Qed.

(** * How far A* strays *)

Definition ordered (g : pos -> Z) (l : list pos) : Prop :=
  forall i j x y, (i <= j)%nat -> nth_error l i = Some x -> nth_error l j = Some y -> g x <= g y.

Lemma ordered_snoc : forall g l p, ordered g l -> (forall x, In x l -> g x <= g p) -> ordered g (l ++ [p]).
Proof.
  intros g l p H K i j x y L Hi Hj.
  destruct (Nat.lt_ge_cases j (length l)) as [Lj | Lj].
  - rewrite nth_error_app1 in Hi, Hj by lia. exact (H i j x y L Hi Hj).
  - rewrite nth_error_app2 in Hj by lia. destruct (j - length l)%nat as [|k] eqn:Ek; [|destruct k; discriminate]. cbn in Hj. inv Hj.
    destruct (Nat.lt_ge_cases i (length l)) as [Li | Li].
    + rewrite nth_error_app1 in Hi by lia. apply K. eapply nth_error_In. exact Hi.
    + rewrite nth_error_app2 in Hi by lia. destruct (i - length l)%nat as [|k]; [|destruct k; discriminate]. cbn in Hi. inv Hi. lia.
Qed.

Lemma bp_ordered : forall P f orig (Q : pos -> Prop) (g : pos -> Z), post_wf P ->
  (forall p d, Q p -> p <> orig -> f p = Some d -> Q (step p d) /\ g (step p d) <= g p) ->
  forall n p path, Q p -> valid P p -> bp P f orig n p [] = Ok path ->
  ordered g (orig :: places orig path) /\ (forall x, In x (orig :: places orig path) -> Q x) /\ last (places orig path) orig = p.
Proof.
  intros P f orig Q g W HQ.
  assert (K : forall n p ret path, Q p -> valid P p -> bp P f orig n p ret = Ok path ->
    exists ds, path = ds ++ ret /\ ordered g (orig :: places orig ds) /\ (forall x, In x (orig :: places orig ds) -> Q x /\ g x <= g p) /\ last (places orig ds) orig = p).
  { induction n as [|n IH]; intros p ret path Hp V E; cbn [bp] in E; [discriminate |].
    destruct (pos_eqb p orig) eqn:Ep.
    - inv E. apply pos_eqb_eq in Ep. subst p. exists []. split; [reflexivity |]. split.
      + intros i j x y _ Hi Hj. destruct i as [|i]; [|destruct i; discriminate]. destruct j as [|j]; [|destruct j; discriminate]. cbn in *. injection Hi as <-. injection Hj as <-. lia.
      + split; [|reflexivity]. intros x [<- | []]. split; [exact Hp | lia].
    - apply pos_eqb_neq in Ep. destruct (f p) as [d|] eqn:Ef; [|discriminate].
      destruct (add_inside P p d W V) as [(Vs & Ea) | (_ & Ea)]; rewrite Ea in E; [|discriminate].
      destruct (HQ p d Hp Ep Ef) as (H1 & H2). destruct (IH _ _ _ H1 Vs E) as (ds & -> & H3 & H4 & H5).
      assert (EP : orig :: places orig (ds ++ [opp d]) = (orig :: places orig ds) ++ [p]) by (rewrite places_app, H5; cbn [places app]; rewrite step_opp; reflexivity).
      exists (ds ++ [opp d]). rewrite <- app_assoc. split; [reflexivity |]. split; [|split].
      + rewrite EP. apply ordered_snoc; [exact H3 |]. intros x Hx. destruct (H4 x Hx). lia.
      + rewrite EP. intros x Hx. apply in_app_or in Hx. destruct Hx as [Hx | [<- | []]]; [destruct (H4 x Hx); split; [assumption | lia] | split; [exact Hp | lia]].
      + rewrite places_app, H5. cbn [places]. rewrite step_opp, last_last. reflexivity. }
  intros n p path Hp V E. destruct (K n p [] path Hp V E) as (ds & -> & H1 & H2 & H3). rewrite app_nil_r.
  split; [exact H1 |]. split; [|exact H3]. intros x Hx. apply H2. exact Hx.
Qed.

(** Going back never increases the estimated total. *)
Lemma run_back_ordered : forall P D succ h orig, valid P orig ->
  (forall p d q w, valid P p -> succ p d = Some (q, w) -> valid P q /\ 0 <= w) -> affordable D P succ orig ->
  (forall p d q w, valid P p -> allowed D d -> succ p d = Some (q, w) -> h p <= w + h q) -> (forall p, valid P p -> 0 <= h p) ->
  one_step P (move_of succ) -> forall c hp tr p d, Run D succ h orig c hp tr -> popped tr p -> p <> orig -> lastdir tr p = Some d ->
  popped tr (step p d) /\ c (step p d) + h (step p d) <= c p + h p.
Proof.
  intros P D succ h orig Vo HS HA HH H0 O c hp tr p d R Hp N El.
  destruct (inv1_run P D succ h orig Vo HS HA HH H0 c hp tr R) as (ord & J); [intros ->; destruct Hp as (x & [] & _) |].
  destruct (lastdir_some tr p Hp) as (e & He & Ee & Ed). rewrite El in Ed. inv Ed.
  destruct (j_just _ _ _ _ _ _ _ _ J e (or_intror He)) as [E | (r & d & w & (Br & B) & A & Es & Edd & _)]; [subst e; cbn in N; congruence |].
  assert (Pr : popped tr r) by (apply (j_ord _ _ _ _ _ _ _ _ J); exact Br).
  assert (Vr : valid P r) by (eapply run_valid; eassumption).
  assert (Sq : e_pos e = step r d) by (apply (O r d); [exact Vr |]; unfold move_of; rewrite Es; reflexivity).
  assert (Q : step (e_pos e) (e_dir e) = r) by (rewrite Sq, Edd; apply step_opp). rewrite Q. split; [exact Pr |].
  destruct B as [B | (l1 & l2 & El' & Hr)]; [exfalso; apply B; apply (j_ord _ _ _ _ _ _ _ _ J); exact Hp |].
  apply (j_sorted _ _ _ _ _ _ _ _ J l1 (e_pos e) l2 r El' Hr).
Qed.

Lemma C119_astar_estimates_proof : forall b P W go orig dest path,
  usable b P W -> valid P orig -> valid P dest -> go_inside P go -> one_step P go ->
  returns (fun fuel => astar_on b P false fuel go orig dest) (Ok path) ->
  forall i j p q m n, (i <= j)%nat ->
    nth_error (orig :: places orig path) i = Some p -> nth_error (orig :: places orig path) j = Some q ->
    at_distance false go orig m p -> at_distance false go orig n q ->
    Z.of_nat m + (Z.abs (fst p - fst dest) + Z.abs (snd p - snd dest)) <= Z.of_nat n + (Z.abs (fst q - fst dest) + Z.abs (snd q - snd dest)).
Proof.
  intros b P W go orig dest path U V Vd HG O Hr i j p q m n L Hi Hj Dm Dn. pose proof (usable_grid_type b P W U) as G.
  destruct (astar_on_outcome b P false W go orig dest U V Vd HG) as (r & Hr' & Ho). pose proof (returns_unique _ _ _ Hr Hr'). subst r.
  destruct Ho as [(X & _) | (c & hp & e & tr & R & Ed & _ & _ & E)]; [discriminate |]. symmetry in E.
  pose proof (unit_HS P go HG) as HS. pose proof (unit_HA P G false go orig V HG) as HA. pose proof (grid_type_wf P G) as Wf.
  assert (HH : forall p d q w, valid P p -> allowed false d -> unit_cost go p d = Some (q, w) -> mdist p dest <= w + mdist q dest).
  { intros p1 d1 q1 w1 V1 A1 E1. apply (mdist_consistent P go dest p1 d1 q1 w1 O V1 A1 E1). }
  assert (H0 : forall p, valid P p -> 0 <= mdist p dest) by (intros; apply mdist_nonneg).
  assert (Pd : popped (e :: tr) dest) by (rewrite <- Ed; apply popped_head).
  destruct (bp_ordered P (lastdir (e :: tr)) orig (popped (e :: tr)) (fun x => c x + mdist x dest) Wf) with (n := maxn P) (p := dest) (path := path) as (K1 & K2 & _).
  - intros x d Hx Nx Ex. apply (run_back_ordered P false (unit_cost go) (fun x => mdist x dest) orig V HS HA HH H0 (one_step_unit go P O) c hp (e :: tr) x d R Hx Nx Ex).
  - exact Pd.
  - exact Vd.
  - exact E.
  - assert (C : forall x k, popped (e :: tr) x -> at_distance false go orig k x -> c x = Z.of_nat k).
    { intros x k Hx (Wk & Mk). pose proof (inv0_run P false (unit_cost go) (fun x => mdist x dest) orig V HS HA _ _ _ R) as J.
      pose proof (run_popped_reachable P false (unit_cost go) (fun x => mdist x dest) orig V HS HA _ _ _ x R Hx) as (_ & Lx).
      pose proof (i_walk _ _ _ _ _ _ _ _ J x Lx) as Wx. apply cost_walk_unit in Wx. destruct Wx as (k' & Ek & Wx).
      pose proof (run_optimal P false (unit_cost go) (fun x => mdist x dest) orig V HS HA HH H0 _ _ _ x (Z.of_nat k) R Hx (proj2 (cost_walk_unit false go orig (Z.of_nat k) x) (ex_intro _ k (conj eq_refl Wk)))) as Lk.
      destruct (Nat.lt_ge_cases k' k) as [X | X]; [exfalso; apply (Mk k' X Wx) | lia]. }
    pose proof (K1 i j p q L Hi Hj) as X. cbv beta in X.
    rewrite (C p m (K2 p (nth_error_In _ _ Hi)) Dm), (C q n (K2 q (nth_error_In _ _ Hj)) Dn) in X. exact X.
Qed.

Lemma places_walk : forall P D go, one_step P go -> go_inside P go -> forall ds p q x, valid P p -> Forall (allowed D) ds -> follow go p ds = Some q ->
  In x (p :: places p ds) -> exists n, walk D go p n x.
Proof.
  intros P D go O HG. induction ds as [|d ds IH]; intros p q x V A F Hx.
  - destruct Hx as [<- | []]. exists 0%nat. apply walk_0. reflexivity.
  - destruct Hx as [<- | Hx]; [exists 0%nat; apply walk_0; reflexivity |]. cbn [places follow] in *.
    destruct (go p d) as [r|] eqn:E; [|discriminate]. pose proof (O p d r V E) as ->. inversion A; subst.
    destruct (IH (step p d) q x (HG p d _ V E) H2 F Hx) as (n & path & Ln & Ap & Fp).
    exists (S n), (d :: path). split; [cbn; lia |]. split; [constructor; assumption |]. cbn [follow]. rewrite E. exact Fp.
Qed.

Lemma walk_parity : forall P go, one_step P go -> go_inside P go -> forall n p q, valid P p -> walk false go p n q ->
  Z.even (Z.of_nat n + (fst p + snd p) + (fst q + snd q)) = true.
Proof.
  intros P go O HG n p q V (ds & <- & A & F). revert p V A F. induction ds as [|d ds IH]; intros p V A F; cbn [follow length] in *.
  - inversion F; subst. change (Z.of_nat 0) with 0. rewrite Z.even_spec. exists (fst q + snd q). lia.
  - destruct (go p d) as [r|] eqn:E; [|discriminate]. pose proof (O p d r V E) as ->. inversion A; subst.
    specialize (IH (step p d) (HG p d _ V E) H2 F). rewrite Z.even_spec in *. destruct IH as (k & Hk). unfold step in Hk. cbn [fst snd] in Hk.
    destruct H1 as [X | H1]; [discriminate |]. assert (exists j, 1 - (delta_x d + delta_y d) = 2 * j) as (j & Hj).
    { destruct d; cbn [delta_x delta_y] in *; destruct H1; try discriminate; first [exists 0; reflexivity | exists 1; reflexivity]. }
    exists (k + j). lia.
Qed.

Lemma C119_astar_detour_proof : forall b P W go orig dest path,
  usable b P W -> valid P orig -> valid P dest -> go_inside P go -> one_step P go ->
  returns (fun fuel => astar_on b P false fuel go orig dest) (Ok path) ->
  exists n, at_distance false go orig n dest /\ (exists j, length path = (n + 2 * j)%nat) /\
    (forall p, In p (orig :: places orig path) -> exists m, at_distance false go orig m p /\
       Z.of_nat m + (Z.abs (fst p - fst dest) + Z.abs (snd p - snd dest)) <= Z.of_nat n) /\
    (forall ps, (forall p m, at_distance false go orig m p ->
         Z.of_nat m + (Z.abs (fst p - fst dest) + Z.abs (snd p - snd dest)) <= Z.of_nat n -> In p ps) ->
       (length path < length ps)%nat).
Proof.
  intros b P W go orig dest path U V Vd HG O Hr. pose proof (usable_grid_type b P W U) as G.
  pose proof Hr as (fuel & Hf). specialize (Hf fuel (Nat.le_refl _)).
  destruct (C54_astar_valid_proof b P false W go orig dest fuel path U V Vd HG O Hf) as (A & F).
  destruct (C118_astar_simple_proof b P false fuel go orig dest path (grid_type_wf P G) Vd Hf) as (ND & LA).
  assert (Wd : walk false go orig (length path) dest) by (exists path; auto).
  destruct (walk_min false go orig _ _ Wd) as (n & Ln & Dn).
  assert (K : forall p, In p (orig :: places orig path) -> exists m, at_distance false go orig m p /\
       Z.of_nat m + (Z.abs (fst p - fst dest) + Z.abs (snd p - snd dest)) <= Z.of_nat n).
  { intros p Hp. destruct (places_walk P false go O HG path orig dest p V A F Hp) as (m0 & Wm). destruct (walk_min false go orig _ _ Wm) as (m & _ & Dm).
    exists m. split; [exact Dm |]. destruct (In_nth_error _ _ Hp) as (i & Hi).
    assert (Hl : nth_error (orig :: places orig path) (length path) = Some dest).
    { rewrite <- LA. replace (length path) with (length (places orig path)) by apply places_length. clear. generalize (places orig path). intros l. revert orig. induction l as [|x l IH]; intros o; [reflexivity |].
      cbn [length nth_error]. rewrite (IH x). destruct l as [|y l]; [reflexivity |]. f_equal. change (last (y :: l) x = last (y :: l) o). clear. revert y. induction l as [|z l IH]; intros y; [reflexivity |]. apply IH. }
    assert (Li : (i <= length path)%nat).
    { assert (nth_error (orig :: places orig path) i <> None) as X by congruence. apply nth_error_Some in X. cbn [length] in X. rewrite places_length in X. lia. }
    pose proof (C119_astar_estimates_proof b P W go orig dest path U V Vd HG O Hr i (length path) p dest m n Li Hi Hl Dm Dn) as X.
    rewrite !Z.sub_diag in X. cbn in X. lia. }
  exists n. split; [exact Dn |]. split; [|split; [exact K |]].
  - pose proof (walk_parity P go O HG _ _ _ V Wd) as P1. pose proof (walk_parity P go O HG _ _ _ V (proj1 Dn)) as P2.
    rewrite Z.even_spec in P1, P2. destruct P1 as (j1 & P1), P2 as (j2 & P2). exists (Z.to_nat (j1 - j2)). lia.
  - intros ps Hps. assert (L : (length (orig :: places orig path) <= length ps)%nat).
    { apply NoDup_incl_length; [exact ND |]. intros p Hp. destruct (K p Hp) as (m & Dm & Lm). apply (Hps p m Dm Lm). }
    cbn [length] in L. rewrite places_length in L. lia.
Qed.

(** * Mazes *)

Lemma C120_maze_ucs_proof : forall b P D W walls k orig dest,
  usable b P W -> roomy P walls -> valid P orig -> valid P dest -> 0 < k -> k * cells P <= 18446744073709551615 ->
  exists r, returns (fun fuel => ucs_on b P D fuel (priced k (maze_go P walls)) orig dest) r /\
    (r = Err DestinationUnreachable <-> ~ exists l, route D P walls orig l dest) /\
    (forall path, r = Ok path -> route D P walls orig (places orig path) dest /\
       forall l, route D P walls orig l dest -> (length path <= length l)%nat) /\
    (r = Err Loop <-> (exists l, route D P walls orig l dest) /\ forall l, route D P walls orig l dest -> cols P * cols P < Z.of_nat (length l)) /\
    ((exists l, route D P walls orig l dest /\ Z.of_nat (length l) <= cols P * cols P) -> exists path, r = Ok path).
Proof.
  intros b P D W walls k orig dest U R V Vd Hk Hc. pose proof (usable_grid_type b P W U) as G.
  pose proof (maze_inside P walls G) as HG. pose proof (maze_one_step P walls G) as OS. set (go := maze_go P walls) in *.
  destruct (C87_ucs_constant_cost_proof b P D W go k orig dest U V Vd HG OS Hk Hc) as (r & Hr & K1 & K2 & K3). cbv zeta in *.
  assert (RW : forall l, route D P walls orig l dest -> walk D go orig (length l) dest) by (intros l Hl; apply (route_walk P D walls _ orig dest G V); eauto).
  assert (WR : forall n, walk D go orig n dest -> exists l, length l = n /\ route D P walls orig l dest) by (intros n H; apply (route_walk P D walls n orig dest G V); exact H).
  assert (MIN : forall n l, at_distance D go orig n dest -> route D P walls orig l dest -> (n <= length l)%nat).
  { intros n l (_ & M) Hl. destruct (Nat.le_gt_cases n (length l)) as [L | L]; [exact L |]. exfalso. apply (M _ L). apply RW. exact Hl. }
  assert (C0 : 0 <= cols P * cols P) by apply Z.square_nonneg.
  exists r. split; [exact Hr |]. split; [|split; [|split]].
  - rewrite K1. split.
    + intros H (l & Hl). apply H. exists (length l). apply RW. exact Hl.
    + intros H (n & Wn). destruct (WR n Wn) as (l & _ & Hl). apply H. eauto.
  - intros path ->. destruct (proj1 (K2 (length path)) (ex_intro _ path (conj eq_refl eq_refl))) as (Dn & _).
    destruct Hr as (fuel & Hf). specialize (Hf fuel (Nat.le_refl _)).
    assert (HG' : go_inside P (move_of (priced k go))).
    { intros p d q Vp E. unfold move_of, priced in E. destruct (go p d) as [q'|] eqn:Eg; inversion E; subst. apply (HG p d q Vp Eg). }
    assert (OS' : one_step P (move_of (priced k go))).
    { intros p d q Vp E. unfold move_of, priced in E. destruct (go p d) as [q'|] eqn:Eg; inversion E; subst. apply (OS p d q Vp Eg). }
    destruct (C50_ucs_valid_proof b P D W (priced k go) orig dest fuel path U V Vd HG' OS' Hf) as (A & F).
    assert (F' : follow go orig path = Some dest).
    { rewrite <- F. clear. revert orig. induction path as [|d path IH]; intros p; cbn [follow]; [reflexivity |].
      assert (E : move_of (priced k go) p d = go p d) by (unfold move_of, priced; destruct (go p d); reflexivity).
      rewrite E. destruct (go p d); [apply IH | reflexivity]. }
    split; [apply maze_path; assumption |]. intros l Hl. apply (MIN (length path) l Dn Hl).
  - rewrite K3. split.
    + intros (n & Dn & Ln). split; [destruct (WR n (proj1 Dn)) as (l & _ & Hl); eauto |]. intros l Hl. pose proof (MIN n l Dn Hl). lia.
    + intros ((l & Hl) & L). destruct (walk_min D go orig _ _ (RW l Hl)) as (n & _ & Dn). exists n. split; [exact Dn |].
      destruct (WR n (proj1 Dn)) as (l' & El & Hl'). specialize (L l' Hl'). lia.
  - intros (l & Hl & Ll). destruct (walk_min D go orig _ _ (RW l Hl)) as (n & Ln & Dn).
    destruct (proj2 (K2 n)) as (path & E & _); [split; [exact Dn | lia] | eauto].
Qed.

Lemma C120_maze_astar_proof : forall b P W walls orig dest,
  usable b P W -> roomy P walls -> valid P orig -> valid P dest ->
  exists r, returns (fun fuel => astar_on b P false fuel (maze_go P walls) orig dest) r /\
    (r = Err DestinationUnreachable <-> ~ exists l, route false P walls orig l dest) /\
    (forall path, r = Ok path -> route false P walls orig (places orig path) dest /\ NoDup (orig :: places orig path)) /\
    (forall path l, r = Ok path -> route false P walls orig l dest ->
       Z.of_nat (length l) = Z.abs (fst orig - fst dest) + Z.abs (snd orig - snd dest) -> length path = length l) /\
    (rows P <= cols P -> (exists l, route false P walls orig l dest) -> exists path, r = Ok path).
Proof.
  intros b P W walls orig dest U R V Vd. pose proof (usable_grid_type b P W U) as G.
  pose proof (maze_inside P walls G) as HG. pose proof (maze_one_step P walls G) as OS. set (go := maze_go P walls) in *.
  destruct (C75_astar_exact_proof b P false W go orig dest U V Vd HG OS) as (r & Hr & K1 & K2 & _).
  assert (RW : forall l, route false P walls orig l dest -> walk false go orig (length l) dest) by (intros l Hl; apply (route_walk P false walls _ orig dest G V); eauto).
  assert (WR : forall n, walk false go orig n dest -> exists l, length l = n /\ route false P walls orig l dest) by (intros n H; apply (route_walk P false walls n orig dest G V); exact H).
  assert (K1' : r = Err DestinationUnreachable <-> ~ exists l, route false P walls orig l dest).
  { rewrite K1. split.
    - intros H (l & Hl). apply H. exists (length l). apply RW. exact Hl.
    - intros H (n & Wn). destruct (WR n Wn) as (l & _ & Hl). apply H. eauto. }
  exists r. split; [exact Hr |]. split; [exact K1' |]. split; [|split].
  - intros path ->. destruct Hr as (fuel & Hf). specialize (Hf fuel (Nat.le_refl _)).
    destruct (C54_astar_valid_proof b P false W go orig dest fuel path U V Vd HG OS Hf) as (A & F). split; [apply maze_path; assumption |].
    apply (C118_astar_simple_proof b P false fuel go orig dest path (grid_type_wf P G) Vd Hf).
  - intros path l -> Hl El. apply (C55_astar_shortest_partial_proof b P W go orig dest path (length l) U V Vd HG OS Hr (RW l Hl) El).
  - intros RC (l & Hl). destruct K2 as [X | [(_ & X) | (path & X & _)]]; [|specialize (X eq_refl); lia | eauto].
    exfalso. apply (proj1 K1' X). eauto.
Qed.
