(** PropTargetProofs.v -- proofs of the statements of PropTarget.v. *)

From Coq Require Import ZArith List Bool Lia.
From Verif Require Import Rust BoundedInt Dir PosT Pos Grid Gridbool SetMap CameFrom Heap Bf Astar Ucs Target Spec SpecSearch SpecTarget Lib BoundedIntProofs PosTProofs PosTProofs2 GridProofs GridProofs2 GridboolProofs PropGridboolProofs SetMapProofs Sim CameFromProofs PropSetMapProofs BfProofs PropBfProofs BestFirst SearchProofs UcsProofs AstarProofs PropAstarProofs PropUcsProofs.
Import ListNotations.
Open Scope Z_scope.

(** ** The same results where all numbers fit *)

Lemma t_MAX_eq : forall t, t_MAX t = usize_MAX t.
Proof. intros [[] c]; reflexivity. Qed.

Lemma usize_MAX_range : forall t, 65535 <= usize_MAX t <= COST_MAX.
Proof. intros [[] c]; unfold usize_MAX, COST_MAX; cbn; lia. Qed.

Lemma t_IMAX_le : forall t v, 2 * v <= usize_MAX t -> v <= t_IMAX t.
Proof.
  intros t v H. destruct t as [[] c]; [change (2 * v <= 65535) in H; change (v <= 32767) | change (2 * v <= 4294967295) in H; change (v <= 2147483647) | change (2 * v <= 18446744073709551615) in H; change (v <= 9223372036854775807)]; lia.
Qed.

Lemma t_arith_ok : forall t v, 0 <= v <= usize_MAX t -> t_arith t v = Ret v.
Proof.
  intros t v H. unfold t_arith. rewrite t_MAX_eq. replace (0 <=? v) with true by (symmetry; apply Z.leb_le; lia). replace (v <=? usize_MAX t) with true by (symmetry; apply Z.leb_le; lia). reflexivity.
Qed.

Lemma t_const_ok : forall t v, 0 <= v <= usize_MAX t -> t_const t v = Ret v.
Proof.
  intros t v H. unfold t_const. rewrite t_MAX_eq. replace (0 <=? v) with true by (symmetry; apply Z.leb_le; lia). replace (v <=? usize_MAX t) with true by (symmetry; apply Z.leb_le; lia). reflexivity.
Qed.

Lemma t_into_ok : forall t v, 0 <= v <= usize_MAX t -> t_into_usize t v = Ret v.
Proof.
  intros t v H. unfold t_into_usize, int_try_from, in_ity. cbn [imin imax]. rewrite t_MAX_eq. replace (0 <=? v) with true by (symmetry; apply Z.leb_le; lia). replace (v <=? usize_MAX t) with true by (symmetry; apply Z.leb_le; lia). reflexivity.
Qed.

Lemma t_width_ok : forall t P, grid_type P -> cols P <= usize_MAX t -> t_width t P = Ret (cols P).
Proof.
  intros t P G H. destruct (grid_type_nums P G) as (_ & _ & HX & HY). unfold t_width, t_add. fold (XM P). unfold cols in *. rewrite t_into_ok by lia. cbn [bind]. apply t_arith_ok. lia.
Qed.

Lemma cols_cells : forall P, grid_type P -> cols P <= cells P /\ rows P <= cells P.
Proof. intros P G. pose proof (cols_pos P G). pose proof (rows_pos P G). unfold cells. nia. Qed.

Lemma t_to_usize_ok : forall t P p, grid_type P -> cells P <= usize_MAX t -> valid P p -> t_to_usize t P p = Ret (index_of P p).
Proof.
  intros t P p G H V. pose proof (index_bound P p G V) as IB. pose proof (cells_pos P G). destruct (cols_cells P G) as (C1 & C2).
  apply valid_nums in V; [|exact G]. destruct (grid_type_nums P G) as (_ & _ & HX & HY). unfold t_to_usize, cols, rows in *.
  rewrite (t_into_ok t (snd p)) by lia. cbn [bind]. rewrite (t_into_ok t (fst p)) by lia. cbn [bind]. rewrite t_width_ok by (unfold cols; first [exact G | lia]). cbn [bind].
  unfold t_mul, t_add. unfold index_of, cols in *. rewrite t_arith_ok by nia. cbn [bind]. apply t_arith_ok. lia.
Qed.

Lemma t_lawful_grid : forall t Item P, grid_type P -> cells P <= usize_MAX t -> lawful_map P (@t_map_grid t Item P (cells P)) (R_grid P).
Proof.
  intros t Item P G H. destruct (lawful_grid Item P G) as [L1 L2 L3 L4]. constructor; [exact L1 | exact L2 | |].
  - intros m f p R V. specialize (L3 m f p R V). cbn [t_map_grid map_grid mp_get] in *. unfold grid_get in L3. rewrite to_usize_ok in L3 by assumption. rewrite t_to_usize_ok by assumption. exact L3.
  - intros m f p v R V. specialize (L4 m f p v R V). cbn [t_map_grid map_grid mp_set] in *. unfold grid_set in L4. rewrite to_usize_ok in L4 by assumption. rewrite t_to_usize_ok by assumption. exact L4.
Qed.

Lemma t_lawful_gridbool : forall t X Y W, u16_dims X Y -> cells (Pos X Y) <= 32 * W <= cells (Pos X Y) + 32 -> cells (Pos X Y) <= usize_MAX t -> 32 * W <= usize_MAX t ->
  lawful_set (Pos X Y) (t_set_gridbool t (Pos X Y) W) (R_gridbool (Pos X Y)).
Proof.
  intros t X Y W D HW H1 H2. pose proof (Pos_grid_type X Y D) as G. destruct (usable_gridbool X Y W D HW) as [L1 L2 L3 L4]. constructor.
  - destruct L1 as (s & E & R). exists s. split; [|exact R]. cbn [set_gridbool t_set_gridbool sp_default] in *.
    assert (EW : pt_WIDTH (Pos X Y) * pt_HEIGHT (Pos X Y) = cells (Pos X Y)) by reflexivity.
    pose proof (cells_pos _ G). unfold gb_default, gb_ALL_FALSE, gb_repeat, gridbool_asserts in E. unfold t_gb_default, t_asserts. rewrite EW.
    unfold umul, usub in E. rewrite EW in E. pose proof (usize_MAX_range t) as MR. unfold COST_MAX in MR.
    rewrite t_const_ok by lia. cbn [bind]. rewrite t_const_ok by lia. cbn [bind].
    rewrite (usize_arith (cells _)) in E by lia. cbn [bind] in E. rewrite (usize_arith (W * 32)) in E by lia. cbn [bind] in E.
    destruct (cells (Pos X Y) <=? W * 32); [|discriminate]. rewrite t_const_ok by lia. cbn [bind]. rewrite usize_arith in E by lia. cbn [bind] in E. exact E.
  - intros s f p R V. specialize (L2 s f p R V). cbn [set_gridbool t_set_gridbool sp_contains] in *. unfold gb_get in L2. unfold t_gb_get. rewrite to_usize_ok in L2 by assumption. rewrite t_to_usize_ok by assumption. exact L2.
  - intros s f p R V. specialize (L3 s f p R V). cbn [set_gridbool t_set_gridbool sp_insert] in *. unfold gb_set_t in L3. unfold t_gb_set_t. rewrite to_usize_ok in L3 by assumption. rewrite t_to_usize_ok by assumption. exact L3.
  - intros s f p R V. specialize (L4 s f p R V). cbn [set_gridbool t_set_gridbool sp_remove] in *. unfold gb_set_f in L4. unfold t_gb_set_f. rewrite to_usize_ok in L4 by assumption. rewrite t_to_usize_ok by assumption. exact L4.
Qed.

Lemma t_manhattan_ok : forall t P p q, grid_type P -> cols P + rows P - 2 <= usize_MAX t -> valid P p -> valid P q -> t_manhattan t P p q = Ret (mdist p q).
Proof.
  intros t P p q G H Vp Vq. pose proof (manhattan_ok P p q G Vp Vq) as E. fold (mdist p q) in E. unfold manhattan in E. unfold t_manhattan.
  destruct (if fst p >? fst q then unwrap_opt (b_checked_sub (pt_x P) (fst p) (fst q)) else unwrap_opt (b_checked_sub (pt_x P) (fst q) (fst p))) as [dx | | |]; cbn [bind] in *; try discriminate.
  destruct (if snd p >? snd q then unwrap_opt (b_checked_sub (pt_y P) (snd p) (snd q)) else unwrap_opt (b_checked_sub (pt_y P) (snd q) (snd p))) as [dy | | |]; cbn [bind] in *; try discriminate.
  apply valid_nums in Vp, Vq; try exact G. unfold b_into_usize, b_to_usize, int_try_from in E. destruct (in_ity usize dx) eqn:Ex; cbn [unwrap_res bind] in E; try discriminate. destruct (in_ity usize dy) eqn:Ey; cbn [unwrap_res bind] in E; try discriminate.
  apply in_ity_true in Ex, Ey. cbn in Ex, Ey. unfold uadd, arith in E. destruct (in_ity usize (dx + dy)); [|discriminate]. injection E as E.
  assert (B : mdist p q <= cols P + rows P - 2) by (unfold mdist, cols, rows; lia).
  rewrite t_into_ok by lia. cbn [bind]. rewrite t_into_ok by lia. cbn [bind]. unfold t_add. rewrite t_arith_ok by lia. congruence.
Qed.

Lemma bind_ext : forall A B (x : exec A) (f g : A -> exec B), (forall a, f a = g a) -> bind x f = bind x g.
Proof. intros A B [a | | |] f g H; cbn [bind]; auto. Qed.

Lemma t_camefrom_sim : forall t {M} P (mo : mapops (option dir) M) R fuel m f orig dest,
  post_wf P -> lawful_map P mo R -> R m f -> valid P dest -> t_camefrom_into_path t P mo fuel m orig dest = t_camefrom_into_path t P fmap fuel f orig dest.
Proof.
  intros t M P mo R fuel m f orig dest W L HR V.
  assert (LOOP : forall fuel ret p mi, valid P p -> t_camefrom_loop t P mo fuel m orig ret p mi = t_camefrom_loop t P fmap fuel f orig ret p mi).
  { intros fu. induction fu as [|fu IH]; intros ret p mi Vp; [reflexivity |]. cbn [t_camefrom_loop]. destruct (negb (pos_eqb p orig)); [|reflexivity].
    rewrite (lm_get _ _ _ L m f p HR Vp). cbn [bind fmap mp_get]. destruct (f p) as [d|]; [|reflexivity]. destruct (dir_neg d) as [nd | | |]; [|reflexivity..]. cbn [bind].
    destruct (pos_dir_add P p d) as [p' | e] eqn:E; [|reflexivity]. destruct (add_valid P p d p' W Vp E) as (V' & _). destruct (t_sub t mi 1) as [mi' | | |]; cbn [bind]; [|reflexivity..]. destruct (mi' =? 0); [reflexivity |]. apply IH. exact V'. }
  unfold t_camefrom_into_path. rewrite (lm_get _ _ _ L m f dest HR V). cbn [fmap mp_get]. apply bind_ext. intros a. apply bind_ext. intros b. apply bind_ext. intros c. cbn [bind]. destruct (f dest); [|reflexivity].
  apply bind_ext. intros a'. apply bind_ext. intros b'. apply bind_ext. intros c'. apply bind_ext. intros d'. apply LOOP. exact V.
Qed.

Lemma t_camefrom_ok : forall t {M} P (mo : mapops (option dir) M) R fuel m f orig dest,
  grid_type P -> lawful_map P mo R -> R m f -> valid P orig -> valid P dest -> cols P * cols P + 1 <= usize_MAX t -> 2 * (2 * (cols P + rows P - 2)) <= usize_MAX t ->
  t_camefrom_into_path t P mo fuel m orig dest = camefrom_into_path P fmap fuel f orig dest.
Proof.
  intros t M P mo R fuel m f orig dest G L HR Vo V F1 F2. pose proof (grid_type_wf P G) as W. pose proof (usize_MAX_range t) as MR. unfold COST_MAX in MR. pose proof (cols_pos P G) as CP. pose proof (rows_pos P G) as RP.
  assert (LOOP : forall fuel ret p mi, valid P p -> 1 <= mi <= usize_MAX t -> t_camefrom_loop t P mo fuel m orig ret p mi = camefrom_loop P fmap fuel f orig ret p mi).
  { intros fu. induction fu as [|fu IH]; intros ret p mi Vp Hm; [reflexivity |]. cbn [camefrom_loop t_camefrom_loop]. destruct (negb (pos_eqb p orig)); [|reflexivity].
    rewrite (lm_get _ _ _ L m f p HR Vp). cbn [bind fmap mp_get]. destruct (f p) as [d|]; [|reflexivity]. destruct (dir_neg d) as [nd | | |]; [|reflexivity..]. cbn [bind].
    destruct (pos_dir_add P p d) as [p' | e] eqn:E; [|reflexivity]. destruct (add_valid P p d p' W Vp E) as (V' & _). unfold t_sub, usub. rewrite t_arith_ok by lia. rewrite usize_arith by lia. cbn [bind].
    destruct (mi - 1 =? 0) eqn:Ez; [reflexivity |]. apply Z.eqb_neq in Ez. apply IH; [exact V' | lia]. }
  unfold camefrom_into_path, t_camefrom_into_path. rewrite t_manhattan_ok by (first [assumption | lia]). rewrite manhattan_ok by assumption. fold (mdist orig dest). cbn [bind].
  assert (B : 0 <= mdist orig dest <= cols P + rows P - 2). { pose proof Vo as Vo'. pose proof V as V'. apply valid_nums in Vo', V'; try exact G. unfold mdist, cols, rows. lia. }
  unfold t_mul at 1, umul at 1. rewrite t_arith_ok by lia. rewrite usize_arith by lia. cbn [bind].
  replace (2 * mdist orig dest <=? t_IMAX t) with true by (symmetry; apply Z.leb_le; apply t_IMAX_le; lia).
  rewrite arith_ok by (unfold isize, i64; cbn [imin imax]; lia). cbn [bind]. rewrite (lm_get _ _ _ L m f dest HR V). cbn [bind fmap mp_get]. destruct (f dest); [|reflexivity].
  rewrite t_width_ok by (first [exact G | nia]). rewrite width_ok by exact G. cbn [bind]. unfold t_mul, umul. rewrite t_arith_ok by nia. rewrite usize_arith by nia. cbn [bind].
  unfold t_add, uadd. rewrite t_arith_ok by nia. rewrite usize_arith by nia. cbn [bind]. apply LOOP; [exact V | nia].
Qed.

Lemma t_bf_sim : forall t {S M} P D (so : setops S) RS (mo : mapops (option dir) M) RM go fuel orig found, post_wf P -> lawful_set P so RS -> lawful_map P mo RM -> go_inside P go -> valid P orig ->
  t_bf_search_path t P D so mo go fuel orig found = t_bf_search_path t P D fset fmap go fuel orig found.
Proof.
  intros t S M P D so RS mo RM go fuel orig found W LS LM HG V. apply esim_eq. unfold t_bf_search_path, bf_search_mapmov, bf_iter.
  eapply esim_bind.
  - eapply esim_bind; [apply (bf_new_sim P D so RS LS go HG); exact V |]. intros a b Hab.
    apply (bf_search_loop_sim P D so RS LS go HG mo RM LM); [exact (lm_default _ _ _ LM None) | exact Hab].
  - intros [[p m] | e] [[q m'] | e'] H; cbn in H; try contradiction; [|cbn; congruence].
    destruct H as (<- & HR & Vp). rewrite (t_camefrom_sim t P mo RM fuel m m' orig p W LM HR Vp). apply esim_refl.
Qed.

(** Recorded costs: equal, or usize::MAX on both targets. *)
Definition same_cost (t : target) (a b : Z) : Prop := a = b /\ b < usize_MAX t \/ a = usize_MAX t /\ b = COST_MAX.

Lemma same_cost_lt : forall t v a b, same_cost t a b -> 0 <= v <= usize_MAX t -> (b = COST_MAX -> v < usize_MAX t) -> (v <? a) = (v <? b).
Proof.
  intros t v a b [(-> & H) | (-> & ->)] H1 H2; [reflexivity |]. pose proof (usize_MAX_range t). specialize (H2 eq_refl).
  transitivity true; [apply Z.ltb_lt; exact H2 | symmetry; apply Z.ltb_lt; lia].
Qed.

Lemma same_cost_put : forall t c c' q v, (forall p, same_cost t (c' p) (c p)) -> v < usize_MAX t -> forall p, same_cost t (put c' q v p) (put c q v p).
Proof. intros t c c' q v H Hv p. unfold put. destruct (pos_eqb q p); [left; split; [reflexivity | exact Hv] | apply H]. Qed.

Section TBest.
  Context {MC M I : Type} (t : target) (P : post) (D : bool) (succ : pos -> dir -> option (pos * Z)) (h : pos -> Z) (orig dest : pos).
  Context (Vo : valid P orig) (HS : forall p d q w, valid P p -> succ p d = Some (q, w) -> valid P q /\ 0 <= w) (HA : affordable D P succ orig).
  Context (co : mapops Z MC) (RC : MC -> (pos -> Z) -> Prop) (LC : lawful_map P co RC) (mo : mapops (option dir) M) (RM : M -> (pos -> option dir) -> Prop) (LM : lawful_map P mo RM).
  Context (cost_of : I -> MC) (front_of : I -> heap) (mk : MC -> heap -> I) (CO : forall m hp, cost_of (mk m hp) = m) (FO : forall m hp, front_of (mk m hp) = hp).
  Context (tstep : pos -> I -> dir -> exec I) (tnext : I -> exec (option (pos * dir) * I)) (tloop : nat -> M -> I -> exec (result M)).
  Definition tied (it : I) (c : pos -> Z) (hp : heap) : Prop := front_of it = hp /\ exists c', RC (cost_of it) c' /\ forall p, same_cost t (c' p) (c p).
  Context (TS : forall p it c hp d, bounded D succ orig c -> c p < COST_MAX -> allowed D d -> tied it c hp ->
    exists it', tstep p it d = Ret it' /\ tied it' (fst (relax succ h p (c, hp) d)) (snd (relax succ h p (c, hp) d))).
  Context (TN : forall it, tnext it = match heap_pop (front_of it) with
    | Some ((_, mov), rest) => ds <- dir_iter_list D ;; it' <- foldM (tstep (fst mov)) ds (mk (cost_of it) rest) ;; Ret (Some mov, it')
    | None => Ret (None, it)
    end).
  Context (TL0 : forall from it, tloop O from it = Fuel).
  Context (TL1 : forall fuel from it, tloop (Datatypes.S fuel) from it =
    ('(o, it') <- tnext it ;;
     match o with
     | None => Ret (Err DestinationUnreachable)
     | Some (p, d) => from' <- mp_set mo from p (Some d) ;; if pos_eqb p dest then Ret (Ok from') else tloop fuel from' it'
     end)).
  Lemma tfold : forall p ds it c hp, (forall d, In d ds -> allowed D d) -> bounded D succ orig c -> c p < COST_MAX -> valid P p -> tied it c hp ->
    exists it', foldM (tstep p) ds it = Ret it' /\ tied it' (fst (fold_left (relax succ h p) ds (c, hp))) (snd (fold_left (relax succ h p) ds (c, hp))).
  Proof.
    intros p. induction ds as [|d ds IH]; intros it c hp A B L V T; cbn [foldM fold_left]; [exists it; auto |].
    pose proof (A d (or_introl eq_refl)) as Ad. destruct (TS p it c hp d B L Ad T) as (it1 & E1 & T1). rewrite E1. cbn [bind]. destruct (relax succ h p (c, hp) d) as [c1 hp1] eqn:Er. cbn [fst snd] in T1.
    apply IH; [intros d' Hd'; apply A; right; exact Hd' | eapply (bounded_relax P D succ h orig Vo HS HA); eassumption | pose proof (relax_le succ h p c hp d c1 hp1 Er p); lia | exact V | exact T1].
  Qed.
  Lemma tloop_bloop : forall fuel from f it c hp tr, RM from f -> tied it c hp -> Run D succ h orig c hp tr ->
    esim (fun a b => match a, b with Ok m, Ok m' => RM m m' | Err e, Err e' => e = e' | _, _ => False end) (tloop fuel from it) (bloop D succ h fuel dest f (c, hp)).
  Proof.
    induction fuel as [|fuel IH]; intros from f it c hp tr HM T R; [rewrite TL0; exact Logic.I |]. rewrite TL1. cbn [bloop fst snd]. rewrite TN. destruct T as (E & T). rewrite E.
    destruct (heap_pop hp) as [[[pr [p d]] rest]|] eqn:Ep; [|cbn [bind esim]; reflexivity]. cbn [fst snd e_pos e_dir]. rewrite dir_iter_dirs. cbn [bind].
    destruct (run_fin P D succ h orig Vo HS HA c hp tr (pr, (p, d)) R) as (L & V); [apply (heap_pop_In _ _ _ Ep); auto |]. cbn [e_pos fst snd] in L, V.
    pose proof (run_bounded P D succ h orig Vo HS HA _ _ _ R) as B.
    destruct (tfold p (dirs D) (mk (cost_of it) rest) c rest (fun d => proj1 (dirs_allowed D d)) B L V) as (it1 & E1 & T1); [split; [apply FO | rewrite CO; exact T] |].
    rewrite E1. cbn [bind]. destruct (lm_set _ _ _ LM from f p (Some d) HM V) as (m' & Em & Hm'). rewrite Em. cbn [bind].
    destruct (pos_eqb p dest); [exact Hm' |].
    destruct (expand D succ h p (c, rest)) as [c' hp'] eqn:Ee. assert (R' : Run D succ h orig c' hp' ((pr, (p, d)) :: tr)) by (eapply Run1; [exact R | exact Ep | exact Ee]).
    apply (IH m' _ it1 c' hp' ((pr, (p, d)) :: tr) Hm'); [|exact R']. unfold expand in Ee. rewrite Ee in T1. exact T1.
  Qed.
  Lemma tied0 : forall m, mp_set co (mp_new co (usize_MAX t)) orig 0 = Ret m -> tied (mk m [e0 orig]) (put (fun _ => COST_MAX) orig 0) [e0 orig].
  Proof.
    clear TS TN TL0 TL1 HS HA dest h succ D tstep tnext tloop LM RM mo M. intros m E. split; [apply FO |]. rewrite CO. destruct (lm_set _ _ _ LC _ _ orig 0 (lm_new _ _ _ LC (usize_MAX t)) Vo) as (m' & E' & HR). rewrite E in E'. injection E' as <-.
    eexists. split; [exact HR |]. intros p. pose proof (usize_MAX_range t). unfold put. destruct (pos_eqb orig p); [left; lia | right; auto].
  Qed.
End TBest.

Lemma affordable_weaken : forall t D P go orig, affordable_on t D P go orig -> affordable D P go orig.
Proof.
  intros t D P go orig (H1 & H2). pose proof (usize_MAX_range t) as MR. unfold COST_MAX in MR. split; [exact H1 |]. intros path p c A F N. destruct (H2 path p c A F N) as (K1 & K2). split; [lia |]. intros d q w Ad E. specialize (K2 d q w Ad E). lia.
Qed.

(** As [bounded_sum], within the target's usize. *)
Lemma bounded_sum_on : forall t P D succ orig, valid P orig -> (forall p d q w, valid P p -> succ p d = Some (q, w) -> valid P q /\ 0 <= w) -> affordable_on t D P succ orig ->
  forall c p d q w, bounded D succ orig c -> c p < COST_MAX -> allowed D d -> succ p d = Some (q, w) -> 0 <= c p + w <= usize_MAX t /\ (c q = COST_MAX -> c p + w < usize_MAX t).
Proof.
  intros t P D succ orig Vo HS HA c p d q w B L A Es. pose proof (bounded_valid P D succ orig Vo HS c p B L) as V. destruct (HS p d q w V Es) as (Vq & Hw).
  destruct B as (B0 & Hr & B). destruct (B p L) as (l & T). destruct (trail_walk D succ (fun _ => 0) orig _ _ _ _ T) as (path & Ap & F & Vi & _).
  destruct (trail_valid P D succ orig Vo HS _ _ _ _ T) as (ND & _). destruct HA as (_ & HA').
  assert (ND' : NoDup (visits succ orig path)) by (rewrite Vi; apply NoDup_rev; exact ND).
  pose proof (proj2 (HA' path p (c p) Ap F ND') d q w A Es) as S1. specialize (Hr p). split; [lia |].
  intros Eq. assert (Nq : ~ In q l) by (intros Hq; pose proof (proj2 (trail_in P D succ (fun _ => 0) orig Vo HS _ _ _ _ B0 T) q Hq); lia).
  apply (HA' (path ++ [d]) q); [apply Forall_app; auto | eapply follow_cost_snoc; eassumption |].
  rewrite (visits_snoc succ _ _ _ _ _ _ _ F Es), Vi. change (NoDup (rev (q :: l))). apply NoDup_rev. constructor; assumption.
Qed.

Lemma t_ucs_ok : forall t {MC M} P D (co : mapops Z MC) RC (mo : mapops (option dir) M) RM go fuel orig dest,
  post_wf P -> lawful_map P co RC -> lawful_map P mo RM -> go_inside P (move_of go) -> valid P orig -> valid P dest -> affordable_on t D P go orig ->
  t_ucs_search_path t P D co mo go fuel orig dest = (r <- ucs_search_mapmov D fmap fmap go fuel orig dest ;; match r with Err e => Ret (Err e) | Ok f => t_camefrom_into_path t P fmap fuel f orig dest end).
Proof.
  intros t MC M P D co RC mo RM go fuel orig dest W LC LM HG Vo Vd HA. pose proof (affordable_weaken _ _ _ _ _ HA) as HA64.
  assert (HS : forall p d q w, valid P p -> go p d = Some (q, w) -> valid P q /\ 0 <= w).
  { intros p d q w V E. split; [apply (HG p d q V); unfold move_of; rewrite E; reflexivity | apply (proj1 HA p d q w V E)]. }
  apply esim_eq. unfold t_ucs_search_path, ucs_search_mapmov, ucs_new, t_ucs_new. cbn [fmap mp_set mp_new mp_default heap_push]. rewrite t_MAX_eq.
  destruct (lm_set _ _ _ LC _ _ orig 0 (lm_new _ _ _ LC (usize_MAX t)) Vo) as (m & Em & _). rewrite Em. cbn [bind].
  change (0, (orig, dir_default)) with (e0 orig). rewrite (ucs_loop_bloop P D go orig Vo HS HA64 dest fuel _ _ [] _ (Run0 D go (fun _ => 0) orig)).
  eapply esim_bind.
  - apply (tloop_bloop t P D go (fun _ => 0) orig dest Vo HS HA64 RC mo RM LM u_cost u_frontier (fun m hp => UIt m hp) (fun _ _ => eq_refl) (fun _ _ => eq_refl) (t_ucs_step_dir t co go) (t_ucs_next t D co go) (fun fu => t_ucs_search_loop t D co mo go fu dest)) with (tr := []).
    + intros p it c hp d B L A (E & c' & HR & HC). pose proof (bounded_valid P D go orig Vo HS c p B L) as V. unfold t_ucs_step_dir, relax. destruct (go p d) as [[q w]|] eqn:Eg; [|exists it; split; [reflexivity | split; [exact E | exists c'; auto]]].
      destruct (HS p d q w V Eg) as (Vq & Hw). destruct (bounded_sum_on t P D go orig Vo HS HA c p d q w B L A Eg) as (S1 & S2).
      rewrite (lm_get _ _ _ LC _ c' p HR V). cbn [bind]. assert (Ep : c' p = c p) by (destruct (HC p) as [(Ex & _) | (_ & Ex)]; [exact Ex | lia]). rewrite Ep.
      unfold t_add. rewrite t_arith_ok by exact S1. cbn [bind]. rewrite (lm_get _ _ _ LC _ c' q HR Vq). cbn [bind].
      rewrite (same_cost_lt t _ _ _ (HC q) S1 S2). destruct (c p + w <? c q) eqn:El; [|exists it; split; [reflexivity | split; [exact E | exists c'; auto]]].
      destruct (lm_set _ _ _ LC _ c' q (c p + w) HR Vq) as (m' & Em' & HR'). rewrite Em'. cbn [bind]. rewrite dir_neg_opp. cbn [bind]. eexists. split; [reflexivity |]. cbn [fst snd]. split; [cbn [u_frontier]; rewrite E, Z.add_0_r; reflexivity |].
      exists (put c' q (c p + w)). split; [exact HR' |]. apply same_cost_put; [exact HC |]. apply Z.ltb_lt in El. destruct (HC q) as [(_ & Ex) | (_ & Ex)]; [lia | apply S2; exact Ex].
    + intros it. reflexivity.
    + intros from it. reflexivity.
    + intros fu from it. reflexivity.
    + exact (lm_default _ _ _ LM None).
    + apply (tied0 t P orig Vo co RC LC u_cost u_frontier (fun m hp => UIt m hp) (fun _ _ => eq_refl) (fun _ _ => eq_refl)). exact Em.
    + apply Run0.
  - intros [a | e] [b | e'] H; cbn in H; try contradiction; [|cbn; congruence]. rewrite (t_camefrom_sim t P mo RM fuel a b orig dest W LM H Vd). apply esim_refl.
Qed.

Lemma t_astar_ok : forall t {MC M} P D (co : mapops Z MC) RC (mo : mapops (option dir) M) RM go fuel orig dest,
  grid_type P -> lawful_map P co RC -> lawful_map P mo RM -> go_inside P go -> valid P orig -> valid P dest ->
  cells P + cols P + rows P - 2 <= usize_MAX t ->
  t_astar_search_path t P D co mo go fuel orig dest = (r <- astar_search_mapmov P D fmap fmap go fuel orig dest ;; match r with Err e => Ret (Err e) | Ok f => t_camefrom_into_path t P fmap fuel f orig dest end).
Proof.
  intros t MC M P D co RC mo RM go fuel orig dest G LC LM HG Vo Vd F0. pose proof (unit_HA P G D go orig Vo HG) as HA64. pose proof (unit_HS P go HG) as HS.
  apply esim_eq. unfold t_astar_search_path, astar_search_mapmov, astar_new, t_astar_new. cbn [fmap mp_set mp_new mp_default heap_push]. rewrite t_MAX_eq.
  destruct (lm_set _ _ _ LC _ _ orig 0 (lm_new _ _ _ LC (usize_MAX t)) Vo) as (m & Em & _). rewrite Em. cbn [bind].
  change (0, (orig, dir_default)) with (e0 orig). rewrite (astar_loop_bloop P G D go orig dest Vo Vd HG fuel _ _ [] _ (Run0 D (unit_cost go) (fun p => mdist p dest) orig)).
  eapply esim_bind.
  - apply (tloop_bloop t P D (unit_cost go) (fun p => mdist p dest) orig dest Vo HS HA64 RC mo RM LM a_cost a_frontier (fun m hp => AIt m hp) (fun _ _ => eq_refl) (fun _ _ => eq_refl) (t_astar_step_dir t P co go dest) (t_astar_next t P D co go dest) (fun fu => t_astar_search_loop t P D co mo go fu dest)) with (tr := []).
    + intros p it c hp d B L A (E & c' & HR & HC). pose proof (bounded_valid P D (unit_cost go) orig Vo HS c p B L) as V. unfold t_astar_step_dir, relax.
      pose proof B as (_ & Hr & B'). destruct (B' p L) as (l & T). destruct (trail_unit D P go orig c l p (c p) T Vo HG) as (Ll & ND & F & _ & RCH).
      pose proof (valid_list_short P G l ND F) as LS. pose proof (Hr p) as Hp. pose proof (cols_pos P G). pose proof (rows_pos P G).
      rewrite (lm_get _ _ _ LC _ c' p HR V). cbn [bind]. assert (Ep : c' p = c p) by (destruct (HC p) as [(Ex & _) | (_ & Ex)]; [exact Ex | lia]). rewrite Ep.
      unfold t_add. rewrite t_arith_ok by lia. cbn [bind]. unfold unit_cost. destruct (go p d) as [q|] eqn:Eg; [|exists it; split; [reflexivity | split; [exact E | exists c'; auto]]].
      assert (Vq : valid P q) by (apply (HG p d q V Eg)). rewrite (lm_get _ _ _ LC _ c' q HR Vq). cbn [bind].
      assert (Es : unit_cost go p d = Some (q, 1)) by (unfold unit_cost; rewrite Eg; reflexivity).
      assert (S2 : c q = COST_MAX -> c p + 1 < usize_MAX t).
      { intros Eq. assert (Nq : ~ In q l). { intros Hq. pose proof (proj2 (trail_in P D (unit_cost go) (fun _ => 0) orig Vo HS _ _ _ _ (proj1 B) T) q Hq). lia. }
        pose proof (valid_list_short P G (q :: l) ltac:(constructor; assumption) ltac:(constructor; assumption)) as LS'. cbn [length] in LS'. assert (cols P + rows P - 2 >= 0) by lia.
        pose proof (cells_pos P G). destruct (Z.eq_dec (cols P * cols P + 1) (usize_MAX t)); unfold cells in *; nia. }
      rewrite (same_cost_lt t _ _ _ (HC q)) by (first [lia | exact S2]). destruct (c p + 1 <? c q) eqn:El; [|exists it; split; [reflexivity | split; [exact E | exists c'; auto]]].
      destruct (lm_set _ _ _ LC _ c' q (c p + 1) HR Vq) as (m' & Em' & HR'). rewrite Em'. cbn [bind]. rewrite t_manhattan_ok by (first [assumption | lia]). cbn [bind].
      assert (MB : 0 <= mdist q dest <= cols P + rows P - 2). { pose proof Vq as V1. pose proof Vd as V2. apply valid_nums in V1, V2; try exact G. unfold mdist, cols, rows. lia. }
      rewrite t_arith_ok by lia. cbn [bind]. rewrite dir_neg_opp. cbn [bind]. eexists. split; [reflexivity |]. cbn [fst snd]. split; [cbn [a_frontier]; rewrite E; reflexivity |].
      exists (put c' q (c p + 1)). split; [exact HR' |]. apply same_cost_put; [exact HC |]. apply Z.ltb_lt in El. destruct (HC q) as [(_ & Ex) | (_ & Ex)]; [lia | apply S2; exact Ex].
    + intros it. reflexivity.
    + intros from it. reflexivity.
    + intros fu from it. reflexivity.
    + exact (lm_default _ _ _ LM None).
    + apply (tied0 t P orig Vo co RC LC a_cost a_frontier (fun m hp => AIt m hp) (fun _ _ => eq_refl) (fun _ _ => eq_refl)). exact Em.
    + apply Run0.
  - intros [a | e] [b | e'] H; cbn in H; try contradiction; [|cbn; congruence]. rewrite (t_camefrom_sim t P mo RM fuel a b orig dest (grid_type_wf P G) LM H Vd). apply esim_refl.
Qed.

Lemma fmap_lawful : forall Item P, lawful_map P (@fmap Item) eq.
Proof. intros Item P. constructor; intros; subst; cbn; eauto. Qed.

Lemma fset_lawful : forall P, lawful_set P fset eq.
Proof. intros P. constructor; intros; subst; cbn; eauto. Qed.

(** The map built by breadth-first search on a 64-bit target and on this one is
    the same; the path is read off it by the target's code. *)
Lemma bfs_target_f : forall t b P D W fuel go orig found, usable b P W -> cells P <= usize_MAX t -> (b = OnGrid -> 32 * W <= usize_MAX t) -> valid P orig -> go_inside P go ->
  bfs_target_on t b P D W fuel go orig found = t_bf_search_path t P D fset fmap go fuel orig found.
Proof.
  intros t b P D W fuel go orig found U F2 F4 V HG. pose proof (usable_grid_type b P W U) as G. pose proof (grid_type_wf P G) as WF. destruct b; cbn [bfs_target_on].
  - destruct U as (X & Y & DM & E & HW). subst P. apply (t_bf_sim t (Pos X Y) D _ (R_gridbool (Pos X Y)) _ (R_grid (Pos X Y))); try assumption; [apply t_lawful_gridbool; first [assumption | lia | apply F4; reflexivity] | apply t_lawful_grid; first [assumption | lia]].
  - apply (t_bf_sim t P D _ R_hset _ R_hmap); try assumption; [apply lawful_hset | apply lawful_hmap].
  - eapply (t_bf_sim t P D); try eassumption; [apply lawful_bset | apply lawful_bmap].
Qed.

Lemma ucs_target_f : forall t b P D W fuel go orig dest, usable b P W -> cells P <= usize_MAX t -> valid P orig -> valid P dest -> go_inside P (move_of go) -> affordable_on t D P go orig ->
  ucs_target_on t b P D fuel go orig dest = (r <- ucs_search_mapmov D fmap fmap go fuel orig dest ;; match r with Err e => Ret (Err e) | Ok f => t_camefrom_into_path t P fmap fuel f orig dest end).
Proof.
  intros t b P D W fuel go orig dest U F2 V Vd HG HA. pose proof (usable_grid_type b P W U) as G. pose proof (grid_type_wf P G) as WF.
  destruct b; cbn [ucs_target_on]; eapply t_ucs_ok; try eassumption; first [apply t_lawful_grid; first [assumption | lia] | apply lawful_hmap | apply lawful_bmap].
Qed.

Lemma astar_target_f : forall t b P D W fuel go orig dest, usable b P W -> cells P + cols P + rows P - 2 <= usize_MAX t -> valid P orig -> valid P dest -> go_inside P go ->
  astar_target_on t b P D fuel go orig dest = (r <- astar_search_mapmov P D fmap fmap go fuel orig dest ;; match r with Err e => Ret (Err e) | Ok f => t_camefrom_into_path t P fmap fuel f orig dest end).
Proof.
  intros t b P D W fuel go orig dest U F2 V Vd HG. pose proof (usable_grid_type b P W U) as G. pose proof (grid_type_wf P G) as WF. pose proof (cols_pos P G). pose proof (rows_pos P G).
  destruct b; cbn [astar_target_on]; eapply t_astar_ok; try eassumption; first [apply t_lawful_grid; first [assumption | lia] | apply lawful_hmap | apply lawful_bmap].
Qed.

Lemma C127_same_bfs_proof : forall t b P D W fuel go orig found,
  usable b P W -> fits_target t b P W -> cols P * cols P + 1 <= usize_MAX t ->
  valid P orig -> go_inside P go ->
  bfs_target_on t b P D W fuel go orig found = bfs_on b P D W fuel go orig found.
Proof.
  intros t b P D W fuel go orig found U (F2 & F3 & F4) F1 V HG. pose proof (usable_grid_type b P W U) as G. rewrite (bfs_on_f b P D W fuel go orig found U V HG). pose proof (cols_pos P G). pose proof (rows_pos P G).
  rewrite (bfs_target_f t b P D W fuel go orig found U) by (first [assumption | lia]). apply esim_eq. unfold t_bf_search_path, bf_search_path, bf_search_mapmov, bf_iter. eapply esim_bind.
  - eapply esim_bind; [apply (bf_new_sim P D fset eq (fset_lawful P) go HG); exact V |]. intros a b' Hab. apply (bf_search_loop_sim P D fset eq (fset_lawful P) go HG fmap eq (fmap_lawful _ P)); [reflexivity | exact Hab].
  - intros [[p m] | e] [[q m'] | e'] H'; cbn in H'; try contradiction; [|cbn; congruence]. destruct H' as (<- & HR & Vp). rewrite (t_camefrom_ok t P fmap eq fuel m m' orig p G (fmap_lawful _ P) HR V Vp F1 F3). apply esim_refl.
Qed.

Lemma C127_same_ucs_proof : forall t b P D W fuel go orig dest,
  usable b P W -> fits_target t b P W -> cols P * cols P + 1 <= usize_MAX t ->
  valid P orig -> valid P dest -> go_inside P (move_of go) -> affordable_on t D P go orig ->
  ucs_target_on t b P D fuel go orig dest = ucs_on b P D fuel go orig dest.
Proof.
  intros t b P D W fuel go orig dest U (F2 & F3 & F4) F1 V Vd HG HA. pose proof (usable_grid_type b P W U) as G. rewrite (ucs_on_f b P D W fuel go orig dest U V Vd HG). pose proof (cols_pos P G). pose proof (rows_pos P G).
  rewrite (ucs_target_f t b P D W fuel go orig dest U) by (first [assumption | lia]). unfold ucs_search_path. apply bind_ext. intros [f | e]; [|reflexivity]. apply (t_camefrom_ok t P fmap eq fuel f f orig dest G (fmap_lawful _ P) eq_refl V Vd F1 F3).
Qed.

Lemma C127_same_astar_proof : forall t b P D W fuel go orig dest,
  usable b P W -> fits_target t b P W -> cols P * cols P + 1 <= usize_MAX t ->
  valid P orig -> valid P dest -> go_inside P go ->
  astar_target_on t b P D fuel go orig dest = astar_on b P D fuel go orig dest.
Proof.
  intros t b P D W fuel go orig dest U (F2 & F3 & F4) F1 V Vd HG. pose proof (usable_grid_type b P W U) as G. rewrite (astar_on_f b P D W fuel go orig dest U V Vd HG). pose proof (cols_pos P G). pose proof (rows_pos P G).
  rewrite (astar_target_f t b P D W fuel go orig dest U) by (first [assumption | lia]). unfold astar_search_path. apply bind_ext. intros [f | e]; [|reflexivity]. apply (t_camefrom_ok t P fmap eq fuel f f orig dest G (fmap_lawful _ P) eq_refl V Vd F1 F3).
Qed.

(** ** Where the square of the width does not fit *)

Lemma t_arith_wrap : forall t v, t_checks t = false -> t_arith t v = Ret (v mod (usize_MAX t + 1)).
Proof.
  intros t v C. unfold t_arith. rewrite C, t_MAX_eq. replace (t_modulus t) with (usize_MAX t + 1) by (destruct t as [[] c]; reflexivity). destruct ((0 <=? v) && (v <=? usize_MAX t)) eqn:E; [|reflexivity].
  apply andb_prop in E. rewrite !Z.leb_le in E. rewrite Z.mod_small by lia. reflexivity.
Qed.

Lemma t_arith_panic : forall t v, t_checks t = true -> usize_MAX t < v -> t_arith t v = Panic.
Proof. intros t v C H. unfold t_arith. rewrite C, t_MAX_eq. replace (v <=? usize_MAX t) with false by (symmetry; apply Z.leb_gt; exact H). rewrite andb_false_r. reflexivity. Qed.

Lemma square_plus_one : forall t c, (c * c + 1) mod (usize_MAX t + 1) <> 0.
Proof.
  intros t c H. apply Z.mod_divide in H; [|pose proof (usize_MAX_range t); lia]. destruct H as (k & H).
  assert (E : exists n, usize_MAX t + 1 = 4 * n) by (destruct t as [[] ch]; [exists 16384 | exists 1073741824 | exists 4611686018427387904]; reflexivity). destruct E as (n & E). rewrite E in H.
  destruct (Z.Even_or_Odd c) as [(a & ->) | (a & ->)]; assert (exists j, j = a * a /\ exists i, i = k * n) as (j & Hj & i & Hi) by eauto; nia.
Qed.

Lemma t_loop_limited : forall t P fuel f orig ret p mi mi' path, camefrom_loop P fmap fuel f orig ret p mi = Ret (Ok path) -> 1 <= mi' <= usize_MAX t ->
  (length ret <= length path)%nat /\ t_camefrom_loop t P fmap fuel f orig ret p mi' = if Z.of_nat (length path - length ret) <? mi' then Ret (Ok path) else Ret (Err Loop).
Proof.
  intros t P. induction fuel as [|fuel IH]; intros f orig ret p mi mi' path E H; [discriminate |]. cbn [camefrom_loop t_camefrom_loop] in *. destruct (negb (pos_eqb p orig)).
  - cbn [fmap mp_get bind] in *. destruct (f p) as [d|]; [|discriminate]. destruct (dir_neg d) as [nd | | |]; cbn [bind] in *; try discriminate. destruct (pos_dir_add P p d) as [p' | e]; [|discriminate].
    destruct (usub mi 1) as [m1 | | |]; cbn [bind] in E; try discriminate. destruct (m1 =? 0); [discriminate |]. unfold t_sub. rewrite t_arith_ok by lia. cbn [bind].
    destruct (mi' - 1 =? 0) eqn:Ez.
    + apply Z.eqb_eq in Ez. destruct (IH f orig (nd :: ret) p' m1 1 path E ltac:(pose proof (usize_MAX_range t); lia)) as (L & _). cbn [length] in L. split; [lia |].
      replace (Z.of_nat (length path - length ret) <? mi') with false by (symmetry; apply Z.ltb_ge; lia). reflexivity.
    + apply Z.eqb_neq in Ez. destruct (IH f orig (nd :: ret) p' m1 (mi' - 1) path E ltac:(lia)) as (L & ->). cbn [length] in *. split; [lia |].
      replace (Z.of_nat (length path - Datatypes.S (length ret)) <? mi' - 1) with (Z.of_nat (length path - length ret) <? mi'); [reflexivity |]. destruct (Z.ltb_spec (Z.of_nat (length path - length ret)) mi'); symmetry; [apply Z.ltb_lt | apply Z.ltb_ge]; lia.
  - injection E as ->. split; [lia |]. rewrite Nat.sub_diag. replace (Z.of_nat 0 <? mi') with true by (symmetry; apply Z.ltb_lt; lia). reflexivity.
Qed.

Lemma loop_not_unreachable : forall P fuel f orig ret p mi, camefrom_loop P fmap fuel f orig ret p mi <> Ret (Err DestinationUnreachable).
Proof.
  intros P. induction fuel as [|fuel IH]; intros f orig ret p mi E; [discriminate |]. cbn [camefrom_loop] in E. destruct (negb (pos_eqb p orig)); [|discriminate]. cbn [fmap mp_get bind] in E. destruct (f p) as [d|]; [|discriminate].
  destruct (dir_neg d) as [nd | | |]; cbn [bind] in E; try discriminate. destruct (pos_dir_add P p d) as [p' | e]; [|discriminate]. destruct (usub mi 1) as [m1 | | |]; cbn [bind] in E; try discriminate. destruct (m1 =? 0); [discriminate |]. exact (IH _ _ _ _ _ E).
Qed.

Lemma t_camefrom_limited : forall t P fuel f orig dest, grid_type P -> valid P orig -> valid P dest -> cells P <= usize_MAX t -> usize_MAX t < cols P * cols P + 1 -> 2 * (2 * (cols P + rows P - 2)) <= usize_MAX t ->
  (forall path, camefrom_into_path P fmap fuel f orig dest = Ret (Ok path) ->
     t_camefrom_into_path t P fmap fuel f orig dest = if t_checks t then Panic else if Z.of_nat (length path) <? (cols P * cols P + 1) mod (usize_MAX t + 1) then Ret (Ok path) else Ret (Err Loop)) /\
  (camefrom_into_path P fmap fuel f orig dest = Ret (Err DestinationUnreachable) -> t_camefrom_into_path t P fmap fuel f orig dest = Ret (Err DestinationUnreachable)).
Proof.
  intros t P fuel f orig dest G Vo V F2 F1 F3. pose proof (usize_MAX_range t) as MR. unfold COST_MAX in MR. pose proof (cols_pos P G) as CP. pose proof (rows_pos P G) as RP. destruct (cols_cells P G) as (CC & _).
  unfold camefrom_into_path, t_camefrom_into_path. rewrite t_manhattan_ok by (first [assumption | lia]). rewrite manhattan_ok by assumption. fold (mdist orig dest). cbn [bind].
  assert (B : 0 <= mdist orig dest <= cols P + rows P - 2). { pose proof Vo as Vo'. pose proof V as V'. apply valid_nums in Vo', V'; try exact G. unfold mdist, cols, rows. lia. }
  unfold t_mul at 1 3, umul at 1 3. rewrite t_arith_ok by lia. rewrite usize_arith by lia. cbn [bind].
  replace (2 * mdist orig dest <=? t_IMAX t) with true by (symmetry; apply Z.leb_le; apply t_IMAX_le; lia).
  rewrite arith_ok by (unfold isize, i64; cbn [imin imax]; lia). cbn [bind fmap mp_get]. destruct (f dest) as [d0|]; [|split; [discriminate | reflexivity]].
  rewrite t_width_ok by (first [exact G | lia]). rewrite width_ok by exact G. cbn [bind]. unfold t_mul, t_add. pose proof (cols_sq P G) as CS. unfold umul, uadd. rewrite usize_arith by nia. cbn [bind]. rewrite usize_arith by nia. cbn [bind].
  split; [|intros E; destruct (loop_not_unreachable _ _ _ _ _ _ _ E)].
  intros path E. destruct (t_checks t) eqn:C.
  - destruct (Z_le_gt_dec (cols P * cols P) (usize_MAX t)) as [L | L]; [rewrite t_arith_ok by nia; cbn [bind] | rewrite t_arith_panic by (first [exact C | lia]); reflexivity].
    rewrite t_arith_panic by (first [exact C | lia]). reflexivity.
  - rewrite t_arith_wrap by exact C. cbn [bind]. rewrite t_arith_wrap by exact C. cbn [bind]. rewrite Z.add_mod_idemp_l by lia.
    pose proof (square_plus_one t (cols P)) as NZ. pose proof (Z.mod_pos_bound (cols P * cols P + 1) (usize_MAX t + 1) ltac:(lia)) as MB.
    destruct (t_loop_limited t P fuel f orig [] dest _ ((cols P * cols P + 1) mod (usize_MAX t + 1)) path E ltac:(lia)) as (_ & ->). cbn [length]. rewrite Nat.sub_0_r. reflexivity.
Qed.

Lemma C127_wide_bfs_proof : forall t b P D W fuel go orig found,
  usable b P W -> fits_target t b P W -> usize_MAX t < cols P * cols P + 1 ->
  valid P orig -> go_inside P go ->
  (forall dest path, bfs_on b P D W fuel go orig found = Ret (Ok (dest, path)) ->
     bfs_target_on t b P D W fuel go orig found =
       if t_checks t then Panic
       else if Z.of_nat (length path) <? (cols P * cols P + 1) mod (usize_MAX t + 1) then Ret (Ok (dest, path))
       else Ret (Err Loop)) /\
  (bfs_on b P D W fuel go orig found = Ret (Err DestinationUnreachable) ->
   bfs_target_on t b P D W fuel go orig found = Ret (Err DestinationUnreachable)).
Proof.
  intros t b P D W fuel go orig found U (F2 & F3 & F4) F1 V HG. pose proof (usable_grid_type b P W U) as G. rewrite (bfs_on_f b P D W fuel go orig found U V HG). pose proof (cols_pos P G). pose proof (rows_pos P G).
  rewrite (bfs_target_f t b P D W fuel go orig found U) by (first [assumption | lia]).
  assert (Q : esim (fun a b => match a, b with Ok (p, m), Ok (q, m') => p = q /\ m = m' /\ valid P p | Err e, Err e' => e = e' | _, _ => False end) (bf_search_mapmov D fset fmap go fuel orig found) (bf_search_mapmov D fset fmap go fuel orig found)).
  { unfold bf_search_mapmov, bf_iter. eapply esim_bind; [apply (bf_new_sim P D fset eq (fset_lawful P) go HG); exact V |]. intros a b' Hab. apply (bf_search_loop_sim P D fset eq (fset_lawful P) go HG fmap eq (fmap_lawful _ P)); [reflexivity | exact Hab]. }
  unfold t_bf_search_path, bf_search_path. destruct (bf_search_mapmov D fset fmap go fuel orig found) as [[[q m] | e] | | |]; cbn [bind]; try (split; intros; discriminate).
  - cbn in Q. destruct Q as (_ & _ & Vq). destruct (t_camefrom_limited t P fuel m orig q G V Vq ltac:(lia) F1 F3) as (K1 & K2). split.
    + intros dest path E. destruct (camefrom_into_path P fmap fuel m orig q) as [[path' | e] | | |]; cbn [bind] in E; try discriminate. injection E as <- <-. rewrite (K1 _ eq_refl). destruct (t_checks t); [reflexivity |]. destruct (_ <? _); reflexivity.
    + intros E. destruct (camefrom_into_path P fmap fuel m orig q) as [[path' | e] | | |]; cbn [bind] in E; try discriminate. injection E as ->. rewrite (K2 eq_refl). reflexivity.
  - split; [discriminate | auto].
Qed.

Lemma C127_wide_ucs_proof : forall t b P D W fuel go orig dest,
  usable b P W -> fits_target t b P W -> usize_MAX t < cols P * cols P + 1 ->
  valid P orig -> valid P dest -> go_inside P (move_of go) -> affordable_on t D P go orig ->
  (forall path, ucs_on b P D fuel go orig dest = Ret (Ok path) ->
     ucs_target_on t b P D fuel go orig dest =
       if t_checks t then Panic
       else if Z.of_nat (length path) <? (cols P * cols P + 1) mod (usize_MAX t + 1) then Ret (Ok path)
       else Ret (Err Loop)) /\
  (ucs_on b P D fuel go orig dest = Ret (Err DestinationUnreachable) ->
   ucs_target_on t b P D fuel go orig dest = Ret (Err DestinationUnreachable)).
Proof.
  intros t b P D W fuel go orig dest U (F2 & F3 & F4) F1 V Vd HG HA. pose proof (usable_grid_type b P W U) as G. rewrite (ucs_on_f b P D W fuel go orig dest U V Vd HG). pose proof (cols_pos P G). pose proof (rows_pos P G).
  rewrite (ucs_target_f t b P D W fuel go orig dest U) by (first [assumption | lia]). unfold ucs_search_path. destruct (ucs_search_mapmov D fmap fmap go fuel orig dest) as [[f | e] | | |]; cbn [bind]; try (split; intros; discriminate).
  - apply (t_camefrom_limited t P fuel f orig dest G V Vd ltac:(lia) F1 F3).
  - split; [discriminate | auto].
Qed.

Lemma C127_wide_astar_proof : forall t b P D W fuel go orig dest,
  usable b P W -> fits_target t b P W -> usize_MAX t < cols P * cols P + 1 ->
  valid P orig -> valid P dest -> go_inside P go ->
  (forall path, astar_on b P D fuel go orig dest = Ret (Ok path) ->
     astar_target_on t b P D fuel go orig dest =
       if t_checks t then Panic
       else if Z.of_nat (length path) <? (cols P * cols P + 1) mod (usize_MAX t + 1) then Ret (Ok path)
       else Ret (Err Loop)) /\
  (astar_on b P D fuel go orig dest = Ret (Err DestinationUnreachable) ->
   astar_target_on t b P D fuel go orig dest = Ret (Err DestinationUnreachable)).
Proof.
  intros t b P D W fuel go orig dest U (F2 & F3 & F4) F1 V Vd HG. pose proof (usable_grid_type b P W U) as G. rewrite (astar_on_f b P D W fuel go orig dest U V Vd HG). pose proof (cols_pos P G). pose proof (rows_pos P G).
  rewrite (astar_target_f t b P D W fuel go orig dest U) by (first [assumption | lia]). unfold astar_search_path. destruct (astar_search_mapmov P D fmap fmap go fuel orig dest) as [[f | e] | | |]; cbn [bind]; try (split; intros; discriminate).
  - apply (t_camefrom_limited t P fuel f orig dest G V Vd ltac:(lia) F1 F3).
  - split; [discriminate | auto].
Qed.

Lemma C127_small_costs_suffice_proof : forall t D P go orig cmax,
  grid_type P -> valid P orig -> go_inside P (move_of go) ->
  (forall p d q c, valid P p -> go p d = Some (q, c) -> 0 <= c <= cmax) -> cmax * cells P <= usize_MAX t ->
  affordable_on t D P go orig.
Proof.
  intros t D P go orig cmax G V HG H2 H1. split; [intros p d q c Vp E; apply (H2 p d q c Vp E) |].
  intros path p c A F ND. pose proof (cells_pos P G). pose proof (usize_MAX_range t) as MR.
  pose proof (valid_list_short P G _ ND (visits_inside P go path orig HG V)) as L. rewrite (visits_count _ _ _ _ _ F) in L.
  assert (K : valid P p /\ (path <> [] -> 0 <= cmax) /\ c <= cmax * Z.of_nat (length path)).
  { clear -F H2 V HG. revert orig p c V F. induction path as [|d path IH]; intros orig p c V F; cbn [follow_cost length] in *.
    - injection F as <- <-. split; [exact V |]. split; [congruence | lia].
    - destruct (go orig d) as [[r w]|] eqn:E; [|discriminate]. destruct (follow_cost go r path) as [[q' c']|] eqn:F'; [|discriminate]. injection F as <- <-.
      assert (Vr : valid P r) by (apply (HG orig d r V); unfold move_of; rewrite E; reflexivity).
      destruct (IH r q' c' Vr F') as (K1 & _ & K2). pose proof (H2 orig d r w V E). split; [exact K1 |]. split; [lia |]. nia. }
  destruct K as (Vp & K1 & K2). split.
  - destruct path as [|d path]; [cbn [length] in K2; lia |]. specialize (K1 ltac:(discriminate)). cbn [length] in *. assert (cmax = 0 \/ 0 < cmax) as [-> | C] by lia; [lia |]. nia.
  - intros d q w Ad E. pose proof (H2 p d q w Vp E). nia.
Qed.
