(** PropUcsProofs.v -- proofs of the statements of PropUcs.v. *)

From Coq Require Import ZArith List Bool Lia.
From Verif Require Import Rust BoundedInt Dir PosT Pos Grid Gridbool SetMap CameFrom Heap Astar Ucs Spec SpecSearch Lib Deque BoundedIntProofs PosTProofs PosTProofs2 PropDirProofs SetMapProofs Sim CameFromProofs PropSetMapProofs BfProofs PropBfProofs BestFirst SearchProofs UcsProofs.
Import ListNotations.
Open Scope Z_scope.

Lemma ucs_with_sim : forall {MC} P D (co : mapops Z MC) RC go, lawful_map P co RC -> go_inside P (move_of go) ->
  forall orig n, valid P orig ->
    ucs_yields_with co D go orig n = ucs_yields_with fmap D go orig n /\
    forall p, valid P p -> ucs_records_with co D go orig n p = ucs_records_with fmap D go orig n p.
Proof.
  intros MC P D co RC go L HG orig n V. pose proof (ucs_new_sim P co RC L orig V) as H0.
  assert (K : forall n it it', Ruit P RC it it' ->
    next_calls (ucs_next D co go) n it = next_calls (ucs_next D fmap go) n it' /\
    esim (Ruit P RC) (calls_state (ucs_next D co go) n it) (calls_state (ucs_next D fmap go) n it')).
  { clear n. induction n as [|n IH]; intros it it' H; [split; [reflexivity | exact H] |]. split.
    - apply esim_eq. cbn [next_calls]. eapply esim_bind; [apply (ucs_next_sim P D co RC L go HG); exact H |].
      intros [o a] [o' b] (E & _ & Hab). cbn [fst snd] in *. subst o'. rewrite (proj1 (IH a b Hab)). apply esim_refl.
    - cbn [calls_state]. eapply esim_bind; [apply (ucs_next_sim P D co RC L go HG); exact H |].
      intros [o a] [o' b] (E & _ & Hab). cbn [fst snd] in *. apply IH. exact Hab. }
  split.
  - apply esim_eq. unfold ucs_yields_with. eapply esim_bind; [exact H0 |]. intros a b Hab. rewrite (proj1 (K n a b Hab)). apply esim_refl.
  - intros p Vp. apply esim_eq. unfold ucs_records_with. eapply esim_bind; [exact H0 |]. intros a b Hab.
    eapply esim_bind; [apply (K n a b Hab) |]. intros a' b' (H1 & _). rewrite (lm_get _ _ _ L _ _ p H1 Vp). apply esim_refl.
Qed.

Lemma ucs_yields_f : forall b P D W go orig n, usable b P W -> valid P orig -> go_inside P (move_of go) ->
  ucs_yields b P D go orig n = ucs_yields_with fmap D go orig n /\
  forall p, valid P p -> ucs_records b P D go orig n p = ucs_records_with fmap D go orig n p.
Proof.
  intros b P D W go orig n U V HG. pose proof (usable_grid_type b P W U) as G.
  destruct b; cbn [ucs_yields ucs_records].
  - apply (ucs_with_sim P D _ _ go (lawful_grid _ _ G) HG orig n V).
  - apply (ucs_with_sim P D _ _ go (lawful_hmap _ _) HG orig n V).
  - apply (ucs_with_sim P D _ _ go (lawful_bmap _ _) HG orig n V).
Qed.

Lemma afford_HS : forall D P go orig, go_inside P (move_of go) -> affordable D P go orig ->
  forall p d q w, valid P p -> go p d = Some (q, w) -> valid P q /\ 0 <= w.
Proof.
  intros D P go orig HG (H & _) p d q w V E. split; [|apply (H p d q w V E)].
  apply (HG p d q V). unfold move_of. rewrite E. reflexivity.
Qed.

Lemma ucs_on_outcome : forall b P D W go orig dest, usable b P W -> valid P orig -> valid P dest ->
  go_inside P (move_of go) -> affordable D P go orig ->
  exists r, returns (fun fuel => ucs_on b P D fuel go orig dest) r /\ outcome P D go (fun _ => 0) orig dest r.
Proof.
  intros b P D W go orig dest U V Vd HG SC. pose proof (usable_grid_type b P W U) as G.
  pose proof (afford_HS D P go orig HG SC) as HS. destruct (ucs_outcome P D go orig V HS SC dest G Vd) as (r & Hr & Ho).
  exists r. split; [|exact Ho].
  eapply returns_ext; [|exact Hr]. intros n. symmetry. apply (ucs_on_f b P D W n go orig dest U V Vd HG).
Qed.

Lemma C50_ucs_valid_proof : forall b P D W go orig dest fuel path,
  usable b P W -> valid P orig -> valid P dest -> go_inside P (move_of go) -> one_step P (move_of go) ->
  ucs_on b P D fuel go orig dest = Ret (Ok path) ->
  Forall (allowed D) path /\ follow (move_of go) orig path = Some dest.
Proof.
  intros b P D W go orig dest fuel path U V Vd HG O E. pose proof (usable_grid_type b P W U) as G.
  rewrite (ucs_on_f b P D W fuel go orig dest U V Vd HG) in E.
  destruct (ucs_sound P (grid_type_wf P G) D go orig V HG O fuel dest path Vd E). auto.
Qed.

Lemma C74_ucs_exact_proof : forall b P D W go orig dest,
  usable b P W -> valid P orig -> valid P dest -> go_inside P (move_of go) -> one_step P (move_of go) -> affordable D P go orig ->
  exists r, returns (fun fuel => ucs_on b P D fuel go orig dest) r /\
    (r = Err DestinationUnreachable <-> ~ reachable D (move_of go) orig dest) /\
    (r = Err DestinationUnreachable \/ (r = Err Loop /\ cols P < rows P) \/
     exists path, r = Ok path /\ Forall (allowed D) path /\ follow (move_of go) orig path = Some dest /\
       Z.of_nat (length path) <= cols P * cols P) /\
    (orig = dest -> r = Ok []) /\
    (r = Err Loop -> forall rs, (forall p, reachable D (move_of go) orig p -> In p rs) -> cols P * cols P < Z.of_nat (length rs)).
Proof.
  intros b P D W go orig dest U V Vd HG O SC. pose proof (usable_grid_type b P W U) as G.
  destruct (ucs_on_outcome b P D W go orig dest U V Vd HG SC) as (r & Hr & Ho). pose proof (afford_HS D P go orig HG SC) as HS.
  exists r. split; [exact Hr |]. destruct (outcome_cases P D go (fun _ => 0) orig V HS SC (grid_type_wf P G) O dest r Ho) as (K1 & K2).
  split; [exact K1 |]. split; [|split].
  - destruct K2 as [(path & -> & F & A & L) | [-> | ->]].
    + right. right. exists path. auto.
    + auto.
    + right. left. split; [reflexivity |].
      apply (outcome_loop P D go (fun _ => 0) orig V HS SC (grid_type_wf P G) O) with (dest := dest); [| |exact G | exact Ho].
      * intros p d q w Vp A E. destruct (HS p d q w Vp E). lia.
      * intros. lia.
  - intros ->. destruct Ho as [(_ & NR) | (c & hp & e & tr & _ & _ & _ & _ & ->)].
    + exfalso. apply NR. exists 0%nat. apply walk_0. reflexivity.
    + unfold maxn. pose proof (cols_sq P G). replace (Z.to_nat (cols P * cols P + 1)) with (S (Z.to_nat (cols P * cols P))) by lia.
      cbn [bp]. rewrite pos_eqb_refl. reflexivity.
  - intros -> rs Hrs.
    apply (outcome_loop_gen P D go (fun _ => 0) orig V HS SC (grid_type_wf P G) O) with (dest := dest); [| |exact Ho | exact Hrs].
    + intros p d q w Vp A E. destruct (HS p d q w Vp E). lia.
    + intros. lia.
Qed.

Lemma visits_count : forall (go : pos -> dir -> option (pos * Z)) path p q c, follow_cost go p path = Some (q, c) ->
  length (visits go p path) = S (length path).
Proof.
  intros go path. induction path as [|d path IH]; intros p q c F; [reflexivity |]. cbn [follow_cost visits length] in *.
  destruct (go p d) as [[r w]|]; [|discriminate]. destruct (follow_cost go r path) as [[q' c']|] eqn:F'; [|discriminate].
  rewrite (IH _ _ _ F'). reflexivity.
Qed.

Lemma visits_inside : forall P go path p, go_inside P (move_of go) -> valid P p -> Forall (valid P) (visits go p path).
Proof.
  intros P go path. induction path as [|d path IH]; intros p HG V; cbn [visits]; constructor; try exact V; [constructor |].
  destruct (go p d) as [[r w]|] eqn:E; [|constructor]. apply IH; [exact HG |]. apply (HG p d r V). unfold move_of. rewrite E. reflexivity.
Qed.

Lemma C74_small_costs_suffice_proof : forall D P go orig,
  grid_type P -> valid P orig -> go_inside P (move_of go) -> small_costs P go -> affordable D P go orig.
Proof.
  intros D P go orig G V HG (cmax & H1 & H2). split; [intros p d q c Vp E; apply (H2 p d q c Vp E) |].
  intros path p c A F ND. pose proof (cells_pos P G).
  pose proof (valid_list_short P G _ ND (visits_inside P go path orig HG V)) as L. rewrite (visits_count _ _ _ _ _ F) in L.
  assert (K : valid P p /\ (path <> [] -> 0 <= cmax) /\ c <= cmax * Z.of_nat (length path)).
  { clear -F H2 V HG. revert orig p c V F. induction path as [|d path IH]; intros orig p c V F; cbn [follow_cost length] in *.
    - inv F. split; [exact V |]. split; [congruence | lia].
    - destruct (go orig d) as [[r w]|] eqn:E; [|discriminate]. destruct (follow_cost go r path) as [[q' c']|] eqn:F'; [|discriminate]. inv F.
      assert (Vr : valid P r) by (apply (HG orig d r V); unfold move_of; rewrite E; reflexivity).
      destruct (IH r p c' Vr F') as (K1 & _ & K2). pose proof (H2 orig d r w V E). split; [exact K1 |]. split; [lia |]. nia. }
  destruct K as (Vp & K1 & K2). split.
  - destruct path as [|d path]; [cbn in F; inv F; lia |]. specialize (K1 ltac:(discriminate)).
    destruct (Z.eq_dec cmax 0) as [-> | N]; [lia |]. nia.
  - intros d q w Ad E. pose proof (H2 p d q w Vp E). nia.
Qed.

Lemma C53_ucs_tall_grid_refuted_proof : exists b P D W go orig dest,
  usable b P W /\ valid P orig /\ valid P dest /\ go_inside P (move_of go) /\ one_step P (move_of go) /\ small_costs P go /\
  reachable D (move_of go) orig dest /\ returns (fun fuel => ucs_on b P D fuel go orig dest) (Err Loop).
Proof.
  pose (go := fun (p : pos) (d : dir) => match d with dS => if snd p <? 2 then Some (step p d, 1) else None | _ => None end).
  exists OnGrid, (Pos 0 2), false, 1, go, (0, 0), (0, 2).
  assert (U : usable OnGrid (Pos 0 2) 1) by (exists 0, 2; unfold u16_dims, cells, cols, rows; cbn; repeat split; lia).
  split; [exact U |]. split; [cbv; repeat split; discriminate |]. split; [cbv; repeat split; discriminate |].
  split; [|split; [|split; [|split]]].
  - intros [x y] d q V E. unfold move_of, go in E. destruct d; try discriminate. cbn [snd] in E. destruct (y <? 2) eqn:Ey; inv E.
    unfold valid, in_bty, step in *. cbn in *. bool2prop. lia.
  - intros p d q V E. unfold move_of, go in E. destruct d; try discriminate. destruct (snd p <? 2); inv E. reflexivity.
  - exists 1. split; [cbv; discriminate |]. intros p d q c V E. unfold go in E. destruct d; try discriminate. destruct (snd p <? 2); inv E. lia.
  - exists 2%nat, [dS; dS]. split; [reflexivity |]. split; [|reflexivity]. apply Forall_forall; intros d Hd; apply dirs_allowed; cbn in *; tauto.
  - apply (ucs_path_mono (Pos 0 2) false _ _ go 10). vm_compute. reflexivity.
Qed.

Lemma C53_ucs_complete_partial_proof : forall b P D W go orig dest,
  usable b P W -> rows P <= cols P -> valid P orig -> valid P dest -> go_inside P (move_of go) -> one_step P (move_of go) -> affordable D P go orig ->
  exists r, returns (fun fuel => ucs_on b P D fuel go orig dest) r /\
    (r = Err DestinationUnreachable <-> ~ reachable D (move_of go) orig dest) /\
    (r <> Err DestinationUnreachable -> exists path, r = Ok path).
Proof.
  intros b P D W go orig dest U HRC V Vd HG O SC. destruct (C74_ucs_exact_proof b P D W go orig dest U V Vd HG O SC) as (r & Hr & K1 & K2 & _).
  exists r. split; [exact Hr |]. split; [exact K1 |]. intros N. destruct K2 as [E | [(_ & L) | (path & E & _)]]; [contradiction | lia | eauto].
Qed.

Lemma C51_ucs_lowest_cost_refuted_proof : exists b P D W go orig dest path c k,
  usable b P W /\ valid P orig /\ valid P dest /\ go_inside P (move_of go) /\ one_step P (move_of go) /\ small_costs P go /\
  rows P <= cols P /\
  returns (fun fuel => ucs_on b P D fuel go orig dest) (Ok path) /\
  follow_cost go orig path = Some (dest, c) /\ cost_walk D go orig k dest /\ k < c.
Proof.
  pose (go := fun (p : pos) (d : dir) => match pos_dir_add_ok (Pos 2 1) p d with
    | Some q => if pos_eqb q (2, 1) then None
                else Some (q, if pos_eqb p (0, 0) && pos_eqb q (1, 0) then 10 else if pos_eqb p (1, 0) && pos_eqb q (2, 0) then 100 else 1)
    | None => None end).
  exists OnGrid, (Pos 2 1), false, 1, go, (0, 0), (2, 0), [dE; dE], 110, 103.
  assert (U : usable OnGrid (Pos 2 1) 1) by (exists 2, 1; unfold u16_dims, cells, cols, rows; cbn; repeat split; lia).
  pose proof (usable_grid_type _ _ _ U) as G.
  assert (GO : forall p d q w, valid (Pos 2 1) p -> go p d = Some (q, w) -> q = step p d /\ valid (Pos 2 1) q /\ 0 <= w <= 100).
  { intros p d q w V E. unfold go, pos_dir_add_ok in E.
    destruct (add_inside (Pos 2 1) p d (grid_type_wf _ G) V) as [(Vs & Ea) | (_ & Ea)]; rewrite Ea in E; cbn [res_ok] in E; [|discriminate].
    destruct (pos_eqb (step p d) (2, 1)); inv E. split; [reflexivity |]. split; [exact Vs |].
    destruct (pos_eqb p (0, 0) && pos_eqb (step p d) (1, 0)); [lia |]. destruct (pos_eqb p (1, 0) && pos_eqb (step p d) (2, 0)); lia. }
  split; [exact U |]. split; [cbv; repeat split; discriminate |]. split; [cbv; repeat split; discriminate |].
  split; [|split; [|split; [|split; [|split; [|split; [|split]]]]]].
  - intros p d q V E. unfold move_of in E. destruct (go p d) as [[r w]|] eqn:Eg; inv E. apply (GO p d q w V Eg).
  - intros p d q V E. unfold move_of in E. destruct (go p d) as [[r w]|] eqn:Eg; inv E. apply (GO p d q w V Eg).
  - exists 100. split; [cbv; discriminate |]. intros p d q w V E. apply (GO p d q w V E).
  - cbv. discriminate.
  - apply (ucs_path_mono (Pos 2 1) false _ _ go 30). vm_compute. reflexivity.
  - reflexivity.
  - exists [dS; dE; dN; dE]. split; [|reflexivity]. apply Forall_forall; intros d Hd; apply dirs_allowed; cbn in *; tauto.
  - lia.
Qed.

Lemma C51_ucs_lowest_cost_partial_proof : forall b P D W go orig dest path,
  usable b P W -> valid P orig -> valid P dest -> go_inside P (move_of go) -> one_step P (move_of go) -> affordable D P go orig ->
  cost_of_entering D P go ->
  returns (fun fuel => ucs_on b P D fuel go orig dest) (Ok path) ->
  exists c, follow_cost go orig path = Some (dest, c) /\ lowest_cost D go orig c dest.
Proof.
  intros b P D W go orig dest path U V Vd HG O SC HU Hp. pose proof (usable_grid_type b P W U) as G.
  destruct (ucs_on_outcome b P D W go orig dest U V Vd HG SC) as (r & Hr & Ho). pose proof (afford_HS D P go orig HG SC) as HS.
  pose proof (returns_unique _ _ _ Hr Hp). subst r.
  destruct (outcome_cases P D go (fun _ => 0) orig V HS SC (grid_type_wf P G) O dest _ Ho) as (_ & K2).
  destruct Ho as [(X & _) | (c & hp & e & tr & R & Ed & N & RC & E)]; [discriminate |]. symmetry in E.
  destruct (outcome_optimal P D go (fun _ => 0) orig V HS SC (grid_type_wf P G) O) with (dest := dest) (path := path) (m := maxn P) (c := c) (hp := hp) (e := e) (tr := tr) as (F & L).
  - intros p d q w Vp A Es. destruct (HS p d q w Vp Es). lia.
  - intros. lia.
  - exact R.
  - exact Ed.
  - exact E.
  - intros x Hx _. rewrite Z.add_0_r. apply (x_prio _ _ _ _ _ _ (exact_run P D go orig V HS SC HU _ _ _ R)). auto.
  - exists (c dest). split; [exact F |]. split; [|exact L].
    destruct K2 as [(path' & E' & _ & A & _) | [X | X]]; [|discriminate|discriminate]. inv E'. exists path'. auto.
Qed.

Lemma C52_ucs_iterator_order_proof : forall b P D W go orig,
  usable b P W -> valid P orig -> go_inside P (move_of go) -> affordable D P go orig ->
  exists items : list (pos * dir),
    (forall n, ucs_yields b P D go orig n = Ret (items_then_none items n)) /\
    (forall p, In p (map fst items) <-> reachable D (move_of go) orig p) /\
    (forall n p d, nth_error items n = Some (p, d) ->
       exists c, lowest_cost D go orig c p /\ ucs_records b P D go orig (S n) p = Ret c) /\
    (forall i j p d q e c c', (i < j)%nat -> nth_error items i = Some (p, d) -> nth_error items j = Some (q, e) ->
       ~ In q (map fst (firstn j items)) -> lowest_cost D go orig c p -> lowest_cost D go orig c' q -> c <= c').
Proof.
  intros b P D W go orig U V HG SC. pose proof (usable_grid_type b P W U) as G.
  pose proof (afford_HS D P go orig HG SC) as HS. destruct (ucs_trace P D go orig V HS SC) as (es & K1 & K2 & cend & K3).
  assert (HH : forall p d q w, valid P p -> allowed D d -> go p d = Some (q, w) -> 0 <= w + 0).
  { intros p d q w Vp A Es. destruct (HS p d q w Vp Es). lia. }
  assert (POP : forall l p, popped (rev l) p <-> In p (map fst (map (@snd Z (pos * dir)) l))).
  { intros l p. rewrite map_map, in_map_iff. split.
    - intros (x & Hx & E). exists x. split; [exact E |]. apply in_rev. exact Hx.
    - intros (x & E & Hx). exists x. split; [apply in_rev in Hx; exact Hx | exact E]. }
  assert (OPT : forall c hp tr p, Run D go (fun _ => 0) orig c hp tr -> popped tr p -> lowest_cost D go orig (c p) p).
  { intros c hp tr p R Hp. split.
    - apply (i_walk _ _ _ _ _ _ _ _ (inv0_run P D go (fun _ => 0) orig V HS SC _ _ _ R)).
      apply (run_popped_reachable P D go (fun _ => 0) orig V HS SC _ _ _ p R Hp).
    - intros k Hk. apply (run_optimal P D go (fun _ => 0) orig V HS SC HH (fun _ _ => Z.le_refl 0) c hp tr p k R Hp Hk). }
  assert (FST : forall n x, nth_error es n = Some x -> firstn (S n) es = firstn n es ++ [x]).
  { clear. induction es as [|y es IH]; intros [|n] x E; cbn in *; try discriminate; [congruence |]. f_equal. apply IH. exact E. }
  assert (NTH : forall n y, nth_error (map (@snd Z (pos * dir)) es) n = Some y -> exists x, nth_error es n = Some x /\ snd x = y).
  { clear. induction es as [|y es IH]; intros [|n] x E; cbn in *; try discriminate; [inv E; eauto | auto]. }
  exists (map snd es). split; [|split; [|split]].
  - intros n. rewrite (proj1 (ucs_yields_f b P D W go orig n U V HG)). apply K1.
  - intros p. rewrite <- POP. split.
    + intros Hp. apply (run_popped_reachable P D go (fun _ => 0) orig V HS SC _ _ _ p K3 Hp).
    + apply (run_end_popped P D go (fun _ => 0) orig V HS SC _ _ p K3).
  - intros n p d E. destruct (NTH n (p, d) E) as (x & En & Ex).
    destruct (K2 (S n)) as (c & hp & Hc & R). exists (c p).
    assert (Hp : popped (rev (firstn (S n) es)) p).
    { apply POP. rewrite (FST n x En), !map_app. apply in_or_app. right. cbn [map]. rewrite Ex. left. reflexivity. }
    split; [apply (OPT c hp _ p R Hp) |]. rewrite (proj2 (ucs_yields_f b P D W go orig (S n) U V HG)); [apply Hc |].
    eapply run_valid; eassumption.
  - intros i j p d q e c c' Lij Ei Ej NQ Lp Lq. 
    destruct (NTH i _ Ei) as ((px & x) & Ni & Ex). destruct (NTH j _ Ej) as ((py & y) & Nj & Ey). cbn [snd] in Ex, Ey. subst x y.
    destruct (K2 (S j)) as (cc & hp & _ & R). rewrite (FST j _ Nj) in R. rewrite rev_app_distr in R. cbn [rev app] in R.
    rewrite firstn_map in NQ. rewrite <- POP in NQ.
    assert (Hp : popped (rev (firstn j es)) p).
    { exists (px, (p, d)). split; [|reflexivity]. apply -> in_rev. apply nth_error_In with (n := i).
      assert (NF : forall (l : list entry) i j, (i < j)%nat -> nth_error (firstn j l) i = nth_error l i).
      { clear. induction l as [|a l IH]; intros [|i] [|j] L; try lia; cbn; auto. apply IH. lia. }
      rewrite NF by exact Lij. exact Ni. }
    pose proof (pop_order P D go (fun _ => 0) orig V HS SC HH (fun _ _ => Z.le_refl 0) cc hp _ _ p R Hp NQ) as PO.
    cbv beta in PO. cbn [e_pos fst snd] in PO.
    pose proof (OPT cc hp _ p R (popped_cons _ _ _ Hp)) as (_ & O1). pose proof (OPT cc hp _ q R (popped_head _ _)) as (W2 & _).
    destruct Lp as (W1 & L1). destruct Lq as (W3 & L3). destruct (OPT cc hp _ p R (popped_cons _ _ _ Hp)) as (W4 & _).
    pose proof (L1 _ W4). destruct (OPT cc hp _ q R (popped_head _ _)) as (_ & O4). cbn [e_pos fst snd] in O4. pose proof (O4 _ W3). lia.
Qed.

Lemma items_prefix : forall (A : Type) (items l : list A) x n,
  items_then_none items n = map Some l ++ [Some x] -> firstn n items = l ++ [x].
Proof.
  intros A items l x n E. unfold items_then_none in E.
  assert (K : forall (a b : list A) k, map Some a ++ repeat None k = map Some b -> a = b).
  { induction a as [|y a IH]; intros [|z b] k E'; cbn in *; try discriminate; [reflexivity | destruct k; discriminate |].
    inversion E'. f_equal. eapply IH; eassumption. }
  apply (K _ _ (n - length items)%nat). rewrite E. rewrite map_app. reflexivity.
Qed.

Lemma C85_ucs_first_yields_proof : forall b P D W go orig n l p d,
  usable b P W -> valid P orig -> go_inside P (move_of go) -> affordable D P go orig ->
  ucs_yields b P D go orig n = Ret (map Some l ++ [Some (p, d)]) -> ~ In p (map fst l) ->
  p = orig \/
  exists q e w c, In q (map fst l) /\ allowed D e /\ go q e = Some (p, w) /\ heading d = (heading e + 4) mod 8 /\
    (one_step P (move_of go) -> step p d = q) /\
    lowest_cost D go orig c q /\ lowest_cost D go orig (c + w) p.
Proof.
  intros b P D W go orig n l p d U V HG SC Y N.
  pose proof (afford_HS D P go orig HG SC) as HS. destruct (ucs_trace P D go orig V HS SC) as (es & K1 & K2 & _).
  assert (HH : forall p d q w, valid P p -> allowed D d -> go p d = Some (q, w) -> 0 <= w + 0).
  { intros p0 d0 q w Vp A Es. destruct (HS p0 d0 q w Vp Es). lia. }
  rewrite (proj1 (ucs_yields_f b P D W go orig n U V HG)), K1 in Y. injection Y as Y. apply items_prefix in Y. rewrite firstn_map in Y.
  destruct (K2 n) as (c & hp & _ & R).
  destruct (map_eq_app _ _ _ _ Y) as (l1 & l2 & E1 & E2 & E3). destruct l2 as [|x [|y l2]]; try discriminate. cbn in E3. inv E3.
  change (@firstn entry n es = l1 ++ [x]) in E1. rewrite E1, rev_app_distr in R. cbn [rev app] in R. destruct x as (pr & x). cbn [snd] in *. subst x.
  assert (POP : forall q, popped (rev l1) q <-> In q (map fst (map (@snd Z (pos * dir)) l1))).
  { intros q. rewrite map_map, in_map_iff. split.
    - intros (x & Hx & E). exists x. split; [exact E |]. apply in_rev. exact Hx.
    - intros (x & E & Hx). exists x. split; [apply in_rev in Hx; exact Hx | exact E]. }
  assert (OPT : forall q, popped ((pr, (p, d)) :: rev l1) q -> lowest_cost D go orig (c q) q).
  { intros q Hq. split.
    - apply (i_walk _ _ _ _ _ _ _ _ (inv0_run P D go (fun _ => 0) orig V HS SC _ _ _ R)).
      apply (run_popped_reachable P D go (fun _ => 0) orig V HS SC _ _ _ q R Hq).
    - intros k Hk. apply (run_optimal P D go (fun _ => 0) orig V HS SC HH (fun _ _ => Z.le_refl 0) c hp _ q k R Hq Hk). }
  destruct (first_pop P D go (fun _ => 0) orig V HS SC HH (fun _ _ => Z.le_refl 0) c hp _ _ R) as [E | (q & e & w & Hq & A & Es & Ed & Ec)].
  - rewrite POP. exact N.
  - left. inversion E. reflexivity.
  - right. cbn [e_pos e_dir fst snd] in *. exists q, e, w, (c q). split; [apply POP; exact Hq |]. split; [exact A |]. split; [exact Es |].
    split; [subst d; destruct e; reflexivity |]. split.
    + intros OS. assert (Vq : valid P q) by (apply (run_valid P D go (fun _ => 0) orig V HS SC c hp _ q R); apply popped_cons; exact Hq).
      rewrite (OS q e p Vq) by (unfold move_of; rewrite Es; reflexivity). subst d. apply step_opp.
    + split; [apply OPT; apply popped_cons; exact Hq |]. rewrite <- Ec. apply OPT. apply (popped_head (pr, (p, d))).
Qed.

Lemma C97_ucs_largest_cost_refuted_proof : exists b P W go orig dest,
  usable b P W /\ valid P orig /\ valid P dest /\ go_inside P (move_of go) /\ one_step P (move_of go) /\
  (forall p d q c, go p d = Some (q, c) -> 0 <= c <= 18446744073709551615) /\
  lowest_cost false go orig 18446744073709551615 dest /\
  returns (fun fuel => ucs_on b P false fuel go orig dest) (Err DestinationUnreachable).
Proof.
  assert (U : usable OnGrid (Pos 1 0) 1) by (exists 1, 0; unfold u16_dims, cells, cols, rows; cbn; repeat split; lia).
  pose (go := fun p d => if pos_eqb p (0, 0) then match d with dE => Some ((1, 0), 18446744073709551615) | _ => None end else None).
  assert (GO : forall p d q c, go p d = Some (q, c) -> p = (0, 0) /\ d = dE /\ q = (1, 0) /\ c = 18446744073709551615).
  { intros p d q c E. unfold go in E. destruct (pos_eqb p (0, 0)) eqn:Ep; [|discriminate]. apply pos_eqb_eq in Ep. destruct d; inv E. auto. }
  assert (MV : forall p d q, move_of go p d = Some q -> p = (0, 0) /\ d = dE /\ q = (1, 0)).
  { intros p d q E. unfold move_of in E. destruct (go p d) as [[r c]|] eqn:Eg; inv E. apply GO in Eg. tauto. }
  exists OnGrid, (Pos 1 0), 1, go, (0, 0), (1, 0).
  split; [exact U |]. split; [cbv; repeat split; discriminate |]. split; [cbv; repeat split; discriminate |].
  split; [intros p d q _ E; apply MV in E; destruct E as (_ & _ & ->); cbv; repeat split; discriminate |].
  split; [intros p d q _ E; apply MV in E; destruct E as (-> & -> & ->); reflexivity |].
  split; [intros p d q c E; apply GO in E; destruct E as (_ & _ & _ & ->); lia |]. split.
  - split.
    + exists [dE]. split; [apply Forall_forall; intros d Hd; apply dirs_allowed; cbn in *; tauto | vm_compute; reflexivity].
    + intros c (path & A & F). destruct path as [|d path]; [discriminate |]. cbn [follow_cost] in F.
      destruct (go (0, 0) d) as [[q w]|] eqn:E; [|discriminate]. apply GO in E. destruct E as (_ & _ & -> & ->).
      destruct path as [|d' path]; cbn [follow_cost] in F; [inv F; lia |]. discriminate.
  - apply (ucs_path_mono (Pos 1 0) false _ _ go 10). vm_compute. reflexivity.
Qed.

Lemma C97_ucs_overflow_refuted_proof : exists b P W go orig dest,
  usable b P W /\ valid P orig /\ valid P dest /\ go_inside P (move_of go) /\ one_step P (move_of go) /\
  (forall p d q c, go p d = Some (q, c) -> 0 <= c <= 18446744073709551615) /\
  lowest_cost false go orig 1 dest /\
  settles (fun fuel => ucs_on b P false fuel go orig dest) Panic.
Proof.
  assert (U : usable OnHash (Pos 1 0) 1) by (apply Pos_grid_type; unfold u16_dims; lia).
  pose (go := fun p d => if pos_eqb p (0, 0) then match d with dE => Some ((1, 0), 1) | _ => None end else
    if pos_eqb p (1, 0) then match d with dW => Some ((0, 0), 18446744073709551615) | _ => None end else None).
  assert (GO : forall p d q c, go p d = Some (q, c) -> (p = (0, 0) /\ d = dE /\ q = (1, 0) /\ c = 1) \/ (p = (1, 0) /\ d = dW /\ q = (0, 0) /\ c = 18446744073709551615)).
  { intros p d q c E. unfold go in E. destruct (pos_eqb p (0, 0)) eqn:Ep; [|destruct (pos_eqb p (1, 0)) eqn:Ep'; [|discriminate]]; apply pos_eqb_eq in Ep || apply pos_eqb_eq in Ep'; destruct d; inv E; auto. }
  assert (MV : forall p d q, move_of go p d = Some q -> (p = (0, 0) /\ d = dE /\ q = (1, 0)) \/ (p = (1, 0) /\ d = dW /\ q = (0, 0))).
  { intros p d q E. unfold move_of in E. destruct (go p d) as [[r c]|] eqn:Eg; inv E. apply GO in Eg. tauto. }
  exists OnHash, (Pos 1 0), 1, go, (0, 0), (1, 0).
  split; [exact U |]. split; [cbv; repeat split; discriminate |]. split; [cbv; repeat split; discriminate |].
  split; [intros p d q _ E; apply MV in E; destruct E as [(_ & _ & ->) | (_ & _ & ->)]; cbv; repeat split; discriminate |].
  split; [intros p d q _ E; apply MV in E; destruct E as [(-> & -> & ->) | (-> & -> & ->)]; reflexivity |].
  split; [intros p d q c E; apply GO in E; destruct E as [(_ & _ & _ & ->) | (_ & _ & _ & ->)]; lia |]. split.
  - split.
    + exists [dE]. split; [apply Forall_forall; intros d Hd; apply dirs_allowed; cbn in *; tauto | vm_compute; reflexivity].
    + assert (NN : forall path p q c, follow_cost go p path = Some (q, c) -> 0 <= c).
      { induction path as [|d path IH]; intros p q c F; cbn [follow_cost] in F; [inv F; lia |].
        destruct (go p d) as [[r w]|] eqn:E; [|discriminate]. destruct (follow_cost go r path) as [[r' w']|] eqn:E'; inv F. apply IH in E'. apply GO in E. lia. }
      intros c (path & A & F). destruct path as [|d path]; [discriminate |]. cbn [follow_cost] in F.
      destruct (go (0, 0) d) as [[q w]|] eqn:E; [|discriminate]. apply GO in E. destruct (follow_cost go q path) as [[r w']|] eqn:E'; inv F. apply NN in E'. lia.
  - exists 2%nat. intros fuel Hf. destruct fuel as [|[|fuel]]; [lia | lia |]. vm_compute. reflexivity.
Qed.

Lemma C97_ucs_costs_partial_proof : forall b P D W go orig dest cmax,
  usable b P W -> valid P orig -> valid P dest -> go_inside P (move_of go) -> one_step P (move_of go) ->
  (forall p d q c, valid P p -> go p d = Some (q, c) -> 0 <= c <= cmax) -> cmax * cells P <= 18446744073709551615 ->
  exists r, returns (fun fuel => ucs_on b P D fuel go orig dest) r /\ (r = Err DestinationUnreachable <-> ~ reachable D (move_of go) orig dest).
Proof.
  intros b P D W go orig dest cmax U V Vd HG O HC HM.
  assert (SC : affordable D P go orig) by (apply C74_small_costs_suffice_proof; [eapply usable_grid_type; exact U | exact V | exact HG | exists cmax; auto]).
  destruct (C74_ucs_exact_proof b P D W go orig dest U V Vd HG O SC) as (r & Hr & K & _). eauto.
Qed.
