(** PropOrderStay.v -- what searches with an order of positions depend on: C154. *)

From Coq Require Import ZArith List Bool Lia Permutation Arith.
From Verif Require Import Rust BoundedInt Dir PosT Pos Grid Gridbool SetMap CameFrom Bf Heap Astar Ucs Queue Order Btree Spec SpecSearch SpecMaze SpecStorage SpecPrice SpecQueue SpecOrder SpecBtree SpecTreeOrder SpecSettle SpecOrderPath SpecYield SpecReplan Lib Deque BoundedIntProofs PosTProofs PosTProofs2 PropDirProofs SetMapProofs Sim CameFromProofs BfProofs PropBfProofs Fair FairSearch SearchProofs AstarProofs PropAstarProofs UcsProofs PropUcsProofs FairQueue BeelineProofs PropAgreeProofs PropStorageProofs PropEffortProofs GridProofs PropPathProofs PropReplanProofs PropStrayProofs PropLocalProofs BtreeProofs PropBtreeProofs PropOrderProofs PropTreeOrderProofs PropSettleProofs BestFirst Ordered OrderedQueue PropOrderWorkProofs PropOrderPathProofs PropReplanProofs PropCostProofs PropLocalProofs PropYieldProofs PropPriceProofs.
From Verif Require Import PropOrderStayProofs.
Import ListNotations.
Open Scope Z_scope.

(** ** Unused moves *)

(** C154: if the path returned has the lowest cost and every move costs something,
    closing moves it does not use, or making them dearer, changes nothing. *)
Theorem C154_ucs_unused : forall H M MC (qo : queueops H) ok els (co : mapops Z MC) (mo : mapops (option dir) M) cmp P (D : bool) go go' orig dest path c,
  order_of P cmp -> ordered_queue P cmp qo ok els -> acts_as_map P co -> acts_as_map P mo -> post_wf P -> valid P orig -> valid P dest ->
  go_inside P (move_of go) -> one_step P (move_of go) -> affordable D P go orig -> affordable D P go' orig ->
  (forall p d q w, valid P p -> go p d = Some (q, w) -> 0 < w) ->
  returns (fun fuel => ucsq_search_path qo P D co mo go fuel orig dest) (Ok path) ->
  follow_cost go orig path = Some (dest, c) -> lowest_cost D go orig c dest ->
  (forall p d q w', go' p d = Some (q, w') -> exists w, go p d = Some (q, w) /\ w <= w') ->
  follow_cost go' orig path = Some (dest, c) ->
  returns (fun fuel => ucsq_search_path qo P D co mo go' fuel orig dest) (Ok path).
Proof. exact C154_ucs_unused_proof. Qed.
Print Assumptions C154_ucs_unused.

(** C154: and searching for a position of the path gives the path up to there. *)
Theorem C154_ucs_part : forall H M MC (qo : queueops H) ok els (co : mapops Z MC) (mo : mapops (option dir) M) cmp P (D : bool) go orig dest path c l1 l2 q,
  order_of P cmp -> ordered_queue P cmp qo ok els -> acts_as_map P co -> acts_as_map P mo -> post_wf P -> valid P orig -> valid P dest ->
  go_inside P (move_of go) -> one_step P (move_of go) -> affordable D P go orig ->
  (forall p d q w, valid P p -> go p d = Some (q, w) -> 0 < w) ->
  returns (fun fuel => ucsq_search_path qo P D co mo go fuel orig dest) (Ok path) ->
  follow_cost go orig path = Some (dest, c) -> lowest_cost D go orig c dest ->
  path = l1 ++ l2 -> follow (move_of go) orig l1 = Some q -> retraceable P orig q ->
  returns (fun fuel => ucsq_search_path qo P D co mo go fuel orig q) (Ok l1).
Proof. exact C154_ucs_part_proof. Qed.
Print Assumptions C154_ucs_part.

(** ** Planning again *)

(** C154: planning again at a position [p] of such a path gives the rest of it. *)
Theorem C154_ucs_rest : forall H M MC (qo : queueops H) ok els (co : mapops Z MC) (mo : mapops (option dir) M) cmp P (D : bool) go orig dest path l1 l2 p c,
  order_of P cmp -> ordered_queue P cmp qo ok els -> acts_as_map P co -> acts_as_map P mo -> post_wf P -> valid P orig -> valid P dest ->
  go_inside P (move_of go) -> one_step P (move_of go) -> affordable D P go orig -> affordable D P go p ->
  (forall p d q w, valid P p -> go p d = Some (q, w) -> 0 < w) ->
  returns (fun fuel => ucsq_search_path qo P D co mo go fuel orig dest) (Ok path) ->
  follow_cost go orig path = Some (dest, c) -> lowest_cost D go orig c dest ->
  path = l1 ++ l2 -> follow (move_of go) orig l1 = Some p -> retraceable P p dest ->
  returns (fun fuel => ucsq_search_path qo P D co mo go fuel p dest) (Ok l2).
Proof. exact C154_ucs_rest_proof. Qed.
Print Assumptions C154_ucs_rest.

(** C154: so planning again before every move leads along it. *)
Theorem C154_ucs_replanned : forall H M MC (qo : queueops H) ok els (co : mapops Z MC) (mo : mapops (option dir) M) cmp P (D : bool) go orig dest path c w,
  order_of P cmp -> ordered_queue P cmp qo ok els -> acts_as_map P co -> acts_as_map P mo -> post_wf P -> valid P orig -> valid P dest ->
  go_inside P (move_of go) -> one_step P (move_of go) -> (forall p, valid P p -> affordable D P go p /\ retraceable P p dest) ->
  (forall p d q w, valid P p -> go p d = Some (q, w) -> 0 < w) ->
  returns (fun fuel => ucsq_search_path qo P D co mo go fuel orig dest) (Ok path) ->
  follow_cost go orig path = Some (dest, c) -> lowest_cost D go orig c dest ->
  (replanned (fun p l => returns (fun fuel => ucsq_search_path qo P D co mo go fuel p dest) (Ok l)) (move_of go) dest orig w <-> w = path).
Proof. exact C154_ucs_replanned_proof. Qed.
Print Assumptions C154_ucs_replanned.

(** C154: when the cost of a move depends only on the position entered, this is so for
    every path returned. *)
Theorem C154_ucs_entering : forall H M MC (qo : queueops H) ok els (co : mapops Z MC) (mo : mapops (option dir) M) cmp P (D : bool) go orig dest path,
  order_of P cmp -> ordered_queue P cmp qo ok els -> acts_as_map P co -> acts_as_map P mo -> post_wf P -> valid P orig -> valid P dest ->
  go_inside P (move_of go) -> one_step P (move_of go) -> (forall p, valid P p -> affordable D P go p /\ retraceable P p dest) ->
  (forall p d q w, valid P p -> go p d = Some (q, w) -> 0 < w) -> cost_of_entering D P go ->
  returns (fun fuel => ucsq_search_path qo P D co mo go fuel orig dest) (Ok path) ->
  (exists c, follow_cost go orig path = Some (dest, c) /\ lowest_cost D go orig c dest) /\
  forall w, replanned (fun p l => returns (fun fuel => ucsq_search_path qo P D co mo go fuel p dest) (Ok l)) (move_of go) dest orig w <-> w = path.
Proof. exact C154_ucs_entering_proof. Qed.
Print Assumptions C154_ucs_entering.

Example C154_example :
  let P := Pos 4 2 in
  let go p d := match pos_dir_add_ok P p d with Some q => Some (q, if fst q =? 1 then 10 - 4 * snd q else 1) | None => None end in
  let go' p d := match go p d with Some (q, w) => if (fst p =? 2) && (snd p <=? snd q) then None else if (fst q =? 1) && (snd q <? 2) then Some (q, w + 7) else Some (q, w) | None => None end in
  ucs_ordered backwards P false 60 go (0, 0) (2, 0) = Ret (Ok [dS; dS; dE; dE; dN; dN]) /\
  ucs_ordered backwards P false 60 go' (0, 0) (2, 0) = Ret (Ok [dS; dS; dE; dE; dN; dN]) /\
  ucs_ordered backwards P false 60 go (0, 0) (2, 1) = Ret (Ok [dS; dS; dE; dE; dN]) /\
  ucs_ordered backwards P false 60 go (0, 2) (2, 0) = Ret (Ok [dE; dE; dN; dN]) /\
  ucs_ordered backwards P false 60 go (1, 2) (2, 0) = Ret (Ok [dE; dN; dN]) /\
  go (1, 0) dE = Some ((2, 0), 1) /\ go' (1, 0) dE = Some ((2, 0), 1) /\ go (0, 0) dE = Some ((1, 0), 10) /\ go' (0, 0) dE = Some ((1, 0), 17) /\
  go (2, 0) dE = Some ((3, 0), 1) /\ go' (2, 0) dE = None.
Proof. vm_compute. repeat split. Qed.

Example C154_hypotheses :
  let P := Pos 4 2 in
  let go p d := match pos_dir_add_ok P p d with Some q => Some (q, if fst q =? 1 then 10 - 4 * snd q else 1) | None => None end in
  let go' p d := match go p d with Some (q, w) => if (fst p =? 2) && (snd p <=? snd q) then None else if (fst q =? 1) && (snd q <? 2) then Some (q, w + 7) else Some (q, w) | None => None end in
  let path := [dS; dS; dE; dE; dN; dN] in
  order_of P backwards /\ (exists ok, ordered_queue P backwards (queue_ordered (pair_le backwards)) ok (fun v => v)) /\
  (forall Item, acts_as_map P (@map_tree_by Item backwards)) /\
  post_wf P /\ valid P (0, 0) /\ valid P (2, 0) /\ (forall p q, valid P p -> valid P q -> retraceable P p q) /\
  go_inside P (move_of go) /\ one_step P (move_of go) /\
  (forall p, valid P p -> affordable false P go p /\ affordable false P go' p) /\
  (forall p d q w, valid P p -> go p d = Some (q, w) -> 0 < w) /\ cost_of_entering false P go /\
  returns (fun fuel => ucs_ordered backwards P false fuel go (0, 0) (2, 0)) (Ok path) /\
  follow_cost go (0, 0) path = Some ((2, 0), 7) /\ lowest_cost false go (0, 0) 7 (2, 0) /\
  (forall p d q w', go' p d = Some (q, w') -> exists w, go p d = Some (q, w) /\ w <= w') /\
  follow_cost go' (0, 0) path = Some ((2, 0), 7).
Proof.
  intros P go go' path. assert (G : grid_type P) by (apply Pos_grid_type; unfold u16_dims; lia). pose proof (grid_type_wf P G) as WF.
  assert (V : valid P (0, 0)) by (unfold valid, in_bty; cbn; lia). assert (Vd : valid P (2, 0)) by (unfold valid, in_bty; cbn; lia).
  assert (EM : forall p d q, move_of go p d = Some q -> pos_dir_add_ok P p d = Some q) by (intros p d q; unfold move_of, go; destruct (pos_dir_add_ok P p d) as [r |]; congruence).
  assert (SUB : forall p d q w', go' p d = Some (q, w') -> exists w, go p d = Some (q, w) /\ w <= w' <= w + 7).
  { intros p d q w' E. unfold go' in E. destruct (go p d) as [[r w] |]; [|discriminate]. destruct (_ && _); [discriminate |].
    destruct (_ && _); injection E as <- <-; exists w; split; try reflexivity; lia. }
  assert (HG : go_inside P (move_of go)) by (intros p d q Vp E; exact (open_inside P G p d q Vp (EM p d q E))).
  assert (HG' : go_inside P (move_of go')).
  { intros p d q Vp E. apply (HG p d q Vp). unfold move_of in *. destruct (go' p d) as [[r w'] |] eqn:E'; [|discriminate]. destruct (SUB _ _ _ _ E') as (w & Ew & _). rewrite Ew. exact E. }
  assert (OS : one_step P (move_of go)) by (intros p d q Vp E; exact (open_one_step P G p d q Vp (EM p d q E))).
  assert (OB : order_of P backwards).
  { unfold backwards. constructor.
    - intros p q _ _. rewrite (to_eq _ pos_cmp_order). split; congruence.
    - intros p q _ _. apply (to_flip _ pos_cmp_order).
    - intros p q r _ _ _ H1 H2. exact (to_trans _ pos_cmp_order _ _ _ H2 H1). }
  assert (W1 : forall p d q w, valid P p -> go p d = Some (q, w) -> 0 < w <= 10).
  { intros p d q w Vp E. assert (Vq : valid P q) by (apply (HG p d q Vp); unfold move_of; rewrite E; reflexivity).
    unfold go in E. destruct (pos_dir_add_ok P p d) as [r |]; [|discriminate].
    assert (r = q /\ w = if fst r =? 1 then 10 - 4 * snd r else 1) as (-> & ->) by (split; congruence).
    unfold valid, in_bty, P in Vq. cbn in Vq. destruct (fst q =? 1); lia. }
  assert (HA : forall p, valid P p -> affordable false P go p).
  { intros p Vp. apply C74_small_costs_suffice_proof; [exact G | exact Vp | exact HG |]. exists 10. split; [unfold cells, cols, rows; cbn; lia |].
    intros r d q c Vr E. pose proof (W1 r d q c Vr E). lia. }
  assert (HA' : forall p, valid P p -> affordable false P go' p).
  { intros p Vp. apply C74_small_costs_suffice_proof; [exact G | exact Vp | exact HG' |]. exists 17. split; [unfold cells, cols, rows; cbn; lia |].
    intros r d q c Vr E. destruct (SUB _ _ _ _ E) as (w & Ew & L). pose proof (W1 r d q w Vr Ew). lia. }
  assert (POS : forall p d q w, valid P p -> go p d = Some (q, w) -> 0 < w) by (intros p d q w Vp E; pose proof (W1 p d q w Vp E); lia).
  assert (RT : forall p q, valid P p -> valid P q -> retraceable P p q) by (intros p q Vp Vq; unfold valid, in_bty, P in Vp, Vq; cbn in Vp, Vq; unfold retraceable, measurable, in_bty, cols; change (XM P) with 4; change (b_min (pt_x P)) with 0; change (b_max (pt_x P)) with 4; change (b_min (pt_y P)) with 0; change (b_max (pt_y P)) with 2; lia).
  assert (CE : cost_of_entering false P go).
  { unfold cost_of_entering. intros p d w p' d' w' q Vp Vp' _ _ E E'. unfold go in E, E'.
    destruct (pos_dir_add_ok P p d) as [r |]; [|discriminate]. destruct (pos_dir_add_ok P p' d') as [r' |]; [|discriminate].
    assert (r' = r) as -> by congruence. congruence. }
  destruct (C152_heap_proof backwards P OB) as (ok & OQ). destruct (C151_applies_proof backwards P OB) as ((ok' & FQ) & AT & _).
  assert (RET : returns (fun fuel => ucs_ordered backwards P false fuel go (0, 0) (2, 0)) (Ok path)).
  { destruct (C151_ucs_effort_proof _ _ _ _ ok' _ (map_tree_by backwards) (map_tree_by backwards) P false go (0, 0) (all_rows P) FQ (AT _) (AT _) WF V HG (HA _ V)) as (_ & K).
    { intros p (n & Wn). apply all_rows_In. exact (BfProofs.walk_valid false (move_of go) P n (0, 0) p HG V Wn). }
    destruct (K (2, 0) Vd) as (r & _ & Kr).
    assert (E : ucs_ordered backwards P false 200 go (0, 0) (2, 0) = Ret (Ok path)) by (vm_compute; reflexivity).
    assert (r = Ret (Ok path)) as ->. { rewrite <- E. symmetry. apply Kr; [vm_compute; repeat constructor | vm_compute; reflexivity]. }
    exists 200%nat. intros fuel L. apply Kr; [apply (Nat.lt_le_trans _ 200); [vm_compute; repeat constructor | exact L] | unfold cols; cbn; lia]. }
  assert (F : follow_cost go (0, 0) path = Some ((2, 0), 7)) by (vm_compute; reflexivity).
  assert (F' : follow_cost go' (0, 0) path = Some ((2, 0), 7)) by (vm_compute; reflexivity).
  destruct (C154_ucs_entering_proof _ _ _ _ ok _ (map_tree_by backwards) (map_tree_by backwards) backwards P false go (0, 0) (2, 0) path OB OQ (AT _) (AT _) WF V Vd HG OS
    (fun p Vp => conj (HA p Vp) (RT p (2, 0) Vp Vd)) POS CE RET) as ((c & Fc & LC) & _).
  rewrite F in Fc. injection Fc as <-.
  split; [exact OB |]. split; [exists ok; exact OQ |]. split; [exact AT |]. split; [exact WF |]. split; [exact V |]. split; [exact Vd |]. split; [exact RT |].
  split; [exact HG |]. split; [exact OS |]. split; [auto |]. split; [exact POS |]. split; [exact CE |]. split; [exact RET |]. split; [exact F |]. split; [exact LC |]. split; [|exact F'].
  intros p d q w' E. destruct (SUB p d q w' E) as (w & Ew & L & _). exists w. auto.
Qed.
