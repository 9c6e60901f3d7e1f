(** PropOrderWorkProofs.v -- proofs of the statements of PropOrderWork.v. *)

From Coq Require Import ZArith List Bool Lia Permutation Arith.
From Verif Require Import Rust BoundedInt Dir PosT Pos Grid Gridbool SetMap CameFrom Bf Heap Astar Ucs Queue Order Btree Spec SpecSearch SpecMaze SpecStorage SpecPrice SpecQueue SpecOrder SpecBtree SpecTreeOrder Lib Deque BoundedIntProofs PosTProofs PosTProofs2 PropDirProofs SetMapProofs Sim CameFromProofs BfProofs PropBfProofs Fair FairSearch SearchProofs AstarProofs PropAstarProofs UcsProofs PropUcsProofs FairQueue BeelineProofs PropAgreeProofs PropStorageProofs PropEffortProofs GridProofs PropPathProofs PropReplanProofs PropStrayProofs PropLocalProofs BtreeProofs PropBtreeProofs PropOrderProofs PropTreeOrderProofs.
Import ListNotations.
Open Scope Z_scope.

(** A loop that can only run for so long does not exhaust its fuel. *)
Lemma gloop_enough : forall P D succ h orig S M (next : S -> exec (option (pos * dir) * S)) (mo : mapops (option dir) M) RM (Rel : S -> (pos -> Z) -> heap -> Prop) far (B : nat),
  valid P orig -> (forall p d q w, valid P p -> succ p d = Some (q, w) -> valid P q /\ 0 <= w) -> affordable D P succ orig ->
  lawful_map P mo RM -> follows D succ h orig next Rel far ->
  (forall c hp tr, FRun D succ h orig c hp tr -> (length tr + length hp <= B)%nat) ->
  forall dest fuel fuel' c hp tr m f s, FRun D succ h orig c hp tr -> Rel s c hp -> RM m f -> (B < length tr + fuel)%nat -> (fuel <= fuel')%nat ->
  gloop next mo fuel' dest m s = gloop next mo fuel dest m s /\
  (gloop next mo fuel dest m s = Panic \/ (exists e, gloop next mo fuel dest m s = Ret (Err e)) \/
   exists m' f', gloop next mo fuel dest m s = Ret (Ok m') /\ RM m' f' /\ f' dest <> None).
Proof.
  intros P D succ h orig S M next mo RM Rel far B V HS HA LM HN HB dest.
  induction fuel as [|fuel IH]; intros fuel' c hp tr m f s R RS HM L LE; [specialize (HB _ _ _ R); lia |].
  destruct fuel' as [|fuel']; [lia |]. cbn [gloop].
  destruct (HN s c hp tr R RS) as [(-> & En) | [(e & rest & c' & hp' & s' & Ep & Ee & En & RS') | (F & En)]]; rewrite En; cbn [bind]; [eauto | | auto].
  destruct (frun_fin P D succ h orig V HS HA c hp tr e R) as (_ & Ve); [apply (pops_In _ _ _ Ep); auto |].
  destruct (lm_set _ _ _ LM m f (e_pos e) (Some (e_dir e)) HM Ve) as (m' & Em & HM'). rewrite Em. cbn [bind].
  destruct (pos_eqb (e_pos e) dest) eqn:Ed.
  - split; [reflexivity |]. right. right. eexists _, _. split; [reflexivity |]. split; [exact HM' |]. apply pos_eqb_eq in Ed. rewrite <- Ed, put_eq. discriminate.
  - apply (IH fuel' c' hp' (e :: tr) m' _ s' (FRun1 _ _ _ _ _ _ _ _ _ _ _ R Ep Ee) RS' HM'); cbn [length]; lia.
Qed.

Lemma search_settled : forall P D succ h orig S M (next : S -> exec (option (pos * dir) * S)) (mo : mapops (option dir) M) RM (Rel : S -> (pos -> Z) -> heap -> Prop) far (B : nat),
  valid P orig -> (forall p d q w, valid P p -> succ p d = Some (q, w) -> valid P q /\ 0 <= w) -> affordable D P succ orig ->
  lawful_map P mo RM -> follows D succ h orig next Rel far ->
  (forall c hp tr, FRun D succ h orig c hp tr -> (length tr + length hp <= B)%nat) ->
  forall dest s0 (run : nat -> exec (result (list dir))) r, post_wf P -> valid P dest -> Rel s0 (put (fun _ : pos => COST_MAX) orig 0) [e0 orig] ->
  (forall fuel, run fuel = bind (gloop next mo fuel dest (mp_default mo None) s0)
     (fun r => match r with Err e => Ret (Err e) | Ok m => camefrom_into_path P mo fuel m orig dest end)) ->
  settles run r -> forall fuel, (B < fuel)%nat -> cols P * cols P < Z.of_nat fuel -> run fuel = r.
Proof.
  intros P D succ h orig S M next mo RM Rel far B V HS HA LM HN HB dest s0 run r W Vd R0 Hrun (n & Hn) fuel L1 L2.
  rewrite <- (Hn (Nat.max n fuel) ltac:(lia)). rewrite !Hrun.
  destruct (gloop_enough P D succ h orig S M next mo RM Rel far B V HS HA LM HN HB dest fuel (Nat.max n fuel) _ _ [] (mp_default mo None) (fun _ => None) s0 (FRun0 D succ h orig) R0 (lm_default _ _ _ LM None)) as (-> & K); [cbn [length]; lia | lia |].
  destruct K as [-> | [(e & ->) | (m & f & -> & HM & Nf)]]; [reflexivity | reflexivity |]. cbn [bind].
  rewrite !(camefrom_sim P mo RM _ m f orig dest W LM HM Vd). destruct (retraceable_dec P orig dest) as [RT | RT].
  - pose proof (Z.square_nonneg (cols P)). rewrite !into_path_gen by (assumption || lia). reflexivity.
  - rewrite !into_path_panics by assumption. reflexivity.
Qed.

Lemma ucsq_gloop : forall H MC M (qo : queueops H) D (co : mapops Z MC) (mo : mapops (option dir) M) go fuel dest f it,
  ucsq_search_loop qo D co mo go fuel dest f it = gloop (ucsq_next qo D co go) mo fuel dest f it.
Proof.
  intros H MC M qo D co mo go. induction fuel as [|n IH]; intros dest f it; [reflexivity |]. cbn [ucsq_search_loop gloop].
  destruct (ucsq_next qo D co go it) as [[[[p d]|] it'] | | |]; [|reflexivity..]. cbn [bind].
  destruct (mp_set mo f p (Some d)); [|reflexivity..]. cbn [bind]. destruct (pos_eqb p dest); [reflexivity | apply IH].
Qed.

Lemma astarq_gloop : forall H MC M (qo : queueops H) P D (co : mapops Z MC) (mo : mapops (option dir) M) go fuel dest f it,
  astarq_search_loop qo P D co mo go fuel dest f it = gloop (astarq_next qo P D co go dest) mo fuel dest f it.
Proof.
  intros H MC M qo P D co mo go. induction fuel as [|n IH]; intros dest f it; [reflexivity |]. cbn [astarq_search_loop gloop].
  destruct (astarq_next qo P D co go dest it) as [[[[p d]|] it'] | | |]; [|reflexivity..]. cbn [bind].
  destruct (mp_set mo f p (Some d)); [|reflexivity..]. cbn [bind]. destruct (pos_eqb p dest); [reflexivity | apply IH].
Qed.

Lemma outcome_returns : forall P D succ h orig dest r, foutcome_any P D succ h orig dest r -> (exists x, r = Ret x) \/ (r = Panic /\ ~ retraceable P orig dest).
Proof. intros P D succ h orig dest r (r0 & _ & [-> | (-> & RC)] & K); [eauto |]. right. split; [reflexivity |]. apply (K RC). reflexivity. Qed.

(** ** What all this is about *)

Lemma C151_applies_proof : forall cmp P, order_of P cmp ->
  (exists ok, fair_queue (queue_ordered (pair_le cmp)) ok (fun v => v)) /\
  (forall Item, acts_as_map P (@map_tree_by Item cmp)) /\
  (forall Item, acts_as_map P (@map_hash Item)) /\
  (grid_type P -> forall Item, acts_as_map P (@map_grid Item P (cells P))).
Proof.
  intros cmp P OO. split; [apply C148_binary_heap_proof |]. split; [intros Item; apply map_tree_acts; exact OO |].
  split; [intros Item; apply (lawful_acts_map _ _ P _ _ (lawful_hmap _ P)) |]. intros G Item. apply (lawful_acts_map _ _ P _ _ (lawful_grid _ P G)).
Qed.

(** ** Work *)

Lemma C151_ucs_effort_proof : forall H M MC (qo : queueops H) ok els (co : mapops Z MC) (mo : mapops (option dir) M) P (D : bool) go orig rs,
  fair_queue qo ok els -> acts_as_map P co -> acts_as_map P mo -> post_wf P -> valid P orig ->
  go_inside P (move_of go) -> affordable D P go orig ->
  (forall p, reachable D (move_of go) orig p -> In p rs) ->
  (exists items : list (pos * dir), (length items <= 1 + (if D then 8 else 4) * length rs)%nat /\
     forall n, ucsq_yields_with qo co D go orig n = Ret (items_then_none items n)) /\
  (forall dest, valid P dest -> exists r, ((exists x, r = Ret x) \/ r = Panic /\ ~ retraceable P orig dest) /\
     forall fuel, (1 + (if D then 8 else 4) * length rs < fuel)%nat -> cols P * cols P < Z.of_nat fuel ->
       ucsq_search_path qo P D co mo go fuel orig dest = r).
Proof.
  intros H M MC qo ok els co mo P D go orig rs FQ AC AM WF V HG HA Hrs. pose proof (afford_HS D P go orig HG HA) as HS.
  pose proof (acts_lawful_map _ _ P co AC) as LC. pose proof (acts_lawful_map _ _ P mo AM) as LM.
  assert (HB : forall c hp tr, FRun D go (fun _ => 0) orig c hp tr -> (length tr + length hp <= 1 + (if D then 8 else 4) * length rs)%nat).
  { intros c hp tr. apply (frun_effort P D go (fun _ : pos => 0) orig V HS HA); [| |exact Hrs]; intros; cbv beta; [|lia]. match goal with E : go _ _ = Some _, Vp : valid P _ |- _ => destruct (HS _ _ _ _ Vp E) end. lia. }
  split.
  - destruct (ucsq_trace qo ok els P (fair_all FQ P) D co _ LC go orig V HS HA) as (es & K1 & _ & c & K3). exists (map snd es). split; [|exact K1].
    specialize (HB c [] (rev es) K3). rewrite rev_length in HB. rewrite map_length. cbn [length] in HB. rewrite Nat.add_0_r in HB. exact HB.
  - intros dest Vd. destruct (ucsq_outcome qo ok els P (fair_all FQ P) D co mo _ _ LC LM WF go orig dest V Vd HS HA) as (r & Hr & K). exists r. split; [apply (outcome_returns P D go (fun _ => 0)); exact K |].
    destruct (rel_new qo ok els P (fair_all FQ P) co _ LC orig V) as (m0 & E0 & R0).
    apply (search_settled P D go (fun _ => 0) orig _ _ (ucsq_next qo D co go) mo _ _ False _ V HS HA LM (ucsq_follows qo ok els P (fair_all FQ P) D co _ LC go orig V HS HA) HB dest
      (QUIt m0 (q_push qo (q_new qo) (0, (orig, dir_default)))) (fun fuel => ucsq_search_path qo P D co mo go fuel orig dest) r WF Vd R0); [|exact Hr].
    intros fuel. unfold ucsq_search_path, ucsq_search_mapmov, ucsq_new. rewrite E0. cbn [bind]. rewrite ucsq_gloop. reflexivity.
Qed.

Lemma C151_astar_effort_proof : forall H M MC (qo : queueops H) ok els (co : mapops Z MC) (mo : mapops (option dir) M) P (D : bool) go orig dest rs,
  fair_queue qo ok els -> acts_as_map P co -> acts_as_map P mo -> post_wf P -> valid P orig -> valid P dest ->
  go_inside P go -> one_step P go ->
  (forall p, reachable D go orig p -> In p rs) ->
  (forall p, reachable D go orig p -> measurable P p dest /\
     Z.of_nat (length rs) + (Z.abs (fst p - fst dest) + Z.abs (snd p - snd dest)) <= 18446744073709551615) ->
  (exists items : list (pos * dir), (length items <= if D then length rs * length rs else 1 + 4 * length rs)%nat /\
     forall n, astarq_yields_with qo co P D go orig dest n = Ret (items_then_none items n)) /\
  (exists r, ((exists x, r = Ret x) \/ r = Panic /\ ~ retraceable P orig dest) /\
     forall fuel, ((if D then length rs * length rs else 1 + 4 * length rs) < fuel)%nat -> cols P * cols P < Z.of_nat fuel ->
       astarq_search_path qo P D co mo go fuel orig dest = r).
Proof.
  intros H M MC qo ok els co mo P D go orig dest rs FQ AC AM WF V Vd HG OS HR HM.
  assert (HL : Z.of_nat (length rs) <= COST_MAX).
  { assert (RO : reachable D go orig orig) by (exists 0%nat, []; cbn; auto). destruct (HM orig RO) as (_ & L). unfold COST_MAX. lia. }
  assert (NF : ~ too_far P D go orig dest rs) by (intros (q & Rq & Nq); apply Nq; exact (HM q Rq)).
  pose proof (unit_HS P go HG) as HS. pose proof (gen_HA P D go orig HG rs HR HL) as HA.
  pose proof (acts_lawful_map _ _ P co AC) as LC. pose proof (acts_lawful_map _ _ P mo AM) as LM.
  assert (HB : forall c hp tr, FRun D (unit_cost go) (fun q => mdist q dest) orig c hp tr -> (length tr + length hp <= if D then length rs * length rs else 1 + 4 * length rs)%nat).
  { intros c hp tr R. destruct D.
    - exact (frun_diag_effort P true go _ orig rs c hp tr V HG HA HR R).
    - apply (frun_effort P false (unit_cost go) (fun q => mdist q dest) orig V HS HA) with (c := c).
      + intros p d q w Vp A E. apply (mdist_consistent P go dest p d q w OS Vp A E).
      + intros p Vp. apply mdist_nonneg.
      + intros p Hp. apply HR. apply (reachable_unit false go). exact Hp.
      + exact R. }
  split.
  - destruct (astarq_trace qo ok els P (fair_all FQ P) D co _ LC WF go orig dest V Vd HG rs HR HL NF) as (es & K1 & _ & c & K3). exists (map snd es). split; [|exact K1].
    specialize (HB c [] (rev es) K3). rewrite rev_length in HB. rewrite map_length. cbn [length] in HB. rewrite Nat.add_0_r in HB. exact HB.
  - destruct (astarq_outcome qo ok els P (fair_all FQ P) D co mo _ _ LC LM WF go orig dest V Vd HG rs HR HL) as (r & Hr & [K | (F & _)]); [|contradiction]. exists r. split; [apply (outcome_returns P D (unit_cost go) (fun q => mdist q dest)); exact K |].
    destruct (rel_new qo ok els P (fair_all FQ P) co _ LC orig V) as (m0 & E0 & R0).
    apply (search_settled P D (unit_cost go) (fun q => mdist q dest) orig _ _ (astarq_next qo P D co go dest) mo _ _ _ _ V HS HA LM (astarq_follows qo ok els P (fair_all FQ P) D co _ LC WF go orig dest V Vd HG rs HR HL) HB dest
      (QAIt m0 (q_push qo (q_new qo) (0, (orig, dir_default)))) (fun fuel => astarq_search_path qo P D co mo go fuel orig dest) r WF Vd R0); [|exact Hr].
    intros fuel. unfold astarq_search_path, astarq_search_mapmov, astarq_new. rewrite E0. cbn [bind]. rewrite astarq_gloop. reflexivity.
Qed.

(** ** Paths *)

Lemma C151_simple_proof : forall H M MC (qo : queueops H) (co : mapops Z MC) (mo : mapops (option dir) M) P D fuel orig dest path,
  post_wf P -> valid P dest ->
  (exists go, ucsq_search_path qo P D co mo go fuel orig dest = Ret (Ok path)) \/
  (exists go, astarq_search_path qo P D co mo go fuel orig dest = Ret (Ok path)) ->
  NoDup (orig :: places orig path) /\ last (places orig path) orig = dest.
Proof.
  intros H M MC qo co mo P D fuel orig dest path W Vd [(go & E) | (go & E)].
  - unfold ucsq_search_path in E. destruct (ucsq_search_mapmov qo D co mo go fuel orig dest) as [[m | e] | | |]; cbn [bind] in E; try discriminate. exact (C118_camefrom_simple_proof M P mo m fuel orig dest path W Vd E).
  - unfold astarq_search_path in E. destruct (astarq_search_mapmov qo P D co mo go fuel orig dest) as [[m | e] | | |]; cbn [bind] in E; try discriminate. exact (C118_camefrom_simple_proof M P mo m fuel orig dest path W Vd E).
Qed.

Lemma C151_beeline_proof : forall H M MC (qo : queueops H) ok els (co : mapops Z MC) (mo : mapops (option dir) M) P go orig dest rs path,
  fair_queue qo ok els -> acts_as_map P co -> acts_as_map P mo -> post_wf P -> valid P orig -> valid P dest ->
  go_inside P go -> one_step P go -> retraceable P orig dest ->
  (forall p, reachable true go orig p -> In p rs) ->
  (forall p, reachable true go orig p -> measurable P p dest /\
     Z.of_nat (length rs) + (Z.abs (fst p - fst dest) + Z.abs (snd p - snd dest)) <= 18446744073709551615) ->
  beeline go dest orig path ->
  settles (fun fuel => astarq_search_path qo P true co mo go fuel orig dest)
    (Ret (if Z.of_nat (length path) <=? cols P * cols P then Ok path else Err Loop)) /\
  at_distance true go orig (length path) dest.
Proof.
  intros H M MC qo ok els co mo P go orig dest rs path FQ AC AM WF V Vd HG O RT HR HM BL.
  assert (HL : Z.of_nat (length rs) <= COST_MAX).
  { assert (RO : reachable true go orig orig) by (exists 0%nat, []; cbn; auto). destruct (HM orig RO) as (_ & L). unfold COST_MAX. lia. }
  assert (NF : ~ too_far P true go orig dest rs) by (intros (q & Rq & Nq); apply Nq; exact (HM q Rq)).
  pose proof (gen_HA P true go orig HG rs HR HL) as HA.
  destruct (astarq_outcome qo ok els P (fair_all FQ P) true co mo _ _ (acts_lawful_map _ _ P co AC) (acts_lawful_map _ _ P mo AM) WF go orig dest V Vd HG rs HR HL) as (r & Hr & [(r0 & Ho & [-> | (-> & RC)] & K) | (F & _)]); [| |contradiction].
  - rewrite (fline_outcome P WF go orig dest V HG O HA path BL r0 Ho) in Hr. split; [exact Hr |]. split.
    + exists path. split; [reflexivity |]. split; [apply Forall_forall; intros; left; reflexivity |].
      clear -BL. revert orig BL. induction path as [|d ds IH]; intros p B; cbn [beeline follow] in *; [congruence |]. destruct B as (_ & _ & _ & -> & B). apply IH. exact B.
    + intros j Lj Wj. pose proof (walk_cheb P go true orig j dest O HG V Wj). pose proof (beeline_cheb go dest path orig BL). lia.
  - exfalso. apply (proj1 (K RC) eq_refl). exact RT.
Qed.

(** ** Where searches look *)

Lemma ucsq_next_ext : forall H (qo : queueops H) D {MC} (co : mapops Z MC) go go' it,
  (forall e rest d, q_pop qo (qu_frontier it) = Some (e, rest) -> allowed D d -> go' (e_pos e) d = go (e_pos e) d) ->
  ucsq_next qo D co go' it = ucsq_next qo D co go it.
Proof.
  intros H qo D MC co go go' it X. unfold ucsq_next. destruct (q_pop qo (qu_frontier it)) as [[[pr [p d]] rest]|]; [|reflexivity].
  rewrite dir_iter_dirs. cbn [bind]. apply esim_eq. eapply esim_bind with (R := eq); [|intros a b <-; apply esim_refl].
  rewrite (foldM_ext (ucsq_step_dir qo co go' p) (ucsq_step_dir qo co go p)); [apply esim_refl |]. intros s e He. unfold ucsq_step_dir. apply dirs_allowed in He.
  rewrite (X (pr, (p, d)) rest e eq_refl He : go' p e = go p e). reflexivity.
Qed.

Lemma astarq_next_ext : forall H (qo : queueops H) P D {MC} (co : mapops Z MC) go go' dest it,
  (forall e rest d, q_pop qo (qa_frontier it) = Some (e, rest) -> allowed D d -> go' (e_pos e) d = go (e_pos e) d) ->
  astarq_next qo P D co go' dest it = astarq_next qo P D co go dest it.
Proof.
  intros H qo P D MC co go go' dest it X. unfold astarq_next. destruct (q_pop qo (qa_frontier it)) as [[[pr [p d]] rest]|]; [|reflexivity].
  rewrite dir_iter_dirs. cbn [bind]. apply esim_eq. eapply esim_bind with (R := eq); [|intros a b <-; apply esim_refl].
  rewrite (foldM_ext (astarq_step_dir qo P co go' dest p) (astarq_step_dir qo P co go dest p)); [apply esim_refl |]. intros s e He. unfold astarq_step_dir. apply dirs_allowed in He.
  rewrite (X (pr, (p, d)) rest e eq_refl He : go' p e = go p e). reflexivity.
Qed.

(** Two loops whose steps agree until the destination is met. *)
Lemma gloop_same : forall D succ h orig S M (next next' : S -> exec (option (pos * dir) * S)) (mo : mapops (option dir) M) (Rel : S -> (pos -> Z) -> heap -> Prop) far dest,
  follows D succ h orig next Rel far ->
  (forall s c hp tr, FRun D succ h orig c hp tr -> Rel s c hp -> ~ popped tr dest -> next' s = next s) ->
  forall fuel c hp tr m s, FRun D succ h orig c hp tr -> Rel s c hp -> ~ popped tr dest -> gloop next' mo fuel dest m s = gloop next mo fuel dest m s.
Proof.
  intros D succ h orig S M next next' mo Rel far dest HN X. induction fuel as [|fuel IH]; intros c hp tr m s R RS Np; [reflexivity |]. cbn [gloop].
  rewrite (X s c hp tr R RS Np).
  destruct (HN s c hp tr R RS) as [(-> & En) | [(e & rest & c' & hp' & s' & Ep & Ee & En & RS') | (F & En)]]; rewrite En; cbn [bind]; [reflexivity | | reflexivity].
  destruct (mp_set mo m (e_pos e) (Some (e_dir e))) as [m' | | |]; cbn [bind]; try reflexivity. destruct (pos_eqb (e_pos e) dest) eqn:Ed; [reflexivity |].
  apply (IH c' hp' (e :: tr) m' s' (FRun1 _ _ _ _ _ _ _ _ _ _ _ R Ep Ee) RS'). apply pos_eqb_neq in Ed. intros (x & [<- | Hx] & Ex); [contradiction |]. apply Np. exists x. auto.
Qed.

Lemma C151_ucs_near_proof : forall H M MC (qo : queueops H) ok els (co : mapops Z MC) (mo : mapops (option dir) M) P D go go' orig dest k fuel,
  fair_queue qo ok els -> acts_as_map P co -> valid P orig ->
  go_inside P (move_of go) -> affordable D P go orig -> lowest_cost D go orig k dest ->
  (forall p d c, lowest_cost D go orig c p -> c <= k -> allowed D d -> go' p d = go p d) ->
  ucsq_search_path qo P D co mo go' fuel orig dest = ucsq_search_path qo P D co mo go fuel orig dest.
Proof.
  intros H M MC qo ok els co mo P D go go' orig dest k fuel FQ AC V HG HA Lk X.
  pose proof (afford_HS D P go orig HG HA) as HS. pose proof (acts_lawful_map _ _ P co AC) as LC.
  assert (NN : forall p d q w, valid P p -> go p d = Some (q, w) -> 0 <= w) by (intros; eapply HS; eassumption).
  destruct (rel_new qo ok els P (fair_all FQ P) co _ LC orig V) as (m0 & E0 & R0).
  unfold ucsq_search_path, ucsq_search_mapmov, ucsq_new. rewrite E0. cbn [bind]. rewrite !ucsq_gloop.
  assert (SAME : gloop (ucsq_next qo D co go') mo fuel dest (mp_default mo None) (QUIt m0 (q_push qo (q_new qo) (0, (orig, dir_default)))) =
                 gloop (ucsq_next qo D co go) mo fuel dest (mp_default mo None) (QUIt m0 (q_push qo (q_new qo) (0, (orig, dir_default))))); [|rewrite SAME; reflexivity].
  apply (gloop_same D go (fun _ => 0) orig _ _ (ucsq_next qo D co go) (ucsq_next qo D co go') mo _ False dest (ucsq_follows qo ok els P (fair_all FQ P) D co _ LC go orig V HS HA)) with (c := put (fun _ : pos => COST_MAX) orig 0) (hp := [e0 orig]) (tr := []); [|apply FRun0 | exact R0 | intros (x & [] & _)].
  intros it c hp tr R (_ & Hq & Pm) Np. apply ucsq_next_ext. intros e rest d Eq A.
  destruct (fair_pop qo ok els P (fair_all FQ P) _ _ Hq Pm) as [(_ & E) | (e' & q' & E & _ & Ep)]; [congruence |]. rewrite Eq in E. injection E as <- <-.
  assert (Dec : go' (e_pos e) d = go (e_pos e) d \/ go' (e_pos e) d <> go (e_pos e) d).
  { assert (forall a b : option (pos * Z), {a = b} + {a <> b}) as Y by (repeat decide equality). destruct (Y (go' (e_pos e) d) (go (e_pos e) d)); auto. }
  destruct Dec as [E | NE]; [exact E |]. exfalso.
  assert (Y : exists a, cost_walk D go orig a (e_pos e) /\ a <= k).
  { destruct Lk as (Wk & _). pose proof Wk as Wk'. destruct Wk' as (pk & Ak & Fk). pose proof (proj1 (cost_nonneg P go HG NN pk orig dest k V Fk)) as K0.
    destruct (fpopped_near P D go _ orig dest c hp tr e _ k V HS HA R Ep Np Wk) as [-> | (a & r & k1 & k2 & Wa & W1 & W2 & -> & B1 & B2)].
    - exists 0. split; [apply cost_walk_nil | exact K0].
    - exists a. split; [exact Wa |]. destruct W1 as (p1 & A1 & F1), W2 as (p2 & A2 & F2).
      destruct (cost_nonneg P go HG NN p1 orig r k1 V F1) as (K1 & Vr). destruct (cost_nonneg P go HG NN p2 r dest k2 Vr F2) as (K2 & _).
      destruct B1 as [-> | B1]; [specialize (B2 eq_refl) |]; cbv beta in *; lia. }
  destruct Y as (a & Wa & La). apply (lowest_exists D P go orig a (e_pos e) HG NN V Wa). intros m Lm. apply NE. apply (X (e_pos e) d m Lm); [|exact A].
  pose proof (proj2 Lm a Wa). lia.
Qed.

Lemma C151_astar_near_proof : forall H M MC (qo : queueops H) ok els (co : mapops Z MC) (mo : mapops (option dir) M) P D go go' orig dest rs n fuel,
  fair_queue qo ok els -> acts_as_map P co -> post_wf P -> valid P orig -> valid P dest ->
  go_inside P go -> one_step P go ->
  (forall p, reachable D go orig p -> In p rs) -> Z.of_nat (length rs) <= 18446744073709551615 ->
  at_distance D go orig n dest ->
  (forall p d m, at_distance D go orig m p ->
     Z.of_nat m + (Z.abs (fst p - fst dest) + Z.abs (snd p - snd dest)) <= (if D then 2 else 1) * Z.of_nat n ->
     allowed D d -> go' p d = go p d) ->
  astarq_search_path qo P D co mo go' fuel orig dest = astarq_search_path qo P D co mo go fuel orig dest.
Proof.
  intros H M MC qo ok els co mo P D go go' orig dest rs n fuel FQ AC WF V Vd HG O HR HL Dn X.
  pose proof (unit_HS P go HG) as HS. pose proof (gen_HA P D go orig HG rs HR HL) as HA. pose proof (acts_lawful_map _ _ P co AC) as LC.
  destruct (rel_new qo ok els P (fair_all FQ P) co _ LC orig V) as (m0 & E0 & R0).
  unfold astarq_search_path, astarq_search_mapmov, astarq_new. rewrite E0. cbn [bind]. rewrite !astarq_gloop.
  assert (SAME : gloop (astarq_next qo P D co go' dest) mo fuel dest (mp_default mo None) (QAIt m0 (q_push qo (q_new qo) (0, (orig, dir_default)))) =
                 gloop (astarq_next qo P D co go dest) mo fuel dest (mp_default mo None) (QAIt m0 (q_push qo (q_new qo) (0, (orig, dir_default))))); [|rewrite SAME; reflexivity].
  apply (gloop_same D (unit_cost go) (fun q => mdist q dest) orig _ _ (astarq_next qo P D co go dest) (astarq_next qo P D co go' dest) mo _ _ dest (astarq_follows qo ok els P (fair_all FQ P) D co _ LC WF go orig dest V Vd HG rs HR HL)) with (c := put (fun _ : pos => COST_MAX) orig 0) (hp := [e0 orig]) (tr := []); [|apply FRun0 | exact R0 | intros (x & [] & _)].
  intros it c hp tr R (_ & Hq & Pm) Np. apply astarq_next_ext. intros e rest d Eq A.
  destruct (fair_pop qo ok els P (fair_all FQ P) _ _ Hq Pm) as [(_ & E) | (e' & q' & E & _ & Ep)]; [congruence |]. rewrite Eq in E. injection E as <- <-.
  assert (Y : exists m, walk D go orig m (e_pos e) /\ Z.of_nat m + mdist (e_pos e) dest <= (if D then 2 else 1) * Z.of_nat n).
  { destruct Dn as (Wn & _). pose proof (walk_mdist_any P D go orig n dest O HG V Wn) as M0.
    destruct (fpopped_near P D (unit_cost go) _ orig dest c hp tr e _ (Z.of_nat n) V HS HA R Ep Np) as [-> | (a & r & k1 & k2 & Wa & W1 & W2 & Ek & B1 & B2)]; [apply cost_walk_unit; eauto | |].
    - exists 0%nat. split; [apply walk_0; reflexivity | cbn [Z.of_nat]; lia].
    - apply cost_walk_unit in Wa, W1, W2. destruct Wa as (m & -> & Wa), W1 as (n1 & -> & W1), W2 as (n2 & -> & W2). exists m. split; [exact Wa |].
      pose proof (walk_mdist_any P D go r n2 dest O HG (walk_valid D go P n1 orig r HG V W1) W2) as M2. pose proof (mdist_nonneg orig dest) as M3.
      destruct B1 as [-> | B1]; [specialize (B2 eq_refl); cbv beta in *; lia |]. cbv beta in *. destruct D; lia. }
  destruct Y as (m & Wm & Lm). destruct (walk_min D go orig m (e_pos e) Wm) as (j & Lj & Dj). apply (X (e_pos e) d j Dj); [unfold mdist in Lm; lia | exact A].
Qed.
