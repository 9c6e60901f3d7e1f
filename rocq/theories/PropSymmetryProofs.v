(** PropSymmetryProofs.v -- proofs of the statements of PropSymmetry.v. *)

From Coq Require Import ZArith List Bool Lia.
From Verif Require Import Rust BoundedInt Dir PosT Pos Grid Gridbool SetMap CameFrom Bf Heap Astar Ucs Spec SpecSearch SpecSymmetry Lib Deque BoundedIntProofs PosTProofs PosTProofs2 PropDirProofs SetMapProofs Sim CameFromProofs PropSetMapProofs BfProofs PropBfProofs BestFirst SearchProofs UcsProofs PropUcsProofs.
Import ListNotations.
Open Scope Z_scope.

(** The motion backwards. *)
Definition back (P : post) (m : motion) (p : pos) : pos :=
  match m with
  | MirrorX => (XM P - fst p, snd p)
  | MirrorY => (fst p, YM P - snd p)
  | QuarterTurn => (snd p, YM P - fst p)
  end.

Definition back_dir (m : motion) (d : dir) : dir :=
  match m with QuarterTurn => moved_dir m (moved_dir m (moved_dir m d)) | _ => moved_dir m d end.

Lemma back_moved : forall P m p, back P m (moved P m p) = p.
Proof. intros P [] [x y]; cbn; f_equal; lia. Qed.

Lemma moved_back : forall P m p, moved P m (back P m p) = p.
Proof. intros P [] [x y]; cbn; f_equal; lia. Qed.

Lemma back_moved_dir : forall m d, back_dir m (moved_dir m d) = d.
Proof. intros [] []; reflexivity. Qed.

Lemma moved_back_dir : forall m d, moved_dir m (back_dir m d) = d.
Proof. intros [] []; reflexivity. Qed.

Lemma moved_valid : forall P m p, grid_type P -> fits P m -> valid P p -> valid P (moved P m p).
Proof.
  intros P m [x y] G F V. apply valid_nums in V; [|exact G]. apply valid_nums; [exact G |]. unfold fits, cols, rows in F.
  destruct m; cbn in *; try specialize (F eq_refl); lia.
Qed.

Lemma back_valid : forall P m p, grid_type P -> fits P m -> valid P p -> valid P (back P m p).
Proof.
  intros P m [x y] G F V. apply valid_nums in V; [|exact G]. apply valid_nums; [exact G |]. unfold fits, cols, rows in F.
  destruct m; cbn in *; try specialize (F eq_refl); lia.
Qed.

Lemma moved_allowed : forall D m d, allowed D d -> allowed D (moved_dir m d).
Proof. intros D m d [H | H]; [left; exact H |]. right. destruct m, d; cbn in *; lia. Qed.

Lemma back_allowed : forall D m d, allowed D d -> allowed D (back_dir m d).
Proof. intros D m d H. unfold back_dir. destruct m; repeat apply moved_allowed; exact H. Qed.

Lemma moved_step : forall P m p d, moved P m (step p d) = step (moved P m p) (moved_dir m d).
Proof. intros P m [x y] d. unfold step. destruct m, d; cbn; f_equal; lia. Qed.

Lemma moved_inj : forall P m p q, moved P m p = moved P m q -> p = q.
Proof. intros P m p q E. rewrite <- (back_moved P m p), <- (back_moved P m q), E. reflexivity. Qed.

Lemma back_costs : forall P m go go', grid_type P -> fits P m -> moved_costs P m go go' -> forall p d, valid P p ->
  go (back P m p) (back_dir m d) = match go' p d with Some (q, c) => Some (back P m q, c) | None => None end.
Proof.
  intros P m go go' G F H p d V. pose proof (H (back P m p) (back_dir m d) (back_valid P m p G F V)) as E.
  rewrite moved_back, moved_back_dir in E. rewrite E. destruct (go (back P m p) (back_dir m d)) as [[q c]|]; [|reflexivity]. rewrite back_moved. reflexivity.
Qed.

Lemma moved_follow_cost : forall P m go go', go_inside P (move_of go) -> moved_costs P m go go' -> forall ds p, valid P p ->
  follow_cost go' (moved P m p) (map (moved_dir m) ds) = match follow_cost go p ds with Some (q, c) => Some (moved P m q, c) | None => None end.
Proof.
  intros P m go go' HG H. induction ds as [|d ds IH]; intros p V; cbn [map follow_cost]; [reflexivity |].
  rewrite H by exact V. destruct (go p d) as [[q c]|] eqn:E; [|reflexivity].
  assert (Vq : valid P q) by (apply (HG p d q V); unfold move_of; rewrite E; reflexivity).
  rewrite (IH q Vq). destruct (follow_cost go q ds) as [[r cs]|]; reflexivity.
Qed.

Lemma moved_visits : forall P m go go', go_inside P (move_of go) -> moved_costs P m go go' -> forall ds p, valid P p ->
  visits go' (moved P m p) (map (moved_dir m) ds) = map (moved P m) (visits go p ds).
Proof.
  intros P m go go' HG H. induction ds as [|d ds IH]; intros p V; cbn [map visits]; [reflexivity |]. f_equal.
  rewrite H by exact V. destruct (go p d) as [[q c]|] eqn:E; [|reflexivity]. apply IH. apply (HG p d q V). unfold move_of. rewrite E. reflexivity.
Qed.

Lemma dirs_image : forall m ds, exists es, ds = map (moved_dir m) es /\ length es = length ds /\ forall D, Forall (allowed D) ds -> Forall (allowed D) es.
Proof.
  intros m ds. exists (map (back_dir m) ds). split; [|split; [apply map_length |]].
  - rewrite map_map. symmetry. erewrite map_ext; [apply map_id |]. intros d. apply moved_back_dir.
  - intros D H. rewrite Forall_map. eapply Forall_impl; [|exact H]. intros d. apply back_allowed.
Qed.

Lemma move_of_costless : forall go p d, move_of (fun p d => match go p d with Some q => Some (q, 0) | None => None end) p d = go p d.
Proof. intros go p d. unfold move_of. destruct (go p d); reflexivity. Qed.

Lemma moved_inside : forall P m go go', grid_type P -> fits P m -> moved_costs P m go go' -> go_inside P (move_of go) -> go_inside P (move_of go').
Proof.
  intros P m go go' G F H HG p d q V E. rewrite <- (moved_back P m p), <- (moved_back_dir m d) in E. unfold move_of in E.
  rewrite H in E by (apply back_valid; assumption). destruct (go (back P m p) (back_dir m d)) as [[r c]|] eqn:Er; inv E.
  apply moved_valid; [exact G | exact F |]. apply (HG (back P m p) (back_dir m d)); [apply back_valid; assumption |]. unfold move_of. rewrite Er. reflexivity.
Qed.

Lemma moved_one_step : forall P m go go', grid_type P -> fits P m -> moved_costs P m go go' -> one_step P (move_of go) -> one_step P (move_of go').
Proof.
  intros P m go go' G F H HG p d q V E. pose proof (moved_back P m p) as Ep. pose proof (moved_back_dir m d) as Ed. rewrite <- Ep, <- Ed in E |- *. unfold move_of in E.
  rewrite H in E by (apply back_valid; assumption). destruct (go (back P m p) (back_dir m d)) as [[r c]|] eqn:Er; inv E.
  rewrite <- moved_step. f_equal. apply (HG (back P m p) (back_dir m d)); [apply back_valid; assumption |]. unfold move_of. rewrite Er. reflexivity.
Qed.

Lemma follow_of_cost : forall go ds p, follow (move_of go) p ds = match follow_cost go p ds with Some (q, _) => Some q | None => None end.
Proof.
  intros go. induction ds as [|d ds IH]; intros p; cbn [follow follow_cost]; [reflexivity |]. unfold move_of at 1.
  destruct (go p d) as [[q c]|]; [|reflexivity]. rewrite IH. destruct (follow_cost go q ds) as [[r cs]|]; reflexivity.
Qed.

Lemma moved_walk : forall P m D go go' n p q, go_inside P (move_of go) -> moved_costs P m go go' -> valid P p ->
  (walk D (move_of go) p n q <-> walk D (move_of go') (moved P m p) n (moved P m q)).
Proof.
  intros P m D go go' n p q HG H V. split.
  - intros (ds & L & A & F). exists (map (moved_dir m) ds). split; [rewrite map_length; exact L |].
    split; [rewrite Forall_map; eapply Forall_impl; [|exact A]; intros d; apply moved_allowed |].
    rewrite follow_of_cost in *. rewrite (moved_follow_cost P m go go' HG H ds p V). destruct (follow_cost go p ds) as [[r c]|]; inv F. reflexivity.
  - intros (ds & L & A & F). destruct (dirs_image m ds) as (es & -> & L' & A'). exists es. split; [congruence |]. split; [apply A'; exact A |].
    rewrite follow_of_cost in *. rewrite (moved_follow_cost P m go go' HG H es p V) in F. destruct (follow_cost go p es) as [[r c]|]; inv F.
    f_equal. apply (moved_inj P m). assumption.
Qed.

Lemma moved_nearest : forall P m D go go' orig found found' n, grid_type P -> fits P m -> go_inside P (move_of go) -> moved_costs P m go go' -> valid P orig ->
  (forall p, valid P p -> found' (moved P m p) = found p) ->
  nearest_goal D (move_of go) orig found n -> nearest_goal D (move_of go') (moved P m orig) found' n.
Proof.
  intros P m D go go' orig found found' n G F HG H V HF ((q & Nq & Fq & Wq) & Hm). split.
  - exists (moved P m q). split; [intros E; apply moved_inj in E; contradiction |].
    rewrite HF by (eapply walk_valid; eassumption). split; [exact Fq |]. apply (moved_walk P m D go go' n orig q HG H V). exact Wq.
  - intros j r Hj Nr Fr Wr. rewrite <- (moved_back P m r) in Nr, Fr, Wr. apply (moved_walk P m D go go' j orig _ HG H V) in Wr.
    apply (Hm j (back P m r) Hj); [congruence | | exact Wr]. rewrite <- HF; [exact Fr |]. eapply walk_valid; eassumption.
Qed.

Lemma nearest_ext : forall D go go' orig found n, (forall p d, go p d = go' p d) -> nearest_goal D go orig found n -> nearest_goal D go' orig found n.
Proof.
  intros D go go' orig found n E. assert (FE : forall ds p, follow go p ds = follow go' p ds) by (induction ds as [|d ds IH]; intros p; cbn [follow]; [reflexivity | rewrite E; destruct (go' p d); auto]).
  assert (WE : forall k q, walk D go orig k q <-> walk D go' orig k q) by (intros k q; split; intros (ds & L & A & F); exists ds; rewrite FE in *; auto).
  intros ((q & H1 & H2 & H3) & Hm). split; [exists q; rewrite <- WE; auto |]. intros j r Hj Nr Fr Wr. apply WE in Wr. exact (Hm j r Hj Nr Fr Wr).
Qed.

Lemma C103_bfs_moved_proof : forall b P D W m go go' orig found found',
  usable b P W -> fits P m -> valid P orig -> go_inside P go -> one_step P go -> moved_go P m go go' ->
  (forall p, valid P p -> found' (moved P m p) = found p) ->
  exists r r',
    returns (fun fuel => bfs_on b P D W fuel go orig found) r /\
    returns (fun fuel => bfs_on b P D W fuel go' (moved P m orig) found') r' /\
    match r, r' with
    | Ok (_, path), Ok (_, path') => length path = length path'
    | Err e, Err e' => e = e'
    | _, _ => False
    end.
Proof.
  intros b P D W m go0 go0' orig found found' U F V HG0 O0 H0 HF. pose proof (usable_grid_type b P W U) as G.
  set (cl := fun (g : pos -> dir -> option pos) p d => match g p d with Some q => Some (q, 0) | None => None end).
  assert (CL : forall g p d, move_of (cl g) p d = g p d) by (intros g; exact (move_of_costless g)).
  assert (H : moved_costs P m (cl go0) (cl go0')) by (intros p d Vp; unfold cl; rewrite H0 by exact Vp; destruct (go0 p d); reflexivity).
  assert (HG : go_inside P (move_of (cl go0))) by (intros p d q Vp E; rewrite CL in E; eapply HG0; eassumption).
  assert (O : one_step P (move_of (cl go0))) by (intros p d q Vp E; rewrite CL in E; eapply O0; eassumption).
  assert (HG' : go_inside P go0') by (intros p d q Vp E; rewrite <- CL in E; eapply (moved_inside P m (cl go0) (cl go0')); eassumption).
  assert (O' : one_step P go0') by (intros p d q Vp E; rewrite <- CL in E; eapply (moved_one_step P m (cl go0) (cl go0')); eassumption).
  destruct (bfs_on_exact b P D W go0 orig found U V HG0 O0) as (r & Hr & K).
  destruct (bfs_on_exact b P D W go0' (moved P m orig) found' U (moved_valid P m orig G F V) HG' O') as (r' & Hr' & K').
  exists r, r'. split; [exact Hr |]. split; [exact Hr' |].
  assert (N : forall n, nearest_goal D go0 orig found n -> nearest_goal D go0' (moved P m orig) found' n).
  { intros n Hn. apply (nearest_ext D (move_of (cl go0')) go0'); [intros; apply CL |]. apply (moved_nearest P m D (cl go0) (cl go0') orig found found' n G F HG H V HF).
    apply (nearest_ext D go0 (move_of (cl go0))); [intros; symmetry; apply CL |]. exact Hn. }
  assert (NU : forall n, nearest_goal D go0 orig found n -> ~ forall q, q <> orig -> found q = true -> ~ reachable D go0 orig q).
  { intros n ((q & Nq & Fq & Wq) & _) X. apply (X q Nq Fq). exists n. exact Wq. }
  assert (NU' : forall n, nearest_goal D go0' (moved P m orig) found' n -> ~ forall q, q <> moved P m orig -> found' q = true -> ~ reachable D go0' (moved P m orig) q).
  { intros n ((q & Nq & Fq & Wq) & _) X. apply (X q Nq Fq). exists n. exact Wq. }
  assert (B : forall q n, valid P q -> q <> moved P m orig -> found' q = true -> walk D go0' (moved P m orig) n q -> back P m q <> orig /\ found (back P m q) = true /\ walk D go0 orig n (back P m q)).
  { intros q n Vq Nq Fq Wq. split; [intros E; apply Nq; rewrite <- E, moved_back; reflexivity |].
    rewrite <- HF by (apply back_valid; assumption). rewrite moved_back. split; [exact Fq |].
    assert (WX : walk D (move_of (cl go0)) orig n (back P m q)).
    { apply (moved_walk P m D (cl go0) (cl go0') n orig _ HG H V). rewrite moved_back. destruct Wq as (ds & L & A & Fd). exists ds. split; [exact L |]. split; [exact A |].
      rewrite <- Fd. clear - CL. revert orig. intros orig. generalize (moved P m orig). induction ds as [|d ds IH]; intros p; cbn [follow]; [reflexivity |]. rewrite CL. destruct (go0' p d); auto. }
    destruct WX as (ds & L & A & Fd). exists ds. split; [exact L |]. split; [exact A |]. rewrite <- Fd. clear - CL. revert orig. induction ds as [|d ds IH]; intros p; cbn [follow]; [reflexivity |]. rewrite CL. destruct (go0 p d); auto. }
  assert (NB : forall n, nearest_goal D go0' (moved P m orig) found' n -> ~ forall q, q <> orig -> found q = true -> ~ reachable D go0 orig q).
  { intros n ((q & Nq & Fq & Wq) & _) X. assert (Vq : valid P q) by (eapply (walk_valid D go0' P n (moved P m orig) q); [exact HG' | apply moved_valid; assumption | exact Wq]).
    destruct (B q n Vq Nq Fq Wq) as (B1 & B2 & B3). apply (X _ B1 B2). exists n. exact B3. }
  destruct r as [[x path] | []]; try contradiction; destruct r' as [[x' path'] | []]; try contradiction; try reflexivity.
  - destruct K as (_ & _ & _ & _ & K & _), K' as (_ & _ & _ & _ & K' & _). apply (nearest_unique _ _ _ _ _ _ (N _ K) K').
  - destruct K as (_ & _ & _ & _ & K & L), K' as (n & L' & K'). pose proof (nearest_unique _ _ _ _ _ _ (N _ K) K'). lia.
  - destruct K as (_ & _ & _ & _ & K & L). exact (NU' _ (N _ K) K').
  - destruct K' as (_ & _ & _ & _ & K' & L), K as (n & L' & K). pose proof (nearest_unique _ _ _ _ _ _ (N _ K) K'). lia.
  - exfalso. destruct K as (n & _ & K). exact (NU' _ (N _ K) K').
  - destruct K' as (_ & _ & _ & _ & K' & L). exact (NB _ K' K).
  - exfalso. destruct K' as (n & _ & K'). exact (NB _ K' K).
Qed.

Lemma moved_affordable : forall P m D go go' orig, grid_type P -> fits P m -> go_inside P (move_of go) -> moved_costs P m go go' -> valid P orig ->
  affordable D P go orig -> affordable D P go' (moved P m orig).
Proof.
  intros P m D go go' orig G F HG H V (A1 & A2). split.
  - intros p d q c Vp E. pose proof (back_costs P m go go' G F H p d Vp) as B. rewrite E in B. eapply A1; [|exact B]. apply back_valid; assumption.
  - intros path p c A Fc ND. destruct (dirs_image m path) as (ds & -> & _ & A'). rewrite (moved_follow_cost P m go go' HG H ds orig V) in Fc.
    destruct (follow_cost go orig ds) as [[r c0]|] eqn:E; inv Fc. rewrite (moved_visits P m go go' HG H ds orig V) in ND. apply NoDup_map_inv in ND.
    destruct (A2 ds r c (A' D A) E ND) as (L1 & L2). split; [exact L1 |]. intros d q w Ad Ed.
    assert (Vr : valid P r).
    { eapply (walk_valid D (move_of go) P (length ds) orig r HG V). exists ds. split; [reflexivity |]. split; [apply A'; exact A |]. rewrite follow_of_cost, E. reflexivity. }
    pose proof (back_costs P m go go' G F H (moved P m r) d (moved_valid P m r G F Vr)) as B. rewrite Ed, back_moved in B.
    eapply L2; [|exact B]. apply back_allowed. exact Ad.
Qed.

Lemma moved_entering : forall P m D go go', grid_type P -> fits P m -> moved_costs P m go go' -> cost_of_entering D P go -> cost_of_entering D P go'.
Proof.
  intros P m D go go' G F H C p d c p' d' c' q V V' A A' E E'.
  pose proof (back_costs P m go go' G F H p d V) as B. rewrite E in B. pose proof (back_costs P m go go' G F H p' d' V') as B'. rewrite E' in B'.
  eapply C; [| | | | exact B | exact B']; try (apply back_valid; assumption); apply back_allowed; assumption.
Qed.

Lemma moved_cost_walk : forall P m D go go' p c q, go_inside P (move_of go) -> moved_costs P m go go' -> valid P p ->
  (cost_walk D go p c q <-> cost_walk D go' (moved P m p) c (moved P m q)).
Proof.
  intros P m D go go' p c q HG H V. split.
  - intros (ds & A & F). exists (map (moved_dir m) ds).
    split; [rewrite Forall_map; eapply Forall_impl; [|exact A]; intros d; apply moved_allowed |].
    rewrite (moved_follow_cost P m go go' HG H ds p V), F. reflexivity.
  - intros (ds & A & F). destruct (dirs_image m ds) as (es & -> & L' & A'). exists es. split; [apply A'; exact A |].
    rewrite (moved_follow_cost P m go go' HG H es p V) in F. destruct (follow_cost go p es) as [[r c0]|]; inv F.
    f_equal. f_equal. apply (moved_inj P m). assumption.
Qed.

Lemma C103_ucs_moved_proof : forall b P D W m go go' orig dest,
  usable b P W -> rows P <= cols P -> fits P m -> valid P orig -> valid P dest ->
  go_inside P (move_of go) -> one_step P (move_of go) -> affordable D P go orig -> cost_of_entering D P go -> moved_costs P m go go' ->
  exists r r',
    returns (fun fuel => ucs_on b P D fuel go orig dest) r /\
    returns (fun fuel => ucs_on b P D fuel go' (moved P m orig) (moved P m dest)) r' /\
    match r, r' with
    | Ok path, Ok path' => exists c, follow_cost go orig path = Some (dest, c) /\ follow_cost go' (moved P m orig) path' = Some (moved P m dest, c)
    | Err e, Err e' => e = DestinationUnreachable /\ e' = DestinationUnreachable
    | _, _ => False
    end.
Proof.
  intros b P D W m go go' orig dest U RC F V Vd HG O AF CE H. pose proof (usable_grid_type b P W U) as G.
  pose proof (moved_inside P m go go' G F H HG) as HG'. pose proof (moved_one_step P m go go' G F H O) as O'.
  pose proof (moved_affordable P m D go go' orig G F HG H V AF) as AF'. pose proof (moved_entering P m D go go' G F H CE) as CE'.
  pose proof (moved_valid P m orig G F V) as V'. pose proof (moved_valid P m dest G F Vd) as Vd'.
  destruct (C53_ucs_complete_partial_proof b P D W go orig dest U RC V Vd HG O AF) as (r & Hr & K1 & K2).
  destruct (C53_ucs_complete_partial_proof b P D W go' (moved P m orig) (moved P m dest) U RC V' Vd' HG' O' AF') as (r' & Hr' & K1' & K2').
  exists r, r'. split; [exact Hr |]. split; [exact Hr' |].
  assert (RE : reachable D (move_of go) orig dest <-> reachable D (move_of go') (moved P m orig) (moved P m dest)).
  { split; intros (n & Hn); exists n; apply (moved_walk P m D go go' n orig dest HG H V); exact Hn. }
  assert (EE : r = Err DestinationUnreachable <-> r' = Err DestinationUnreachable) by (rewrite K1, K1', RE; reflexivity).
  destruct r as [path | e].
  - destruct r' as [path' | e'].
    + destruct (C51_ucs_lowest_cost_partial_proof b P D W go orig dest path U V Vd HG O AF CE Hr) as (c & Fc & L1 & L2).
      destruct (C51_ucs_lowest_cost_partial_proof b P D W go' (moved P m orig) (moved P m dest) path' U V' Vd' HG' O' AF' CE' Hr') as (c' & Fc' & L1' & L2').
      exists c. split; [exact Fc |]. rewrite Fc'. f_equal. f_equal. apply Z.le_antisymm.
      * apply L2'. apply (moved_cost_walk P m D go go' orig c dest HG H V). exact L1.
      * apply L2. apply (moved_cost_walk P m D go go' orig c' dest HG H V). exact L1'.
    + destruct e'; try (destruct K2' as (? & X); [discriminate | discriminate X]). destruct EE as (_ & EE). discriminate (EE eq_refl).
  - assert (Ee : e = DestinationUnreachable) by (destruct e; try reflexivity; destruct K2 as (? & X); discriminate).
    subst e. rewrite (proj1 EE eq_refl). auto.
Qed.
