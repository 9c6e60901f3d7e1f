(** Sim.v -- the searches give the same results on every lawful backend as on
    plain functions. *)

From Coq Require Import ZArith List Bool Lia.
From Verif Require Import Rust BoundedInt Dir PosT Pos Grid Gridbool SetMap CameFrom Bf Heap Astar Ucs
  Spec SpecSearch Lib Deque BoundedIntProofs PosTProofs PropDirProofs SetMapProofs.
Import ListNotations.
Open Scope Z_scope.

Definition esim {A B} (R : A -> B -> Prop) (x : exec A) (y : exec B) : Prop :=
  match x, y with
  | Ret a, Ret b => R a b
  | Panic, Panic | UB, UB | Fuel, Fuel => True
  | _, _ => False
  end.

Lemma esim_bind : forall {A B A' B'} (R : A -> B -> Prop) (R' : A' -> B' -> Prop) x y k k',
  esim R x y -> (forall a b, R a b -> esim R' (k a) (k' b)) -> esim R' (bind x k) (bind y k').
Proof.
  intros A B A' B' R R' x y k k' H1 H2. destruct x, y; cbn in *; try contradiction; auto.
Qed.

Lemma esim_refl : forall {A} (x : exec A), esim eq x x.
Proof. intros A [a | | |]; cbn; auto. Qed.

Lemma esim_eq : forall {A} (x y : exec A), esim eq x y -> x = y.
Proof. intros A [a | | |] [b | | |]; cbn; intros H; try contradiction; congruence. Qed.

Lemma esim_same : forall {A A' B'} (R' : A' -> B' -> Prop) (x : exec A) k k',
  (forall a, x = Ret a -> esim R' (k a) (k' a)) -> esim R' (bind x k) (bind x k').
Proof. intros A A' B' R' [a | | |] k k' H; cbn; auto. Qed.

Lemma esim_foldM : forall {A S S'} (R : S -> S' -> Prop) (f : S -> A -> exec S) (f' : S' -> A -> exec S') l s s',
  (forall x s s', In x l -> R s s' -> esim R (f s x) (f' s' x)) -> R s s' -> esim R (foldM f l s) (foldM f' l s').
Proof.
  intros A S S' R f f' l. induction l as [|x l IH]; intros s s' H HR; [exact HR |].
  cbn [foldM]. eapply esim_bind; [apply H; [left; reflexivity | exact HR] |].
  intros a b Hab. apply IH; [|exact Hab]. intros y t t' Hy. apply H. right. exact Hy.
Qed.

Lemma add_valid : forall P p d q, post_wf P -> valid P p -> pos_dir_add P p d = Ok q -> valid P q /\ q = step p d.
Proof.
  intros P p d q W V E. destruct (C25_pos_dir_add_proof P p d W V) as (H1 & H2).
  destruct (valid_dec P (step p d)) as [Vs | Vs].
  - destruct (H1 Vs) as (H & _). rewrite H in E. inv E. auto.
  - destruct (H2 Vs) as (H & _). rewrite H in E. discriminate.
Qed.

Lemma camefrom_sim : forall {M} P (mo : mapops (option dir) M) R fuel m f orig dest,
  post_wf P -> lawful_map P mo R -> R m f -> valid P dest ->
  camefrom_into_path P mo fuel m orig dest = camefrom_into_path P fmap fuel f orig dest.
Proof.
  intros M P mo R fuel m f orig dest W L HR V.
  assert (LOOP : forall fuel ret p mi, valid P p ->
    camefrom_loop P mo fuel m orig ret p mi = camefrom_loop P fmap fuel f orig ret p mi).
  { intros fu. induction fu as [|fu IH]; intros ret p mi Vp; [reflexivity |]. cbn [camefrom_loop].
    destruct (negb (pos_eqb p orig)); [|reflexivity].
    rewrite (lm_get _ _ _ L m f p HR Vp). cbn [bind fmap mp_get].
    destruct (f p) as [d|]; [|reflexivity]. destruct (dir_neg d) as [nd | | |]; [|reflexivity..]. cbn [bind].
    destruct (pos_dir_add P p d) as [p' | e] eqn:E; [|reflexivity].
    destruct (add_valid P p d p' W Vp E) as (V' & _).
    destruct (usub mi 1) as [mi' | | |]; [|reflexivity..]. cbn [bind].
    destruct (mi' =? 0); [reflexivity |]. apply IH. exact V'. }
  unfold camefrom_into_path. destruct (manhattan P orig dest) as [dd | | |]; [|reflexivity..]. cbn [bind].
  destruct (umul 2 dd) as [cap | | |]; [|reflexivity..]. cbn [bind]. destruct (arith isize cap) as [cc | | |]; [|reflexivity..]. cbn [bind].
  rewrite (lm_get _ _ _ L m f dest HR V). cbn [bind fmap mp_get].
  destruct (f dest); [|reflexivity]. destruct (width P) as [w | | |]; [|reflexivity..]. cbn [bind].
  destruct (umul w w) as [ww | | |]; [|reflexivity..]. cbn [bind]. destruct (uadd ww 1) as [mi | | |]; [|reflexivity..]. cbn [bind].
  apply LOOP. exact V.
Qed.

(** ** Breadth-first search *)

Section BfSim.
  Context {S : Type} (P : post) (D : bool) (so : setops S) (RS : S -> (pos -> bool) -> Prop).
  Context (LS : growing_set P so RS) (W : post_wf P).
  Context (go : pos -> dir -> option pos) (HG : go_inside P go).

  Definition Rfront (l : list (pos * dir)) : Prop := forall p d, In (p, d) l -> valid P p.
  Definition Rbf (it : bfit) (it' : bfit) : Prop :=
    RS (bf_visited it) (bf_visited it') /\ bf_nextfront it = bf_nextfront it' /\ Rfront (bf_nextfront it).

  Lemma bf_step_dir_sim : forall p it it' d, valid P p -> Rbf it it' ->
    esim Rbf (bf_step_dir so go p it d) (bf_step_dir fset go p it' d).
  Proof.
    intros p it it' d V (H1 & H2 & H3). unfold bf_step_dir. destruct (go p d) as [q|] eqn:E; [|split; [|split]; assumption].
    assert (Vq : valid P q) by (eapply HG; eassumption).
    rewrite (gs_contains _ _ _ LS _ _ q H1 Vq). cbn [bind fset sp_contains].
    destruct (bf_visited it' q); [split; [|split]; assumption |].
    apply esim_same. intros nd End. destruct (gs_insert _ _ _ LS _ _ q H1 Vq) as (s' & E' & HR').
    rewrite E'. cbn [bind fset sp_insert]. split; [exact HR' |]. cbn [bf_nextfront bf_visited].
    split; [rewrite H2; reflexivity |]. intros r dd Hin. apply in_app_or in Hin.
    destruct Hin as [Hin | [Hin | []]]; [eapply H3; exact Hin | congruence].
  Qed.

  Lemma bf_step_pos_sim : forall it it' pd, valid P (fst pd) -> Rbf it it' ->
    esim Rbf (bf_step_pos D so go it pd) (bf_step_pos D fset go it' pd).
  Proof.
    intros it it' pd V H. unfold bf_step_pos. apply esim_same. intros ds Eds.
    eapply esim_bind; [apply esim_foldM with (R := Rbf); [|exact H]; intros x s s' _ Hs; apply bf_step_dir_sim; assumption |].
    intros a b (H1 & H2 & H3). destruct (gs_insert _ _ _ LS _ _ (fst pd) H1 V) as (s' & E' & HR').
    rewrite E'. cbn. split; [exact HR' |]. split; assumption.
  Qed.

  Lemma bf_next_sim : forall it it', Rbf it it' ->
    esim (fun a b => fst a = fst b /\ (forall l, fst a = Some l -> Rfront l) /\ Rbf (snd a) (snd b)) (bf_next D so go it) (bf_next D fset go it').
  Proof.
    intros it it' (H1 & H2 & H3). unfold bf_next. rewrite <- H2.
    destruct (bf_nextfront it) as [|x l] eqn:El.
    - cbn. split; [reflexivity |]. split; [discriminate |]. split; [exact H1 |]. split; [reflexivity | intros p d []].
    - eapply esim_bind with (R := Rbf).
      + apply esim_foldM with (R := Rbf).
        * intros [p d] s s' Hin Hs. apply bf_step_pos_sim; [cbn; eapply H3; exact Hin | exact Hs].
        * split; [exact H1 |]. split; [reflexivity | intros p d []].
      + intros a b Hab. cbn. split; [reflexivity |]. split; [intros l' E; inv E; exact H3 | exact Hab].
  Qed.

  Lemma bf_new_sim : forall orig, valid P orig -> esim Rbf (bf_new D so go orig) (bf_new D fset go orig).
  Proof.
    intros orig V. unfold bf_new. destruct (gs_default _ _ _ LS) as (s & E & HR). rewrite E. cbn [bind fset sp_default].
    eapply esim_bind.
    - apply bf_next_sim. split; [exact HR |]. split; [reflexivity |]. intros p d [Ep | []]. inv Ep. exact V.
    - intros [o a] [o' b] (_ & _ & H). exact H.
  Qed.

  Context {M : Type} (mo : mapops (option dir) M) (RM : M -> (pos -> option dir) -> Prop).
  Context (LM : lawful_map P mo RM).

  Lemma bf_scan_sim : forall found front from f, Rfront front -> RM from f ->
    esim (fun a b => RM (fst a) (fst b) /\ snd a = snd b /\ forall p, snd a = Some p -> valid P p) (bf_scan mo found from front) (bf_scan fmap found f front).
  Proof.
    intros found front. induction front as [|[p d] front IH]; intros from f HF HR; [cbn; split; [exact HR | split; [reflexivity | discriminate]] |].
    cbn [bf_scan]. assert (V : valid P p) by (apply (HF p d); left; reflexivity).
    destruct (lm_set _ _ _ LM from f p (Some d) HR V) as (m' & E & HR'). rewrite E. cbn [bind fmap mp_set].
    destruct (found p); [cbn; split; [exact HR' | split; [reflexivity | intros q Eq; inv Eq; exact V]] |].
    apply IH; [|exact HR']. intros q e Hin. apply (HF q e). right. exact Hin.
  Qed.

  Lemma bf_search_loop_sim : forall fuel found from f it it', RM from f -> Rbf it it' ->
    esim (fun a b => match a, b with
                     | Ok (p, m), Ok (q, m') => p = q /\ RM m m' /\ valid P p
                     | Err e, Err e' => e = e' | _, _ => False end)
      (bf_search_loop D so mo go fuel found from it) (bf_search_loop D fset fmap go fuel found f it').
  Proof.
    intros fuel found. induction fuel as [|fuel IH]; intros from f it it' HR Hit; [exact I |].
    cbn [bf_search_loop]. eapply esim_bind; [apply bf_next_sim; exact Hit |].
    intros [o a] [o' b] (E & HF & H). cbn [fst snd] in *. subst o'. destruct o as [front|]; [|cbn; reflexivity].
    eapply esim_bind; [apply bf_scan_sim; [apply HF; reflexivity | exact HR] |].
    intros [m hit] [m' hit'] (HR' & E & HV). cbn [fst snd] in *. subst hit'. destruct hit as [p|]; [|apply IH; assumption].
    cbn. auto.
  Qed.

  Lemma bf_search_path_sim : forall fuel orig found, valid P orig ->
    bf_search_path P D so mo go fuel orig found = bf_search_path P D fset fmap go fuel orig found.
  Proof.
    intros fuel orig found V. apply esim_eq. unfold bf_search_path, bf_search_mapmov, bf_iter.
    eapply esim_bind.
    - eapply esim_bind; [apply bf_new_sim; exact V |]. intros a b Hab.
      apply bf_search_loop_sim; [exact (lm_default _ _ _ LM None) | exact Hab].
    - intros [[p m] | e] [[q m'] | e'] H; cbn in H; try contradiction; [|cbn; congruence].
      destruct H as (<- & HR & Vp). rewrite (camefrom_sim P mo RM fuel m m' orig p W LM HR Vp). apply esim_refl.
  Qed.
End BfSim.

(** ** A* *)

Section AstarSim.
  Context {MC M : Type} (P : post) (D : bool) (co : mapops Z MC) (mo : mapops (option dir) M).
  Context (RC : MC -> (pos -> Z) -> Prop) (RM : M -> (pos -> option dir) -> Prop).
  Context (LC : lawful_map P co RC) (LM : lawful_map P mo RM) (W : post_wf P).

  Definition Rheap (h : heap) : Prop := forall e, In e h -> valid P (e_pos e).

  Lemma heap_take_In : forall h e m r, heap_take e h = (m, r) -> forall x, In x (e :: h) <-> In x (m :: r).
  Proof.
    intros h. induction h as [|y h IH]; intros e m r E x; cbn [heap_take] in E; [inv E; reflexivity |].
    destruct (entry_ltb e y).
    - destruct (heap_take y h) as [m' r'] eqn:E'. inv E. specialize (IH _ _ _ E' x). cbn [In] in *. tauto.
    - destruct (heap_take e h) as [m' r'] eqn:E'. inv E. specialize (IH _ _ _ E' x). cbn [In] in *. tauto.
  Qed.

  Lemma heap_pop_In : forall h m r, heap_pop h = Some (m, r) -> forall x, In x h <-> x = m \/ In x r.
  Proof.
    intros [|e h] m r E x; cbn in E; [discriminate |]. injection E as E.
    rewrite (heap_take_In _ _ _ _ E x). cbn. intuition.
  Qed.

  Section WithGo.
  Context (go : pos -> dir -> option pos) (HG : go_inside P go).

  Definition Rait (it : ait) (it' : ait) : Prop :=
    RC (a_cost it) (a_cost it') /\ a_frontier it = a_frontier it' /\ Rheap (a_frontier it).

  Lemma astar_step_sim : forall dest p it it' d, valid P p -> Rait it it' ->
    esim Rait (astar_step_dir P co go dest p it d) (astar_step_dir P fmap go dest p it' d).
  Proof.
    intros dest p it it' d V (H1 & H2 & H3). unfold astar_step_dir.
    rewrite (lm_get _ _ _ LC _ _ p H1 V). cbn [bind fmap mp_get]. apply esim_same. intros nc _.
    destruct (go p d) as [q|] eqn:E; [|split; [|split]; assumption].
    assert (Vq : valid P q) by (eapply HG; eassumption).
    rewrite (lm_get _ _ _ LC _ _ q H1 Vq). cbn [bind fmap mp_get].
    destruct (nc <? a_cost it' q); [|split; [|split]; assumption].
    destruct (lm_set _ _ _ LC _ _ q nc H1 Vq) as (m' & E' & HR'). rewrite E'. cbn [bind fmap mp_set].
    apply esim_same. intros m _. apply esim_same. intros prio _. apply esim_same. intros nd _.
    split; [exact HR' |]. split; [cbn [a_frontier u_frontier]; rewrite H2; reflexivity |].
    intros e Hin. destruct Hin as [<- | Hin]; [exact Vq | apply H3; exact Hin].
  Qed.

  Lemma astar_next_sim : forall dest it it', Rait it it' ->
    esim (fun a b => fst a = fst b /\ (forall p d, fst a = Some (p, d) -> valid P p) /\ Rait (snd a) (snd b))
      (astar_next P D co go dest it) (astar_next P D fmap go dest it').
  Proof.
    intros dest it it' (H1 & H2 & H3). unfold astar_next. rewrite <- H2.
    destruct (heap_pop (a_frontier it)) as [[[pr mov] rest]|] eqn:E.
    - assert (V : valid P (fst mov)) by (apply (H3 (pr, mov)); apply (heap_pop_In _ _ _ E); left; reflexivity).
      apply esim_same. intros ds _. eapply esim_bind with (R := Rait).
      + apply esim_foldM with (R := Rait); [intros d s s' _ Hs; apply astar_step_sim; assumption |].
        split; [exact H1 |]. split; [reflexivity |]. intros e He. apply H3. apply (heap_pop_In _ _ _ E). right. exact He.
      + intros a b Hab. cbn. split; [reflexivity |]. split; [intros p d Ep; inv Ep; exact V | exact Hab].
    - cbn. split; [reflexivity |]. split; [discriminate | split; [|split]; assumption].
  Qed.

  Lemma astar_loop_sim : forall fuel dest from f it it', RM from f -> Rait it it' ->
    esim (fun a b => match a, b with Ok m, Ok m' => RM m m' | Err e, Err e' => e = e' | _, _ => False end)
      (astar_search_loop P D co mo go fuel dest from it) (astar_search_loop P D fmap fmap go fuel dest f it').
  Proof.
    intros fuel dest. induction fuel as [|fuel IH]; intros from f it it' HR Hit; [exact I |].
    cbn [astar_search_loop]. eapply esim_bind; [apply astar_next_sim; exact Hit |].
    intros [o a] [o' b] (E & HV & H). cbn [fst snd] in *. subst o'. destruct o as [[p d]|]; [|cbn; reflexivity].
    destruct (lm_set _ _ _ LM from f p (Some d) HR (HV p d eq_refl)) as (m' & E & HR'). rewrite E. cbn [bind fmap mp_set].
    destruct (pos_eqb p dest); [exact HR' | apply IH; assumption].
  Qed.

  Lemma astar_new_sim : forall orig, valid P orig -> esim Rait (astar_new co orig) (astar_new fmap orig).
  Proof.
    intros orig V. unfold astar_new. destruct (lm_set _ _ _ LC _ _ orig 0 (lm_new _ _ _ LC COST_MAX) V) as (m' & E & HR).
    rewrite E. cbn. split; [exact HR |]. split; [reflexivity |]. intros e [<- | []]. exact V.
  Qed.

  Lemma astar_search_path_sim : forall fuel orig dest, valid P orig -> valid P dest ->
    astar_search_path P D co mo go fuel orig dest = astar_search_path P D fmap fmap go fuel orig dest.
  Proof.
    intros fuel orig dest V Vd. apply esim_eq. unfold astar_search_path, astar_search_mapmov.
    eapply esim_bind.
    - eapply esim_bind; [apply astar_new_sim; exact V |].
      intros a b Hab. apply astar_loop_sim; [exact (lm_default _ _ _ LM None) | exact Hab].
    - intros [m | e] [m' | e'] H; cbn in H; try contradiction; [|cbn; congruence].
      rewrite (camefrom_sim P mo RM fuel m m' orig dest W LM H Vd). apply esim_refl.
  Qed.
  End WithGo.

  Section WithCost.
  Context (go : pos -> dir -> option (pos * Z)) (HG : go_inside P (move_of go)).

  Definition Ruit (it : uit) (it' : uit) : Prop :=
    RC (u_cost it) (u_cost it') /\ u_frontier it = u_frontier it' /\ Rheap (u_frontier it).

  Lemma ucs_step_sim : forall p it it' d, valid P p -> Ruit it it' ->
    esim Ruit (ucs_step_dir co go p it d) (ucs_step_dir fmap go p it' d).
  Proof.
    intros p it it' d V (H1 & H2 & H3). unfold ucs_step_dir.
    destruct (go p d) as [[q c]|] eqn:E; [|split; [|split]; assumption].
    assert (Vq : valid P q) by (apply (HG p d q V); unfold move_of; rewrite E; reflexivity).
    rewrite (lm_get _ _ _ LC _ _ p H1 V). cbn [bind fmap mp_get]. apply esim_same. intros nc _.
    rewrite (lm_get _ _ _ LC _ _ q H1 Vq). cbn [bind fmap mp_get].
    destruct (nc <? u_cost it' q); [|split; [|split]; assumption].
    destruct (lm_set _ _ _ LC _ _ q nc H1 Vq) as (m' & E' & HR'). rewrite E'. cbn [bind fmap mp_set].
    apply esim_same. intros nd _.
    split; [exact HR' |]. split; [cbn [a_frontier u_frontier]; rewrite H2; reflexivity |].
    intros e Hin. destruct Hin as [<- | Hin]; [exact Vq | apply H3; exact Hin].
  Qed.

  Lemma ucs_next_sim : forall it it', Ruit it it' ->
    esim (fun a b => fst a = fst b /\ (forall p d, fst a = Some (p, d) -> valid P p) /\ Ruit (snd a) (snd b))
      (ucs_next D co go it) (ucs_next D fmap go it').
  Proof.
    intros it it' (H1 & H2 & H3). unfold ucs_next. rewrite <- H2.
    destruct (heap_pop (u_frontier it)) as [[[pr mov] rest]|] eqn:E.
    - assert (V : valid P (fst mov)) by (apply (H3 (pr, mov)); apply (heap_pop_In _ _ _ E); left; reflexivity).
      apply esim_same. intros ds _. eapply esim_bind with (R := Ruit).
      + apply esim_foldM with (R := Ruit); [intros d s s' _ Hs; apply ucs_step_sim; assumption |].
        split; [exact H1 |]. split; [reflexivity |]. intros e He. apply H3. apply (heap_pop_In _ _ _ E). right. exact He.
      + intros a b Hab. cbn. split; [reflexivity |]. split; [intros p d Ep; inv Ep; exact V | exact Hab].
    - cbn. split; [reflexivity |]. split; [discriminate | split; [|split]; assumption].
  Qed.

  Lemma ucs_loop_sim : forall fuel dest from f it it', RM from f -> Ruit it it' ->
    esim (fun a b => match a, b with Ok m, Ok m' => RM m m' | Err e, Err e' => e = e' | _, _ => False end)
      (ucs_search_loop D co mo go fuel dest from it) (ucs_search_loop D fmap fmap go fuel dest f it').
  Proof.
    intros fuel dest. induction fuel as [|fuel IH]; intros from f it it' HR Hit; [exact I |].
    cbn [ucs_search_loop]. eapply esim_bind; [apply ucs_next_sim; exact Hit |].
    intros [o a] [o' b] (E & HV & H). cbn [fst snd] in *. subst o'. destruct o as [[p d]|]; [|cbn; reflexivity].
    destruct (lm_set _ _ _ LM from f p (Some d) HR (HV p d eq_refl)) as (m' & E & HR'). rewrite E. cbn [bind fmap mp_set].
    destruct (pos_eqb p dest); [exact HR' | apply IH; assumption].
  Qed.

  Lemma ucs_new_sim : forall orig, valid P orig -> esim Ruit (ucs_new co orig) (ucs_new fmap orig).
  Proof.
    intros orig V. unfold ucs_new. destruct (lm_set _ _ _ LC _ _ orig 0 (lm_new _ _ _ LC COST_MAX) V) as (m' & E & HR).
    rewrite E. cbn. split; [exact HR |]. split; [reflexivity |]. intros e [<- | []]. exact V.
  Qed.

  Lemma ucs_search_path_sim : forall fuel orig dest, valid P orig -> valid P dest ->
    ucs_search_path P D co mo go fuel orig dest = ucs_search_path P D fmap fmap go fuel orig dest.
  Proof.
    intros fuel orig dest V Vd. apply esim_eq. unfold ucs_search_path, ucs_search_mapmov.
    eapply esim_bind.
    - eapply esim_bind; [apply ucs_new_sim; exact V |].
      intros a b Hab. apply ucs_loop_sim; [exact (lm_default _ _ _ LM None) | exact Hab].
    - intros [m | e] [m' | e'] H; cbn in H; try contradiction; [|cbn; congruence].
      rewrite (camefrom_sim P mo RM fuel m m' orig dest W LM H Vd). apply esim_refl.
  Qed.
  End WithCost.
End AstarSim.
