(** PropEmbedProofs.v -- proofs of the statements of PropEmbed.v. *)

From Coq Require Import ZArith List Bool Lia.
From Verif Require Import Rust BoundedInt Dir PosT Pos Grid Gridbool SetMap CameFrom Heap Bf Astar Ucs Spec SpecSearch SpecEmbed Lib BoundedIntProofs PosTProofs PosTProofs2 GridProofs GridProofs2 GridboolProofs PropGridboolProofs SetMapProofs Sim CameFromProofs PropSetMapProofs BfProofs PropBfProofs BestFirst SearchProofs UcsProofs AstarProofs PropAstarProofs PropUcsProofs.
Import ListNotations.
Open Scope Z_scope.

Lemma shift_inj : forall v p q, shift v p = shift v q -> p = q.
Proof. intros v [a b] [c d] H. unfold shift in H. cbn [fst snd] in H. injection H as H1 H2. f_equal; lia. Qed.

Lemma shift_eqb : forall v p q, pos_eqb (shift v p) (shift v q) = pos_eqb p q.
Proof.
  intros v p q. destruct (pos_eqb p q) eqn:E.
  - apply pos_eqb_eq in E. subst q. apply pos_eqb_eq. reflexivity.
  - apply not_true_iff_false. intros H. apply pos_eqb_eq, shift_inj in H. subst q. rewrite (proj2 (pos_eqb_eq p p) eq_refl) in E. discriminate.
Qed.

Lemma shift_ltb : forall v p q, pos_ltb (shift v p) (shift v q) = pos_ltb p q.
Proof.
  intros v p q. unfold pos_ltb, shift. cbn [fst snd].
  replace (fst p + fst v <? fst q + fst v) with (fst p <? fst q) by (destruct (Z.ltb_spec (fst p) (fst q)); symmetry; [apply Z.ltb_lt | apply Z.ltb_ge]; lia).
  replace (snd p + snd v <? snd q + snd v) with (snd p <? snd q) by (destruct (Z.ltb_spec (snd p) (snd q)); symmetry; [apply Z.ltb_lt | apply Z.ltb_ge]; lia).
  replace (fst p + fst v =? fst q + fst v) with (fst p =? fst q) by (destruct (Z.eqb_spec (fst p) (fst q)); symmetry; [apply Z.eqb_eq | apply Z.eqb_neq]; lia). reflexivity.
Qed.

Lemma shift_step : forall v p d, shift v (step p d) = step (shift v p) d.
Proof. intros v [x y] d. destruct d; unfold shift, step; cbn; f_equal; lia. Qed.

(** An entry of the queue, placed. *)
Definition esh (v : pos) (e : entry) : entry := (e_prio e, (shift v (e_pos e), e_dir e)).

Lemma esh_ltb : forall v a b, entry_ltb (esh v a) (esh v b) = entry_ltb a b.
Proof. intros v a b. unfold entry_ltb, esh, e_prio, e_pos, e_dir. cbn [fst snd]. rewrite shift_eqb, shift_ltb. reflexivity. Qed.

Lemma esh_take : forall v h e, heap_take (esh v e) (map (esh v) h) = (esh v (fst (heap_take e h)), map (esh v) (snd (heap_take e h))).
Proof.
  intros v. induction h as [|x h IH]; intros e; [reflexivity |]. cbn [map heap_take]. rewrite esh_ltb. destruct (entry_ltb e x).
  - rewrite IH. destruct (heap_take x h). reflexivity.
  - rewrite IH. destruct (heap_take e h). reflexivity.
Qed.

Lemma esh_pop : forall v h, heap_pop (map (esh v) h) = match heap_pop h with Some (e, r) => Some (esh v e, map (esh v) r) | None => None end.
Proof. intros v [|e h]; [reflexivity |]. cbn [map heap_pop]. rewrite esh_take. destruct (heap_take e h). reflexivity. Qed.

Lemma loop_longer : forall P fuel f orig ret p mi path, camefrom_loop P fmap fuel f orig ret p mi = Ret (Ok path) -> (length ret <= length path)%nat.
Proof.
  intros P. induction fuel as [|fuel IH]; intros f orig ret p mi path E; [discriminate |]. cbn [camefrom_loop] in E. destruct (negb (pos_eqb p orig)); [|injection E as ->; lia].
  cbn [fmap mp_get bind] in E. destruct (f p) as [d|]; [|discriminate]. destruct (dir_neg d) as [nd | | |]; cbn [bind] in E; try discriminate. destruct (pos_dir_add P p d) as [q | e]; [|discriminate].
  destruct (usub mi 1) as [m1 | | |]; cbn [bind] in E; try discriminate. destruct (m1 =? 0); [discriminate |]. apply IH in E. cbn [length] in E. lia.
Qed.

Lemma into_path_not_panic : forall P fuel f orig dest, grid_type P -> valid P orig -> valid P dest -> camefrom_into_path P fmap fuel f orig dest = Panic -> False.
Proof.
  intros P fuel f orig dest G V Vd E. unfold camefrom_into_path in E. rewrite manhattan_ok in E by assumption. pose proof V as V0. pose proof Vd as Vd0. apply valid_nums in V0, Vd0; try exact G. destruct (grid_type_nums P G) as (_ & _ & HX & HY). pose proof (cols_sq P G) as CS.
  assert (B : 0 <= Z.abs (fst orig - fst dest) + Z.abs (snd orig - snd dest) <= 131070) by (clear -V0 Vd0 HX HY; lia). revert B E. generalize (Z.abs (fst orig - fst dest) + Z.abs (snd orig - snd dest)). intros dist B E. cbn [bind] in E. unfold umul in E at 1. rewrite usize_arith in E by lia. cbn [bind] in E. rewrite arith_ok in E by (unfold isize, i64; cbn [imin imax]; lia). cbn [bind fmap mp_get] in E. destruct (f dest); [|discriminate].
  rewrite width_ok in E by exact G. cbn [bind] in E. unfold umul, uadd in E. rewrite usize_arith in E by lia. cbn [bind] in E. rewrite usize_arith in E by lia. cbn [bind] in E.
  revert E. assert (M : 1 <= cols P * cols P + 1 <= 18446744073709551615) by lia. revert M. generalize (cols P * cols P + 1) (@nil dir) dest. clear. induction fuel as [|fuel IH]; intros mi ret p M E; [discriminate |]. cbn [camefrom_loop] in E. destruct (negb (pos_eqb p orig)); [|discriminate]. cbn [fmap mp_get bind] in E.
  destruct (f p) as [d|]; [|discriminate]. rewrite dir_neg_opp in E. cbn [bind] in E. destruct (pos_dir_add P p d) as [p' | e]; [|discriminate]. unfold usub in E. rewrite usize_arith in E by lia. cbn [bind] in E. destruct (mi - 1 =? 0) eqn:Z1; [discriminate |]. apply Z.eqb_neq in Z1. apply (fun K => IH _ _ _ K E). lia.
Qed.

Lemma bind_ext0 : forall A B (x : exec A) (f g : A -> exec B), (forall a, f a = g a) -> bind x f = bind x g.
Proof. intros A B [a | | |] f g H; cbn [bind]; auto. Qed.

Section Placed.
  Context (P P' : post) (v : pos) (G : grid_type P) (G' : grid_type P') (EMB : placed P P' v).
  Definition agree {A} (f f' : pos -> A) : Prop := forall p, valid P p -> f' (shift v p) = f p.
  Lemma agree_put : forall A (f f' : pos -> A) p x, agree f f' -> agree (put f p x) (put f' (shift v p) x).
  Proof. intros A f f' p x H q V. unfold put. rewrite shift_eqb. destruct (pos_eqb p q); [reflexivity | apply H; exact V]. Qed.
  Lemma placed_loop : forall fuel f f' orig ret p mi mi' path, agree f f' -> valid P p -> camefrom_loop P fmap fuel f orig ret p mi = Ret (Ok path) -> Z.of_nat (length path) < mi' + Z.of_nat (length ret) -> 1 <= mi' <= COST_MAX ->
    camefrom_loop P' fmap fuel f' (shift v orig) ret (shift v p) mi' = Ret (Ok path).
  Proof using G G' EMB.
    induction fuel as [|fuel IH]; intros f f' orig ret p mi mi' path A V E L H; [discriminate |]. cbn [camefrom_loop] in *. rewrite shift_eqb. destruct (negb (pos_eqb p orig)); [|injection E as ->; reflexivity].
    cbn [fmap mp_get bind] in *. rewrite (A p V). destruct (f p) as [d|]; [|discriminate]. destruct (dir_neg d) as [nd | | |]; cbn [bind] in *; try discriminate. destruct (pos_dir_add P p d) as [q | e] eqn:Ea; [|discriminate].
    destruct (add_valid P p d q (grid_type_wf P G) V Ea) as (Vq & ->). destruct (add_inside P' (shift v p) d (grid_type_wf P' G') (EMB p V)) as [(V1 & ->) | (V1 & _)]; [|rewrite <- shift_step in V1; destruct (V1 (EMB _ Vq))].
    destruct (usub mi 1) as [m1 | | |]; cbn [bind] in E; try discriminate. destruct (m1 =? 0); [discriminate |]. unfold COST_MAX in H. unfold usub. rewrite usize_arith by lia. cbn [bind]. rewrite <- shift_step.
    destruct (Z.eq_dec (mi' - 1) 0) as [Ez | Ez].
    - exfalso. apply loop_longer in E. cbn [length] in E. lia.
    - replace (mi' - 1 =? 0) with false by (symmetry; apply Z.eqb_neq; exact Ez). apply (IH f f' orig (nd :: ret) (step p d) m1 (mi' - 1) path A Vq E); [cbn [length]; lia | unfold COST_MAX; lia].
  Qed.
  Lemma placed_manhattan : forall p q, valid P p -> valid P q -> manhattan P' (shift v p) (shift v q) = manhattan P p q.
  Proof using G G' EMB. intros p q Vp Vq. rewrite !manhattan_ok by (auto; apply EMB; assumption). unfold shift. cbn [fst snd]. f_equal. lia. Qed.
  Lemma placed_camefrom : forall fuel f f' orig dest, agree f f' -> valid P orig -> valid P dest ->
    (forall path, camefrom_into_path P fmap fuel f orig dest = Ret (Ok path) -> Z.of_nat (length path) <= cols P' * cols P' -> camefrom_into_path P' fmap fuel f' (shift v orig) (shift v dest) = Ret (Ok path)) /\
    (camefrom_into_path P fmap fuel f orig dest = Ret (Err DestinationUnreachable) -> camefrom_into_path P' fmap fuel f' (shift v orig) (shift v dest) = Ret (Err DestinationUnreachable)).
  Proof using G G' EMB.
    intros fuel f f' orig dest A Vo Vd. unfold camefrom_into_path. rewrite placed_manhattan by assumption. destruct (manhattan P orig dest) as [m | | |]; cbn [bind]; try (split; intros; discriminate).
    destruct (umul 2 m) as [m2 | | |]; cbn [bind]; try (split; intros; discriminate). destruct (arith isize m2) as [c | | |]; cbn [bind]; try (split; intros; discriminate).
    cbn [fmap mp_get bind]. rewrite (A dest Vd). destruct (f dest) as [d0|]; [|split; [discriminate | reflexivity]]. rewrite !width_ok by assumption. cbn [bind]. pose proof (cols_sq P G) as S1. pose proof (cols_sq P' G') as S2.
    unfold umul, uadd. rewrite !usize_arith by lia. cbn [bind]. rewrite !usize_arith by lia. cbn [bind]. split.
    - intros path E L. apply (placed_loop fuel f f' orig [] dest _ (cols P' * cols P' + 1) path A Vd E); [cbn [length]; lia | unfold COST_MAX; lia].
    - intros E. exfalso. revert E. generalize (cols P * cols P + 1) (@nil dir) dest. clear. induction fuel as [|fuel IH]; intros mi ret p E; [discriminate |]. cbn [camefrom_loop] in E. destruct (negb (pos_eqb p orig)); [|discriminate]. cbn [fmap mp_get bind] in E. destruct (f p) as [d|]; [|discriminate].
      destruct (dir_neg d) as [nd | | |]; cbn [bind] in E; try discriminate. destruct (pos_dir_add P p d) as [p' | e]; [|discriminate]. destruct (usub mi 1) as [m1 | | |]; cbn [bind] in E; try discriminate. destruct (m1 =? 0); [discriminate |]. exact (IH _ _ _ E).
  Qed.
  Context (D : bool).
  Section Bfs.
    Context (go go' : pos -> dir -> option pos) (HG : go_inside P go) (HP : placed_go P v go go').
    Definition fsh (pd : pos * dir) : pos * dir := (shift v (fst pd), snd pd).
    Definition Pbf (it it' : @bfit (pos -> bool)) : Prop := agree (bf_visited it) (bf_visited it') /\ bf_nextfront it' = map fsh (bf_nextfront it) /\ Forall (fun pd => valid P (fst pd)) (bf_nextfront it).
    Lemma p_step_dir : forall p it it' d, valid P p -> Pbf it it' -> esim Pbf (bf_step_dir fset go p it d) (bf_step_dir fset go' (shift v p) it' d).
    Proof using HG HP.
      intros p it it' d V (H1 & H2 & H3). unfold bf_step_dir. rewrite (HP p d V). destruct (go p d) as [q|] eqn:E; [|split; auto]. pose proof (HG p d q V E) as Vq. cbn [fset sp_contains sp_insert bind]. rewrite (H1 q Vq).
      destruct (bf_visited it q); [split; auto |]. apply esim_same. intros nd _. cbn [esim]. split; [apply agree_put; exact H1 |]. cbn [bf_nextfront]. rewrite H2, map_app. split; [reflexivity |]. apply Forall_app. auto.
    Qed.
    Lemma p_step_pos : forall it it' pd, valid P (fst pd) -> Pbf it it' -> esim Pbf (bf_step_pos D fset go it pd) (bf_step_pos D fset go' it' (fsh pd)).
    Proof using HG HP.
      intros it it' pd V H. unfold bf_step_pos. cbn [fsh fst]. apply esim_same. intros ds _. eapply esim_bind; [apply esim_foldM with (R := Pbf); [|exact H]; intros x s s' _ Hs; apply p_step_dir; assumption |].
      intros a b (H1 & H2 & H3). cbn [fset sp_insert bind esim]. split; [apply agree_put; exact H1 | auto].
    Qed.
    Lemma p_next : forall it it', Pbf it it' -> esim (fun a b => fst b = option_map (map fsh) (fst a) /\ (forall l, fst a = Some l -> Forall (fun pd => valid P (fst pd)) l) /\ Pbf (snd a) (snd b)) (bf_next D fset go it) (bf_next D fset go' it').
    Proof using HG HP.
      intros it it' (H1 & H2 & H3). unfold bf_next. rewrite H2. destruct (bf_nextfront it) as [|pd l] eqn:E; [cbn [map esim fst snd option_map]; split; [reflexivity |]; split; [discriminate | split; auto] |].
      cbn [map]. change (fsh pd :: map fsh l) with (map fsh (pd :: l)). eapply esim_bind with (R := Pbf).
      - generalize (pd :: l) H3. intros l0 F. assert (K : forall l1 s s', Forall (fun pd => valid P (fst pd)) l1 -> Pbf s s' -> esim Pbf (foldM (bf_step_pos D fset go) l1 s) (foldM (bf_step_pos D fset go') (map fsh l1) s')).
        { induction l1 as [|x l1 IH]; intros s s' F1 Hs; cbn [foldM map]; [exact Hs |]. inversion F1; subst. eapply esim_bind; [apply p_step_pos; eassumption |]. intros a b Hab. apply IH; assumption. }
        apply K; [exact F |]. split; [exact H1 |]. cbn. auto.
      - intros a b Hab. cbn [esim fst snd option_map]. split; [reflexivity |]. split; [intros l0 E0; injection E0 as <-; exact H3 | exact Hab].
    Qed.
    Lemma p_scan : forall found found' front from from', (forall p, valid P p -> found' (shift v p) = found p) -> Forall (fun pd => valid P (fst pd)) front -> agree from from' ->
      esim (fun a b => agree (fst a) (fst b) /\ snd b = option_map (shift v) (snd a) /\ forall p, snd a = Some p -> valid P p) (bf_scan fmap found from front) (bf_scan fmap found' from' (map fsh front)).
    Proof using.
      intros found found' front. induction front as [|[p d] front IH]; intros from from' HF F A; [cbn; split; [exact A |]; split; [reflexivity | discriminate] |]. inversion F; subst. cbn [fst] in *.
      cbn [bf_scan map fsh fst snd fmap mp_set bind]. rewrite HF by assumption. pose proof (agree_put _ _ _ p (Some d) A) as A'. destruct (found p); [cbn [esim fst snd option_map]; split; [exact A' |]; split; [reflexivity |]; intros q E; injection E as <-; assumption |]. apply IH; assumption.
    Qed.
    Definition Rfound (a b : result (pos * (pos -> option dir))) : Prop := match a, b with Ok (p, m), Ok (q, m') => q = shift v p /\ agree m m' /\ valid P p | Err e, Err e' => e = e' | _, _ => False end.
    Lemma p_loop : forall fuel found found' from from' it it', (forall p, valid P p -> found' (shift v p) = found p) -> agree from from' -> Pbf it it' ->
      esim Rfound (bf_search_loop D fset fmap go fuel found from it) (bf_search_loop D fset fmap go' fuel found' from' it').
    Proof using HG HP.
      induction fuel as [|fuel IH]; intros found found' from from' it it' HF A H; [exact Logic.I |]. cbn [bf_search_loop]. eapply esim_bind; [apply p_next; exact H |].
      intros [o it1] [o' it1'] (E1 & E2 & E3). cbn [fst snd] in *. subst o'. destruct o as [front|]; cbn [option_map]; [|reflexivity]. eapply esim_bind; [apply p_scan; [exact HF | apply E2; reflexivity | exact A] |].
      intros [from1 hit] [from1' hit'] (A1 & A2 & A3). cbn [fst snd] in *. subst hit'. destruct hit as [p|]; cbn [option_map]; [cbn; auto |]. apply IH; assumption.
    Qed.
    Lemma p_mapmov : forall fuel orig found found', (forall p, valid P p -> found' (shift v p) = found p) -> valid P orig -> esim Rfound (bf_search_mapmov D fset fmap go fuel orig found) (bf_search_mapmov D fset fmap go' fuel (shift v orig) found').
    Proof using HG HP.
      intros fuel orig found found' HF V. unfold bf_search_mapmov, bf_iter, bf_new. eapply esim_bind.
      - cbn [fset sp_default bind]. eapply esim_bind.
        + apply p_next. split; [intros q _; reflexivity | split; [reflexivity | constructor; [exact V | constructor]]].
        + intros [o it] [o' it'] (_ & _ & H). exact H.
      - intros it it' H. apply p_loop; [exact HF | intros q _; reflexivity | exact H].
    Qed.
  End Bfs.
  Section Best.
    Context (I : Type) (mk : (pos -> Z) -> heap -> I) (cost : I -> pos -> Z) (front : I -> heap) (CM : forall c h, cost (mk c h) = c) (FM : forall c h, front (mk c h) = h).
    Definition Pit (it it' : I) : Prop := agree (cost it) (cost it') /\ front it' = map (esh v) (front it) /\ Forall (fun e => valid P (e_pos e)) (front it).
    Context (bstep bstep' : pos -> I -> dir -> exec I) (HB : forall p it it' d, valid P p -> Pit it it' -> esim Pit (bstep p it d) (bstep' (shift v p) it' d)).
    Definition bnext (st : pos -> I -> dir -> exec I) (it : I) : exec (option (pos * dir) * I) :=
      match heap_pop (front it) with
      | Some ((_, mov), rest) => ds <- dir_iter_list D ;; it' <- foldM (st (fst mov)) ds (mk (cost it) rest) ;; Ret (Some mov, it')
      | None => Ret (None, it)
      end.
    Fixpoint bsearch (st : pos -> I -> dir -> exec I) (fuel : nat) (dest : pos) (from : pos -> option dir) (it : I) : exec (result (pos -> option dir)) :=
      match fuel with
      | O => Fuel
      | S fuel' =>
          '(o, it') <- bnext st it ;;
          match o with
          | None => Ret (Err DestinationUnreachable)
          | Some (p, d) => let from' := put from p (Some d) in if pos_eqb p dest then Ret (Ok from') else bsearch st fuel' dest from' it'
          end
      end.
    Lemma p_bnext : forall it it', Pit it it' -> esim (fun a b => fst b = option_map fsh (fst a) /\ (forall pd, fst a = Some pd -> valid P (fst pd)) /\ Pit (snd a) (snd b)) (bnext bstep it) (bnext bstep' it').
    Proof using HB CM FM.
      intros it it' H. pose proof H as (H1 & H2 & H3). unfold bnext. rewrite H2, esh_pop. destruct (heap_pop (front it)) as [[[pr [p d]] rest]|] eqn:E; [|cbn; split; [reflexivity |]; split; [discriminate | exact H]].
      assert (FV : valid P p /\ Forall (fun e => valid P (e_pos e)) rest). { rewrite Forall_forall in H3. split; [apply (H3 (pr, (p, d))); apply (heap_pop_In _ _ _ E); auto | apply Forall_forall; intros e He; apply H3; apply (heap_pop_In _ _ _ E); auto]. }
      destruct FV as (Vp & Fr). unfold esh at 1. cbn [e_prio e_pos e_dir fst snd]. apply esim_same. intros ds _. eapply esim_bind with (R := Pit).
      - apply esim_foldM with (R := Pit); [intros x s s' _ Hs; apply HB; assumption |]. split; [rewrite !CM; exact H1 |]. rewrite !FM. auto.
      - intros a b Hab. cbn [esim fst snd option_map fsh]. split; [reflexivity |]. split; [intros pd E0; injection E0 as <-; exact Vp | exact Hab].
    Qed.
    Lemma p_bsearch : forall fuel dest from from' it it', agree from from' -> Pit it it' ->
      esim (fun a b => match a, b with Ok m, Ok m' => agree m m' | Err e, Err e' => e = e' | _, _ => False end) (bsearch bstep fuel dest from it) (bsearch bstep' fuel (shift v dest) from' it').
    Proof using HB CM FM.
      induction fuel as [|fuel IH]; intros dest from from' it it' A H; [exact Logic.I |]. cbn [bsearch]. eapply esim_bind; [apply p_bnext; exact H |]. intros [o it1] [o' it1'] (E1 & E2 & E3). cbn [fst snd] in *. subst o'.
      destruct o as [[p d]|]; cbn [option_map fsh fst snd]; [|reflexivity]. rewrite shift_eqb. pose proof (agree_put _ _ _ p (Some d) A) as A'. destruct (pos_eqb p dest); [exact A' |]. apply IH; assumption.
    Qed.
  End Best.
  Lemma p_ucs : forall go go' fuel orig dest, go_inside P (move_of go) -> placed_costs P v go go' -> valid P orig ->
    esim (fun a b => match a, b with Ok m, Ok m' => agree m m' | Err e, Err e' => e = e' | _, _ => False end) (ucs_search_mapmov D fmap fmap go fuel orig dest) (ucs_search_mapmov D fmap fmap go' fuel (shift v orig) (shift v dest)).
  Proof using.
    intros go go' fuel orig dest HG HP V. unfold ucs_search_mapmov, ucs_new. cbn [fmap mp_new mp_set mp_default bind heap_push].
    assert (L : forall g fu de fr it, ucs_search_loop D fmap fmap g fu de fr it = bsearch uit UIt u_cost u_frontier (ucs_step_dir fmap g) fu de fr it) by (intros g fu; induction fu as [|fu IH]; intros de fr it; [reflexivity |]; cbn [ucs_search_loop bsearch]; apply bind_ext0; intros [[[p d]|] it']; [|reflexivity]; cbn [fmap mp_set bind]; destruct (pos_eqb p de); [reflexivity | apply IH]).
    rewrite !L. apply p_bsearch; [reflexivity | reflexivity | | intros q _; reflexivity |].
    - intros p it it' d Vp (H1 & H2 & H3). unfold ucs_step_dir. rewrite (HP p d Vp). destruct (go p d) as [[q w]|] eqn:E; [|split; auto]. assert (Vq : valid P q) by (apply (HG p d q Vp); unfold move_of; rewrite E; reflexivity).
      cbn [fmap mp_get mp_set bind]. rewrite (H1 p Vp). apply esim_same. intros nc _. rewrite (H1 q Vq). destruct (nc <? u_cost it q); [|split; auto]. apply esim_same. intros nd _. cbn [esim]. split; [apply agree_put; exact H1 |]. cbn [u_frontier heap_push map]. rewrite H2. split; [reflexivity |]. constructor; [exact Vq | exact H3].
    - split; [apply (agree_put _ (fun _ => COST_MAX) (fun _ => COST_MAX) orig 0); intros q _; reflexivity |]. split; [reflexivity |]. constructor; [exact V | constructor].
  Qed.
  Lemma p_astar : forall go go' fuel orig dest, go_inside P go -> placed_go P v go go' -> valid P orig -> valid P dest ->
    esim (fun a b => match a, b with Ok m, Ok m' => agree m m' | Err e, Err e' => e = e' | _, _ => False end) (astar_search_mapmov P D fmap fmap go fuel orig dest) (astar_search_mapmov P' D fmap fmap go' fuel (shift v orig) (shift v dest)).
  Proof using G G' EMB.
    intros go go' fuel orig dest HG HP V Vd. unfold astar_search_mapmov, astar_new. cbn [fmap mp_new mp_set mp_default bind heap_push].
    assert (L : forall Q g fu de fr it, astar_search_loop Q D fmap fmap g fu de fr it = bsearch ait AIt a_cost a_frontier (astar_step_dir Q fmap g de) fu de fr it) by (intros Q g fu; induction fu as [|fu IH]; intros de fr it; [reflexivity |]; cbn [astar_search_loop bsearch]; apply bind_ext0; intros [[[p d]|] it']; [|reflexivity]; cbn [fmap mp_set bind]; destruct (pos_eqb p de); [reflexivity | apply IH]).
    rewrite !L. apply p_bsearch; [reflexivity | reflexivity | | intros q _; reflexivity |].
    - intros p it it' d Vp (H1 & H2 & H3). unfold astar_step_dir. cbn [fmap mp_get mp_set bind]. rewrite (H1 p Vp). apply esim_same. intros nc _. rewrite (HP p d Vp). destruct (go p d) as [q|] eqn:E; [|split; auto]. pose proof (HG p d q Vp E) as Vq.
      rewrite (H1 q Vq). destruct (nc <? a_cost it q); [|split; auto]. rewrite placed_manhattan by assumption. apply esim_same. intros m _. apply esim_same. intros pr _. apply esim_same. intros nd _. cbn [esim]. split; [apply agree_put; exact H1 |]. cbn [a_frontier heap_push map]. rewrite H2. split; [reflexivity |]. constructor; [exact Vq | exact H3].
    - split; [apply (agree_put _ (fun _ => COST_MAX) (fun _ => COST_MAX) orig 0); intros q _; reflexivity |]. split; [reflexivity |]. constructor; [exact V | constructor].
  Qed.
End Placed.

Lemma C128_bfs_placed_proof : forall b b' P P' D W W' v fuel go go' orig found found',
  usable b P W -> usable b' P' W' -> placed P P' v ->
  go_inside P go -> go_inside P' go' -> placed_go P v go go' ->
  (forall p, valid P p -> found' (shift v p) = found p) -> valid P orig ->
  (forall dest path, bfs_on b P D W fuel go orig found = Ret (Ok (dest, path)) -> Z.of_nat (length path) <= cols P' * cols P' ->
     bfs_on b' P' D W' fuel go' (shift v orig) found' = Ret (Ok (shift v dest, path))) /\
  (bfs_on b P D W fuel go orig found = Ret (Err DestinationUnreachable) ->
   bfs_on b' P' D W' fuel go' (shift v orig) found' = Ret (Err DestinationUnreachable)).
Proof.
  intros b b' P P' D W W' v fuel go go' orig found found' U U' EMB HG HG' HP HF V. pose proof (usable_grid_type b P W U) as G. pose proof (usable_grid_type b' P' W' U') as G'.
  rewrite (bfs_on_f b P D W fuel go orig found U V HG). rewrite (bfs_on_f b' P' D W' fuel go' (shift v orig) found' U' (EMB orig V) HG'). pose proof (p_mapmov P v D go go' HG HP fuel orig found found' HF V) as Q. unfold bf_search_path.
  destruct (bf_search_mapmov D fset fmap go fuel orig found) as [[[p m] | e] | | |]; destruct (bf_search_mapmov D fset fmap go' fuel (shift v orig) found') as [[[q m'] | e'] | | |]; cbn in Q; try contradiction; cbn [bind]; try (split; intros; discriminate).
  - destruct Q as (-> & A & Vp). destruct (placed_camefrom P P' v G G' EMB fuel m m' orig p A V Vp) as (K1 & K2). split.
    + intros dest path E L. destruct (camefrom_into_path P fmap fuel m orig p) as [[path' | e] | | |]; cbn [bind] in E; try discriminate. injection E as <- <-. rewrite (K1 _ eq_refl L). reflexivity.
    + intros E. destruct (camefrom_into_path P fmap fuel m orig p) as [[path' | e] | | |]; cbn [bind] in E; try discriminate. injection E as ->. rewrite (K2 eq_refl). reflexivity.
  - subst e'. split; [discriminate | auto].
Qed.

Lemma C128_ucs_placed_proof : forall b b' P P' D W W' v fuel go go' orig dest,
  usable b P W -> usable b' P' W' -> placed P P' v ->
  go_inside P (move_of go) -> go_inside P' (move_of go') -> placed_costs P v go go' -> valid P orig -> valid P dest ->
  (forall path, ucs_on b P D fuel go orig dest = Ret (Ok path) -> Z.of_nat (length path) <= cols P' * cols P' ->
     ucs_on b' P' D fuel go' (shift v orig) (shift v dest) = Ret (Ok path)) /\
  (ucs_on b P D fuel go orig dest = Ret (Err DestinationUnreachable) ->
   ucs_on b' P' D fuel go' (shift v orig) (shift v dest) = Ret (Err DestinationUnreachable)) /\
  (ucs_on b P D fuel go orig dest = Panic -> ucs_on b' P' D fuel go' (shift v orig) (shift v dest) = Panic).
Proof.
  intros b b' P P' D W W' v fuel go go' orig dest U U' EMB HG HG' HP V Vd. pose proof (usable_grid_type b P W U) as G. pose proof (usable_grid_type b' P' W' U') as G'.
  rewrite (ucs_on_f b P D W fuel go orig dest U V Vd HG). rewrite (ucs_on_f b' P' D W' fuel go' (shift v orig) (shift v dest) U' (EMB orig V) (EMB dest Vd) HG'). pose proof (p_ucs P v D go go' fuel orig dest HG HP V) as Q. unfold ucs_search_path.
  destruct (ucs_search_mapmov D fmap fmap go fuel orig dest) as [[m | e] | | |]; destruct (ucs_search_mapmov D fmap fmap go' fuel (shift v orig) (shift v dest)) as [[m' | e'] | | |]; cbn in Q; try contradiction; cbn [bind]; try (repeat split; intros; discriminate); auto.
  - destruct (placed_camefrom P P' v G G' EMB fuel m m' orig dest Q V Vd) as (K1 & K2). split; [exact K1 |]. split; [exact K2 |]. intros E. destruct (into_path_not_panic P fuel m orig dest G V Vd E).
  - subst e'. split; [discriminate |]. split; [auto | discriminate].
Qed.

Lemma C128_astar_placed_proof : forall b b' P P' D W W' v fuel go go' orig dest,
  usable b P W -> usable b' P' W' -> placed P P' v ->
  go_inside P go -> go_inside P' go' -> placed_go P v go go' -> valid P orig -> valid P dest ->
  (forall path, astar_on b P D fuel go orig dest = Ret (Ok path) -> Z.of_nat (length path) <= cols P' * cols P' ->
     astar_on b' P' D fuel go' (shift v orig) (shift v dest) = Ret (Ok path)) /\
  (astar_on b P D fuel go orig dest = Ret (Err DestinationUnreachable) ->
   astar_on b' P' D fuel go' (shift v orig) (shift v dest) = Ret (Err DestinationUnreachable)).
Proof.
  intros b b' P P' D W W' v fuel go go' orig dest U U' EMB HG HG' HP V Vd. pose proof (usable_grid_type b P W U) as G. pose proof (usable_grid_type b' P' W' U') as G'.
  rewrite (astar_on_f b P D W fuel go orig dest U V Vd HG). rewrite (astar_on_f b' P' D W' fuel go' (shift v orig) (shift v dest) U' (EMB orig V) (EMB dest Vd) HG'). pose proof (p_astar P P' v G G' EMB D go go' fuel orig dest HG HP V Vd) as Q. unfold astar_search_path.
  destruct (astar_search_mapmov P D fmap fmap go fuel orig dest) as [[m | e] | | |]; destruct (astar_search_mapmov P' D fmap fmap go' fuel (shift v orig) (shift v dest)) as [[m' | e'] | | |]; cbn in Q; try contradiction; cbn [bind]; try (split; intros; discriminate).
  - apply (placed_camefrom P P' v G G' EMB fuel m m' orig dest Q V Vd).
  - subst e'. split; [discriminate | auto].
Qed.
