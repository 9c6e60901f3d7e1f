(** UcsProofs.v -- uniform-cost search, on plain functions. *)

From Coq Require Import ZArith List Bool Lia.
From Verif Require Import Rust BoundedInt Dir PosT Pos SetMap CameFrom Heap Astar Ucs
  Spec SpecSearch Lib Deque BoundedIntProofs PosTProofs PosTProofs2 PropDirProofs SetMapProofs Sim CameFromProofs BfProofs BestFirst SearchProofs.
Import ListNotations.
Open Scope Z_scope.

Lemma camefrom_loop_none : forall {M} P (mo : mapops (option dir) M) fuel m orig ret p k r,
  camefrom_loop P mo fuel m orig ret p k = Ret r -> forall fuel', (fuel <= fuel')%nat -> camefrom_loop P mo fuel' m orig ret p k = Ret r.
Proof.
  intros M P mo fuel. induction fuel as [|fuel IH]; intros m orig ret p k r E fuel' L; [discriminate |].
  destruct fuel' as [|fuel']; [lia |]. cbn [camefrom_loop] in *. destruct (negb (pos_eqb p orig)); [|exact E].
  destruct (mp_get mo m p) as [[d|] | | |]; cbn [bind] in *; try discriminate; [|exact E].
  destruct (dir_neg d) as [nd | | |]; cbn [bind] in *; try discriminate.
  destruct (pos_dir_add P p d) as [p' | err]; [|exact E].
  destruct (usub k 1) as [k' | | |]; cbn [bind] in *; try discriminate.
  destruct (k' =? 0); [exact E |]. apply IH with (fuel' := fuel') in E; [exact E | lia].
Qed.

(** Searches that return with some fuel return the same with more. *)
Lemma into_path_mono : forall {M} P (mo : mapops (option dir) M) fuel m orig dest r,
  camefrom_into_path P mo fuel m orig dest = Ret r -> forall fuel', (fuel <= fuel')%nat -> camefrom_into_path P mo fuel' m orig dest = Ret r.
Proof.
  intros M P mo fuel m orig dest r E fuel' L. unfold camefrom_into_path in *.
  repeat match type of E with
  | bind ?x _ = Ret _ => destruct x; cbn [bind] in E |- *; try discriminate
  | match ?x with _ => _ end = Ret _ => destruct x; try discriminate
  end; try exact E.
  eapply camefrom_loop_none; eassumption.
Qed.

Section Mono.
  Context {MC M : Type} (P : post) (D : bool) (co : mapops Z MC) (mo : mapops (option dir) M).

  Lemma ucs_path_mono : forall go fuel orig dest r, ucs_search_path P D co mo go fuel orig dest = Ret r ->
    returns (fun n => ucs_search_path P D co mo go n orig dest) r.
  Proof.
    intros go fuel orig dest r E. exists fuel. intros fuel' L. unfold ucs_search_path, ucs_search_mapmov in *.
    destruct (ucs_new co orig) as [it | | |]; cbn [bind] in *; try discriminate.
    assert (LM : forall n m from it x, ucs_search_loop D co mo go n dest from it = Ret x -> (n <= m)%nat -> ucs_search_loop D co mo go m dest from it = Ret x).
    { clear. induction n as [|n IH]; intros m from it x E L; [discriminate |]. destruct m as [|m]; [lia |]. cbn [ucs_search_loop] in *.
      destruct (ucs_next D co go it) as [[[[p d]|] it'] | | |]; cbn [bind] in *; try discriminate; [|exact E].
      destruct (mp_set mo from p (Some d)) as [from' | | |]; cbn [bind] in *; try discriminate.
      destruct (pos_eqb p dest); [exact E |]. apply IH; [exact E | lia]. }
    destruct (ucs_search_loop D co mo go fuel dest (mp_default mo None) it) as [x | | |] eqn:El; cbn [bind] in E; try discriminate.
    rewrite (LM _ _ _ _ _ El L). cbn [bind]. destruct x as [m | e]; [|exact E]. eapply into_path_mono; eassumption.
  Qed.

  Lemma astar_path_mono : forall go fuel orig dest r, astar_search_path P D co mo go fuel orig dest = Ret r ->
    returns (fun n => astar_search_path P D co mo go n orig dest) r.
  Proof.
    intros go fuel orig dest r E. exists fuel. intros fuel' L. unfold astar_search_path, astar_search_mapmov in *.
    destruct (astar_new co orig) as [it | | |]; cbn [bind] in *; try discriminate.
    assert (LM : forall n m from it x, astar_search_loop P D co mo go n dest from it = Ret x -> (n <= m)%nat -> astar_search_loop P D co mo go m dest from it = Ret x).
    { clear. induction n as [|n IH]; intros m from it x E L; [discriminate |]. destruct m as [|m]; [lia |]. cbn [astar_search_loop] in *.
      destruct (astar_next P D co go dest it) as [[[[p d]|] it'] | | |]; cbn [bind] in *; try discriminate; [|exact E].
      destruct (mp_set mo from p (Some d)) as [from' | | |]; cbn [bind] in *; try discriminate.
      destruct (pos_eqb p dest); [exact E |]. apply IH; [exact E | lia]. }
    destruct (astar_search_loop P D co mo go fuel dest (mp_default mo None) it) as [x | | |] eqn:El; cbn [bind] in E; try discriminate.
    rewrite (LM _ _ _ _ _ El L). cbn [bind]. destruct x as [m | e]; [|exact E]. eapply into_path_mono; eassumption.
  Qed.
End Mono.

(** ** Soundness, for all cost functions *)

Lemma into_path_ok : forall P, post_wf P -> forall f orig dest fuel path, valid P dest ->
  camefrom_into_path P fmap fuel f orig dest = Ret (Ok path) -> bp P f orig (maxn P) dest [] = Ok path.
Proof.
  intros P W f orig dest fuel path V E. destruct (f dest) as [d|] eqn:Ef.
  - assert (Nd : f dest <> None) by congruence. destruct (retraceable_dec P orig dest) as [RT | RT].
    + pose proof (into_path_mono P fmap fuel f orig dest (Ok path) E (fuel + maxn P)%nat ltac:(lia)) as E'.
      rewrite (into_path_gen P f orig dest (fuel + maxn P) W V RT) in E' by (assumption || (unfold maxn; lia)). injection E' as E'. exact E'.
    + rewrite (into_path_panics P f orig dest fuel W V RT Nd) in E. discriminate.
  - exfalso. unfold camefrom_into_path in E. cbn [fmap mp_get] in E. rewrite Ef in E.
    destruct (manhattan P orig dest); cbn [bind] in E; try discriminate.
    destruct (umul 2 _); cbn [bind] in E; try discriminate.
    destruct (arith isize _); cbn [bind] in E; discriminate.
Qed.

Section Sound.
  Context (P : post) (W : post_wf P) (D : bool) (go : pos -> dir -> option (pos * Z)) (orig : pos).
  Context (Vo : valid P orig) (HG : go_inside P (move_of go)) (O : one_step P (move_of go)).

  Definition backed (p : pos) (d : dir) : Prop :=
    valid P p /\ (p = orig \/ (move_of go (step p d) (opp d) = Some p /\ allowed D (opp d))).

  Lemma ucs_step_backed : forall p it d it', valid P p -> allowed D d -> ucs_step_dir fmap go p it d = Ret it' ->
    (forall e, In e (u_frontier it) -> backed (e_pos e) (e_dir e)) -> forall e, In e (u_frontier it') -> backed (e_pos e) (e_dir e).
  Proof.
    intros p it d it' V A E H. unfold ucs_step_dir in E. destruct (go p d) as [[q w]|] eqn:Eg; [|inv E; exact H].
    cbn [fmap mp_get mp_set bind] in E. destruct (uadd (u_cost it p) w) as [nc | | |]; cbn [bind] in E; try discriminate.
    destruct (nc <? u_cost it q); [|inv E; exact H]. rewrite dir_neg_opp in E. cbn [bind] in E. inv E. cbn [u_frontier heap_push].
    assert (Em : move_of go p d = Some q) by (unfold move_of; rewrite Eg; reflexivity). pose proof (O p d q V Em) as Eq.
    intros e [<- | He]; [|apply H; exact He]. split; [exact (HG p d q V Em) |]. right. cbn [e_pos e_dir fst snd]. rewrite Eq at 1. rewrite step_opp, opp_opp. auto.
  Qed.

  Lemma ucs_next_backed : forall it o it', ucs_next D fmap go it = Ret (o, it') ->
    (forall e, In e (u_frontier it) -> backed (e_pos e) (e_dir e)) ->
    (forall p d, o = Some (p, d) -> backed p d) /\ forall e, In e (u_frontier it') -> backed (e_pos e) (e_dir e).
  Proof.
    intros it o it' E H. unfold ucs_next in E. destruct (heap_pop (u_frontier it)) as [[[pr mov] rest]|] eqn:Ep.
    - rewrite dir_iter_dirs in E. cbn [bind] in E.
      assert (K : forall ds it it', (forall d, In d ds -> allowed D d) -> foldM (ucs_step_dir fmap go (fst mov)) ds it = Ret it' ->
        (forall e, In e (u_frontier it) -> backed (e_pos e) (e_dir e)) -> forall e, In e (u_frontier it') -> backed (e_pos e) (e_dir e)).
      { assert (Vm : valid P (fst mov)) by (apply (H (pr, mov)); apply (heap_pop_In _ _ _ Ep); auto).
        clear - O HG Vm. induction ds as [|d ds IH]; intros it it' A E H; cbn [foldM] in E; [inv E; exact H |].
        destruct (ucs_step_dir fmap go (fst mov) it d) as [it1 | | |] eqn:E1; cbn [bind] in E; try discriminate.
        eapply IH; [intros d' Hd'; apply A; right; exact Hd' | exact E |]. eapply ucs_step_backed; [exact Vm | apply A; left; reflexivity | exact E1 | exact H]. }
      destruct (foldM (ucs_step_dir fmap go (fst mov)) (dirs D) (UIt (u_cost it) rest)) as [it1 | | |] eqn:E1; cbn [bind] in E; try discriminate.
      inv E. pose proof (heap_pop_In _ _ _ Ep) as Hin. split.
      + intros p d Eq. inv Eq. apply (H (pr, (p, d))). apply Hin. auto.
      + eapply K; [intros d; apply dirs_allowed | exact E1 |]. intros e He. apply H. apply Hin. auto.
    - inv E. split; [discriminate | exact H].
  Qed.

  Lemma ucs_sound : forall fuel dest path, valid P dest -> ucs_search_path P D fmap fmap go fuel orig dest = Ret (Ok path) ->
    follow (move_of go) orig path = Some dest /\ Forall (allowed D) path.
  Proof.
    intros fuel dest path Vd E. unfold ucs_search_path, ucs_search_mapmov in E. cbn [ucs_new fmap mp_set mp_new mp_default bind] in E.
    assert (LP : forall n f it r, ucs_search_loop D fmap fmap go n dest f it = Ret r ->
      (forall e, In e (u_frontier it) -> backed (e_pos e) (e_dir e)) -> (forall p d, f p = Some d -> backed p d) ->
      forall f', r = Ok f' -> forall p d, f' p = Some d -> backed p d).
    { induction n as [|n IH]; intros f it r El HF Hf f' Er; [discriminate |]. cbn [ucs_search_loop] in El.
      destruct (ucs_next D fmap go it) as [[o it'] | | |] eqn:En; cbn [bind] in El; try discriminate.
      destruct (ucs_next_backed _ _ _ En HF) as (K1 & K2). destruct o as [[p d]|]; [|inv El; discriminate].
      cbn [fmap mp_set bind] in El.
      assert (Hf' : forall q e, put f p (Some d) q = Some e -> backed q e).
      { intros q e Eq. unfold put in Eq. destruct (pos_eqb p q) eqn:Epq; [|apply Hf; exact Eq]. apply pos_eqb_eq in Epq. inv Eq. apply K1. reflexivity. }
      destruct (pos_eqb p dest); [rewrite Er in El; inv El; exact Hf' |]. eapply IH; eassumption. }
    unfold ucs_new in E. cbn [fmap mp_set mp_new bind] in E.
    destruct (ucs_search_loop D fmap fmap go fuel dest (fun _ : pos => None) (UIt (put (fun _ : pos => COST_MAX) orig 0) (heap_push [] (0, (orig, dir_default))))) as [r | | |] eqn:El; cbn [bind] in E; try discriminate.
    destruct r as [f | e]; [|discriminate].
    assert (Hf : forall p d, f p = Some d -> backed p d).
    { eapply LP; [exact El | | discriminate | reflexivity]. intros e [<- | []]. split; [exact Vo |]. left. reflexivity. }
    pose proof (into_path_ok P W f orig dest fuel path Vd E) as E'.
    destruct (bp_follow P W f orig D (move_of go) (fun _ => True)) with (n := maxn P) (p := dest) (ret := @nil dir) (path := path) as (ds & E1 & F & A); try assumption; [|exact Logic.I|].
    - intros p d' _ Np Ef. destruct (Hf p d' Ef) as (_ & [-> | (H1 & H2)]); [contradiction | auto].
    - rewrite app_nil_r in E1. subst ds. auto.
  Qed.
End Sound.

(** ** Small costs *)

Section Small.
  Context (P : post) (D : bool) (go : pos -> dir -> option (pos * Z)) (orig : pos).
  Context (Vo : valid P orig).
  Context (HS : forall p d q w, valid P p -> go p d = Some (q, w) -> valid P q /\ 0 <= w).
  Context (HA : affordable D P go orig).

  Notation h0 := (fun _ : pos => 0).

  Lemma ucs_step_relax : forall p c hp d, bounded D go orig c -> c p < COST_MAX -> allowed D d ->
    ucs_step_dir fmap go p (UIt c hp) d = Ret (let '(c', hp') := relax go h0 p (c, hp) d in UIt c' hp').
  Proof.
    intros p c hp d B L A. unfold ucs_step_dir, relax. destruct (go p d) as [[q w]|] eqn:E; [|reflexivity].
    destruct (bounded_sum P D go h0 orig Vo HS HA c p d q w B L A E) as (S1 & _). cbn [fmap mp_get mp_set bind u_cost u_frontier].
    unfold uadd. rewrite usize_arith by (unfold COST_MAX in *; lia). cbn [bind].
    destruct (c p + w <? c q); [|reflexivity]. rewrite dir_neg_opp. cbn [bind]. rewrite Z.add_0_r. reflexivity.
  Qed.

  Lemma ucs_next_run : forall c hp tr, Run D go h0 orig c hp tr -> ucs_next D fmap go (UIt c hp) =
    match heap_pop hp with
    | None => Ret (None, UIt c hp)
    | Some (e, rest) => let '(c', hp') := expand D go h0 (e_pos e) (c, rest) in Ret (Some (e_pos e, e_dir e), UIt c' hp')
    end.
  Proof.
    intros c hp tr R. unfold ucs_next. cbn [u_frontier u_cost]. destruct (heap_pop hp) as [[e rest]|] eqn:Ep; [|reflexivity].
    destruct (run_fin P D go h0 orig Vo HS HA c hp tr e R) as (L & V); [apply (heap_pop_In _ _ _ Ep); auto |].
    pose proof (run_bounded P D go h0 orig Vo HS HA _ _ _ R) as B.
    destruct e as [pr [p d]]. cbn [e_pos e_dir fst snd] in *. rewrite dir_iter_dirs. cbn [bind].
    assert (K : forall ds c hp, (forall d, In d ds -> allowed D d) -> bounded D go orig c -> c p < COST_MAX ->
      foldM (ucs_step_dir fmap go p) ds (UIt c hp) = Ret (let '(c', hp') := fold_left (relax go h0 p) ds (c, hp) in UIt c' hp')).
    { clear - V Vo HS HA. induction ds as [|d ds IH]; intros c hp A B L; [reflexivity |]. cbn [foldM fold_left].
      pose proof (A d (or_introl eq_refl)) as Ad. rewrite ucs_step_relax by assumption. destruct (relax go h0 p (c, hp) d) as [c1 hp1] eqn:E1. cbn [bind]. apply IH.
      - intros d' Hd'. apply A. right. exact Hd'.
      - eapply (bounded_relax P D go h0 orig Vo HS HA); eassumption.
      - pose proof (relax_le go h0 p c hp d c1 hp1 E1 p). lia. }
    rewrite (K (dirs D) c rest (fun d => proj1 (dirs_allowed D d)) B L). unfold expand. destruct (fold_left (relax go h0 p) (dirs D) (c, rest)) as [c' hp']. reflexivity.
  Qed.

  Lemma ucs_loop_bloop : forall dest fuel c hp tr f, Run D go h0 orig c hp tr ->
    ucs_search_loop D fmap fmap go fuel dest f (UIt c hp) = bloop D go h0 fuel dest f (c, hp).
  Proof.
    intros dest fuel. induction fuel as [|fuel IH]; intros c hp tr f R; [reflexivity |]. cbn [ucs_search_loop bloop snd fst].
    rewrite (ucs_next_run c hp tr R). destruct (heap_pop hp) as [[e rest]|] eqn:Ep; [|reflexivity].
    destruct (expand D go h0 (e_pos e) (c, rest)) as [c' hp'] eqn:Ee. cbn [bind fmap mp_set].
    destruct (pos_eqb (e_pos e) dest); [reflexivity |]. eapply IH. eapply Run1; eassumption.
  Qed.

  Lemma ucs_outcome_any : forall dest, post_wf P -> valid P dest ->
    exists r, settles (fun fuel => ucs_search_path P D fmap fmap go fuel orig dest) r /\ outcome_any P D go h0 orig dest r.
  Proof.
    intros dest W Vd. apply (search_outcome_any P D go h0 orig Vo HS HA dest); [exact W | exact Vd |].
    intros fuel. unfold ucs_search_path, ucs_search_mapmov, ucs_new. cbn [fmap mp_set mp_new mp_default bind heap_push].
    rewrite (ucs_loop_bloop dest fuel _ _ [] _ (Run0 D go h0 orig)). reflexivity.
  Qed.

  Lemma ucs_outcome : forall dest, grid_type P -> valid P dest ->
    exists r, returns (fun fuel => ucs_search_path P D fmap fmap go fuel orig dest) r /\ outcome P D go h0 orig dest r.
  Proof.
    intros dest G Vd. apply (search_outcome P D go h0 orig Vo HS HA dest); [exact G | exact Vd |].
    intros fuel. unfold ucs_search_path, ucs_search_mapmov, ucs_new. cbn [fmap mp_set mp_new mp_default bind heap_push].
    rewrite (ucs_loop_bloop dest fuel _ _ [] _ (Run0 D go h0 orig)). reflexivity.
  Qed.

  (** The iterator. *)
  Lemma ucs_trace : exists es : list entry,
    (forall n, ucs_yields_with fmap D go orig n = Ret (items_then_none (map snd es) n)) /\
    (forall n, exists c hp, (forall p, ucs_records_with fmap D go orig n p = Ret (c p)) /\ Run D go h0 orig c hp (rev (firstn n es))) /\
    exists c, Run D go h0 orig c [] (rev es).
  Proof.
    destruct (iter_trace P D go h0 orig Vo HS HA (fun c hp => UIt c hp) (ucs_next D fmap go) ucs_next_run
      (Z.to_nat (measure P (put (fun _ : pos => COST_MAX) orig 0) [e0 orig])) _ _ [] (Nat.le_refl _) (Run0 D go h0 orig)) as (es & K1 & K2 & c & K3).
    rewrite app_nil_r in K3. exists es. split; [exact K1 |]. split; [|eauto].
    intros n. destruct (K2 n) as (c' & hp' & E & R). rewrite app_nil_r in R. exists c', hp'. split; [|exact R].
    intros p. change (bind (calls_state (ucs_next D fmap go) n (UIt (put (fun _ : pos => COST_MAX) orig 0) [e0 orig])) (fun it' => mp_get fmap (u_cost it') p) = Ret (c' p)).
    rewrite E. reflexivity.
  Qed.

  (** ** Costs of entering a position *)

  Context (HU : cost_of_entering D P go).

  Record exact_costs (c : pos -> Z) (hp : heap) (tr : list entry) : Prop := {
    x_bnd : bounded D go orig c;
    x_fin : forall e, In e hp \/ In e tr -> c (e_pos e) < COST_MAX;
    x_prio : forall e, In e hp \/ In e tr -> e_prio e = c (e_pos e);
    x_pred : forall r, c r < COST_MAX -> r = orig \/
      exists p d w, popped tr p /\ allowed D d /\ go p d = Some (r, w) /\ c r = c p + w }.

  Lemma fexact_run : forall c hp tr, FRun D go h0 orig c hp tr -> exact_costs c hp tr.
  Proof.
    intros c hp tr R. induction R as [|c hp tr e rest c' hp' R I Ep Ee].
    - constructor.
      + exact (bounded_0 P D go h0 orig HS).
      + intros e [[<- | []] | []]. cbn. rewrite put_eq. reflexivity.
      + intros e [[<- | []] | []]. cbn. rewrite put_eq. reflexivity.
      + intros r Hr. left. destruct (pos_dec orig r) as [E | N]; [auto |]. rewrite put_neq in Hr by exact N. lia.
    - destruct I as [Xb Xf Xp Xd]. pose proof (pops_In _ _ _ Ep) as Hin. assert (He : In e hp) by (apply Hin; auto).
      pose proof (Xf e (or_introl He)) as Lu. set (u := e_pos e) in *. pose proof (bounded_valid P D go orig Vo HS c u Xb Lu) as Vu.
      assert (LOW : forall p, popped (e :: tr) p -> c p <= c u).
      { intros p (x & [<- | Hx] & <-); [reflexivity |]. pose proof (Xp e (or_introl He)) as Xe. fold u in Xe. rewrite <- Xe.
        destruct (finv1_run P D go h0 orig Vo HS HA) with (c := c) (hp := hp) (tr := tr) as (ord & J).
        - intros p d q w V A E. destruct (HS p d q w V E). lia.
        - intros. lia.
        - exact R.
        - intros ->. destruct Hx.
        - pose proof (j_low _ _ _ _ _ _ _ _ J (e_pos x) e (ex_intro _ x (conj Hx eq_refl)) He) as K. cbv beta in K. lia. }
      refine (proj1 (expand_inv D go h0 (fun c1 hp1 => exact_costs c1 hp1 (e :: tr) /\ c1 u = c u /\ forall p, c1 p <= c p) u c rest c' hp' Ee _ _)).
      + split; [|split; [reflexivity | intros; lia]]. constructor.
        * exact Xb.
        * intros x [Hx | [<- | Hx]]; apply Xf; [left; apply Hin; auto | auto | auto].
        * intros x [Hx | [<- | Hx]]; apply Xp; [left; apply Hin; auto | auto | auto].
        * intros r Hr. destruct (Xd r Hr) as [E | (p & d & w & Hp & K)]; [auto |]. right. exists p, d, w. split; [apply popped_cons; exact Hp | exact K].
      + intros d c1 hp1 c2 hp2 A (I1 & Eu & LE) E1. pose proof I1 as [Yb Yf Yp Yd].
        assert (Lu1 : c1 u < COST_MAX) by lia.
        pose proof (bounded_relax P D go h0 orig Vo HS HA _ _ _ _ _ _ Yb Lu1 A E1) as B2. pose proof (relax_le _ _ _ _ _ _ _ _ E1) as LE2.
        destruct (relax_cases _ _ _ _ _ _ _ _ E1) as [(-> & -> & _) | (q & w & Es & Lq & -> & ->)]; [auto |].
        destruct (HS u d q w Vu Es) as (Vq & Hw). assert (Nq : q <> u) by (intros ->; lia).
        assert (Cq : c1 q = COST_MAX).
        { destruct (Z.eq_dec (c1 q) COST_MAX) as [E | N]; [exact E |]. exfalso. pose proof (proj1 (proj2 Yb) q).
          destruct (Yd q ltac:(lia)) as [-> | (p & d' & w' & Hp & A' & Es' & Ec)].
          - rewrite (proj1 Yb) in Lq. pose proof (proj1 (proj2 Yb) u). lia.
          - assert (Vp : valid P p).
            { destruct Hp as (x & Hx & <-). eapply (bounded_valid P D go orig Vo HS); [exact Yb |]. apply Yf. auto. }
            assert (w = w') by (eapply HU; [exact Vu | exact Vp | exact A | exact A' | exact Es | exact Es']). subst w'.
            pose proof (LOW p Hp). pose proof (LE p). lia. }
        assert (NE : forall x, In x hp1 \/ In x (e :: tr) -> e_pos x <> q).
        { intros x Hx E. pose proof (Yf x Hx). rewrite E in *. lia. }
        split; [|split].
        * constructor.
          -- exact B2.
          -- intros x [[<- | Hx] | Hx].
             ++ cbn [e_pos fst snd]. rewrite put_eq. lia.
             ++ pose proof (Yf x (or_introl Hx)). pose proof (LE2 (e_pos x)). lia.
             ++ pose proof (Yf x (or_intror Hx)). pose proof (LE2 (e_pos x)). lia.
          -- intros x [[<- | Hx] | Hx].
             ++ cbn [e_pos e_prio fst snd]. rewrite put_eq. lia.
             ++ rewrite put_neq by (intros E; eapply NE; eauto). apply Yp. auto.
             ++ rewrite put_neq by (intros E; eapply NE; eauto). apply Yp. auto.
          -- intros r Hr. destruct (pos_dec q r) as [<- | Nr].
             ++ right. exists u, d, w. rewrite put_eq, put_neq by exact Nq. split; [apply popped_head | auto].
             ++ rewrite put_neq in * by exact Nr. destruct (Yd r Hr) as [E | (p & d' & w' & Hp & A' & Es' & Ec)]; [auto |].
                right. exists p, d', w'. rewrite put_neq; [auto |]. intros ->. destruct Hp as (x & Hx & E). eapply NE; eauto.
        * rewrite put_neq by exact Nq. exact Eu.
        * intros p. pose proof (LE2 p). pose proof (LE p). lia.
  Qed.

  Lemma exact_run : forall c hp tr, Run D go h0 orig c hp tr -> exact_costs c hp tr.
  Proof. intros c hp tr R. exact (fexact_run _ _ _ (run_fair D go h0 orig _ _ _ R)). Qed.
End Small.
