(** PropYieldProofs.v -- proofs of the statements of PropYield.v. *)

From Coq Require Import ZArith List Bool Lia Permutation Arith.
From Verif Require Import Rust BoundedInt Dir PosT Pos Grid Gridbool SetMap CameFrom Bf Heap Astar Ucs Queue Order Btree Spec SpecSearch SpecMaze SpecStorage SpecPrice SpecQueue SpecOrder SpecBtree SpecTreeOrder SpecSettle SpecOrderPath SpecYield Lib Deque BoundedIntProofs PosTProofs PosTProofs2 PropDirProofs SetMapProofs Sim CameFromProofs BfProofs PropBfProofs Fair FairSearch SearchProofs AstarProofs PropAstarProofs UcsProofs PropUcsProofs FairQueue BeelineProofs PropAgreeProofs PropStorageProofs PropEffortProofs GridProofs PropPathProofs PropReplanProofs PropStrayProofs PropLocalProofs BtreeProofs PropBtreeProofs PropOrderProofs PropTreeOrderProofs PropSettleProofs BestFirst Ordered OrderedQueue PropOrderWorkProofs PropOrderPathProofs PropPriceProofs.
Import ListNotations.
Open Scope Z_scope.

(** ** Runs *)

Section Yield.
  Context (P : post) (D : bool) (go : pos -> dir -> option (pos * Z)) (orig : pos).
  Context (V : valid P orig) (HG : go_inside P (move_of go)) (O : one_step P (move_of go)) (SC : affordable D P go orig).
  Context (before : Z * pos -> Z * pos -> Prop).
  Context (before_lt : forall k p k' p', k < k' -> before (k, p) (k', p')).
  Context (before_le : forall k p k' p', before (k, p) (k', p') -> k <= k').
  Context (before_refl : forall a, before a a) (before_trans : forall a b c, before a b -> before b c -> before a c).
  Context (before_antisym : forall c p c' p', before (c, p) (c', p') -> before (c', p') (c, p) -> p = p').
  Context (POS : forall p d q w, valid P p -> go p d = Some (q, w) -> 0 < w).
  Notation h0 := (fun _ : pos => 0).
  Lemma yield_told : forall c hp tr, ORun D go h0 orig before c hp tr -> told D go h0 orig before c hp tr /\ (forall p, popped tr p -> known D go h0 orig before c hp tr p).
  Proof.
    apply (told_run P D go h0 orig V (afford_HS D P go orig HG SC) SC (no_cost_estimate P D go orig HG SC) ltac:(intros; lia) O before before_lt before_le before_refl before_trans).
    intros p d q w k Vp A E. apply before_lt. pose proof (POS p d q w Vp E). lia.
  Qed.
  Lemma yield_lowest : forall c hp tr p, ORun D go h0 orig before c hp tr -> popped tr p -> lowest_cost D go orig (c p) p /\ valid P p.
  Proof.
    intros c hp tr p R Hp. pose proof (orun_frun _ _ _ _ _ _ _ _ R) as FR. pose proof (afford_HS D P go orig HG SC) as HS. split; [split |].
    - apply (i_walk _ _ _ _ _ _ _ _ (finv0_run P D go h0 orig V HS SC _ _ _ FR)). apply (frun_popped_reachable P D go h0 orig V HS SC _ _ _ p FR Hp).
    - intros k Hk. apply (frun_optimal P D go h0 orig V HS SC (no_cost_estimate P D go orig HG SC) ltac:(intros; lia) c hp tr p k FR Hp Hk).
    - apply (frun_valid P D go h0 orig V HS SC c hp tr p FR Hp).
  Qed.
  Lemma yield_exact : forall c tr x, ORun D go h0 orig before c [] tr -> (In x tr <-> improving before D go orig x).
  Proof.
    intros c tr x R. pose proof (afford_HS D P go orig HG SC) as HS. destruct (yield_told c [] tr R) as (T & KN). pose proof (orun_frun _ _ _ _ _ _ _ _ R) as FR.
    assert (PO : forall p c', lowest_cost D go orig c' p -> popped tr p /\ c p = c' /\ valid P p).
    { intros p c' L. assert (Pp : popped tr p) by (apply (frun_end_popped P D go h0 orig V HS SC c tr p FR); apply reachable_cost; exists c'; apply L).
      destruct (yield_lowest c [] tr p R Pp) as (L' & Vp). split; [exact Pp |]. split; [apply (lowest_unique D go orig _ _ p L' L) | exact Vp]. }
    assert (SRC : forall y, In y tr -> e_pos y <> orig -> popped tr (src y) /\ allowed D (opp (e_dir y)) /\ exists w, go (src y) (opp (e_dir y)) = Some (e_pos y, w) /\ e_prio y = c (src y) + w).
    { intros y Hy Ny. destruct (t_src _ _ _ _ _ _ _ _ T y (or_intror Hy) Ny) as (Ps & A & w & Es & Ek). rewrite Z.add_0_r in Ek. eauto. }
    destruct x as [k [q d]]. split.
    - intros Hx. destruct (pos_dec q orig) as [-> | Nq].
      + left. apply (t_e0 _ _ _ _ _ _ _ _ T (k, (orig, d)) (or_intror Hx) eq_refl).
      + right. destruct (SRC _ Hx Nq) as (Ps & A & w & Es & Ek). set (p := src (k, (q, d))) in *. cbn [e_pos e_dir e_prio fst snd] in *.
        exists p, (opp d), w, (c p). split; [exact Nq |]. destruct (yield_lowest c [] tr p R Ps) as (Lp & Vp). split; [exact Lp |]. split; [exact A |]. split; [exact Es |]. split; [exact Ek |].
        split; [destruct d; reflexivity |]. intros p' e' w' c' Lp' A' Es' Le. destruct (PO p' c' Lp') as (Pp' & <- & Vp').
        destruct (KN p' Pp' e' q w' A' Es' Nq) as (y & [[] | Hy] & Ey & Ly & By). rewrite Z.add_0_r in Ly.
        pose proof (t_rec _ _ _ _ _ _ _ _ T (k, (q, d)) y (or_intror Hx) (or_intror Hy) (eq_sym Ey) Nq ltac:(cbn [e_prio fst]; lia)) as B.
        pose proof (before_trans _ _ _ B By) as B2. unfold fk in B2. rewrite !Z.add_0_r in B2. exact B2.
    - intros [E | (p & e & w & cp & Nq & Lp & A & Es & -> & Hh & Hmin)].
      + rewrite E. assert (RO : popped tr orig) by (apply (frun_end_popped P D go h0 orig V HS SC c tr orig FR); apply reachable_cost; exists 0; apply cost_walk_nil).
        destruct RO as (y & Hy & Ey). pose proof (t_e0 _ _ _ _ _ _ _ _ T y (or_intror Hy) Ey) as E0. rewrite E0 in Hy. exact Hy.
      + destruct (PO p cp Lp) as (Pp & <- & Vp). destruct (KN p Pp e q w A Es Nq) as (y & [[] | Hy] & Ey & Ly & By). rewrite Z.add_0_r in Ly. unfold fk in By. rewrite !Z.add_0_r in By.
        assert (Ny : e_pos y <> orig) by (rewrite Ey; exact Nq). destruct (SRC y Hy Ny) as (Ps & Ay & wy & Ey2 & Eky). rewrite Ey in Ey2.
        destruct (yield_lowest c [] tr (src y) R Ps) as (Ls & Vs).
        assert (ES : src y = p).
        { apply (before_antisym (c (src y)) (src y) (c p) p By). apply (Hmin (src y) (opp (e_dir y)) wy (c (src y)) Ls Ay Ey2). lia. }
        rewrite ES in *. assert (ED : opp (e_dir y) = e).
        { apply (step_same p). rewrite <- (O p (opp (e_dir y)) q Vp), <- (O p e q Vp); [reflexivity | unfold move_of; rewrite Es; reflexivity | unfold move_of; rewrite Ey2; reflexivity]. }
        rewrite ED, Es in Ey2. injection Ey2 as <-. assert (Ed : e_dir y = d).
        { clear -ED Hh. rewrite <- ED in Hh. destruct (e_dir y), d; cbn in Hh; try reflexivity; discriminate Hh. }
        destruct y as [ky [qy dy]]. cbn [e_pos e_dir e_prio fst snd] in *. subst. exact Hy.
  Qed.
  (** No two elements have the same position and priority. *)
  Definition fresh (tr : list entry) (c : pos -> Z) (hp : heap) : Prop :=
    (c orig = 0 /\ forall p, 0 <= c p) /\ (forall x, In x (hp ++ tr) -> x = e0 orig \/ c (e_pos x) <= e_prio x /\ e_pos x <> orig) /\ NoDup (map ek (hp ++ tr)).
  Lemma fresh_perm : forall c a tr b tr', Permutation (a ++ tr) (b ++ tr') -> fresh tr c a -> fresh tr' c b.
  Proof using.
    clear. intros c a tr b tr' Pm (I0 & I1 & I2). split; [exact I0 |]. split; [intros x Hx; apply I1; apply (Permutation_in _ (Permutation_sym Pm)); exact Hx |].
    apply (Permutation_NoDup (l := map ek (a ++ tr))); [apply Permutation_map; exact Pm | exact I2].
  Qed.
  Lemma fresh_run : forall c hp tr, ORun D go h0 orig before c hp tr -> fresh tr c hp.
  Proof.
    intros c hp tr R. induction R as [|c hp tr e rest c' hp' R IH Ep Ee].
    - split; [split; [apply put_eq |] | split].
      + intros p. unfold put. destruct (pos_eqb orig p); [lia | unfold COST_MAX; lia].
      + intros x [<- | []]. left. reflexivity.
      + constructor; [intros [] | constructor].
    - pose proof (afford_HS D P go orig HG SC) as HS. destruct (frun_fin P D go h0 orig V HS SC c hp tr e (orun_frun _ _ _ _ _ _ _ _ R)) as (_ & Ve); [apply (pops_In _ _ _ (proj1 Ep)); auto |].
      apply (expand_inv D go h0 (fresh (e :: tr)) (e_pos e) c rest c' hp' Ee).
      + apply (fresh_perm c hp tr); [|exact IH]. etransitivity; [apply Permutation_app_tail; apply Ep |]. cbn [app]. apply Permutation_middle.
      + intros d c1 hp1 c2 hp2 _ ((Z0 & Zp) & I1 & I2) E. destruct (relax_cases go h0 _ _ _ _ _ _ E) as [(-> & -> & _) | (q & w & Es & L & -> & ->)]; [split; auto |].
        destruct (HS _ d q w Ve Es) as (_ & Hw). pose proof (Zp (e_pos e)). assert (Nq : q <> orig) by (intros ->; lia). split; [split | split].
        * rewrite put_neq by exact Nq. exact Z0.
        * intros r. unfold put. destruct (pos_eqb q r); [lia | apply Zp].
        * intros x [<- | Hx]; [right; cbn [e_pos e_prio fst snd]; rewrite put_eq; split; [lia | exact Nq] |].
          destruct (I1 x Hx) as [E0 | (L0 & N0)]; [left; exact E0 |]. right. split; [|exact N0]. unfold put. destruct (pos_eqb q (e_pos x)) eqn:Q; [apply pos_eqb_eq in Q; subst q; lia | exact L0].
        * cbn [app map]. constructor; [|exact I2]. intros HI. apply in_map_iff in HI. destruct HI as (x & Ex & Hx). unfold ek in Ex. cbn [e_pos e_prio fst snd] in Ex. injection Ex as E1 E2.
          destruct (I1 x Hx) as [-> | (L0 & N0)]; [apply Nq; symmetry; exact E2 |]. rewrite E2 in L0. lia.
  Qed.
  Lemma yield_sorted : forall c hp tr, ORun D go h0 orig before c hp tr -> forall i j x y, (i < j)%nat ->
    nth_error (rev tr) i = Some x -> nth_error (rev tr) j = Some y -> before (ek x) (ek y) /\ ek x <> ek y.
  Proof.
    intros c hp tr R. pose proof (fresh_run c hp tr R) as (_ & _ & ND). induction R as [|c hp tr e rest c' hp' R IH Ep Ee]; intros i j x y L Ei Ej; [destruct i; discriminate Ei |].
    cbn [rev] in Ei, Ej. assert (LN : (j < length (rev tr ++ [e]))%nat) by (apply nth_error_Some; rewrite Ej; discriminate). rewrite app_length in LN. cbn [length] in LN.
    rewrite nth_error_app1 in Ei by lia. destruct (Nat.eq_dec j (length (rev tr))) as [-> | N].
    - rewrite nth_error_app2, Nat.sub_diag in Ej by lia. injection Ej as <-. apply nth_error_In in Ei. rewrite <- in_rev in Ei. split.
      + destruct (yield_told c hp tr R) as (T & _). apply (t_tr _ _ _ _ _ _ _ _ T x e Ei). apply (pops_In _ _ _ (proj1 Ep)). auto.
      + intros X. rewrite map_app in ND. cbn [map] in ND. apply NoDup_remove_2 in ND. apply ND. apply in_or_app. right. rewrite <- X. apply in_map. exact Ei.
    - rewrite nth_error_app1 in Ej by lia. apply (IH (proj2 (proj2 (fresh_run c hp tr R))) i j x y L Ei Ej).
  Qed.
End Yield.

Lemma improving_iff : forall P b1 b2 D go orig x, valid P orig -> go_inside P (move_of go) ->
  (forall k p k' p', valid P p -> valid P p' -> (b1 (k, p) (k', p') <-> b2 (k, p) (k', p'))) ->
  improving b1 D go orig x -> improving b2 D go orig x.
Proof.
  intros P b1 b2 D go orig [k [q d]] V HG HB [E | (p & e & w & c & Nq & Lp & A & Es & Ek & Hh & Hmin)]; [left; exact E | right].
  assert (VL : forall c q, lowest_cost D go orig c q -> valid P q).
  { intros c0 q0 ((ds & A0 & Fc) & _). apply follow_move_of in Fc. apply (BfProofs.walk_valid D (move_of go) P (length ds) orig q0 HG V). exists ds. auto. }
  exists p, e, w, c. repeat (split; [assumption |]). intros p' e' w' c' Lp' A' Es' Le. apply HB; [apply (VL c p Lp) | apply (VL c' p' Lp') |]. apply (Hmin p' e' w' c'); assumption.
Qed.

(** ** What is yielded *)

Lemma C153_ucs_yields_proof : forall H MC (qo : queueops H) ok els (co : mapops Z MC) cmp P (D : bool) go orig,
  order_of P cmp -> ordered_queue P cmp qo ok els -> acts_as_map P co -> valid P orig ->
  go_inside P (move_of go) -> one_step P (move_of go) -> affordable D P go orig ->
  (forall p d q w, valid P p -> go p d = Some (q, w) -> 0 < w) ->
  exists es : list entry,
    (forall n, ucsq_yields_with qo co D go orig n = Ret (items_then_none (map snd es) n)) /\
    (forall x, In x es <-> improving (ahead_by cmp) D go orig x) /\
    (forall i j x y, (i < j)%nat -> nth_error es i = Some x -> nth_error es j = Some y -> sooner_by cmp x y).
Proof.
  intros H MC qo ok els co cmp P D go orig OO OQ AC V HG O SC POS. pose proof (afford_HS D P go orig HG SC) as HS.
  destruct (ahead_by_laws (ext P cmp) (ext_order P cmp OO)) as (L1 & L2 & L3 & L4 & L5).
  destruct (ucsq_otrace (ext P cmp) (ext_order P cmp OO) qo _ els P (ext_queue P cmp H qo ok els OQ) D co _ (acts_lawful_map _ _ P co AC) go orig V HS SC) as (es & K1 & _ & c & K3).
  exists es. split; [exact K1 |]. split.
  - intros x. rewrite in_rev, (yield_exact P D go orig V HG O SC (ahead_by (ext P cmp)) L1 L2 L3 L4 L5 POS c (rev es) x K3).
    split; apply (improving_iff P); try assumption; intros; [apply ahead_ext; assumption | symmetry; apply ahead_ext; assumption].
  - intros i j x y L Ei Ej. assert (VV : forall z n, nth_error es n = Some z -> valid P (e_pos z)).
    { intros z n Ez. apply (frun_valid P D go (fun _ => 0) orig V HS SC c [] (rev es) (e_pos z) (orun_frun _ _ _ _ _ _ _ _ K3)). exists z. split; [apply in_rev; rewrite rev_involutive; apply (nth_error_In _ _ Ez) | reflexivity]. }
    rewrite <- (rev_involutive es) in Ei, Ej.
    destruct (yield_sorted P D go orig V HG O SC (ahead_by (ext P cmp)) L1 L2 L3 L4 L5 POS c [] (rev es) K3 i j x y L Ei Ej) as (B & N).
    rewrite rev_involutive in Ei, Ej. apply VV in Ei. apply VV in Ej. apply ahead_ext in B; [|exact Ei | exact Ej]. unfold ahead_by in B. cbn [fst snd] in B. unfold sooner_by.
    destruct B as [B | (Ek & C)]; [left; exact B | right]. split; [exact Ek |]. left. destruct (cmp (e_pos y) (e_pos x)) eqn:X; [|reflexivity | congruence].
    exfalso. apply N. unfold ek. apply (oo_eq _ _ OO) in X; [|exact Ej | exact Ei]. rewrite X, Ek. reflexivity.
Qed.

Lemma C153_one_list_proof : forall cmp P (D : bool) go orig (es es' : list entry),
  order_of P cmp -> valid P orig -> go_inside P (move_of go) ->
  (forall x, In x es <-> improving (ahead_by cmp) D go orig x) ->
  (forall x, In x es' <-> improving (ahead_by cmp) D go orig x) ->
  (forall i j x y, (i < j)%nat -> nth_error es i = Some x -> nth_error es j = Some y -> sooner_by cmp x y) ->
  (forall i j x y, (i < j)%nat -> nth_error es' i = Some x -> nth_error es' j = Some y -> sooner_by cmp x y) ->
  es = es'.
Proof.
  intros cmp P D go orig es es' OO V HG M M' S S'.
  assert (VI : forall x, improving (ahead_by cmp) D go orig x -> valid P (e_pos x)).
  { intros [k [q d]] [E | (p & e & w & c & _ & ((ds & A0 & Fc) & _) & A & Es & _)]; [injection E as -> -> ->; exact V |].
    cbn [e_pos fst snd]. apply (HG p e q); [|unfold move_of; rewrite Es; reflexivity]. apply follow_move_of in Fc. apply (BfProofs.walk_valid D (move_of go) P (length ds) orig p HG V). exists ds. auto. }
  assert (AS : forall x y, In x es -> In y es -> sooner_by cmp x y -> sooner_by cmp y x -> False).
  { intros x y Hx Hy B1 B2. apply M in Hx. apply M in Hy. apply VI in Hx. apply VI in Hy. unfold sooner_by in B1, B2. pose proof (oo_flip _ _ OO _ _ Hx Hy) as F. destruct (cmp (e_pos x) (e_pos y)), (cmp (e_pos y) (e_pos x)); cbn in F; try discriminate F; intuition (try discriminate; lia). }
  assert (MM : forall x, In x es <-> In x es') by (intros x; rewrite M, M'; reflexivity). clear M M' VI V HG OO. revert es' MM S'.
  induction es as [|x es IH]; intros [|y es'] MM S'; [reflexivity | exfalso; apply (proj2 (MM y)); left; reflexivity | exfalso; apply (proj1 (MM x)); left; reflexivity |].
  assert (FT : forall z, In z es -> sooner_by cmp x z) by (intros z Hz; apply In_nth_error in Hz; destruct Hz as (n & En); apply (S 0%nat (Datatypes.S n) x z); [lia | reflexivity | exact En]).
  assert (FT' : forall z, In z es' -> sooner_by cmp y z) by (intros z Hz; apply In_nth_error in Hz; destruct Hz as (n & En); apply (S' 0%nat (Datatypes.S n) y z); [lia | reflexivity | exact En]).
  assert (XY : x = y).
  { destruct (proj1 (MM x) (or_introl eq_refl)) as [E | Hx]; [symmetry; exact E |]. destruct (proj2 (MM y) (or_introl eq_refl)) as [E | Hy]; [exact E |].
    exfalso. apply (AS x y); [left; reflexivity | right; exact Hy | apply FT; exact Hy | apply FT'; exact Hx]. }
  subst y. f_equal. apply IH.
  - intros i j a b L Ei Ej. apply (S (Datatypes.S i) (Datatypes.S j) a b); [lia | exact Ei | exact Ej].
  - intros a b Ha Hb. apply AS; right; assumption.
  - intros z. split; intros Hz.
    + destruct (proj1 (MM z) (or_intror Hz)) as [<- | Hz']; [|exact Hz']. exfalso. apply (AS x x); [left; reflexivity | left; reflexivity | apply FT; exact Hz | apply FT; exact Hz].
    + destruct (proj2 (MM z) (or_intror Hz)) as [<- | Hz']; [|exact Hz']. exfalso. apply (AS x x); [left; reflexivity | left; reflexivity | apply FT'; exact Hz | apply FT'; exact Hz].
  - intros i j a b L Ei Ej. apply (S' (Datatypes.S i) (Datatypes.S j) a b); [lia | exact Ei | exact Ej].
Qed.

Lemma C153_ucs_crate_proof : forall b P D W go orig,
  usable b P W -> valid P orig -> go_inside P (move_of go) -> one_step P (move_of go) -> affordable D P go orig ->
  (forall p d q w, valid P p -> go p d = Some (q, w) -> 0 < w) ->
  exists es : list entry,
    (forall n, ucs_yields b P D go orig n = Ret (items_then_none (map snd es) n)) /\
    (forall x, In x es <-> improving ahead D go orig x) /\
    (forall i j k p d k' p' d', (i < j)%nat -> nth_error es i = Some (k, (p, d)) -> nth_error es j = Some (k', (p', d')) ->
       k < k' \/ k = k' /\ (fst p' < fst p \/ fst p' = fst p /\ snd p' < snd p)).
Proof.
  intros b P D W go orig U V HG O SC POS. pose proof (afford_HS D P go orig HG SC) as HS. destruct (ucs_trace P D go orig V HS SC) as (es & K1 & _ & c & K3).
  apply (run_orun D go (fun _ => 0) orig ahead ahead_pop) in K3. 
  assert (L1 : forall k p k' p', k < k' -> ahead (k, p) (k', p')) by (intros; left; assumption).
  assert (L2 : forall k p k' p', ahead (k, p) (k', p') -> k <= k') by (unfold ahead; cbn [fst snd]; intros; lia).
  assert (L3 : forall a, ahead a a) by (unfold ahead; intros; lia).
  assert (L5 : forall k p k' p', ahead (k, p) (k', p') -> ahead (k', p') (k, p) -> p = p') by (unfold ahead; cbn [fst snd]; intros k [x y] k' [x' y']; cbn [fst snd]; intros; f_equal; lia).
  exists es. split; [|split].
  - intros n. rewrite (proj1 (ucs_yields_f b P D W go orig n U V HG)). apply K1.
  - intros x. rewrite in_rev. apply (yield_exact P D go orig V HG O SC ahead L1 L2 L3 ahead_trans L5 POS c (rev es) x K3).
  - intros i j k p d k' p' d' L Ei Ej. rewrite <- (rev_involutive es) in Ei, Ej.
    destruct (yield_sorted P D go orig V HG O SC ahead L1 L2 L3 ahead_trans L5 POS c [] (rev es) K3 i j _ _ L Ei Ej) as (B & N).
    unfold ek, ahead in *. cbn [e_prio e_pos fst snd] in *. destruct p as [x y], p' as [x' y']. cbn [fst snd] in *.
    destruct (Z.eq_dec y' y) as [-> | Ny]; [|lia]. destruct (Z.eq_dec x' x) as [-> | Nx]; [|lia]. destruct (Z.eq_dec k k') as [-> | Nk]; [|lia]. exfalso. apply N. reflexivity.
Qed.

(** ** The order decides *)

Section Ends.
  Context (P : post) (D : bool) (succ : pos -> dir -> option (pos * Z)) (h : pos -> Z) (orig : pos) (le : Z * pos -> Z * pos -> Prop).
  Context (Vo : valid P orig) (HS : forall p d q w, valid P p -> succ p d = Some (q, w) -> valid P q /\ 0 <= w).
  Context (HA : affordable D P succ orig).
  Context (anti : forall c p c' p', le (c, p) (c', p') -> le (c', p') (c, p) -> p = p').
  Lemma orun_more : forall l c hp tr, l <> [] -> ORun D succ h orig le c hp (l ++ tr) -> exists c1 hp1, ORun D succ h orig le c1 hp1 tr /\ hp1 <> [].
  Proof using.
    clear. induction l as [|x l IH]; intros c hp tr N R; [contradiction |]. cbn [app] in R. inversion R as [|c0 hp0 tr0 e rest c' hp' R0 Ep Ee]; subst.
    destruct l as [|y l].
    - exists c0, hp0. split; [exact R0 |]. intros ->. destruct Ep as (Ep & _). apply (pops_In _ _ _ Ep x). auto.
    - apply (IH c0 hp0 tr); [discriminate | exact R0].
  Qed.
  Lemma ends_le : forall c tr c' tr', ORun D succ h orig le c [] tr -> ORun D succ h orig le c' [] tr' -> (length tr' <= length tr)%nat.
  Proof.
    intros c tr c' tr' R R'. destruct (Nat.le_gt_cases (length tr') (length tr)) as [L | L]; [exact L | exfalso].
    destruct (orun_part D succ h orig le _ _ _ R' (length tr)) as (c1 & hp1 & l & tr1 & R1 & X & L1); [lia |]. subst tr'. rewrite app_length in L.
    destruct (orun_more l c' [] tr1) as (c2 & hp2 & R2 & N2); [intros ->; cbn in L; lia | exact R' |].
    destruct (orun_same P D succ h orig le Vo HS HA anti _ _ _ R _ _ _ R2 (eq_sym L1)) as (_ & _ & Pm). apply Permutation_nil in Pm. contradiction.
  Qed.
  Lemma ends_same : forall c tr c' tr', ORun D succ h orig le c [] tr -> ORun D succ h orig le c' [] tr' -> tr = tr'.
  Proof.
    intros c tr c' tr' R R'. pose proof (ends_le _ _ _ _ R R'). pose proof (ends_le _ _ _ _ R' R). apply (orun_same P D succ h orig le Vo HS HA anti _ _ _ R _ _ _ R'). lia.
  Qed.
End Ends.

Lemma C153_ucs_same_proof : forall H MC (qo : queueops H) ok els (co : mapops Z MC) H' MC' (qo' : queueops H') ok' els' (co' : mapops Z MC') cmp P (D : bool) go orig,
  order_of P cmp -> ordered_queue P cmp qo ok els -> ordered_queue P cmp qo' ok' els' -> acts_as_map P co -> acts_as_map P co' -> valid P orig ->
  go_inside P (move_of go) -> affordable D P go orig ->
  forall n, (exists l, ucsq_yields_with qo co D go orig n = Ret l /\ ucsq_yields_with qo' co' D go orig n = Ret l) /\
    forall p, valid P p -> exists k, ucsq_records_with qo co D go orig n p = Ret k /\ ucsq_records_with qo' co' D go orig n p = Ret k.
Proof.
  intros H MC qo ok els co H' MC' qo' ok' els' co' cmp P D go orig OO OQ OQ' AC AC' V HG SC n. pose proof (afford_HS D P go orig HG SC) as HS.
  destruct (ahead_by_laws (ext P cmp) (ext_order P cmp OO)) as (_ & _ & _ & _ & L5).
  destruct (ucsq_otrace (ext P cmp) (ext_order P cmp OO) qo _ els P (ext_queue P cmp H qo ok els OQ) D co _ (acts_lawful_map _ _ P co AC) go orig V HS SC) as (es & K1 & K2 & c & K3).
  destruct (ucsq_otrace (ext P cmp) (ext_order P cmp OO) qo' _ els' P (ext_queue P cmp H' qo' ok' els' OQ') D co' _ (acts_lawful_map _ _ P co' AC') go orig V HS SC) as (es' & K1' & K2' & c' & K3').
  assert (es = es') as <- by (rewrite <- (rev_involutive es), <- (rev_involutive es'); f_equal; apply (ends_same P D go (fun _ => 0) orig _ V HS SC L5 _ _ _ _ K3 K3')).
  split; [rewrite K1, K1'; eauto |]. intros p Vp. destruct (K2 n) as (cn & hn & Rn & Wn). destruct (K2' n) as (cn' & hn' & Rn' & Wn').
  destruct (orun_same P D go (fun _ => 0) orig _ V HS SC L5 _ _ _ Wn _ _ _ Wn' eq_refl) as (_ & <- & _). rewrite (Rn p Vp), (Rn' p Vp). eauto.
Qed.

Lemma C153_astar_same_proof : forall H MC (qo : queueops H) ok els (co : mapops Z MC) H' MC' (qo' : queueops H') ok' els' (co' : mapops Z MC') cmp P (D : bool) go orig dest rs,
  order_of P cmp -> ordered_queue P cmp qo ok els -> ordered_queue P cmp qo' ok' els' -> acts_as_map P co -> acts_as_map P co' -> post_wf P -> valid P orig -> valid P dest ->
  go_inside P go ->
  (forall p, reachable D go orig p -> In p rs) ->
  (forall p, reachable D go orig p -> measurable P p dest /\
     Z.of_nat (length rs) + (Z.abs (fst p - fst dest) + Z.abs (snd p - snd dest)) <= 18446744073709551615) ->
  forall n, (exists l, astarq_yields_with qo co P D go orig dest n = Ret l /\ astarq_yields_with qo' co' P D go orig dest n = Ret l) /\
    forall p, valid P p -> exists k, astarq_records_with qo co P D go orig dest n p = Ret k /\ astarq_records_with qo' co' P D go orig dest n p = Ret k.
Proof.
  intros H MC qo ok els co H' MC' qo' ok' els' co' cmp P D go orig dest rs OO OQ OQ' AC AC' WF V Vd HG HR HM n.
  assert (HL : Z.of_nat (length rs) <= COST_MAX).
  { assert (RO : reachable D go orig orig) by (exists 0%nat, []; cbn; auto). destruct (HM orig RO) as (_ & L). unfold COST_MAX. lia. }
  assert (NF : ~ too_far P D go orig dest rs) by (intros (q & Rq & Nq); apply Nq; exact (HM q Rq)).
  destruct (ahead_by_laws (ext P cmp) (ext_order P cmp OO)) as (_ & _ & _ & _ & L5).
  destruct (astarq_otrace (ext P cmp) (ext_order P cmp OO) qo _ els P (ext_queue P cmp H qo ok els OQ) D co _ (acts_lawful_map _ _ P co AC) WF go orig dest V Vd HG rs HR HL NF) as (es & K1 & K2 & c & K3).
  destruct (astarq_otrace (ext P cmp) (ext_order P cmp OO) qo' _ els' P (ext_queue P cmp H' qo' ok' els' OQ') D co' _ (acts_lawful_map _ _ P co' AC') WF go orig dest V Vd HG rs HR HL NF) as (es' & K1' & K2' & c' & K3').
  pose proof (unit_HS P go HG) as HS. pose proof (gen_HA P D go orig HG rs HR HL) as SC.
  assert (es = es') as <- by (rewrite <- (rev_involutive es), <- (rev_involutive es'); f_equal; apply (ends_same P D (unit_cost go) (fun p => mdist p dest) orig _ V HS SC L5 _ _ _ _ K3 K3')).
  split; [rewrite K1, K1'; eauto |]. intros p Vp. destruct (K2 n) as (cn & hn & Rn & Wn). destruct (K2' n) as (cn' & hn' & Rn' & Wn').
  destruct (orun_same P D (unit_cost go) (fun p => mdist p dest) orig _ V HS SC L5 _ _ _ Wn _ _ _ Wn' eq_refl) as (_ & <- & _). rewrite (Rn p Vp), (Rn' p Vp). eauto.
Qed.
