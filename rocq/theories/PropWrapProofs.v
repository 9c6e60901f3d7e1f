(** PropWrapProofs.v -- proofs of the statements of PropWrap.v. *)

From Coq Require Import ZArith List Bool Lia.
From Verif Require Import Rust BoundedInt Dir PosT Pos Grid Gridbool SetMap CameFrom Heap Bf Astar Ucs Target Spec SpecSearch SpecTarget SpecWrap Lib BoundedIntProofs PosTProofs PosTProofs2 GridProofs GridProofs2 SetMapProofs Sim CameFromProofs PropSetMapProofs BfProofs PropBfProofs BestFirst SearchProofs UcsProofs AstarProofs PropAstarProofs PropUcsProofs PropTargetProofs.
Import ListNotations.
Open Scope Z_scope.

(** ** Checks only turn results into panics *)

Definition refines {A} (x y : exec A) : Prop := forall r, x = Ret r -> y = Ret r.

Lemma refines_refl : forall A (x : exec A), refines x x.
Proof. intros A x r E. exact E. Qed.

Lemma refines_bind : forall A B (x y : exec A) (f g : A -> exec B), refines x y -> (forall a, refines (f a) (g a)) -> refines (bind x f) (bind y g).
Proof. intros A B x y f g H K r E. destruct x as [a | | |]; cbn [bind] in E; try discriminate. rewrite (H a eq_refl). cbn [bind]. apply K. exact E. Qed.

Lemma refines_fold : forall A S (f g : S -> A -> exec S), (forall s a, refines (f s a) (g s a)) -> forall l s, refines (foldM f l s) (foldM g l s).
Proof. intros A S f g H. induction l as [|a l IH]; intros s; cbn [foldM]; [apply refines_refl |]. apply refines_bind; [apply H | exact IH]. Qed.

Record map_refines {Item M} (a b : mapops Item M) : Prop := {
  mr_default : forall v, mp_default a v = mp_default b v;
  mr_new : forall v, mp_new a v = mp_new b v;
  mr_get : forall m p, refines (mp_get a m p) (mp_get b m p);
  mr_set : forall m p v, refines (mp_set a m p v) (mp_set b m p v) }.

Record set_refines {S} (a b : setops S) : Prop := {
  sr_default : refines (sp_default a) (sp_default b);
  sr_contains : forall s p, refines (sp_contains a s p) (sp_contains b s p);
  sr_insert : forall s p, refines (sp_insert a s p) (sp_insert b s p) }.

Section Checks.
  Context (w : word).
  Notation c := (Target w true).
  Notation u := (Target w false).
  Lemma arith_refines : forall v, refines (t_arith c v) (t_arith u v).
  Proof. intros v r. unfold t_arith. cbn [t_checks]. change (t_MAX u) with (t_MAX c). destruct ((0 <=? v) && (v <=? t_MAX c)); [auto | discriminate]. Qed.
  Lemma width_refines : forall P, refines (t_width c P) (t_width u P).
  Proof. intros P. unfold t_width, t_add. apply refines_bind; [apply refines_refl | intros m; apply arith_refines]. Qed.
  Lemma manhattan_refines : forall P p q, refines (t_manhattan c P p q) (t_manhattan u P p q).
  Proof. intros P p q. unfold t_manhattan, t_add. repeat (apply refines_bind; [apply refines_refl | intros ?]). apply arith_refines. Qed.
  Lemma to_usize_refines : forall P p, refines (t_to_usize c P p) (t_to_usize u P p).
  Proof.
    intros P p. unfold t_to_usize, t_add, t_mul. do 2 (apply refines_bind; [apply refines_refl | intros ?]). apply refines_bind; [apply width_refines | intros ?].
    apply refines_bind; [apply arith_refines | intros ?]. apply arith_refines.
  Qed.
  Lemma map_grid_refines : forall Item P SIZE, map_refines (@t_map_grid c Item P SIZE) (@t_map_grid u Item P SIZE).
  Proof. intros Item P SIZE. split; cbn; try reflexivity; intros; (apply refines_bind; [apply to_usize_refines | intros ?; apply refines_refl]). Qed.
  Lemma gridbool_refines : forall P WORDS, set_refines (t_set_gridbool c P WORDS) (t_set_gridbool u P WORDS).
  Proof. intros P WORDS. split; cbn; [apply refines_refl | |]; intros; (apply refines_bind; [apply to_usize_refines | intros ?; apply refines_refl]). Qed.
  Lemma map_refines_refl : forall Item M (a : mapops Item M), map_refines a a.
  Proof. intros Item M a. split; intros; first [reflexivity | apply refines_refl]. Qed.
  Lemma set_refines_refl : forall S (a : setops S), set_refines a a.
  Proof. intros S a. split; intros; apply refines_refl. Qed.
  Lemma camefrom_refines : forall M P (a b : mapops (option dir) M), map_refines a b -> forall fuel m orig dest, refines (t_camefrom_into_path c P a fuel m orig dest) (t_camefrom_into_path u P b fuel m orig dest).
  Proof.
    intros M P a b [_ _ HG _] fuel m orig dest.
    assert (LOOP : forall fuel ret p mi, refines (t_camefrom_loop c P a fuel m orig ret p mi) (t_camefrom_loop u P b fuel m orig ret p mi)).
    { clear fuel. induction fuel as [|fuel IH]; intros ret p mi; cbn [t_camefrom_loop]; [apply refines_refl |]. destruct (negb (pos_eqb p orig)); [|apply refines_refl]. apply refines_bind; [apply HG | intros [d|]; [|apply refines_refl]].
      apply refines_bind; [apply refines_refl | intros nd]. destruct (pos_dir_add P p d) as [p' | e]; [|apply refines_refl]. apply refines_bind; [apply arith_refines | intros mi']. destruct (mi' =? 0); [apply refines_refl | apply IH]. }
    unfold t_camefrom_into_path, t_mul, t_add. apply refines_bind; [apply manhattan_refines | intros di]. apply refines_bind; [apply arith_refines | intros cap]. apply refines_bind; [apply refines_refl | intros _].
    apply refines_bind; [apply HG | intros [d|]; [|apply refines_refl]]. do 2 (apply refines_bind; [apply width_refines | intros ?]). do 2 (apply refines_bind; [apply arith_refines | intros ?]). apply LOOP.
  Qed.
  Lemma bf_refines : forall S M P D (sa sb : setops S) (a b : mapops (option dir) M) go fuel orig found, set_refines sa sb -> map_refines a b ->
    refines (t_bf_search_path c P D sa a go fuel orig found) (t_bf_search_path u P D sb b go fuel orig found).
  Proof.
    intros S M P D sa sb a b go fuel orig found [S1 S2 S3] MR. pose proof MR as [M1 _ _ M4].
    assert (NEXT : forall it, refines (bf_next D sa go it) (bf_next D sb go it)).
    { intros it. unfold bf_next. destruct (bf_nextfront it) as [|x l]; [apply refines_refl |]. apply refines_bind; [|intros ?; apply refines_refl]. apply refines_fold. intros s pd. unfold bf_step_pos.
      apply refines_bind; [apply refines_refl | intros ds]. apply refines_bind; [|intros it'; apply refines_bind; [apply S3 | intros ?; apply refines_refl]]. apply refines_fold. intros s' d. unfold bf_step_dir.
      destruct (go (fst pd) d) as [q|]; [|apply refines_refl]. apply refines_bind; [apply S2 | intros [|]; [apply refines_refl |]]. apply refines_bind; [apply refines_refl | intros nd]. apply refines_bind; [apply S3 | intros ?; apply refines_refl]. }
    assert (SCAN : forall l from, refines (bf_scan a found from l) (bf_scan b found from l)).
    { induction l as [|[p d] l IH]; intros from; cbn [bf_scan]; [apply refines_refl |]. apply refines_bind; [apply M4 | intros from']. destruct (found p); [apply refines_refl | apply IH]. }
    assert (LOOP : forall fuel from it, refines (bf_search_loop D sa a go fuel found from it) (bf_search_loop D sb b go fuel found from it)).
    { clear fuel. induction fuel as [|fuel IH]; intros from it; cbn [bf_search_loop]; [apply refines_refl |]. apply refines_bind; [apply NEXT | intros [[l|] it']; [|apply refines_refl]]. apply refines_bind; [apply SCAN | intros [from' [p|]]; [apply refines_refl | apply IH]]. }
    unfold t_bf_search_path, bf_search_mapmov, bf_iter, bf_new. rewrite M1. apply refines_bind; [|intros [[dest m] | e]; [|apply refines_refl]].
    - apply refines_bind; [|intros it; apply LOOP]. apply refines_bind; [exact S1 | intros v]. apply refines_bind; [apply NEXT | intros [? ?]; apply refines_refl].
    - apply refines_bind; [apply camefrom_refines; exact MR | intros ?; apply refines_refl].
  Qed.
  Lemma ucs_refines : forall MC M P D (ca cb : mapops Z MC) (a b : mapops (option dir) M) go fuel orig dest, map_refines ca cb -> map_refines a b ->
    refines (t_ucs_search_path c P D ca a go fuel orig dest) (t_ucs_search_path u P D cb b go fuel orig dest).
  Proof.
    intros MC M P D ca cb a b go fuel orig dest [_ C2 C3 C4] MR. pose proof MR as [M1 _ _ M4].
    assert (NEXT : forall it, refines (t_ucs_next c D ca go it) (t_ucs_next u D cb go it)).
    { intros it. unfold t_ucs_next. destruct (heap_pop (u_frontier it)) as [[[? mov] rest]|]; [|apply refines_refl]. apply refines_bind; [apply refines_refl | intros ds]. apply refines_bind; [|intros ?; apply refines_refl]. apply refines_fold. intros s d. unfold t_ucs_step_dir, t_add.
      destruct (go (fst mov) d) as [[q k]|]; [|apply refines_refl]. apply refines_bind; [apply C3 | intros c0]. apply refines_bind; [apply arith_refines | intros nc]. apply refines_bind; [apply C3 | intros c1]. destruct (nc <? c1); [|apply refines_refl].
      apply refines_bind; [apply C4 | intros ?; apply refines_refl]. }
    assert (LOOP : forall fuel from it, refines (t_ucs_search_loop c D ca a go fuel dest from it) (t_ucs_search_loop u D cb b go fuel dest from it)).
    { clear fuel. induction fuel as [|fuel IH]; intros from it; cbn [t_ucs_search_loop]; [apply refines_refl |]. apply refines_bind; [apply NEXT | intros [[[p d]|] it']; [|apply refines_refl]]. apply refines_bind; [apply M4 | intros from']. destruct (pos_eqb p dest); [apply refines_refl | apply IH]. }
    unfold t_ucs_search_path, t_ucs_new. rewrite M1, C2. apply refines_bind; [apply refines_bind; [apply C4 | intros ?; apply refines_refl] | intros it]. apply refines_bind; [apply LOOP | intros [m | e]; [|apply refines_refl]]. apply camefrom_refines. exact MR.
  Qed.
  Lemma astar_refines : forall MC M P D (ca cb : mapops Z MC) (a b : mapops (option dir) M) go fuel orig dest, map_refines ca cb -> map_refines a b ->
    refines (t_astar_search_path c P D ca a go fuel orig dest) (t_astar_search_path u P D cb b go fuel orig dest).
  Proof.
    intros MC M P D ca cb a b go fuel orig dest [_ C2 C3 C4] MR. pose proof MR as [M1 _ _ M4].
    assert (NEXT : forall it, refines (t_astar_next c P D ca go dest it) (t_astar_next u P D cb go dest it)).
    { intros it. unfold t_astar_next. destruct (heap_pop (a_frontier it)) as [[[? mov] rest]|]; [|apply refines_refl]. apply refines_bind; [apply refines_refl | intros ds]. apply refines_bind; [|intros ?; apply refines_refl]. apply refines_fold. intros s d. unfold t_astar_step_dir, t_add.
      apply refines_bind; [apply C3 | intros c0]. apply refines_bind; [apply arith_refines | intros nc]. destruct (go (fst mov) d) as [q|]; [|apply refines_refl]. apply refines_bind; [apply C3 | intros c1]. destruct (nc <? c1); [|apply refines_refl].
      apply refines_bind; [apply C4 | intros ?]. apply refines_bind; [apply manhattan_refines | intros ?]. apply refines_bind; [apply arith_refines | intros ?; apply refines_refl]. }
    assert (LOOP : forall fuel from it, refines (t_astar_search_loop c P D ca a go fuel dest from it) (t_astar_search_loop u P D cb b go fuel dest from it)).
    { clear fuel. induction fuel as [|fuel IH]; intros from it; cbn [t_astar_search_loop]; [apply refines_refl |]. apply refines_bind; [apply NEXT | intros [[[p d]|] it']; [|apply refines_refl]]. apply refines_bind; [apply M4 | intros from']. destruct (pos_eqb p dest); [apply refines_refl | apply IH]. }
    unfold t_astar_search_path, t_astar_new. rewrite M1, C2. apply refines_bind; [apply refines_bind; [apply C4 | intros ?; apply refines_refl] | intros it]. apply refines_bind; [apply LOOP | intros [m | e]; [|apply refines_refl]]. apply camefrom_refines. exact MR.
  Qed.
End Checks.

Lemma C135_checks_only_panic_proof : forall w b P D fuel,
  (forall W go orig found r, bfs_target_on (Target w true) b P D W fuel go orig found = Ret r ->
     bfs_target_on (Target w false) b P D W fuel go orig found = Ret r) /\
  (forall go orig dest r, ucs_target_on (Target w true) b P D fuel go orig dest = Ret r ->
     ucs_target_on (Target w false) b P D fuel go orig dest = Ret r) /\
  (forall go orig dest r, astar_target_on (Target w true) b P D fuel go orig dest = Ret r ->
     astar_target_on (Target w false) b P D fuel go orig dest = Ret r).
Proof.
  intros w b P D fuel. split; [|split].
  - intros W go orig found. change (refines (bfs_target_on (Target w true) b P D W fuel go orig found) (bfs_target_on (Target w false) b P D W fuel go orig found)).
    destruct b; cbn [bfs_target_on]; apply bf_refines; first [apply gridbool_refines | apply map_grid_refines | apply set_refines_refl | apply map_refines_refl].
  - intros go orig dest. change (refines (ucs_target_on (Target w true) b P D fuel go orig dest) (ucs_target_on (Target w false) b P D fuel go orig dest)).
    destruct b; cbn [ucs_target_on]; apply ucs_refines; first [apply map_grid_refines | apply map_refines_refl].
  - intros go orig dest. change (refines (astar_target_on (Target w true) b P D fuel go orig dest) (astar_target_on (Target w false) b P D fuel go orig dest)).
    destruct b; cbn [astar_target_on]; apply astar_refines; first [apply map_grid_refines | apply map_refines_refl].
Qed.

(** ** Any position type *)

Lemma limit_range : forall t P, 1 <= wrapped_limit t P <= usize_MAX t.
Proof.
  intros t P. unfold wrapped_limit. pose proof (square_plus_one t (cols P)). pose proof (usize_MAX_range t). pose proof (Z.mod_pos_bound (cols P * cols P + 1) (usize_MAX t + 1) ltac:(lia)). lia.
Qed.

Lemma t_into_big : forall t v, usize_MAX t < v \/ v < 0 -> t_into_usize t v = Panic.
Proof. intros t v H. unfold t_into_usize, int_try_from. rewrite t_MAX_eq. rewrite (proj2 (in_ity_false (Ity 0 (usize_MAX t)) v)); [reflexivity | cbn; lia]. Qed.

Lemma t_IMAX_iff : forall t v, 2 * v <= usize_MAX t <-> v <= t_IMAX t.
Proof.
  intros t v. split; [apply t_IMAX_le |]. destruct t as [[] ch]; [change (v <= 32767 -> 2 * v <= 65535) | change (v <= 2147483647 -> 2 * v <= 4294967295) | change (v <= 9223372036854775807 -> 2 * v <= 18446744073709551615)]; lia.
Qed.

Lemma t_loop_bp : forall t P f orig fuel n p ret, post_wf P -> valid P p -> (1 <= n <= fuel)%nat -> Z.of_nat n <= usize_MAX t ->
  t_camefrom_loop t P fmap fuel f orig ret p (Z.of_nat n) = Ret (bp P f orig n p ret).
Proof.
  intros t P f orig fuel n p ret W. revert n p ret. induction fuel as [|fuel IH]; intros n p ret V Hn Hb; [lia |].
  destruct n as [|n]; [lia |]. cbn [t_camefrom_loop bp]. destruct (pos_eqb p orig) eqn:Ep; cbn [negb]; [reflexivity |].
  cbn [fmap mp_get bind]. destruct (f p) as [d|]; [|reflexivity]. rewrite dir_neg_opp. cbn [bind].
  destruct (pos_dir_add P p d) as [q | e] eqn:E; [|reflexivity]. destruct (add_valid P p d q W V E) as (Vq & _).
  unfold t_sub. rewrite t_arith_ok by lia. cbn [bind]. replace (Z.of_nat (S n) - 1) with (Z.of_nat n) by lia. destruct n as [|n]; [reflexivity |].
  replace (Z.of_nat (S n) =? 0) with false by (symmetry; apply Z.eqb_neq; lia). apply IH; [exact Vq | lia | lia].
Qed.

Lemma bp_more_eq : forall P f orig n m p ret a b, bp P f orig n p ret = Ok a -> bp P f orig m p ret = Ok b -> a = b.
Proof.
  intros P f orig. induction n as [|n IH]; intros m p ret a b E1 E2; [discriminate |]. destruct m as [|m]; [discriminate |]. cbn [bp] in *.
  destruct (pos_eqb p orig); [congruence |]. destruct (f p) as [d|]; [|discriminate]. destruct (pos_dir_add P p d) as [q | e]; [|discriminate]. exact (IH _ _ _ _ _ E1 E2).
Qed.

Section Wrap.
  Context (t : target) (C : t_checks t = false) (P : post) (W : post_wf P).
  Notation mx := (Z.to_nat (wrapped_limit t P)).
  Lemma wrap_retraceable_dec : forall orig dest, wrapped_retraceable t P orig dest \/ ~ wrapped_retraceable t P orig dest.
  Proof. intros orig dest. unfold wrapped_retraceable, measurable, in_bty. generalize (2 * ((2 * (Z.abs (fst orig - fst dest) + Z.abs (snd orig - snd dest))) mod (usize_MAX t + 1))). intros z. lia. Qed.
  Lemma wrap_manhattan : forall p q,
    t_manhattan t P p q = if (b_min (pt_x P) <=? Z.abs (fst p - fst q)) && (Z.abs (fst p - fst q) <=? b_max (pt_x P)) && ((b_min (pt_y P) <=? Z.abs (snd p - snd q)) && (Z.abs (snd p - snd q) <=? b_max (pt_y P)))
      && ((Z.abs (fst p - fst q) <=? usize_MAX t) && (Z.abs (snd p - snd q) <=? usize_MAX t)) then Ret ((Z.abs (fst p - fst q) + Z.abs (snd p - snd q)) mod (usize_MAX t + 1)) else Panic.
  Proof.
    intros p q. destruct W as (Wx & Wy). unfold t_manhattan. rewrite !b_sub_abs_gen by assumption.
    generalize (Z.abs_nonneg (fst p - fst q)) (Z.abs_nonneg (snd p - snd q)). generalize (Z.abs (fst p - fst q)) (Z.abs (snd p - snd q)). intros dx dy Hx Hy.
    destruct ((b_min (pt_x P) <=? dx) && (dx <=? b_max (pt_x P))); [|reflexivity]. cbn [bind andb]. destruct ((b_min (pt_y P) <=? dy) && (dy <=? b_max (pt_y P))); [|reflexivity]. cbn [bind andb].
    destruct (dx <=? usize_MAX t) eqn:Ex; [apply Z.leb_le in Ex; rewrite t_into_ok by lia | apply Z.leb_gt in Ex; rewrite t_into_big by lia; reflexivity]. cbn [bind andb].
    destruct (dy <=? usize_MAX t) eqn:Ey; [apply Z.leb_le in Ey; rewrite t_into_ok by lia | apply Z.leb_gt in Ey; rewrite t_into_big by lia; reflexivity]. cbn [bind]. apply t_arith_wrap. exact C.
  Qed.
  Lemma wrap_into_path : forall f orig dest fuel, valid P dest -> f dest <> None ->
    (wrapped_retraceable t P orig dest -> (mx <= fuel)%nat -> t_camefrom_into_path t P fmap fuel f orig dest = Ret (bp P f orig mx dest [])) /\
    (~ wrapped_retraceable t P orig dest -> t_camefrom_into_path t P fmap fuel f orig dest = Panic).
  Proof.
    intros f orig dest fuel V Nd. pose proof (limit_range t P) as LR. pose proof (usize_MAX_range t) as MR. unfold t_camefrom_into_path. rewrite wrap_manhattan.
    assert (WD : 0 <= XM P <= usize_MAX t -> t_width t P = Ret (cols P mod (usize_MAX t + 1))).
    { intros H. unfold t_width. change (b_max (pt_x P)) with (XM P). rewrite t_into_ok by exact H. cbn [bind]. apply t_arith_wrap. exact C. }
    set (dist := Z.abs (fst orig - fst dest) + Z.abs (snd orig - snd dest)).
    assert (CAP : t_mul t 2 (dist mod (usize_MAX t + 1)) = Ret ((2 * dist) mod (usize_MAX t + 1))). { unfold t_mul. rewrite t_arith_wrap by exact C. rewrite Z.mul_mod_idemp_r by lia. reflexivity. }
    split.
    - intros (M & H1 & H2 & H3 & H4) Hf. destruct M as (M1 & M2). unfold in_bty in M1, M2. fold dist in H3.
      replace ((b_min (pt_x P) <=? Z.abs (fst orig - fst dest)) && (Z.abs (fst orig - fst dest) <=? b_max (pt_x P)) && ((b_min (pt_y P) <=? Z.abs (snd orig - snd dest)) && (Z.abs (snd orig - snd dest) <=? b_max (pt_y P))) && ((Z.abs (fst orig - fst dest) <=? usize_MAX t) && (Z.abs (snd orig - snd dest) <=? usize_MAX t))) with true
        by (symmetry; rewrite !andb_true_iff, !Z.leb_le; lia).
      cbn [bind]. rewrite CAP. cbn [bind]. replace ((2 * dist) mod (usize_MAX t + 1) <=? t_IMAX t) with true by (symmetry; apply Z.leb_le; apply t_IMAX_iff; exact H3). cbn [bind fmap mp_get]. destruct (f dest) as [d|]; [|contradiction].
      rewrite (WD H4). cbn [bind]. unfold t_mul, t_add. rewrite !t_arith_wrap by exact C. cbn [bind]. rewrite t_arith_wrap by exact C. cbn [bind].
      rewrite <- Z.mul_mod by lia. rewrite Z.add_mod_idemp_l by lia. fold (wrapped_limit t P). replace (wrapped_limit t P) with (Z.of_nat mx) at 1 by lia. apply t_loop_bp; [exact W | exact V | lia | lia].
    - intros N. destruct ((b_min (pt_x P) <=? Z.abs (fst orig - fst dest)) && (Z.abs (fst orig - fst dest) <=? b_max (pt_x P)) && ((b_min (pt_y P) <=? Z.abs (snd orig - snd dest)) && (Z.abs (snd orig - snd dest) <=? b_max (pt_y P))) && ((Z.abs (fst orig - fst dest) <=? usize_MAX t) && (Z.abs (snd orig - snd dest) <=? usize_MAX t))) eqn:B; [|reflexivity].
      rewrite !andb_true_iff, !Z.leb_le in B. cbn [bind]. rewrite CAP. cbn [bind]. destruct ((2 * dist) mod (usize_MAX t + 1) <=? t_IMAX t) eqn:Ec; [|reflexivity]. apply Z.leb_le, t_IMAX_iff in Ec. cbn [bind fmap mp_get]. destruct (f dest) as [d|]; [|contradiction].
      unfold t_width at 1. change (b_max (pt_x P)) with (XM P). rewrite t_into_big; [reflexivity |].
      destruct (Z_lt_ge_dec (usize_MAX t) (XM P)) as [K | K]; [left; exact K |]. destruct (Z_lt_ge_dec (XM P) 0) as [K' | K']; [right; exact K' |]. destruct N. unfold wrapped_retraceable, measurable, in_bty. fold dist. repeat split; lia.
  Qed.
  (** Breadth-first search. *)
  Lemma wrap_bfs : forall D go orig found, go_inside P go -> valid P orig -> one_step P go ->
    exists r, settles (fun fuel => t_bf_search_path t P D fset fmap go fuel orig found) r /\
    ((r = Ret (Err DestinationUnreachable) /\ forall q, q <> orig -> found q = true -> ~ reachable D go orig q) \/
     exists dest n path, found dest = true /\ dest <> orig /\ at_distance D go orig n dest /\ nearest_goal D go orig found n /\
       length path = n /\ Forall (allowed D) path /\ follow go orig path = Some dest /\
       (~ wrapped_retraceable t P orig dest -> r = Panic) /\
       (wrapped_retraceable t P orig dest -> r = if Z.of_nat n <? wrapped_limit t P then Ret (Ok (dest, path)) else Ret (Err Loop))).
  Proof.
    intros D go orig found HG Vo H1. pose proof (limit_range t P) as LR.
    destruct (search_spec P D go orig HG Vo H1 found (S (length (all_rows P))) 0%nat (fun _ => None)) as (r & Er & Or); [split | lia |].
    { intros p d E. discriminate. } { intros j p Hj. lia. }
    set (N := S (S (length (all_rows P)))).
    assert (Run0 : forall fuel, (N <= fuel)%nat -> t_bf_search_path t P D fset fmap go fuel orig found =
      match r with Err e => Ret (Err e) | Ok (dest, f) => bind (t_camefrom_into_path t P fmap fuel f orig dest)
        (fun r' => match r' with Err e => Ret (Err e) | Ok path => Ret (Ok (dest, path)) end) end).
    { intros fuel Hf. unfold t_bf_search_path, bf_search_mapmov, bf_iter. rewrite bf_new_at. cbn [bind].
      change (mp_default fmap None) with (fun _ : pos => @None dir). rewrite Er by (unfold N in Hf; lia). cbn [bind]. destruct r as [[? ?] | ?]; reflexivity. }
    destruct r as [[p f] | e]; cbn [outcome_ok] in Or.
    - destruct Or as (n & _ & Hp & Fp & I & Np & Hn).
      assert (V : valid P p) by (eapply walk_valid; [exact HG | exact Vo | apply Hp]).
      assert (NG : nearest_goal D go orig found (S n)) by (eapply distance_goal; [exact Hp | exact Fp | intros j q Hj; apply Hn; lia]).
      pose proof (recorded_leads P D go orig HG Vo H1 n f I (S n) p ltac:(lia) Hp (or_intror Np)) as LB.
      assert (No : p <> orig) by (intros ->; apply at_distance_orig in Hp; discriminate).
      destruct (bp_leads P W f orig (S n) (S (S n)) p [] V LB ltac:(lia)) as (ds & E & Ld). rewrite app_nil_r in E.
      destruct (bp_follow P W f orig D go (fun _ => True)) with (n := S (S n)) (p := p) (ret := @nil dir) (path := ds) as (ds' & E1 & E2 & E3); try assumption; [|exact Logic.I |].
      { intros q d _ Nq Eq. destruct I as (I1 & _). destruct (recorded_follow P D go orig HG Vo H1 n f I1 q d Nq Eq). auto. }
      rewrite app_nil_r in E1. subst ds'. assert (BP : bp P f orig mx p [] = if Z.of_nat (S n) <? wrapped_limit t P then Ok ds else Err Loop).
      { destruct (Z.of_nat (S n) <? wrapped_limit t P) eqn:El; [apply Z.ltb_lt in El | apply Z.ltb_ge in El].
        - destruct (bp_leads P W f orig (S n) mx p [] V LB ltac:(lia)) as (ds' & E' & Ld'). rewrite app_nil_r in E'. rewrite E'. f_equal.
          apply (bp_more_eq P f orig _ _ _ _ _ _ E' E).
        - apply (bp_loop P W f orig _ _ [] V). apply goes_on_le with (m := S n); [lia |]. clear -LB. revert p LB. generalize (S n). intros m.
          induction m as [|m IH]; intros p H; [exact I |]. cbn in *. destruct H as (A & d & B & K & H). split; [exact A |]. exists d. auto. }
      destruct (wrap_retraceable_dec orig p) as [RT | RT].
      + exists (if Z.of_nat (S n) <? wrapped_limit t P then Ret (Ok (p, ds)) else Ret (Err Loop)). split.
        * exists (N + mx)%nat. intros fuel Hf. rewrite Run0 by lia. rewrite (proj1 (wrap_into_path f orig p fuel V Np) RT ltac:(lia)). cbn [bind]. rewrite BP. destruct (Z.of_nat (S n) <? wrapped_limit t P); reflexivity.
        * right. exists p, (S n), ds. repeat (split; [assumption |]). split; [intros X; destruct (X RT) |]. intros _. reflexivity.
      + exists Panic. split.
        * exists N. intros fuel Hf. rewrite Run0 by exact Hf. rewrite (proj2 (wrap_into_path f orig p fuel V Np) RT). reflexivity.
        * right. exists p, (S n), ds. repeat (split; [assumption |]). split; [auto |]. intros X. contradiction.
    - destruct e; try contradiction. exists (Ret (Err DestinationUnreachable)). split; [exists N; exact Run0 |]. left. split; [reflexivity |].
      intros q Nq Fq (n & Hw). destruct (walk_min D go orig n q Hw) as (j & _ & Hd). destruct j as [|j].
      + apply at_distance_0 in Hd. congruence.
      + rewrite (Or j q ltac:(lia) Hd) in Fq. discriminate.
  Qed.
  (** The two other searches. *)
  Lemma wrap_best : forall D succ h orig, valid P orig -> (forall p d q w, valid P p -> succ p d = Some (q, w) -> valid P q /\ 0 <= w) -> affordable D P succ orig ->
    forall dest (run : nat -> exec (result (list dir))), valid P dest ->
    (forall fuel, run fuel = bind (bloop D succ h fuel dest (fun _ => None) (put (fun _ : pos => COST_MAX) orig 0, [e0 orig]))
       (fun r => match r with Err e => Ret (Err e) | Ok m => t_camefrom_into_path t P fmap fuel m orig dest end)) ->
    exists r, settles run r /\
      ((r = Ret (Err DestinationUnreachable) /\ ~ reachable D (move_of succ) orig dest) \/
       exists c hp e tr, Run D succ h orig c hp (e :: tr) /\ e_pos e = dest /\ reachable D (move_of succ) orig dest /\
         (~ wrapped_retraceable t P orig dest -> r = Panic) /\
         (wrapped_retraceable t P orig dest -> r = Ret (bp P (lastdir (e :: tr)) orig mx dest []))).
  Proof.
    intros D succ h orig Vo HS HA dest run Vd Hrun. set (c0 := put (fun _ : pos => COST_MAX) orig 0) in *.
    destruct (bloop_spec P D succ h orig Vo HS HA dest (Z.to_nat (measure P c0 [e0 orig])) c0 [e0 orig] [] (fun _ => None)) as (r & Hr & K).
    - reflexivity.
    - apply Run0.
    - intros (x & [] & _).
    - reflexivity.
    - destruct K as [(-> & c & tr & R & N) | (c & hp & e & tr & f & -> & R & Ed & N & Hf)].
      + exists (Ret (Err DestinationUnreachable)). split.
        * exists (S (Z.to_nat (measure P c0 [e0 orig]))). intros fuel L. rewrite Hrun, Hr by lia. reflexivity.
        * left. split; [reflexivity |]. intros RC. apply N. apply (run_end_popped P D succ h orig Vo HS HA c tr dest R RC).
      + assert (RC : reachable D (move_of succ) orig dest).
        { rewrite <- Ed. apply (run_popped_reachable P D succ h orig Vo HS HA _ _ _ (e_pos e) R). apply popped_head. }
        assert (Nd : f dest <> None) by (rewrite Hf; cbn [lastdir]; rewrite Ed, pos_eqb_refl; discriminate).
        destruct (wrap_retraceable_dec orig dest) as [RT | RT].
        * exists (Ret (bp P (lastdir (e :: tr)) orig mx dest [])). split.
          -- exists (S (Z.to_nat (measure P c0 [e0 orig])) + mx)%nat. intros fuel L. rewrite Hrun, Hr by lia. cbn [bind].
             rewrite (proj1 (wrap_into_path f orig dest fuel Vd Nd) RT ltac:(lia)). f_equal. apply bp_ext. exact Hf.
          -- right. exists c, hp, e, tr. repeat (split; [assumption |]). split; [contradiction | reflexivity].
        * exists Panic. split.
          -- exists (S (Z.to_nat (measure P c0 [e0 orig]))). intros fuel L. rewrite Hrun, Hr by lia. cbn [bind].
             apply (wrap_into_path f orig dest fuel Vd Nd). exact RT.
          -- right. exists c, hp, e, tr. repeat (split; [assumption |]). split; [reflexivity | contradiction].
  Qed.
  (** What going back finds, within a limit. *)
  Lemma back_cases : forall D succ h orig, valid P orig -> (forall p d q w, valid P p -> succ p d = Some (q, w) -> valid P q /\ 0 <= w) -> affordable D P succ orig -> one_step P (move_of succ) ->
    forall dest c hp e tr m, Run D succ h orig c hp (e :: tr) -> e_pos e = dest ->
    (exists path, bp P (lastdir (e :: tr)) orig m dest [] = Ok path /\ follow (move_of succ) orig path = Some dest /\ Forall (allowed D) path /\ (length path < m)%nat) \/
    bp P (lastdir (e :: tr)) orig m dest [] = Err Loop.
  Proof.
    intros D succ h orig Vo HS HA O dest c hp e tr m R Ed. set (tr' := e :: tr) in *. assert (Pd : popped tr' dest) by (rewrite <- Ed; apply popped_head).
    assert (RV : forall p, popped tr' p -> valid P p) by (intros p Hp; eapply (run_valid P D succ h orig Vo HS HA); eassumption).
    assert (BACK : forall p, popped tr' p -> p <> orig -> exists e w, lastdir tr' p = Some (e_dir e) /\ popped tr' (step p (e_dir e)) /\
      allowed D (opp (e_dir e)) /\ succ (step p (e_dir e)) (opp (e_dir e)) = Some (p, w)).
    { intros p Hp Np. destruct (lastdir_back P D succ h orig Vo HS HA c hp tr' p O R Hp Np) as (x & w & _ & _ & H1 & H2 & H3 & H4 & _).
      exists x, w. auto. }
    destruct (bp_total P (lastdir tr') orig (popped tr') W) with (n := m) (p := dest) (ret := @nil dir) as [(path & E) | E].
    - intros p Hp. split; [apply RV; exact Hp |]. intros Np. destruct (BACK p Hp Np) as (x & w & H1 & H2 & _). eauto.
    - exact Pd.
    - left. exists path. split; [exact E |].
      destruct (bp_follow P W (lastdir tr') orig D (move_of succ) (popped tr')) with (n := m) (p := dest) (ret := @nil dir) (path := path) as (ds & E1 & F & A).
      + intros p d Hp Np Ef. destruct (BACK p Hp Np) as (x & w & H1 & H2 & H3 & H4). rewrite H1 in Ef. inv Ef.
        split; [unfold move_of; rewrite H4; reflexivity |]. auto.
      + exact Pd.
      + apply RV. exact Pd.
      + exact E.
      + rewrite app_nil_r in E1. subst ds. split; [exact F |]. split; [exact A |].
        destruct (bp_ok P W (lastdir tr') orig _ _ _ _ (RV _ Pd) E) as (ds & E1 & _ & _ & L). rewrite app_nil_r in E1. subst ds. exact L.
    - right. exact E.
  Qed.
  (** With a consistent estimate the limit alone decides. *)
  Lemma back_consistent : forall D succ h orig, valid P orig -> (forall p d q w, valid P p -> succ p d = Some (q, w) -> valid P q /\ 0 <= w) -> affordable D P succ orig -> one_step P (move_of succ) ->
    (forall p d q w, valid P p -> allowed D d -> succ p d = Some (q, w) -> h p <= w + h q) -> (forall p, valid P p -> 0 <= h p) ->
    forall dest c hp e tr, Run D succ h orig c hp (e :: tr) -> e_pos e = dest ->
    exists path m, bp P (lastdir (e :: tr)) orig m dest [] = Ok path /\ follow (move_of succ) orig path = Some dest /\ Forall (allowed D) path /\
      (forall rs, (forall q, reachable D (move_of succ) orig q -> In q rs) -> (length path < length rs)%nat) /\
      bp P (lastdir (e :: tr)) orig mx dest [] = if Z.of_nat (length path) <? wrapped_limit t P then Ok path else Err Loop.
  Proof.
    intros D succ h orig Vo HS HA O HH H0 dest c hp e tr R Ed. pose proof (limit_range t P) as LR. assert (Pd : popped (e :: tr) dest) by (rewrite <- Ed; apply popped_head).
    destruct (run_leads_back P D succ h orig Vo HS HA HH H0 c hp (e :: tr) dest O R Pd) as (k & Hk & Lk).
    pose proof (run_valid P D succ h orig Vo HS HA _ _ _ _ R Pd) as Vd.
    destruct (bp_leads P W (lastdir (e :: tr)) orig k (S k) dest [] Vd Hk ltac:(lia)) as (ds & Eb & Ld). rewrite app_nil_r in Eb.
    destruct (back_cases D succ h orig Vo HS HA O dest c hp e tr (S k) R Ed) as [(path & E & F & A & _) | E]; [|congruence]. rewrite Eb in E. inv E.
    exists path, (S (length path)). split; [exact Eb |]. split; [exact F |]. split; [exact A |]. split; [exact Lk |].
    destruct (Z.of_nat (length path) <? wrapped_limit t P) eqn:El; [apply Z.ltb_lt in El | apply Z.ltb_ge in El].
    - destruct (bp_leads P W (lastdir (e :: tr)) orig (length path) mx (e_pos e) [] Vd Hk ltac:(lia)) as (ds' & E' & Ld'). rewrite app_nil_r in E'. rewrite E'. f_equal.
      apply (bp_more_eq P _ orig _ _ _ _ _ _ E' Eb).
    - apply (bp_loop P W (lastdir (e :: tr)) orig _ _ [] Vd). apply goes_on_le with (m := length path); [lia |]. clear -Hk. revert Hk. generalize (length path) (e_pos e). intros m p.
      revert p. induction m as [|m IH]; intros p H; [exact I |]. cbn in *. destruct H as (A & d & B & K & H). split; [exact A |]. exists d. auto.
  Qed.
End Wrap.

Lemma t_manhattan_gen : forall t P p q, post_wf P -> measurable P p q -> mdist p q <= usize_MAX t -> t_manhattan t P p q = Ret (mdist p q).
Proof.
  intros t P p q (Wx & Wy) (Mx & My) L. unfold t_manhattan, in_bty, mdist in *. rewrite !b_sub_abs_gen by assumption.
  rewrite (proj2 (andb_true_iff _ _)) by (split; apply Z.leb_le; lia). cbn [bind].
  rewrite (proj2 (andb_true_iff _ _)) by (split; apply Z.leb_le; lia). cbn [bind].
  rewrite !t_into_ok by lia. cbn [bind]. unfold t_add. apply t_arith_ok. lia.
Qed.

Lemma t_astar_gen : forall t {MC M} P D (co : mapops Z MC) RC (mo : mapops (option dir) M) RM go fuel orig dest rs,
  post_wf P -> lawful_map P co RC -> lawful_map P mo RM -> go_inside P go -> valid P orig -> valid P dest ->
  (forall q, reachable D go orig q -> In q rs) -> (forall q, reachable D go orig q -> measurable P q dest /\ Z.of_nat (length rs) + mdist q dest <= usize_MAX t) ->
  t_astar_search_path t P D co mo go fuel orig dest = (r <- bloop D (unit_cost go) (fun p => mdist p dest) fuel dest (fun _ => None) (put (fun _ : pos => COST_MAX) orig 0, [e0 orig]) ;;
    match r with Err e => Ret (Err e) | Ok f => t_camefrom_into_path t P fmap fuel f orig dest end).
Proof.
  intros t MC M P D co RC mo RM go fuel orig dest rs W LC LM HG Vo Vd HR HM. pose proof (unit_HS P go HG) as HS. pose proof (usize_MAX_range t) as UR.
  assert (HL : Z.of_nat (length rs) <= COST_MAX) by (destruct (HM orig (reach_orig D go orig)) as (_ & L); pose proof (mdist_nonneg orig dest); lia).
  pose proof (gen_HA P D go orig HG rs HR HL) as HA64.
  assert (HRM : Z.of_nat (length rs) <= usize_MAX t) by (destruct (HM orig (reach_orig D go orig)) as (_ & L); pose proof (mdist_nonneg orig dest); lia).
  apply esim_eq. unfold t_astar_search_path, t_astar_new. rewrite t_MAX_eq.
  destruct (lm_set _ _ _ LC _ _ orig 0 (lm_new _ _ _ LC (usize_MAX t)) Vo) as (m & Em & _). rewrite Em. cbn [bind].
  change (heap_push [] (0, (orig, dir_default))) with [e0 orig]. eapply esim_bind.
  - apply (tloop_bloop t P D (unit_cost go) (fun p => mdist p dest) orig dest Vo HS HA64 RC mo RM LM a_cost a_frontier (fun m hp => AIt m hp) (fun _ _ => eq_refl) (fun _ _ => eq_refl) (t_astar_step_dir t P co go dest) (t_astar_next t P D co go dest) (fun fu => t_astar_search_loop t P D co mo go fu dest)) with (tr := []).
    + intros p it c hp d B L A (E & c' & HRc & HC). pose proof (bounded_valid P D (unit_cost go) orig Vo HS c p B L) as V. unfold t_astar_step_dir, relax.
      pose proof B as (_ & Hr & B'). destruct (B' p L) as (l & T). destruct (trail_unit D P go orig c l p (c p) T Vo HG) as (Ll & ND & _ & _ & RCH).
      pose proof (proj2 (trail_reach D go orig c l p (c p) T)) as RL.
      assert (LS : (length l <= length rs)%nat) by (apply NoDup_incl_length; [exact ND |]; intros q Hq; apply HR; exact (proj1 (Forall_forall _ _) RL q Hq)).
      pose proof (Hr p) as Hp. rewrite (lm_get _ _ _ LC _ c' p HRc V). cbn [bind]. assert (Ep : c' p = c p) by (destruct (HC p) as [(Ex & _) | (_ & Ex)]; [exact Ex | lia]). rewrite Ep.
      unfold t_add. rewrite t_arith_ok by lia. cbn [bind]. unfold unit_cost. destruct (go p d) as [q|] eqn:Eg; [|exists it; split; [reflexivity | split; [exact E | exists c'; auto]]].
      assert (Vq : valid P q) by (apply (HG p d q V Eg)). rewrite (lm_get _ _ _ LC _ c' q HRc Vq). cbn [bind]. pose proof (unit_reach D go orig p d q RCH A Eg) as RQ.
      assert (S2 : c q = COST_MAX -> c p + 1 < usize_MAX t).
      { intros Eq. assert (Nq : ~ In q l). { intros Hq. pose proof (proj2 (trail_in P D (unit_cost go) (fun _ => 0) orig Vo HS _ _ _ _ (proj1 B) T) q Hq). lia. }
        assert (LS' : (length (q :: l) <= length rs)%nat). { apply NoDup_incl_length; [constructor; assumption |]. intros x [<- | Hx]; [apply HR; exact RQ | apply HR; exact (proj1 (Forall_forall _ _) RL x Hx)]. }
        cbn [length] in LS'. lia. }
      rewrite (same_cost_lt t _ _ _ (HC q)) by (first [lia | exact S2]). destruct (c p + 1 <? c q) eqn:El; [|exists it; split; [reflexivity | split; [exact E | exists c'; auto]]].
      destruct (lm_set _ _ _ LC _ c' q (c p + 1) HRc Vq) as (m' & Em' & HR'). rewrite Em'. cbn [bind]. destruct (HM q RQ) as (MQ & LQ). rewrite t_manhattan_gen by (first [assumption | lia]). cbn [bind].
      pose proof (mdist_nonneg q dest). rewrite t_arith_ok by lia. cbn [bind]. rewrite dir_neg_opp. cbn [bind]. eexists. split; [reflexivity |]. cbn [fst snd]. split; [cbn [a_frontier]; rewrite E; reflexivity |].
      exists (put c' q (c p + 1)). split; [exact HR' |]. apply same_cost_put; [exact HC |]. apply Z.ltb_lt in El. destruct (HC q) as [(_ & Ex) | (_ & Ex)]; [lia | apply S2; exact Ex].
    + intros it. reflexivity.
    + intros from it. reflexivity.
    + intros fu from it. reflexivity.
    + exact (lm_default _ _ _ LM None).
    + apply (tied0 t P orig Vo co RC LC a_cost a_frontier (fun m hp => AIt m hp) (fun _ _ => eq_refl) (fun _ _ => eq_refl)). exact Em.
    + apply Run0.
  - intros [a | e] [b | e'] H; cbn in H; try contradiction; [|cbn; congruence]. rewrite (t_camefrom_sim t P mo RM fuel a b orig dest W LM H Vd). apply esim_refl.
Qed.

Lemma C135_bfs_any_type_proof : forall t b P D W go orig found,
  t_checks t = false -> b = OnHash \/ b = OnBTree -> post_wf P -> valid P orig -> go_inside P go -> one_step P go ->
  exists r, settles (fun fuel => bfs_target_on t b P D W fuel go orig found) r /\
    (r = Ret (Err DestinationUnreachable) <-> forall q, q <> orig -> found q = true -> ~ reachable D go orig q) /\
    forall n, nearest_goal D go orig found n ->
      exists dest path, found dest = true /\ dest <> orig /\
        length path = n /\ Forall (allowed D) path /\ follow go orig path = Some dest /\
        (~ wrapped_retraceable t P orig dest -> r = Panic) /\
        (wrapped_retraceable t P orig dest ->
           r = if Z.of_nat n <? wrapped_limit t P then Ret (Ok (dest, path)) else Ret (Err Loop)).
Proof.
  intros t b P D W go orig found C Hb WF V HG H1. destruct (wrap_bfs t C P WF D go orig found HG V H1) as (r & (n & Hr) & K). exists r. split.
  - exists n. intros fuel Hf. rewrite <- (Hr fuel Hf). destruct Hb; subst b; cbn [bfs_target_on].
    + apply (t_bf_sim t P D _ R_hset _ R_hmap); try assumption; [apply lawful_hset | apply lawful_hmap].
    + eapply (t_bf_sim t P D); try eassumption; [apply lawful_bset | apply lawful_bmap].
  - destruct K as [(-> & K) | (dest & k & path & F & N & Hd & NG & Lp & Ap & Fp & K1 & K2)].
    + split; [split; auto |]. intros m ((q & Nq & Fq & Wq) & _). destruct (K q Nq Fq). exists m. exact Wq.
    + split.
      * split; [|intros K; destruct (K dest N F); exists k; apply Hd]. intros ->. destruct (wrap_retraceable_dec t P orig dest) as [RT | RT]; [|discriminate (K1 RT)].
        specialize (K2 RT). destruct (Z.of_nat k <? wrapped_limit t P); discriminate.
      * intros m Hm. pose proof (nearest_unique _ _ _ _ _ _ NG Hm). subst m. exists dest, path. auto 8.
Qed.

Lemma C135_ucs_any_type_proof : forall t b P D go orig dest,
  t_checks t = false -> b = OnHash \/ b = OnBTree -> post_wf P -> valid P orig -> valid P dest ->
  go_inside P (move_of go) -> one_step P (move_of go) -> affordable_on t D P go orig ->
  exists r, settles (fun fuel => ucs_target_on t b P D fuel go orig dest) r /\
    (r = Ret (Err DestinationUnreachable) <-> ~ reachable D (move_of go) orig dest) /\
    (reachable D (move_of go) orig dest ->
      exists path, Forall (allowed D) path /\ follow (move_of go) orig path = Some dest /\
        (forall rs, (forall p, reachable D (move_of go) orig p -> In p rs) -> (length path < length rs)%nat) /\
        (cost_of_entering D P go -> exists c, follow_cost go orig path = Some (dest, c) /\ lowest_cost D go orig c dest) /\
        (~ wrapped_retraceable t P orig dest -> r = Panic) /\
        (wrapped_retraceable t P orig dest ->
           r = if Z.of_nat (length path) <? wrapped_limit t P then Ret (Ok path) else Ret (Err Loop))).
Proof.
  intros t b P D go orig dest C Hb WF V Vd HG O HA. pose proof (affordable_weaken _ _ _ _ _ HA) as SC. pose proof (afford_HS D P go orig HG SC) as HS.
  destruct (wrap_best t C P WF D go (fun _ => 0) orig V HS SC dest (fun fuel => ucs_target_on t b P D fuel go orig dest) Vd) as (r & Hr & K).
  { intros fuel. assert (E : ucs_target_on t b P D fuel go orig dest = (r <- ucs_search_mapmov D fmap fmap go fuel orig dest ;; match r with Err e => Ret (Err e) | Ok f => t_camefrom_into_path t P fmap fuel f orig dest end)).
    { destruct Hb; subst b; cbn [ucs_target_on]; eapply t_ucs_ok; try eassumption; first [apply lawful_hmap | apply lawful_bmap]. }
    rewrite E. unfold ucs_search_mapmov, ucs_new. cbn [fmap mp_set mp_new mp_default bind heap_push]. rewrite (ucs_loop_bloop P D go orig V HS SC dest fuel _ _ [] _ (Run0 D go (fun _ => 0) orig)). reflexivity. }
  exists r. split; [exact Hr |]. destruct K as [(-> & NR) | (c & hp & e & tr & R & Ed & RC & K1 & K2)]; [split; [tauto |]; contradiction |].
  assert (HH : forall p d q w, valid P p -> allowed D d -> go p d = Some (q, w) -> 0 <= w + 0) by (intros p d q w Vp _ Es; destruct (HS p d q w Vp Es); lia).
  destruct (back_consistent t P WF D go (fun _ => 0) orig V HS SC O HH (fun _ _ => Z.le_refl 0) dest c hp e tr R Ed) as (path & m & E & F & A & L & B). split.
  - split; [|contradiction]. intros ->. destruct (wrap_retraceable_dec t P orig dest) as [RT | RT]; [|discriminate (K1 RT)]. specialize (K2 RT). rewrite B in K2. destruct (Z.of_nat (length path) <? wrapped_limit t P); discriminate.
  - intros _. exists path. split; [exact A |]. split; [exact F |]. split; [exact L |]. split; [|split; [exact K1 |]].
    + intros HU. destruct (outcome_optimal P D go (fun _ => 0) orig V HS SC WF O) with (dest := dest) (path := path) (m := m) (c := c) (hp := hp) (e := e) (tr := tr) as (F' & L'); try assumption.
      * intros. lia.
      * intros x Hx _. rewrite Z.add_0_r. apply (x_prio _ _ _ _ _ _ (exact_run P D go orig V HS SC HU _ _ _ R)). auto.
      * exists (c dest). split; [exact F' |]. split; [|exact L']. exists path. auto.
    + intros RT. rewrite (K2 RT), B. destruct (Z.of_nat (length path) <? wrapped_limit t P); reflexivity.
Qed.

Lemma C135_astar_any_type_proof : forall t b P D go orig dest rs,
  t_checks t = false -> b = OnHash \/ b = OnBTree -> post_wf P -> valid P orig -> valid P dest -> go_inside P go -> one_step P go ->
  (forall p, reachable D go orig p -> In p rs) ->
  (forall p, reachable D go orig p -> measurable P p dest /\
     Z.of_nat (length rs) + (Z.abs (fst p - fst dest) + Z.abs (snd p - snd dest)) <= usize_MAX t) ->
  exists r, settles (fun fuel => astar_target_on t b P D fuel go orig dest) r /\
    (r = Ret (Err DestinationUnreachable) <-> ~ reachable D go orig dest) /\
    (reachable D go orig dest ->
      (~ wrapped_retraceable t P orig dest -> r = Panic) /\
      (wrapped_retraceable t P orig dest ->
         r = Ret (Err Loop) \/
         exists path, r = Ret (Ok path) /\ Forall (allowed D) path /\ follow go orig path = Some dest /\
           Z.of_nat (length path) < wrapped_limit t P) /\
      (D = false -> exists path, Forall (allowed D) path /\ follow go orig path = Some dest /\ (length path < length rs)%nat /\
         (wrapped_retraceable t P orig dest ->
            r = if Z.of_nat (length path) <? wrapped_limit t P then Ret (Ok path) else Ret (Err Loop)))).
Proof.
  intros t b P D go orig dest rs C Hb WF V Vd HG O HR HM. pose proof (unit_HS P go HG) as HS. pose proof (usize_MAX_range t) as UR. pose proof (limit_range t P) as LR.
  assert (HL : Z.of_nat (length rs) <= COST_MAX) by (destruct (HM orig (reach_orig D go orig)) as (_ & L); lia).
  pose proof (gen_HA P D go orig HG rs HR HL) as HA. pose proof (one_step_unit go P O) as O'.
  destruct (wrap_best t C P WF D (unit_cost go) (fun p => mdist p dest) orig V HS HA dest (fun fuel => astar_target_on t b P D fuel go orig dest) Vd) as (r & Hr & K).
  { intros fuel. destruct Hb; subst b; cbn [astar_target_on]; eapply t_astar_gen; try eassumption; first [apply lawful_hmap | apply lawful_bmap]. }
  exists r. split; [exact Hr |]. destruct K as [(-> & NR) | (c & hp & e & tr & R & Ed & RC & K1 & K2)]; rewrite reachable_unit in *; [split; [tauto |]; contradiction |].
  destruct (back_cases P WF D (unit_cost go) (fun p => mdist p dest) orig V HS HA O' dest c hp e tr (Z.to_nat (wrapped_limit t P)) R Ed) as [(path & E & F & A & L) | E].
  - split; [split; [|contradiction]; intros ->; destruct (wrap_retraceable_dec t P orig dest) as [RT | RT]; [|discriminate (K1 RT)]; specialize (K2 RT); rewrite E in K2; discriminate |].
    intros _. split; [exact K1 |]. rewrite follow_unit in F. split; [intros RT; right; exists path; rewrite (K2 RT), E; repeat split; [exact A | exact F | lia] |]. intros ->.
    destruct (back_consistent t P WF false (unit_cost go) (fun p => mdist p dest) orig V HS HA O') with (dest := dest) (c := c) (hp := hp) (e := e) (tr := tr) as (path' & m & E' & F' & A' & L' & B); try assumption.
    { intros p d q w Vp Ad Es. apply (mdist_consistent P go dest p d q w O Vp Ad Es). } { intros. apply mdist_nonneg. }
    exists path'. rewrite follow_unit in F'. split; [exact A' |]. split; [exact F' |]. split; [apply L'; intros q Hq; apply HR; apply (reachable_unit false go); exact Hq |]. intros RT. rewrite (K2 RT), B. destruct (Z.of_nat (length path') <? wrapped_limit t P); reflexivity.
  - split; [split; [|contradiction]; intros ->; destruct (wrap_retraceable_dec t P orig dest) as [RT | RT]; [|discriminate (K1 RT)]; specialize (K2 RT); rewrite E in K2; discriminate |].
    intros _. split; [exact K1 |]. split; [intros RT; left; rewrite (K2 RT), E; reflexivity |]. intros ->.
    destruct (back_consistent t P WF false (unit_cost go) (fun p => mdist p dest) orig V HS HA O') with (dest := dest) (c := c) (hp := hp) (e := e) (tr := tr) as (path' & m & E' & F' & A' & L' & B); try assumption.
    { intros p d q w Vp Ad Es. apply (mdist_consistent P go dest p d q w O Vp Ad Es). } { intros. apply mdist_nonneg. }
    exists path'. rewrite follow_unit in F'. split; [exact A' |]. split; [exact F' |]. split; [apply L'; intros q Hq; apply HR; apply (reachable_unit false go); exact Hq |]. intros RT. rewrite (K2 RT), B. destruct (Z.of_nat (length path') <? wrapped_limit t P); reflexivity.
Qed.

Lemma u32_wf : post_wf (IntTuple u32).
Proof. assert (X : bty_wf (Builtin u32)) by (split; [cbn; tauto | cbn; lia]). split; exact X. Qed.

Lemma u32_retraceable : forall orig dest, valid (IntTuple u32) orig -> valid (IntTuple u32) dest -> wrapped_retraceable (Target W64 false) (IntTuple u32) orig dest.
Proof.
  intros [a b] [c d] (V1 & V2) (V3 & V4). unfold in_bty in *. cbn in V1, V2, V3, V4.
  assert (Hx : 0 <= Z.abs (a - c) <= 4294967295) by lia. assert (Hy : 0 <= Z.abs (b - d) <= 4294967295) by lia.
  unfold wrapped_retraceable, measurable, in_bty. change (usize_MAX (Target W64 false)) with 18446744073709551615. change (XM (IntTuple u32)) with 4294967295. cbn [fst snd pt_x pt_y IntTuple].
  change (b_min (Builtin u32)) with 0. change (b_max (Builtin u32)) with 4294967295. rewrite Z.mod_small by lia. lia.
Qed.

Lemma u32_limit : wrapped_limit (Target W64 false) (IntTuple u32) = 1.
Proof. vm_compute. reflexivity. Qed.

Lemma nonempty_follow : forall go orig path dest, follow go orig path = Some dest -> dest <> orig -> (Z.of_nat (length path) <? 1) = false.
Proof. intros go orig [|d path] dest F N; [cbn in F; congruence |]. apply Z.ltb_ge. cbn [length]. lia. Qed.

Lemma C135_u32_bfs_loop_proof : forall b D W go orig found,
  b = OnHash \/ b = OnBTree -> valid (IntTuple u32) orig -> go_inside (IntTuple u32) go -> one_step (IntTuple u32) go ->
  (exists q, q <> orig /\ found q = true /\ reachable D go orig q) ->
  settles (fun fuel => bfs_target_on (Target W64 false) b (IntTuple u32) D W fuel go orig found) (Ret (Err Loop)).
Proof.
  intros b D W go orig found Hb V HG H1 (q & Nq & Fq & Rq). destruct (wrap_bfs (Target W64 false) eq_refl _ u32_wf D go orig found HG V H1) as (r & (n & Hr) & K).
  destruct K as [(_ & K) | (dest & k & path & F & N & Hd & NG & Lp & Ap & Fp & K1 & K2)]; [destruct (K q Nq Fq Rq) |].
  assert (Vd : valid (IntTuple u32) dest) by (eapply walk_valid; [exact HG | exact V | apply Hd]).
  specialize (K2 (u32_retraceable orig dest V Vd)). rewrite u32_limit, <- Lp, (nonempty_follow _ _ _ _ Fp N) in K2. subst r. exists n. intros fuel Hf. rewrite <- (Hr fuel Hf). destruct Hb; subst b; cbn [bfs_target_on].
  - apply (t_bf_sim _ (IntTuple u32) D _ R_hset _ R_hmap); try assumption; [exact u32_wf | apply lawful_hset | apply lawful_hmap].
  - eapply (t_bf_sim _ (IntTuple u32) D); try eassumption; [exact u32_wf | apply lawful_bset | apply lawful_bmap].
Qed.

Lemma C135_u32_ucs_loop_proof : forall b D go orig dest,
  b = OnHash \/ b = OnBTree -> valid (IntTuple u32) orig -> valid (IntTuple u32) dest -> dest <> orig ->
  go_inside (IntTuple u32) (move_of go) -> one_step (IntTuple u32) (move_of go) ->
  affordable_on (Target W64 false) D (IntTuple u32) go orig -> reachable D (move_of go) orig dest ->
  settles (fun fuel => ucs_target_on (Target W64 false) b (IntTuple u32) D fuel go orig dest) (Ret (Err Loop)).
Proof.
  intros b D go orig dest Hb V Vd N HG O HA RC. destruct (C135_ucs_any_type_proof (Target W64 false) b _ D go orig dest eq_refl Hb u32_wf V Vd HG O HA) as (r & Hr & _ & K).
  destruct (K RC) as (path & A & F & _ & _ & _ & K2). specialize (K2 (u32_retraceable orig dest V Vd)). rewrite u32_limit, (nonempty_follow _ _ _ _ F N) in K2. subst r. exact Hr.
Qed.

Lemma C135_u32_astar_loop_proof : forall b D go orig dest rs,
  b = OnHash \/ b = OnBTree -> valid (IntTuple u32) orig -> valid (IntTuple u32) dest -> dest <> orig ->
  go_inside (IntTuple u32) go -> one_step (IntTuple u32) go ->
  (forall p, reachable D go orig p -> In p rs) -> Z.of_nat (length rs) + 2 * 4294967295 <= 18446744073709551615 -> reachable D go orig dest ->
  settles (fun fuel => astar_target_on (Target W64 false) b (IntTuple u32) D fuel go orig dest) (Ret (Err Loop)).
Proof.
  intros b D go orig dest rs Hb V Vd N HG O HR HL RC. destruct (C135_astar_any_type_proof (Target W64 false) b _ D go orig dest rs eq_refl Hb u32_wf V Vd HG O HR) as (r & Hr & _ & K).
  { intros p (k & Hk). assert (Vp : valid (IntTuple u32) p) by (eapply walk_valid; [exact HG | exact V | exact Hk]). destruct (u32_retraceable p dest Vp Vd) as (M & _). split; [exact M |]. change (usize_MAX (Target W64 false)) with 18446744073709551615. destruct M as ((_ & M1) & (_ & M2)). cbn in M1, M2. lia. }
  destruct (K RC) as (_ & K2 & _). destruct (K2 (u32_retraceable orig dest V Vd)) as [-> | (path & _ & _ & F & L)]; [exact Hr |].
  rewrite u32_limit in L. pose proof (nonempty_follow _ _ _ _ F N) as X. apply Z.ltb_ge in X. lia.
Qed.
