(** KeepBy.v -- A* with a queue that breaks ties by any order: the run of a search that
    returns a shortest path, and searches with fewer moves that start on it. *)

From Coq Require Import ZArith List Bool Lia.
From Verif Require Import Rust BoundedInt Dir PosT Pos Grid Gridbool SetMap CameFrom Bf Heap Astar Ucs Spec SpecSearch SpecReplan SpecSettle SpecKeep Lib Deque BoundedIntProofs PosTProofs PosTProofs2 PropDirProofs SetMapProofs Sim CameFromProofs PropSetMapProofs GridProofs BfProofs PropBfProofs BestFirst SearchProofs UcsProofs PropUcsProofs AstarProofs PropAstarProofs PropAgreeProofs PropSettleProofs PropReplanProofs Chrono Spine SpecOrder SpecBtree SpecOrderPath SpecKeepBy Queue SpecQueue SpecStorage Order Fair FairSearch Ordered OrderedQueue PropOrderPathProofs ChronoBy SpineBy PropOrderStayProofs PropKeepProofs.
Import ListNotations.
Open Scope Z_scope.

Section KeepBy.
  Context (cmp : pos -> pos -> comparison) (TO : total_order cmp).
  Context {TQ : Type} (qo : queueops TQ) (ok : TQ -> Prop) (els : TQ -> list entry) (P : post) (OQ : ordered_queue P cmp qo ok els).
  Context {TC TM : Type} (co : mapops Z TC) (mo : mapops (option dir) TM).
  Context (RC : TC -> (pos -> Z) -> Prop) (RM : TM -> (pos -> option dir) -> Prop).
  Context (LC : lawful_map P co RC) (LMm : lawful_map P mo RM) (WF : post_wf P).
  Notation le := (ahead_by cmp).
  Notation search go fuel orig dest := (astarq_search_path qo P false co mo go fuel orig dest).
  Context (rs : list pos).

  Definition near (go : pos -> dir -> option pos) (orig dest : pos) : Prop :=
    (forall p, reachable false go orig p -> In p rs) /\
    (forall p, reachable false go orig p -> measurable P p dest /\
       Z.of_nat (length rs) + (Z.abs (fst p - fst dest) + Z.abs (snd p - snd dest)) <= 18446744073709551615).

  Lemma near_HL : forall go orig dest, near go orig dest -> Z.of_nat (length rs) <= COST_MAX.
  Proof using.
    intros go orig dest (_ & HM). assert (RO : reachable false go orig orig) by (exists 0%nat, []; cbn; auto). destruct (HM orig RO) as (_ & L). unfold COST_MAX. lia.
  Qed.

  Lemma near_HA : forall go orig dest, go_inside P go -> near go orig dest -> affordable false P (unit_cost go) orig.
  Proof using. intros go orig dest HG NR. exact (gen_HA P false go orig HG rs (proj1 NR) (near_HL go orig dest NR)). Qed.

  Lemma near_outcome : forall go orig dest, valid P orig -> valid P dest -> go_inside P go -> near go orig dest ->
    exists r, settles (fun fuel => search go fuel orig dest) r /\ ooutcome_any P false (unit_cost go) (fun q => mdist q dest) orig le dest r.
  Proof using TO OQ LC LMm WF.
    intros go orig dest V Vd HG NR.
    destruct (astarq_ooutcome cmp TO qo ok els P OQ false co mo RC RM LC LMm WF go orig dest V Vd HG rs (proj1 NR) (near_HL go orig dest NR)) as (r & Hr & [Ho | (F & _)]); [eauto |].
    exfalso. destruct F as (q & Rq & Nq). apply Nq. exact (proj2 NR q Rq).
  Qed.

  Lemma near_out : forall go orig dest path, valid P orig -> valid P dest -> go_inside P go -> near go orig dest ->
    returns (fun fuel => search go fuel orig dest) (Ok path) ->
    exists c hp e tr, ORun false (unit_cost go) (fun q => mdist q dest) orig le c hp (e :: tr) /\ e_pos e = dest /\ ~ popped tr dest /\
      Ok path = bp P (lastdir (e :: tr)) orig (maxn P) dest [].
  Proof using TO OQ LC LMm WF.
    intros go orig dest path V Vd HG NR Hr. destruct (near_outcome go orig dest V Vd HG NR) as (r & Hr' & r0 & Ho & Hc & _).
    assert (r = Ret (Ok path)) as -> by (apply (settles_unique _ _ _ _ Hr'); exact Hr). destruct Hc as [E | (E & _)]; [injection E as <- | discriminate].
    destruct Ho as [(Y & _) | (c & hp & e & tr & R & Ed & Nd & _ & E)]; [discriminate |]. exists c, hp, e, tr. auto.
  Qed.

  Lemma near_in : forall go orig dest, valid P orig -> valid P dest -> go_inside P go -> near go orig dest -> retraceable P orig dest ->
    exists r, returns (fun fuel => search go fuel orig dest) r /\ ooutcome false (unit_cost go) (fun q => mdist q dest) orig le P dest r.
  Proof using TO OQ LC LMm WF.
    intros go orig dest V Vd HG NR RT. destruct (near_outcome go orig dest V Vd HG NR) as (r & Hr & r0 & Ho & Hc & Hp).
    exists r0. split; [|exact Ho]. destruct Hc as [-> | (E & RR)]; [exact Hr |]. exfalso. apply (Hp RR) in E. contradiction.
  Qed.

  Lemma oshortest_run : forall go orig dest path,
    valid P orig -> valid P dest -> go_inside P go -> one_step P go -> near go orig dest ->
    returns (fun fuel => search go fuel orig dest) (Ok path) -> at_distance false go orig (length path) dest ->
    let a i := fold_left step (firstn i path) orig in let dd i := nth i path dN in
    Forall (allowed false) path /\ follow go orig path = Some dest /\ (length path < maxn P)%nat /\ a (length path) = dest /\
    (forall i, (i <= length path)%nat -> follow go orig (firstn i path) = Some (a i) /\ valid P (a i)) /\
    (forall i, (i <= length path)%nat -> lowest_cost false (unit_cost go) orig (Z.of_nat i) (a i)) /\
    (forall i, (i < length path)%nat -> allowed false (dd i) /\ unit_cost go (a i) (dd i) = Some (a (S i), Z.of_nat (S i) - Z.of_nat i)) /\
    exists c hp e tr, ORun false (unit_cost go) (fun q => mdist q dest) orig le c hp (e :: tr) /\ e_pos e = dest /\ ~ popped tr dest /\
      (forall i, (i < length path)%nat -> popped (e :: tr) (a (S i)) /\ a (S i) <> orig /\ lastdir (e :: tr) (a (S i)) = Some (opp (dd i))).
  Proof.
    intros go orig dest path V Vd HG O NR0 Hr SH a dd.
    destruct (near_out go orig dest path V Vd HG NR0 Hr) as (c & hp & e & tr & R & Ed & Nd & E). symmetry in E.
    destruct (bp_ok P (WF) (lastdir (e :: tr)) orig _ _ _ _ Vd E) as (ds & X & _ & _ & LM). rewrite app_nil_r in X. subst ds.
    destruct (bp_steps P (lastdir (e :: tr)) orig (WF) _ _ _ Vd E) as (Ef & Hf).
    assert (PV : forall q, popped (e :: tr) q -> valid P q) by (intros q; apply (frun_valid P false (unit_cost go) _ orig V (unit_HS P go HG) (near_HA go orig dest HG NR0) _ _ _ q (orun_frun _ _ _ _ _ _ _ _ R))).
    assert (STEP : forall i, (i < length path)%nat -> popped (e :: tr) (a (S i)) -> popped (e :: tr) (a i) /\ allowed false (dd i) /\ go (a i) (dd i) = Some (a (S i)) /\
      a (S i) <> orig /\ lastdir (e :: tr) (a (S i)) = Some (opp (dd i))).
    { intros i Hi Pq. pose proof (firstn_S path i Hi) as FS. assert (X : path = firstn i path ++ nth i path dN :: skipn (S i) path).
      { rewrite <- (firstn_skipn (S i) path) at 1. rewrite FS, <- app_assoc. reflexivity. }
      destruct (Hf _ _ _ X) as (Hl & Hn). rewrite <- FS in Hl, Hn. fold (a (S i)) in Hl, Hn. fold (dd i) in Hl.
      destruct (flastdir_back P false (unit_cost go) _ orig V (unit_HS P go HG) (near_HA go orig dest HG NR0) c hp (e :: tr) _ (one_step_unit go P O) (orun_frun _ _ _ _ _ _ _ _ R) Pq Hn) as (y & w & _ & _ & El & Pp & A & Es & _).
      rewrite Hl in El. injection El as El. rewrite <- El, opp_opp in A, Es. rewrite <- El in Pp.
      assert (B : step (a (S i)) (opp (dd i)) = a i) by (unfold a; rewrite FS, fold_left_app; cbn [fold_left]; apply step_opp).
      rewrite B in Pp, Es. split; [exact Pp |]. split; [exact A |]. split; [|auto]. unfold unit_cost in Es. destruct (go (a i) (dd i)) as [r|]; [|discriminate]. injection Es as -> _. reflexivity. }
    assert (EA : a (length path) = dest) by (unfold a; rewrite firstn_all; exact Ef).
    assert (POP : forall i, (i <= length path)%nat -> popped (e :: tr) (a i)).
    { assert (K : forall m i, (length path - i <= m)%nat -> (i <= length path)%nat -> popped (e :: tr) (a i)).
      { induction m as [|m IH]; intros i Hm Hi; [replace i with (length path) by lia; rewrite EA; rewrite <- Ed; apply popped_head |].
        destruct (Nat.eq_dec i (length path)) as [-> | N]; [rewrite EA; rewrite <- Ed; apply popped_head |].
        apply (STEP i ltac:(lia)). apply IH; lia. }
      intros i Hi. apply (K (length path)); lia. }
    assert (FO : forall i, (i <= length path)%nat -> Forall (allowed false) (firstn i path) /\ follow go orig (firstn i path) = Some (a i)).
    { induction i as [|i IH]; intros Hi; [split; [constructor | reflexivity] |]. destruct (IH ltac:(lia)) as (A & F).
      destruct (STEP i ltac:(lia) (POP (S i) Hi)) as (_ & A' & Eg & _). rewrite (firstn_S path i) by lia. split; [apply Forall_app; auto |].
      rewrite follow_app, F. cbn [follow]. fold (dd i). rewrite Eg. reflexivity. }
    destruct (FO (length path) (Nat.le_refl _)) as (AP & FP). rewrite firstn_all in AP, FP. rewrite EA in FP.
    split; [exact AP |]. split; [exact FP |]. split; [exact LM |]. split; [exact EA |]. split; [|split; [|split]].
    - intros i Hi. split; [apply FO; exact Hi | apply PV; apply POP; exact Hi].
    - intros i Hi. apply lowest_unit. exists i. split; [reflexivity |].
      rewrite <- (firstn_length_le path Hi) at 1. apply (shortest_prefix false go orig (firstn i path) (skipn i path) (a i) dest); rewrite ?firstn_skipn; try assumption.
      + apply FO. exact Hi.
      + pose proof FP as F. rewrite <- (firstn_skipn i path) in F. rewrite follow_app, (proj2 (FO i Hi)) in F. exact F.
    - intros i Hi. destruct (STEP i Hi (POP (S i) Hi)) as (_ & A & Eg & _). split; [exact A |]. unfold unit_cost. rewrite Eg. f_equal. f_equal. lia.
    - exists c, hp, e, tr. split; [exact R |]. split; [exact Ed |]. split; [exact Nd |]. intros i Hi. split; [apply POP; lia |]. apply (STEP i Hi). apply POP. lia.
  Qed.

  Lemma okeep : forall go go' orig dest path l1 l2 p,
    valid P orig -> valid P dest -> go_inside P go -> one_step P go -> near go orig dest ->
    returns (fun fuel => search go fuel orig dest) (Ok path) -> at_distance false go orig (length path) dest ->
    (forall p d q, go' p d = Some q -> go p d = Some q) ->
    path = l1 ++ l2 -> follow go orig l1 = Some p -> follow go' p l2 = Some dest ->
    retraceable P p dest -> returns (fun fuel => search go' fuel p dest) (Ok l2).
  Proof.
    intros go go' orig dest path l1 l2 p V Vd HG O NR0 Hr SH SUB X F1 F2 RT.
    destruct (oshortest_run go orig dest path V Vd HG O NR0 Hr SH) as (AP & FP & LM & EA & FV & Hg & Hs & c & hp & e & tr & R & Ed & Nd & Hl). cbv zeta in *.
    set (a := fun i => fold_left step (firstn i path) orig) in *. set (dd := fun i => nth i path dN) in *.
    change (a (length path) = dest) in EA.
    assert (HG' : go_inside P go') by (intros p1 d1 q1 V1 E1; apply (HG p1 d1 q1 V1); apply SUB; exact E1).
    set (k := length l1). assert (Hk : (k <= length path)%nat) by (unfold k; rewrite X, app_length; lia).
    assert (EK : firstn k path = l1) by (unfold k; rewrite X, firstn_app, Nat.sub_diag, firstn_all; apply app_nil_r).
    assert (Ep : p = a k) by (destruct (FV k Hk) as (Fk & _); change (follow go orig (firstn k path) = Some (a k)) in Fk; rewrite EK, F1 in Fk; injection Fk as ->; reflexivity).
    assert (Vp : valid P p) by (rewrite Ep; apply (FV k Hk)).
    assert (NTH : forall i m1 d m2, l2 = m1 ++ d :: m2 -> i = (k + length m1)%nat -> (k <= i < length path)%nat /\ dd i = d /\ a i = fold_left step m1 p /\ a (S i) = fold_left step (m1 ++ [d]) p).
    { intros i m1 d m2 Y ->. assert (Y' : path = (l1 ++ m1) ++ d :: m2) by (rewrite <- app_assoc, <- Y; exact X).
      assert (LL : length (l1 ++ m1) = (k + length m1)%nat) by (rewrite app_length; reflexivity).
      assert (Hi : (k <= k + length m1 < length path)%nat) by (rewrite Y', app_length, LL; cbn [length]; lia).
      assert (ED : dd (k + length m1)%nat = d) by (unfold dd; rewrite <- LL, Y', app_nth2, Nat.sub_diag by lia; reflexivity).
      assert (EF : firstn (k + length m1) path = l1 ++ m1) by (rewrite <- LL, Y', firstn_app, Nat.sub_diag, firstn_all; apply app_nil_r).
      split; [exact Hi |]. split; [exact ED |].
      assert (EP : p = fold_left step l1 orig) by (rewrite Ep; unfold a; rewrite EK; reflexivity).
      split; [unfold a; rewrite EF, fold_left_app, EP; reflexivity |].
      unfold a. rewrite firstn_S by lia. fold (dd (k + length m1)%nat). rewrite ED, EF, EP, <- app_assoc, fold_left_app. reflexivity. }
    assert (Hs' : forall i, (k <= i < length path)%nat -> unit_cost go' (a i) (dd i) = Some (a (S i), Z.of_nat (S i) - Z.of_nat i)).
    { assert (K : forall m2 m1 q, l2 = m1 ++ m2 -> q = fold_left step m1 p -> follow go' q m2 = Some dest -> forall i, (k + length m1 <= i < length path)%nat -> unit_cost go' (a i) (dd i) = Some (a (S i), Z.of_nat (S i) - Z.of_nat i)).
      { induction m2 as [|d m2 IH]; intros m1 q Y Eq F i Hi.
        - exfalso. rewrite app_nil_r in Y. subst m1. rewrite X, app_length in Hi. unfold k in Hi. lia.
        - cbn [follow] in F. destruct (go' q d) as [q'|] eqn:Eg; [|discriminate].
          destruct (NTH _ m1 d m2 Y eq_refl) as (Hj & Edd & Ea & Eb).
          assert (Eq' : q' = a (S (k + length m1))).
          { pose proof (SUB _ _ _ Eg) as Eg'. rewrite Eq, <- Ea in Eg'. destruct (Hs _ (proj2 Hj)) as (_ & Es). change (unit_cost go (a (k + length m1)%nat) (dd (k + length m1)%nat) = Some (a (S (k + length m1)), Z.of_nat (S (k + length m1)) - Z.of_nat (k + length m1))) in Es.
            unfold unit_cost in Es. rewrite Edd, Eg' in Es. injection Es as -> _. reflexivity. }
          destruct (Nat.eq_dec i (k + length m1)) as [-> | N].
          + unfold unit_cost. rewrite Ea, Edd, <- Eq, Eg, Eq'. f_equal. f_equal. lia.
          + apply (IH (m1 ++ [d]) q'); [rewrite <- app_assoc; exact Y | rewrite Eq', Eb; reflexivity | exact F | rewrite app_length; cbn [length]; lia]. }
      intros i Hi. apply (K l2 [] p eq_refl eq_refl F2). cbn [length]. lia. }
    assert (NR' : near go' p dest).
    { assert (SR : forall q, reachable false go' p q -> reachable false go orig q).
      { intros q (n & ds & Ln & A & F). exists (length (l1 ++ ds)), (l1 ++ ds). split; [reflexivity |]. rewrite X in AP. apply Forall_app in AP.
        split; [apply Forall_app; split; [apply AP | exact A] |]. rewrite follow_app, F1. apply (follow_sub go go' SUB). exact F. }
      split; intros q Rq; apply NR0; apply SR; exact Rq. }
    destruct (near_in go' p dest Vp Vd HG' NR' RT) as (r & Hr' & Ho).
    enough (r = Ok l2) by (subst r; exact Hr').
    assert (A2 : Forall (allowed false) l2) by (rewrite X in AP; apply Forall_app in AP; apply AP).
    destruct Ho as [(_ & NR) | (c' & hp' & e' & t' & R' & Ed' & Nd' & _ & E')].
    { exfalso. apply NR. apply reachable_unit. exists (length l2), l2. auto. }
    assert (POSU : forall p d q w, valid P p -> unit_cost go p d = Some (q, w) -> 0 < w).
    { intros p1 d1 q1 w1 _ E1. unfold unit_cost in E1. destruct (go p1 d1); [|discriminate]. injection E1 as _ <-. lia. }
    assert (HH : forall p d q w, valid P p -> allowed false d -> unit_cost go p d = Some (q, w) -> mdist p dest <= w + mdist q dest).
    { intros p1 d1 q1 w1 V1 A1 E1. apply (mdist_consistent P go dest p1 d1 q1 w1 O V1 A1 E1). }
    assert (SUBU : forall p d q w, unit_cost go' p d = Some (q, w) -> unit_cost go p d = Some (q, w)).
    { intros p1 d1 q1 w1 E1. unfold unit_cost in *. destruct (go' p1 d1) as [r1|] eqn:E2; [|discriminate]. rewrite (SUB _ _ _ E2). exact E1. }
    pose proof (osub_last cmp TO P false (fun q => mdist q dest) ltac:(intros; apply mdist_nonneg) (unit_cost go) orig V (unit_HS P go HG) POSU (near_HA go orig dest HG NR0) HH (one_step_unit go P O)
      c hp (e :: tr) R (length path) a dd Z.of_nat Hg Hs Hl (unit_cost go') k Hk SUBU) as SL.
    rewrite <- Ep in SL. specialize (SL (near_HA go' p dest HG' NR') Hs' c' hp' e' t' R').
    rewrite EA in SL. specialize (SL Ed' Nd').
    assert (POP : forall m i, (length path - i <= m)%nat -> (k <= i <= length path)%nat -> popped (e' :: t') (a i)).
    { induction m as [|m IH]; intros i Hm Hi; [replace i with (length path) by lia; rewrite EA, <- Ed'; apply popped_head |].
      destruct (Nat.eq_dec i (length path)) as [-> | N]; [rewrite EA, <- Ed'; apply popped_head |]. apply (SL i ltac:(lia)). apply IH; lia. }
    rewrite E'.
    assert (EL : fold_left step l2 p = dest).
    { rewrite Ep. unfold a at 1. rewrite EK, <- fold_left_app, <- X. rewrite <- EA. unfold a. rewrite firstn_all. reflexivity. }
    rewrite <- EL at 1. rewrite <- (app_nil_r l2) at 2. apply bp_back; [exact WF | rewrite X, app_length in LM; lia | |].
    - intros m1 d m2 Y. destruct (NTH _ m1 d m2 Y eq_refl) as (Hj & Edd & _ & Eb). rewrite <- Eb.
      destruct (SL _ Hj) as (L & _); [apply (POP (length path)); lia |]. rewrite Edd in L. split; [exact L |].
      intros Z. apply (ospine_distinct P false (fun q => mdist q dest) ltac:(intros; apply mdist_nonneg) (unit_cost go) orig V (unit_HS P go HG) POSU HH (e :: tr) (length path) a dd Z.of_nat Hg Hs Hl k (S (k + length m1))); [lia | lia | rewrite <- Ep, Z; reflexivity].
    - intros m1 m2 Y. assert (EF : fold_left step m1 p = a (k + length m1)%nat).
      { destruct m2 as [|d m2]; [|destruct (NTH _ m1 d m2 Y eq_refl) as (_ & _ & Ea & _); symmetry; exact Ea].
        rewrite app_nil_r in Y. subst m1. rewrite EL. unfold k. rewrite <- app_length, <- X. symmetry. exact EA. }
      rewrite EF. apply (FV (k + length m1)%nat). rewrite X, app_length, Y, app_length. unfold k. lia.
  Qed.

  Lemma owhich : forall go orig dest path,
    valid P orig -> valid P dest -> go_inside P go -> one_step P go -> near go orig dest ->
    returns (fun fuel => search go fuel orig dest) (Ok path) -> at_distance false go orig (length path) dest ->
    foremost_by le go orig dest path.
  Proof.
    intros go orig dest path V Vd HG O NR0 Hr SH. unfold foremost_by. cbv zeta.
    destruct (oshortest_run go orig dest path V Vd HG O NR0 Hr SH) as (AP & FP & _ & EA & FV & Hg & Hs & c & hp & e & tr & R & Ed & Nd & Hl).
    split; [exact AP |]. split; [exact FP |]. split; [exact SH |].
    intros l0 l1 l2 m p q u1 u2 x X F0 F1 Am Lm Fm El Nu1 Nu2 Fx. cbv zeta in *.
    set (a := fun i => fold_left step (firstn i path) orig) in *. set (dd := fun i => nth i path dN) in *.
    set (s := length l0). set (i := (s + length u1)%nat). set (s' := (s + length l1)%nat).
    assert (LU : (0 < length u1)%nat /\ (0 < length u2)%nat) by (destruct u1, u2; cbn [length]; try congruence; lia).
    assert (LL : length l1 = (length u1 + length u2)%nat) by (rewrite El; apply app_length).
    assert (LP : (s' <= length path)%nat) by (unfold s', s; rewrite X, !app_length; lia).
    assert (AT : forall l l', path = l ++ l' -> forall r, follow go orig l = Some r -> a (length l) = r).
    { intros l l' Y r Fr. destruct (FV (length l)) as (Fl & _); [rewrite Y, app_length; lia |]. rewrite Y, firstn_pre in Fl. rewrite Fr in Fl. injection Fl as ->. unfold a. rewrite Y, firstn_pre. reflexivity. }
    assert (As : a s = p) by (apply (AT l0 (l1 ++ l2) X p F0)).
    assert (Ai : a i = x).
    { unfold i, s. rewrite <- app_length. apply (AT (l0 ++ u1) (u2 ++ l2)); [rewrite X, El, <- !app_assoc; reflexivity | rewrite follow_app, F0; exact Fx]. }
    assert (As' : a s' = q).
    { unfold s', s. rewrite <- app_length. apply (AT (l0 ++ l1) l2); [rewrite X, <- app_assoc; reflexivity | rewrite follow_app, F0; exact F1]. }
    assert (Vp : valid P p) by (rewrite <- As; apply (FV s); lia).
    destruct (nodes P go p m q Vp HG O Fm) as (Bl & BF & BS). set (bb := fun j => fold_left step (firstn j m) p) in *. cbv zeta in *.
    change (forall j, (j < length m)%nat -> go (bb j) (nth j m dN) = Some (bb (S j))) in BS.
    change (forall j, (j <= length m)%nat -> follow go p (firstn j m) = Some (bb j) /\ valid P (bb j)) in BF.
    set (Q := fun j => (0 < j)%nat /\ le (Z.of_nat i + mdist x dest, x) (Z.of_nat (s + j) + mdist (bb j) dest, bb j)).
    assert (HQ : forall j, Q j \/ ~ Q j).
    { intros j. unfold Q. destruct (ahead_by_dec cmp (Z.of_nat i + mdist x dest, x) (Z.of_nat (s + j) + mdist (bb j) dest, bb j)) as [Y | N]; [|right; intros (_ & Y); contradiction].
      destruct j as [|j]; [right; intros (Z & _); lia | left; split; [lia | exact Y]]. }
    destruct (ex_or_all Q HQ (length m)) as [(j & Hj & J0 & AH) | NO].
    - exists (firstn j m), (skipn j m), (bb j). split; [symmetry; apply firstn_skipn |].
      assert (Lf : length (firstn j m) = j) by (apply firstn_length_le; lia).
      split; [intros Z; rewrite Z in Lf; cbn in Lf; lia |].
      split; [intros Z; pose proof (skipn_length j m) as Y; rewrite Z in Y; cbn in Y; lia |].
      split; [apply BF; lia |]. rewrite Lf. apply (ahead_by_less _ _ _ _ _ _ _ AH). unfold i, mdist. lia.
    - exfalso.
      assert (POSU : forall p d q w, valid P p -> unit_cost go p d = Some (q, w) -> 0 < w).
      { intros p1 d1 q1 w1 _ E1. unfold unit_cost in E1. destruct (go p1 d1); [|discriminate]. injection E1 as _ <-. lia. }
      assert (HH : forall p d q w, valid P p -> allowed false d -> unit_cost go p d = Some (q, w) -> mdist p dest <= w + mdist q dest).
      { intros p1 d1 q1 w1 V1 A1 E1. apply (mdist_consistent P go dest p1 d1 q1 w1 O V1 A1 E1). }
      apply (ospine_ahead cmp TO P false (fun q => mdist q dest) ltac:(intros; apply mdist_nonneg) (unit_cost go) orig V (unit_HS P go HG) POSU (near_HA go orig dest HG NR0) HH (one_step_unit go P O)
        c hp (e :: tr) R (length path) a dd Z.of_nat Hg Hs Hl s s' i (length m) bb (fun j => nth j m dN) (fun j => Z.of_nat (s + j))).
      + unfold i, s'. lia.
      + exact LP.
      + lia.
      + unfold bb. cbn [firstn fold_left]. symmetry. exact As.
      + rewrite As'. exact Bl.
      + intros j Hj. apply lowest_unit. exists (s + j)%nat. split; [reflexivity |].
        assert (Lf : length (firstn j m) = j) by (apply firstn_length_le; lia).
        replace (s + j)%nat with (length (l0 ++ firstn j m)) by (rewrite app_length, Lf; reflexivity).
        apply (shortest_prefix false go orig (l0 ++ firstn j m) (skipn j m ++ l2) (bb j) dest).
        * rewrite X in AP. apply Forall_app in AP. destruct AP as (A0 & A12). apply Forall_app in A12. destruct A12 as (_ & A2).
          rewrite <- app_assoc, (app_assoc (firstn j m)), firstn_skipn. apply Forall_app. split; [exact A0 |]. apply Forall_app. auto.
        * rewrite follow_app, F0. apply BF. lia.
        * pose proof Fm as Y. rewrite <- (firstn_skipn j m), follow_app, (proj1 (BF j ltac:(lia))) in Y. change (follow go (bb j) (skipn j m) = Some q) in Y. rewrite follow_app, Y.
          pose proof FP as Z. rewrite X, follow_app, F0, follow_app, F1 in Z. exact Z.
        * rewrite <- app_assoc, (app_assoc (firstn j m)), firstn_skipn. replace (length (l0 ++ m ++ l2)) with (length path); [exact SH |]. rewrite X, !app_length. lia.
      + cbv beta. unfold s'. rewrite Lm. reflexivity.
      + intros j Hj. split; [|unfold unit_cost; rewrite (BS j Hj); f_equal; f_equal; lia].
        rewrite Forall_forall in Am. apply Am. apply nth_In. exact Hj.
      + intros j (J0 & Hj) AH. apply (NO j Hj). unfold Q. split; [exact J0 |]. rewrite <- Ai. exact AH.
  Qed.

  Lemma le_total : forall x y, le x y \/ le y x.
  Proof using TO.
    intros [k p] [k' q]. unfold ahead_by. cbn [fst snd]. destruct (Z.lt_trichotomy k k') as [L | [-> | L]]; [auto | | auto].
    destruct (cmp q p) eqn:E; [left; right; split; [reflexivity | discriminate] | left; right; split; [reflexivity | discriminate] |].
    right. right. split; [reflexivity |]. rewrite (to_flip _ TO), E. discriminate.
  Qed.

  Lemma olast_one : forall (K : nat -> Z * pos) n s, exists i, (s <= i <= s + n)%nat /\ forall j, (s <= j <= s + n)%nat -> le (K j) (K i).
  Proof.
    intros K n s. induction n as [|n (i & Hi & M)].
    - exists s. split; [lia |]. intros j Hj. replace j with s by lia. apply (ahead_by_laws cmp TO).
    - destruct (le_total (K i) (K (s + S n)%nat)) as [A | A].
      + exists (s + S n)%nat. split; [lia |]. intros j Hj. destruct (Nat.eq_dec j (s + S n)) as [-> | N]; [apply (ahead_by_laws cmp TO) |]. eapply (ahead_by_laws cmp TO); [apply M; lia | exact A].
      + exists i. split; [lia |]. intros j Hj. destruct (Nat.eq_dec j (s + S n)) as [-> | N]; [exact A | apply M; lia].
  Qed.

  Lemma ounique : forall go orig dest path path', valid P orig -> go_inside P go -> one_step P go ->
    foremost_by le go orig dest path -> foremost_by le go orig dest path' -> path = path'.
  Proof.
    intros go orig dest path path' V HG O (A & F & SH & K) (A' & F' & SH' & K'). cbv zeta in *.
    pose proof (distance_unique _ _ _ _ _ _ SH SH') as LE.
    destruct (nodes P go orig path dest V HG O F) as (Na & Fa & Sa). destruct (nodes P go orig path' dest V HG O F') as (Na' & Fa' & Sa').
    set (a := fun i => fold_left step (firstn i path) orig) in *. set (a' := fun i => fold_left step (firstn i path') orig) in *. cbv zeta in *.
    change (forall j, (j < length path)%nat -> go (a j) (nth j path dN) = Some (a (S j))) in Sa.
    change (forall j, (j <= length path)%nat -> follow go orig (firstn j path) = Some (a j) /\ valid P (a j)) in Fa.
    change (forall j, (j < length path')%nat -> go (a' j) (nth j path' dN) = Some (a' (S j))) in Sa'.
    change (forall j, (j <= length path')%nat -> follow go orig (firstn j path') = Some (a' j) /\ valid P (a' j)) in Fa'.
    change (a (length path) = dest) in Na. change (a' (length path') = dest) in Na'.
    assert (DI : forall i, (i <= length path)%nat -> at_distance false go orig i (a i)).
    { intros i Hi. rewrite <- (firstn_length_le path Hi) at 1. apply (shortest_prefix false go orig (firstn i path) (skipn i path) (a i) dest); rewrite ?firstn_skipn; try assumption; [apply Fa; exact Hi |].
      pose proof F as Y. rewrite <- (firstn_skipn i path), follow_app, (proj1 (Fa i Hi)) in Y. exact Y. }
    assert (DI' : forall i, (i <= length path')%nat -> at_distance false go orig i (a' i)).
    { intros i Hi. rewrite <- (firstn_length_le path' Hi) at 1. apply (shortest_prefix false go orig (firstn i path') (skipn i path') (a' i) dest); rewrite ?firstn_skipn; try assumption; [apply Fa'; exact Hi |].
      pose proof F' as Y. rewrite <- (firstn_skipn i path'), follow_app, (proj1 (Fa' i Hi)) in Y. exact Y. }
    (* segments of the two paths between the same positions *)
    assert (SEG : forall (l : list dir) s s', (s <= s')%nat -> (s' <= length l)%nat -> exists l1, length l1 = (s' - s)%nat /\ l = firstn s l ++ l1 ++ skipn s' l /\ (forall j, (j <= s' - s)%nat -> firstn s l ++ firstn j l1 = firstn (s + j) l)).
    { intros l s s' H1 H2. exists (skipn s (firstn s' l)). split; [rewrite skipn_length, firstn_length_le; lia |]. split.
      - rewrite <- (firstn_skipn s' l) at 1. rewrite <- (firstn_skipn s (firstn s' l)) at 1. rewrite firstn_firstn, Nat.min_l by lia. rewrite <- app_assoc. reflexivity.
      - intros j Hj. assert (E : firstn s (firstn s' l) = firstn s l) by (rewrite firstn_firstn, Nat.min_l by lia; reflexivity).
        assert (E2 : firstn (s + j) (firstn s' l) = firstn (s + j) l) by (rewrite firstn_firstn, Nat.min_l by lia; reflexivity).
        rewrite <- E2, <- E. apply firstn_plus. }
    assert (POSD : forall i, a i = a' i \/ a i <> a' i) by (intros i; destruct (pos_dec (a i) (a' i)); auto).
    assert (BOTH : forall go0 path1 path2 (b1 b2 : nat -> pos) s s', go0 = go -> length path1 = length path2 -> Forall (allowed false) path2 ->
      b1 = (fun i => fold_left step (firstn i path1) orig) -> b2 = (fun i => fold_left step (firstn i path2) orig) ->
      (forall i, (i <= length path1)%nat -> follow go orig (firstn i path1) = Some (b1 i)) -> (forall i, (i <= length path2)%nat -> follow go orig (firstn i path2) = Some (b2 i)) ->
      (forall l0 l1 l2 m p q u1 u2 x, path1 = l0 ++ l1 ++ l2 -> follow go orig l0 = Some p -> follow go p l1 = Some q -> Forall (allowed false) m -> length m = length l1 -> follow go p m = Some q ->
        l1 = u1 ++ u2 -> u1 <> [] -> u2 <> [] -> follow go p u1 = Some x -> exists v1 v2 y, m = v1 ++ v2 /\ v1 <> [] /\ v2 <> [] /\ follow go p v1 = Some y /\
        le (Z.of_nat (length u1) + (Z.abs (fst x - fst dest) + Z.abs (snd x - snd dest)), x) (Z.of_nat (length v1) + (Z.abs (fst y - fst dest) + Z.abs (snd y - snd dest)), y)) ->
      (s < s')%nat -> (s' <= length path1)%nat -> b1 s = b2 s -> b1 s' = b2 s' ->
      forall i, (s < i < s')%nat -> exists j, (s < j < s')%nat /\ le (Z.of_nat i + mdist (b1 i) dest, b1 i) (Z.of_nat j + mdist (b2 j) dest, b2 j)).
    { intros _ path1 path2 b1 b2 s s' _ LL A2 E1 E2 G1 G2 KK H1 H2 Es Es' i Hi.
      destruct (SEG path1 s s' ltac:(lia) H2) as (l1 & L1 & X1 & Y1). destruct (SEG path2 s s' ltac:(lia) ltac:(lia)) as (m & L2 & X2 & Y2).
      assert (FL : forall j, (j <= s' - s)%nat -> follow go (b1 s) (firstn j l1) = Some (b1 (s + j)%nat)).
      { intros j Hj. pose proof (G1 (s + j)%nat ltac:(lia)) as Z. rewrite <- (Y1 j Hj), follow_app, (G1 s ltac:(lia)) in Z. exact Z. }
      assert (FM : forall j, (j <= s' - s)%nat -> follow go (b1 s) (firstn j m) = Some (b2 (s + j)%nat)).
      { intros j Hj. pose proof (G2 (s + j)%nat ltac:(lia)) as Z. rewrite <- (Y2 j Hj), follow_app, (G2 s ltac:(lia)) in Z. rewrite Es. exact Z. }
      destruct (KK (firstn s path1) l1 (skipn s' path1) m (b1 s) (b1 s') (firstn (i - s) l1) (skipn (i - s) l1) (b1 i) X1) as (v1 & v2 & y & Ev & N1 & N2 & Fy & AH).
      - apply G1. lia.
      - pose proof (FL (s' - s)%nat (Nat.le_refl _)) as Z. rewrite <- L1, firstn_all, L1 in Z. replace (s + (s' - s))%nat with s' in Z by lia. exact Z.
      - rewrite X2 in A2. apply Forall_app in A2. destruct A2 as (_ & A2). apply Forall_app in A2. apply A2.
      - lia.
      - pose proof (FM (s' - s)%nat (Nat.le_refl _)) as Z. rewrite <- L2, firstn_all, L2 in Z. replace (s + (s' - s))%nat with s' in Z by lia. rewrite Es'. exact Z.
      - symmetry. apply firstn_skipn.
      - intros Z. assert (Y : length (firstn (i - s) l1) = (i - s)%nat) by (apply firstn_length_le; lia). rewrite Z in Y. cbn in Y. lia.
      - intros Z. pose proof (skipn_length (i - s) l1) as Y. rewrite Z in Y. cbn in Y. lia.
      - replace i with (s + (i - s))%nat at 2 by lia. apply FL. lia.
      - assert (LV : (0 < length v1)%nat /\ (0 < length v2)%nat) by (destruct v1, v2; cbn [length]; try congruence; lia).
        assert (LM : length m = (length v1 + length v2)%nat) by (rewrite Ev; apply app_length).
        assert (Ey : y = b2 (s + length v1)%nat).
        { pose proof (FM (length v1) ltac:(lia)) as Z. rewrite Ev, firstn_pre, Fy in Z. injection Z as ->. reflexivity. }
        exists (s + length v1)%nat. split; [lia |]. rewrite <- Ey. rewrite firstn_length_le in AH by lia. apply (ahead_by_less _ _ _ _ _ _ _ AH). unfold mdist. lia. }
    (* the first difference *)
    assert (EQD : forall i, nth i path dN = nth i path' dN \/ nth i path dN <> nth i path' dN) by (intros i; destruct (nth i path dN), (nth i path' dN); (left; reflexivity) || (right; discriminate)).
    assert (GO : forall s, (s <= length path)%nat -> firstn s path = firstn s path').
    { induction s as [|s IH]; intros Hs; [reflexivity |]. specialize (IH ltac:(lia)). rewrite (firstn_S path s), (firstn_S path' s) by lia. rewrite IH. f_equal. f_equal.
      destruct (EQD s) as [Y | ND]; [exact Y |]. exfalso.
      assert (As : a s = a' s) by (unfold a, a'; rewrite IH; reflexivity).
      assert (NS : a (S s) <> a' (S s)).
      { intros Z. apply ND. apply (step_same (a s)). rewrite <- (O (a s) _ _ (proj2 (Fa s ltac:(lia))) (Sa s ltac:(lia))), Z, As. apply (O (a' s) _ _ (proj2 (Fa' s ltac:(lia))) (Sa' s ltac:(lia))). }
      destruct (first_same (fun i => a i = a' i) POSD (length path - S s) (S s)) as (s' & Hs' & Es' & M).
      { replace (S s + (length path - S s))%nat with (length path) by lia. change (a (length path) = a' (length path)). rewrite Na. rewrite LE. symmetry. exact Na'. }
      assert (H2 : (S s < s')%nat) by (destruct (Nat.eq_dec s' (S s)) as [-> | N]; [contradiction | lia]).
      pose proof (BOTH go path path' a a' s s' eq_refl LE A' eq_refl eq_refl (fun i Hi => proj1 (Fa i Hi)) (fun i Hi => proj1 (Fa' i Hi)) K ltac:(lia) ltac:(lia) As Es') as B1.
      pose proof (BOTH go path' path a' a s s' eq_refl (eq_sym LE) A eq_refl eq_refl (fun i Hi => proj1 (Fa' i Hi)) (fun i Hi => proj1 (Fa i Hi)) K' ltac:(lia) ltac:(lia) (eq_sym As) (eq_sym Es')) as B2.
      destruct (olast_one (fun i => (Z.of_nat i + mdist (a i) dest, a i)) (s' - s - 2) (S s)) as (i & Hi & MX).
      destruct (B1 i ltac:(lia)) as (j & Hj & AH). destruct (B2 j ltac:(lia)) as (i' & Hi' & AH').
      pose proof (MX i' ltac:(lia)) as AH2. cbv beta in AH2. pose proof (proj1 (proj2 (proj2 (proj2 (ahead_by_laws cmp TO)))) _ _ _ AH' AH2) as AH3.
      pose proof (proj2 (proj2 (proj2 (proj2 (ahead_by_laws cmp TO)))) _ _ _ _ AH AH3) as E.
      assert (i = j) as <- by (apply (distance_unique false go orig i j (a i)); [apply DI; lia | rewrite E; apply DI'; lia]).
      apply (M i); [lia | exact E]. }
    rewrite <- (firstn_all path), <- (firstn_all path'), <- LE. apply GO. lia.
  Qed.

  Lemma odirect : forall go orig dest n path,
    valid P orig -> valid P dest -> go_inside P go -> one_step P go -> near go orig dest ->
    walk false go orig n dest -> Z.of_nat n = Z.abs (fst orig - fst dest) + Z.abs (snd orig - snd dest) ->
    (returns (fun fuel => search go fuel orig dest) (Ok path) <->
     foremost_by le go orig dest path /\ Z.of_nat n <= cols P * cols P /\ retraceable P orig dest).
  Proof.
    intros go orig dest n path V Vd HG O NR0 Wn En.
    assert (LEN : forall c hp e tr path0 m, ORun false (unit_cost go) (fun q => mdist q dest) orig le c hp (e :: tr) -> e_pos e = dest -> ~ popped tr dest ->
      bp P (lastdir (e :: tr)) orig m dest [] = Ok path0 -> length path0 = n).
    { intros c hp e tr path0 m R Ed Nd E. apply (fastar_direct P go orig dest c hp e tr path0 m n); try assumption; [apply (near_HA go orig dest HG NR0) | apply (orun_frun _ _ _ _ _ _ _ _ R)]. }
    assert (SH : forall path0, returns (fun fuel => search go fuel orig dest) (Ok path0) -> at_distance false go orig (length path0) dest).
    { intros path0 Hr. destruct (near_out go orig dest path0 V Vd HG NR0 Hr) as (c & hp & e & tr & R & Ed & Nd & E). rewrite (LEN c hp e tr path0 (maxn P) R Ed Nd (eq_sym E)). split; [exact Wn |].
      intros j Lj Wj. pose proof (walk_mdist P go orig j dest O HG V Wj) as X. unfold mdist in X. lia. }
    assert (RR : reachable false (move_of (unit_cost go)) orig dest) by (apply reachable_unit; exists n; exact Wn).
    assert (ALL : forall path0, returns (fun fuel => search go fuel orig dest) (Ok path0) -> foremost_by le go orig dest path0).
    { intros path0 Hr. apply (owhich go orig dest path0 V Vd HG O NR0 Hr (SH path0 Hr)). }
    split.
    - intros Hr. split; [apply ALL; exact Hr |]. pose proof (near_out go orig dest path V Vd HG NR0 Hr) as (c & hp & e & tr & R & Ed & Nd & E). symmetry in E. split.
      + rewrite <- (LEN c hp e tr path _ R Ed Nd E). destruct (bp_ok P WF (lastdir (e :: tr)) orig _ _ _ _ Vd E) as (ds & X & _ & _ & LL). rewrite app_nil_r in X. subst ds.
        unfold maxn in LL. nia.
      + destruct (near_outcome go orig dest V Vd HG NR0) as (r & Hr' & r0 & Ho & Hc & Hp). assert (r = Ret (Ok path)) as -> by (apply (settles_unique _ _ _ _ Hr'); exact Hr).
        destruct (retraceable_dec P orig dest) as [RT | RT]; [exact RT |]. apply (Hp RR) in RT. discriminate.
    - intros (FM & LL & RT). destruct (near_in go orig dest V Vd HG NR0 RT) as (r & Hr & Ho).
      enough (exists path', r = Ok path') as (path' & ->) by (rewrite (ounique go orig dest path path' V HG O FM (ALL path' Hr)); exact Hr).
      destruct (foutcome_cases P false (unit_cost go) (fun q => mdist q dest) orig V (unit_HS P go HG) (near_HA go orig dest HG NR0) WF (one_step_unit go P O) dest r (ooutcome_foutcome _ _ _ _ _ _ _ _ Ho)) as (UN & [(path' & -> & _) | [-> | ->]]); [eauto | |].
      + exfalso. apply (proj1 UN eq_refl). exact RR.
      + exfalso. destruct Ho as [(Y & _) | (c & hp & e & tr & R & Ed & Nd & _ & E)]; [discriminate |]. symmetry in E. rewrite <- Ed in E.
        destruct (foutcome_long P false (unit_cost go) (fun q => mdist q dest) orig V (unit_HS P go HG) (near_HA go orig dest HG NR0) WF (one_step_unit go P O) (fun p1 d1 q1 w1 V1 A1 E1 => mdist_consistent P go dest p1 d1 q1 w1 O V1 A1 E1) ltac:(intros; apply mdist_nonneg) c hp e tr (orun_frun _ _ _ _ _ _ _ _ R) E) as (path' & m & Eb & L).
        rewrite Ed in Eb. rewrite (LEN c hp e tr path' m R Ed Nd Eb) in L. lia.
  Qed.
End KeepBy.
