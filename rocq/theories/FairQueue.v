(** FairQueue.v -- the searches over a queue that pops any entry of lowest cost. *)

From Coq Require Import ZArith List Bool Lia Permutation.
From Verif Require Import Rust BoundedInt Dir PosT Pos SetMap CameFrom Heap Astar Ucs Queue
  Spec SpecSearch SpecOrder Lib Deque BoundedIntProofs PosTProofs PosTProofs2 PropDirProofs SetMapProofs Sim CameFromProofs BfProofs
  Fair FairSearch BestFirst SearchProofs UcsProofs AstarProofs PropUcsProofs PropAstarProofs.
Import ListNotations.
Open Scope Z_scope.

(** ** The loop over any iterator that follows the machine *)

Section Loop.
  Context (P : post) (D : bool).
  Context (succ : pos -> dir -> option (pos * Z)) (h : pos -> Z) (orig : pos).
  Context (Vo : valid P orig).
  Context (HS : forall p d q w, valid P p -> succ p d = Some (q, w) -> valid P q /\ 0 <= w).
  Context (HA : affordable D P succ orig).
  Context {S M : Type} (next : S -> exec (option (pos * dir) * S)).
  Context (mo : mapops (option dir) M) (RM : M -> (pos -> option dir) -> Prop) (LM : lawful_map P mo RM).
  Context (Rel : S -> (pos -> Z) -> heap -> Prop) (far : Prop).

  Notation FRun := (FRun D succ h orig).
  Notation expand := (expand D succ h).
  Notation e0 := (e0 orig).
  Notation c0 := (put (fun _ : pos => COST_MAX) orig 0).

  (** One call of [next] pops one entry, or panics. *)
  Definition follows : Prop := forall s c hp tr, FRun c hp tr -> Rel s c hp ->
    (hp = [] /\ next s = Ret (None, s)) \/
    (exists e rest c' hp' s', pops hp e rest /\ expand (e_pos e) (c, rest) = (c', hp') /\
       next s = Ret (Some (e_pos e, e_dir e), s') /\ Rel s' c' hp') \/
    (far /\ next s = Panic).

  Context (HN : follows).

  Fixpoint gloop (fuel : nat) (dest : pos) (from : M) (s : S) : exec (result M) :=
    match fuel with
    | O => Fuel
    | Datatypes.S fuel' =>
        '(o, s') <- next s ;;
        match o with
        | None => Ret (Err DestinationUnreachable)
        | Some (p, d) =>
            from' <- mp_set mo from p (Some d) ;;
            if pos_eqb p dest then Ret (Ok from') else gloop fuel' dest from' s'
        end
    end.

  Lemma gloop_spec : forall dest n c hp tr m f s, (Z.to_nat (measure P c hp) <= n)%nat -> FRun c hp tr -> Rel s c hp -> ~ popped tr dest ->
    RM m f -> (forall p, f p = lastdir tr p) ->
    exists r, (forall fuel, (n < fuel)%nat -> gloop fuel dest m s = r) /\
      ((r = Panic /\ far) \/
       (r = Ret (Err DestinationUnreachable) /\ exists c' tr', FRun c' [] tr' /\ ~ popped tr' dest) \/
       (exists c' hp' e tr' m' f', r = Ret (Ok m') /\ RM m' f' /\ FRun c' hp' (e :: tr') /\ e_pos e = dest /\ ~ popped tr' dest /\
          forall p, f' p = lastdir (e :: tr') p)).
  Proof.
    intros dest n. induction n as [n IH] using (well_founded_induction Wf_nat.lt_wf). intros c hp tr m f s Hn R RS N HM Hf.
    destruct (HN s c hp tr R RS) as [(-> & En) | [(e & rest & c' & hp' & s' & Ep & Ee & En & RS') | (F & En)]].
    - exists (Ret (Err DestinationUnreachable)). split; [intros [|fuel] L; [lia |]; cbn [gloop]; rewrite En; reflexivity |].
      right. left. split; [reflexivity | eauto].
    - pose proof (fmeasure_step P D succ h orig Vo HS HA _ _ _ _ _ _ _ R Ep Ee) as MS.
      pose proof (FRun1 D succ h orig _ _ _ _ _ _ _ R Ep Ee) as R'. pose proof (fmeasure_nonneg P D succ h orig Vo HS HA _ _ _ R') as MN.
      destruct (frun_fin P D succ h orig Vo HS HA c hp tr e R) as (_ & V); [apply (pops_In _ _ _ Ep); auto |].
      destruct (lm_set _ _ _ LM m f (e_pos e) (Some (e_dir e)) HM V) as (m' & Em & HM').
      assert (Hf' : forall p, put f (e_pos e) (Some (e_dir e)) p = lastdir (e :: tr) p).
      { intros p. unfold put. cbn [lastdir]. rewrite Hf. reflexivity. }
      destruct (pos_eqb (e_pos e) dest) eqn:Ed.
      + eexists. split; [intros [|fuel] L; [lia |]; cbn [gloop]; rewrite En; cbn [bind]; rewrite Em; cbn [bind]; rewrite Ed; reflexivity |].
        right. right. apply pos_eqb_eq in Ed. exists c', hp', e, tr, m', (put f (e_pos e) (Some (e_dir e))). split; [reflexivity |]. auto.
      + destruct n as [|n]; [lia |]. pose proof Ed as Ed'. apply pos_eqb_neq in Ed'.
        assert (N' : ~ popped (e :: tr) dest) by (intros (x & [<- | Hx] & Ex); [contradiction | apply N; exists x; auto]).
        destruct (IH n ltac:(lia) c' hp' (e :: tr) m' (put f (e_pos e) (Some (e_dir e))) s' ltac:(lia) R' RS' N' HM' Hf') as (r & Hr & K).
        exists r. split; [|exact K]. intros [|fuel] L; [lia |]. cbn [gloop]. rewrite En. cbn [bind]. rewrite Em. cbn [bind]. rewrite Ed. apply Hr. lia.
    - exists Panic. split; [intros [|fuel] L; [lia |]; cbn [gloop]; rewrite En; reflexivity | left; auto].
  Qed.

  Lemma gsearch : forall dest s0 (run : nat -> exec (result (list dir))), post_wf P -> valid P dest -> Rel s0 c0 [e0] ->
    (forall fuel, run fuel = bind (gloop fuel dest (mp_default mo None) s0)
       (fun r => match r with Err e => Ret (Err e) | Ok m => camefrom_into_path P mo fuel m orig dest end)) ->
    exists r, settles run r /\ (foutcome_any P D succ h orig dest r \/ (far /\ r = Panic)).
  Proof.
    intros dest s0 run W Vd R0 Hrun. set (k := Z.to_nat (measure P c0 [e0])).
    destruct (gloop_spec dest k c0 [e0] [] (mp_default mo None) (fun _ => None) s0) as (r & Hr & K).
    - reflexivity.
    - constructor.
    - exact R0.
    - intros (x & [] & _).
    - exact (lm_default _ _ _ LM None).
    - reflexivity.
    - destruct K as [(-> & F) | [(-> & c & tr & R & N) | (c & hp & e & tr & m & f & -> & HM & R & Ed & N & Hf)]].
      + exists Panic. split; [|right; auto]. exists (Datatypes.S k). intros fuel L. rewrite Hrun, Hr by lia. reflexivity.
      + assert (NR : ~ reachable D (move_of succ) orig dest).
        { intros RC. apply N. apply (frun_end_popped P D succ h orig Vo HS HA c tr dest R RC). }
        exists (Ret (Err DestinationUnreachable)). split.
        * exists (Datatypes.S k). intros fuel L. rewrite Hrun, Hr by lia. reflexivity.
        * left. exists (Err DestinationUnreachable). split; [left; auto |]. split; [left; reflexivity |]. intros RC. contradiction.
      + assert (RC : reachable D (move_of succ) orig dest).
        { rewrite <- Ed. apply (frun_popped_reachable P D succ h orig Vo HS HA _ _ _ (e_pos e) R). apply popped_head. }
        assert (Nd : f dest <> None) by (rewrite Hf; cbn [lastdir]; rewrite Ed, pos_eqb_refl; discriminate).
        assert (OU : foutcome P D succ h orig dest (bp P (lastdir (e :: tr)) orig (maxn P) dest [])).
        { right. exists c, hp, e, tr. split; [exact R |]. split; [exact Ed |]. split; [exact N |]. split; [exact RC | reflexivity]. }
        destruct (retraceable_dec P orig dest) as [RT | RT].
        * exists (Ret (bp P (lastdir (e :: tr)) orig (maxn P) dest [])). split.
          -- exists (Datatypes.S k + maxn P)%nat. intros fuel L. rewrite Hrun, Hr by lia. cbn [bind].
             rewrite (camefrom_sim P mo RM fuel m f orig dest W LM HM Vd).
             rewrite (into_path_gen P f orig dest fuel W Vd RT) by (assumption || (unfold maxn in L; lia)).
             f_equal. apply bp_ext. exact Hf.
          -- left. eexists. split; [exact OU |]. split; [left; reflexivity |]. intros _. split; [discriminate | contradiction].
        * exists Panic. split.
          -- exists (Datatypes.S k). intros fuel L. rewrite Hrun, Hr by lia. cbn [bind].
             rewrite (camefrom_sim P mo RM fuel m f orig dest W LM HM Vd).
             apply (into_path_panics P f orig dest fuel W Vd RT Nd).
          -- left. eexists. split; [exact OU |]. split; [right; auto |]. intros _. split; auto.
  Qed.

  (** What repeated calls yield. *)
  Lemma gcalls_ended : forall n s c tr, ~ far -> FRun c [] tr -> Rel s c [] ->
    next_calls next n s = Ret (repeat None n) /\ calls_state next n s = Ret s.
  Proof.
    intros n s c tr NF R RS. destruct (HN s c [] tr R RS) as [(_ & En) | [(e & rest & c' & hp' & s' & Ep & _) | (F & _)]].
    - induction n as [|n (IH1 & IH2)]; [split; reflexivity |]. cbn [next_calls calls_state repeat]. rewrite En. cbn [bind]. rewrite IH1, IH2. split; reflexivity.
    - apply pops_length in Ep. discriminate.
    - contradiction.
  Qed.

  Lemma giter : forall m c hp tr s, ~ far -> (Z.to_nat (measure P c hp) <= m)%nat -> FRun c hp tr -> Rel s c hp ->
    exists es : list entry,
      (forall n, next_calls next n s = Ret (items_then_none (map snd es) n)) /\
      (forall n, exists c' hp' s', calls_state next n s = Ret s' /\ Rel s' c' hp' /\ FRun c' hp' (rev (firstn n es) ++ tr)) /\
      exists c', FRun c' [] (rev es ++ tr).
  Proof.
    intros m. induction m as [m IH] using (well_founded_induction Wf_nat.lt_wf). intros c hp tr s NF Hm R RS.
    destruct (HN s c hp tr R RS) as [(-> & En) | [(e & rest & c' & hp' & s' & Ep & Ee & En & RS') | (F & En)]].
    - exists []. cbn [map rev app]. split; [|split; [|eauto]].
      + intros n. unfold items_then_none. rewrite firstn_nil. cbn [map app length]. rewrite Nat.sub_0_r. apply (gcalls_ended n s c tr NF R RS).
      + intros n. exists c, [], s. rewrite firstn_nil. cbn. split; [apply (gcalls_ended n s c tr NF R RS) | auto].
    - pose proof (fmeasure_step P D succ h orig Vo HS HA _ _ _ _ _ _ _ R Ep Ee) as MS.
      pose proof (FRun1 D succ h orig _ _ _ _ _ _ _ R Ep Ee) as R'. pose proof (fmeasure_nonneg P D succ h orig Vo HS HA _ _ _ R') as MN.
      destruct m as [|m]; [lia |].
      destruct (IH m ltac:(lia) c' hp' (e :: tr) s' NF ltac:(lia) R' RS') as (es & K1 & K2 & c2 & K3).
      exists (e :: es). split; [|split].
      + intros [|n]; [reflexivity |]. cbn [next_calls]. rewrite En. cbn [bind]. rewrite K1. cbn [bind].
        unfold items_then_none. cbn [map firstn length Nat.sub app]. destruct e as [pr [p d]]. reflexivity.
      + intros [|n]; [exists c, hp, s; auto |]. destruct (K2 n) as (c3 & hp3 & s3 & E3 & RS3 & R3).
        exists c3, hp3, s3. cbn [calls_state]. rewrite En. cbn [bind]. split; [exact E3 |]. split; [exact RS3 |].
        cbn [firstn rev]. rewrite <- app_assoc. exact R3.
      + exists c2. cbn [rev]. rewrite <- app_assoc. exact K3.
    - contradiction.
  Qed.
End Loop.

(** ** A fair queue *)

(** A queue that pops an element of the lowest cost as long as only elements with
    positions of the type [P] are pushed. *)
Record fair_on {H} (P : post) (qo : queueops H) (ok : H -> Prop) (els : H -> list entry) : Prop := {
  fo_new : ok (q_new qo) /\ els (q_new qo) = [];
  fo_push : forall h e, ok h -> valid P (e_pos e) -> ok (q_push qo h e) /\ Permutation (els (q_push qo h e)) (e :: els h);
  fo_pop : forall h, ok h ->
    match q_pop qo h with
    | None => els h = []
    | Some (e, h') => ok h' /\ Permutation (els h) (e :: els h') /\ forall x, In x (els h) -> e_prio e <= e_prio x
    end }.

Lemma fair_all : forall {H} {qo : queueops H} {ok els}, fair_queue qo ok els -> forall P, fair_on P qo ok els.
Proof. intros H qo ok els FQ P. constructor; [apply FQ | intros h e Hh _; apply FQ; exact Hh | apply FQ]. Qed.

Section Queue.
  Context {H : Type} (qo : queueops H) (ok : H -> Prop) (els : H -> list entry) (P : post) (FQ : fair_on P qo ok els).

  (** What [pop] does, seen from a list of the elements. *)
  Lemma fair_pop : forall q hp, ok q -> Permutation (els q) hp ->
    (hp = [] /\ q_pop qo q = None) \/
    (exists e q', q_pop qo q = Some (e, q') /\ ok q' /\ pops hp e (els q')).
  Proof.
    intros q hp Hq Pm. pose proof (fo_pop _ _ _ _ FQ q Hq) as K. destruct (q_pop qo q) as [[e q']|].
    - right. exists e, q'. destruct K as (Hq' & Pm' & L). split; [reflexivity |]. split; [exact Hq' |].
      assert (Pm2 : Permutation hp (e :: els q')) by (etransitivity; [symmetry; exact Pm | exact Pm']).
      split; [exact Pm2 |]. intros x Hx. apply L. apply (Permutation_in _ (Permutation_sym Pm)). exact Hx.
    - left. rewrite K in Pm. apply Permutation_nil in Pm. auto.
  Qed.

  Context {MC M : Type} (D : bool) (co : mapops Z MC) (mo : mapops (option dir) M).
  Context (RC : MC -> (pos -> Z) -> Prop) (RM : M -> (pos -> option dir) -> Prop).
  Context (LC : lawful_map P co RC) (LM : lawful_map P mo RM) (W : post_wf P).

  Definition Rel (m : MC) (q : H) (c : pos -> Z) (hp : heap) : Prop := RC m c /\ ok q /\ Permutation (els q) hp.

  Lemma rel_push : forall m q c hp p v e, Rel m q c hp -> valid P p -> valid P (e_pos e) ->
    exists m', mp_set co m p v = Ret m' /\ Rel m' (q_push qo q e) (put c p v) (e :: hp).
  Proof.
    intros m q c hp p v e (H1 & H2 & H3) V Ve. destruct (lm_set _ _ _ LC m c p v H1 V) as (m' & E & R'). exists m'. split; [exact E |].
    destruct (fo_push _ _ _ _ FQ q e H2 Ve) as (K1 & K2). split; [exact R' |]. split; [exact K1 |]. etransitivity; [exact K2 | apply perm_skip; exact H3].
  Qed.

  Lemma rel_new : forall orig, valid P orig -> exists m', mp_set co (mp_new co COST_MAX) orig 0 = Ret m' /\
    Rel m' (q_push qo (q_new qo) (0, (orig, dir_default))) (put (fun _ => COST_MAX) orig 0) [e0 orig].
  Proof.
    intros orig V. apply rel_push; [|exact V | exact V]. split; [exact (lm_new _ _ _ LC COST_MAX) |].
    destruct (fo_new _ _ _ _ FQ) as (K1 & K2). split; [exact K1 |]. rewrite K2. apply Permutation_refl.
  Qed.

  (** *** Uniform-cost search *)

  Section Ucs.
    Context (go : pos -> dir -> option (pos * Z)) (orig dest : pos) (Vo : valid P orig) (Vd : valid P dest).
    Context (HS : forall p d q w, valid P p -> go p d = Some (q, w) -> valid P q /\ 0 <= w).
    Context (HA : affordable D P go orig).

    Notation h0 := (fun _ : pos => 0).
    Notation URel := (fun it => Rel (qu_cost it) (qu_frontier it)).

    Lemma ucsq_step_relax : forall p it c hp d, URel it c hp -> bounded D go orig c -> c p < COST_MAX -> allowed D d ->
      exists it', ucsq_step_dir qo co go p it d = Ret it' /\ let '(c', hp') := relax go h0 p (c, hp) d in URel it' c' hp'.
    Proof.
      intros p it c hp d R B L A. unfold ucsq_step_dir, relax. pose proof (bounded_valid P D go orig Vo HS c p B L) as V.
      destruct (go p d) as [[q w]|] eqn:E; [|exists it; auto].
      destruct (bounded_sum P D go h0 orig Vo HS HA c p d q w B L A E) as (S1 & _). destruct (HS p d q w V E) as (Vq & Hw).
      pose proof R as (R1 & _). rewrite (lm_get _ _ _ LC _ _ p R1 V). cbn [bind].
      unfold uadd. rewrite usize_arith by (destruct B as (_ & B & _); pose proof (B p); unfold COST_MAX in *; lia). cbn [bind].
      rewrite (lm_get _ _ _ LC _ _ q R1 Vq). cbn [bind].
      destruct (c p + w <? c q); [|exists it; auto].
      destruct (rel_push _ _ _ _ q (c p + w) (c p + w + 0, (q, opp d)) R Vq Vq) as (m' & -> & R'). cbn [bind]. rewrite dir_neg_opp. cbn [bind].
      eexists. split; [reflexivity |]. cbn [qu_cost qu_frontier]. rewrite Z.add_0_r in R'. rewrite Z.add_0_r. exact R'.
    Qed.

    Lemma ucsq_follows : follows D go h0 orig (ucsq_next qo D co go) URel False.
    Proof.
      intros it c hp tr R (H1 & H2 & H3). unfold ucsq_next.
      destruct (fair_pop _ _ H2 H3) as [(-> & ->) | (e & q' & -> & Hq' & Ep)]; [left; auto |]. right. left.
      destruct (frun_fin P D go h0 orig Vo HS HA c hp tr e R) as (L & V); [apply (pops_In _ _ _ Ep); auto |].
      pose proof (frun_bounded P D go h0 orig Vo HS HA _ _ _ R) as B.
      destruct (expand D go h0 (e_pos e) (c, els q')) as [c' hp'] eqn:Ee.
      assert (K : forall ds it c hp, (forall d, In d ds -> allowed D d) -> URel it c hp -> bounded D go orig c -> c (e_pos e) < COST_MAX ->
        exists it', foldM (ucsq_step_dir qo co go (e_pos e)) ds it = Ret it' /\ let '(c', hp') := fold_left (relax go h0 (e_pos e)) ds (c, hp) in URel it' c' hp').
      { clear - W Vo HS HA LC FQ. induction ds as [|d ds IH]; intros it c hp A R B L; [exists it; auto |]. cbn [foldM fold_left].
        pose proof (A d (or_introl eq_refl)) as Ad. destruct (ucsq_step_relax (e_pos e) it c hp d R B L Ad) as (it1 & -> & R1).
        destruct (relax go h0 (e_pos e) (c, hp) d) as [c1 hp1] eqn:E1. cbn [bind]. apply IH.
        - intros d' Hd'. apply A. right. exact Hd'.
        - exact R1.
        - eapply (bounded_relax P D go h0 orig Vo HS HA); eassumption.
        - pose proof (relax_le go h0 (e_pos e) c hp d c1 hp1 E1 (e_pos e)). lia. }
      destruct (K (dirs D) (QUIt (qu_cost it) q') c (els q') (fun d => proj1 (dirs_allowed D d))) as (it' & E & R'); [|exact B | exact L |].
      { split; [exact H1 |]. split; [exact Hq' | apply Permutation_refl]. }
      match type of R' with context [fold_left ?f ?l ?a] => replace (fold_left f l a) with (c', hp') in R' by (symmetry; exact Ee) end.
       exists e, (els q'), c', hp', it'. split; [exact Ep |]. split; [exact Ee |]. split; [|exact R'].
      destruct e as [pr [p d]]. cbn [e_pos e_dir fst snd] in *. rewrite dir_iter_dirs. cbn [bind]. rewrite E. reflexivity.
    Qed.

    Lemma ucsq_outcome :
      exists r, settles (fun fuel => ucsq_search_path qo P D co mo go fuel orig dest) r /\ foutcome_any P D go h0 orig dest r.
    Proof.
      destruct (rel_new orig Vo) as (m0 & E0 & R0).
      destruct (gsearch P D go h0 orig Vo HS HA (ucsq_next qo D co go) mo RM LM _ False ucsq_follows dest
        (QUIt m0 (q_push qo (q_new qo) (0, (orig, dir_default)))) (fun fuel => ucsq_search_path qo P D co mo go fuel orig dest) W Vd R0) as (r & Hr & [K | ([] & _)]).
      - intros fuel. unfold ucsq_search_path, ucsq_search_mapmov, ucsq_new. rewrite E0. reflexivity.
      - exists r. split; [exact Hr | exact K].
    Qed.

    Lemma ucsq_trace : exists es : list entry,
      (forall n, ucsq_yields_with qo co D go orig n = Ret (items_then_none (map snd es) n)) /\
      (forall n, exists c hp, (forall p, valid P p -> ucsq_records_with qo co D go orig n p = Ret (c p)) /\ FRun D go h0 orig c hp (rev (firstn n es))) /\
      exists c, FRun D go h0 orig c [] (rev es).
    Proof.
      destruct (rel_new orig Vo) as (m0 & E0 & R0).
      destruct (giter P D go h0 orig Vo HS HA (ucsq_next qo D co go) _ False ucsq_follows _ _ _ []
        (QUIt m0 (q_push qo (q_new qo) (0, (orig, dir_default)))) (fun F => F) (Nat.le_refl _) (FRun0 D go h0 orig) R0) as (es & K1 & K2 & c & K3).
      rewrite app_nil_r in K3. exists es. split; [|split; [|eauto]].
      - intros n. unfold ucsq_yields_with, ucsq_new. rewrite E0. apply K1.
      - intros n. destruct (K2 n) as (c' & hp' & s' & E & RS & R). rewrite app_nil_r in R. exists c', hp'. split; [|exact R].
        intros p Vp. unfold ucsq_records_with, ucsq_new. rewrite E0. cbn [bind]. rewrite E. cbn [bind]. apply (lm_get _ _ _ LC); [apply RS | exact Vp].
    Qed.
  End Ucs.

  (** *** A* search *)

  Section Astar.
    Context (go : pos -> dir -> option pos) (orig dest : pos) (Vo : valid P orig) (Vd : valid P dest) (HG : go_inside P go).
    Context (rs : list pos) (HR : forall q, reachable D go orig q -> In q rs) (HL : Z.of_nat (length rs) <= COST_MAX).

    Notation succ := (unit_cost go).
    Notation hd := (fun p => mdist p dest).
    Notation ARel := (fun it => Rel (qa_cost it) (qa_frontier it)).
    Notation far := (too_far P D go orig dest rs).

    Lemma astarq_step_relax : forall p it c hp d, ARel it c hp -> bounded D succ orig c -> c p < COST_MAX -> allowed D d ->
      (exists it', astarq_step_dir qo P co go dest p it d = Ret it' /\ let '(c', hp') := relax succ hd p (c, hp) d in ARel it' c' hp') \/
      (far /\ astarq_step_dir qo P co go dest p it d = Panic).
    Proof.
      intros p it c hp d R B L A. unfold astarq_step_dir, relax.
      destruct B as (_ & Hr & B). destruct (B p L) as (l & T).
      destruct (trail_unit D P go orig c l p (c p) T Vo HG) as (Ll & ND & _ & V & RCH).
      assert (LS : (length l <= length rs)%nat).
      { apply NoDup_incl_length; [exact ND |]. intros q Hq. apply HR.
        exact (proj1 (Forall_forall _ _) (proj2 (trail_reach D go orig _ _ _ _ T)) q Hq). }
      pose proof (Hr p) as Hp. pose proof R as (R1 & _). rewrite (lm_get _ _ _ LC _ _ p R1 V). cbn [bind]. unfold uadd.
      rewrite usize_arith by (unfold COST_MAX in *; lia). cbn [bind]. unfold unit_cost.
      destruct (go p d) as [q|] eqn:E; [|left; exists it; auto].
      pose proof (unit_reach D go orig p d q RCH A E) as RQ. pose proof (HG p d q V E) as Vq.
      rewrite (lm_get _ _ _ LC _ _ q R1 Vq). cbn [bind].
      destruct (c p + 1 <? c q); [|left; exists it; auto].
      destruct (rel_push _ _ _ _ q (c p + 1) (c p + 1 + mdist q dest, (q, opp d)) R Vq Vq) as (m' & -> & R'). cbn [bind].
      destruct (computable_dec P D go orig dest rs HR q) as [(Me & Q) | N].
      - left. pose proof (mdist_nonneg q dest). unfold mdist in Q, H0.
        rewrite manhattan_measurable by (first [exact W | exact Me | unfold COST_MAX in *; lia]). cbn [bind].
        rewrite usize_arith by (unfold COST_MAX in *; lia). cbn [bind]. rewrite dir_neg_opp. cbn [bind].
        eexists. split; [reflexivity | exact R'].
      - assert (TF : far) by (exists q; auto).
        assert (X : (measurable P q dest /\ mdist q dest <= 18446744073709551615) \/ ~ (measurable P q dest /\ mdist q dest <= 18446744073709551615)).
        { unfold measurable, in_bty. lia. }
        destruct X as [(Me & Q) | X]; [|right; split; [exact TF |]; rewrite manhattan_panics; [reflexivity | exact W | exact X]].
        rewrite manhattan_measurable; [|exact W | exact Me | exact Q]. cbn [bind]. fold (mdist q dest).
        unfold arith. destruct (in_ity usize (c p + 1 + mdist q dest)); cbn [bind]; [|right; auto].
        rewrite dir_neg_opp. cbn [bind]. left. eexists. split; [reflexivity | exact R'].
    Qed.

    Lemma astarq_follows : follows D succ hd orig (astarq_next qo P D co go dest) ARel far.
    Proof.
      pose proof (unit_HS P go HG) as HS. pose proof (gen_HA P D go orig HG rs HR HL) as HA.
      intros it c hp tr R (H1 & H2 & H3). unfold astarq_next.
      destruct (fair_pop _ _ H2 H3) as [(-> & ->) | (e & q' & -> & Hq' & Ep)]; [left; auto |]. right.
      destruct (frun_fin P D succ hd orig Vo HS HA c hp tr e R) as (L & V); [apply (pops_In _ _ _ Ep); auto |].
      pose proof (frun_bounded P D succ hd orig Vo HS HA _ _ _ R) as B.
      destruct (expand D succ hd (e_pos e) (c, els q')) as [c' hp'] eqn:Ee.
      assert (K : forall ds it c hp, (forall d, In d ds -> allowed D d) -> ARel it c hp -> bounded D succ orig c -> c (e_pos e) < COST_MAX ->
        (exists it', foldM (astarq_step_dir qo P co go dest (e_pos e)) ds it = Ret it' /\
           let '(c', hp') := fold_left (relax succ hd (e_pos e)) ds (c, hp) in ARel it' c' hp') \/
        (far /\ foldM (astarq_step_dir qo P co go dest (e_pos e)) ds it = Panic)).
      { clear - W Vo Vd HG HR HL HS HA LC FQ. induction ds as [|d ds IH]; intros it c hp A R B L; [left; exists it; auto |]. cbn [foldM fold_left].
        pose proof (A d (or_introl eq_refl)) as Ad. destruct (astarq_step_relax (e_pos e) it c hp d R B L Ad) as [(it1 & -> & R1) | (F & ->)]; [|right; auto].
        destruct (relax succ hd (e_pos e) (c, hp) d) as [c1 hp1] eqn:E1. cbn [bind]. apply IH.
        - intros d' Hd'. apply A. right. exact Hd'.
        - exact R1.
        - eapply (bounded_relax P D succ hd orig Vo HS HA); eassumption.
        - pose proof (relax_le succ hd (e_pos e) c hp d c1 hp1 E1 (e_pos e)). lia. }
      destruct (K (dirs D) (QAIt (qa_cost it) q') c (els q') (fun d => proj1 (dirs_allowed D d))) as [(it' & E & R') | (F & E)]; [|exact B | exact L | |].
      { split; [exact H1 |]. split; [exact Hq' | apply Permutation_refl]. }
      - left. match type of R' with context [fold_left ?f ?l ?a] => replace (fold_left f l a) with (c', hp') in R' by (symmetry; exact Ee) end.
       exists e, (els q'), c', hp', it'. split; [exact Ep |]. split; [exact Ee |]. split; [|exact R'].
        destruct e as [pr [p d]]. cbn [e_pos e_dir fst snd] in *. rewrite dir_iter_dirs. cbn [bind]. rewrite E. reflexivity.
      - right. split; [exact F |]. destruct e as [pr [p d]]. cbn [e_pos e_dir fst snd] in *. rewrite dir_iter_dirs. cbn [bind]. rewrite E. reflexivity.
    Qed.

    Lemma astarq_outcome :
      exists r, settles (fun fuel => astarq_search_path qo P D co mo go fuel orig dest) r /\
        (foutcome_any P D succ hd orig dest r \/ (far /\ r = Panic)).
    Proof.
      destruct (rel_new orig Vo) as (m0 & E0 & R0).
      apply (gsearch P D succ hd orig Vo (unit_HS P go HG) (gen_HA P D go orig HG rs HR HL) (astarq_next qo P D co go dest) mo RM LM _ far astarq_follows dest
        (QAIt m0 (q_push qo (q_new qo) (0, (orig, dir_default))))); [exact W | exact Vd | exact R0 |].
      intros fuel. unfold astarq_search_path, astarq_search_mapmov, astarq_new. rewrite E0. cbn [bind].
      assert (X : forall n f it, astarq_search_loop qo P D co mo go n dest f it = gloop (astarq_next qo P D co go dest) mo n dest f it).
      { induction n as [|n IH]; intros f it; [reflexivity |]. cbn [astarq_search_loop gloop].
        destruct (astarq_next qo P D co go dest it) as [[[[p d]|] it'] | | |]; [|reflexivity..]. cbn [bind].
        destruct (mp_set mo f p (Some d)); [|reflexivity..]. cbn [bind]. destruct (pos_eqb p dest); [reflexivity | apply IH]. }
      rewrite X. reflexivity.
    Qed.

    Lemma astarq_trace : ~ far -> exists es : list entry,
      (forall n, astarq_yields_with qo co P D go orig dest n = Ret (items_then_none (map snd es) n)) /\
      (forall n, exists c hp, (forall p, valid P p -> astarq_records_with qo co P D go orig dest n p = Ret (c p)) /\ FRun D succ hd orig c hp (rev (firstn n es))) /\
      exists c, FRun D succ hd orig c [] (rev es).
    Proof.
      intros NF. destruct (rel_new orig Vo) as (m0 & E0 & R0).
      destruct (giter P D succ hd orig Vo (unit_HS P go HG) (gen_HA P D go orig HG rs HR HL) (astarq_next qo P D co go dest) _ far astarq_follows _ _ _ []
        (QAIt m0 (q_push qo (q_new qo) (0, (orig, dir_default)))) NF (Nat.le_refl _) (FRun0 D succ hd orig) R0) as (es & K1 & K2 & c & K3).
      rewrite app_nil_r in K3. exists es. split; [|split; [|eauto]].
      - intros n. unfold astarq_yields_with, astarq_new. rewrite E0. apply K1.
      - intros n. destruct (K2 n) as (c' & hp' & s' & E & RS & R). rewrite app_nil_r in R. exists c', hp'. split; [|exact R].
        intros p Vp. unfold astarq_records_with, astarq_new. rewrite E0. cbn [bind]. rewrite E. cbn [bind]. apply (lm_get _ _ _ LC); [apply RS | exact Vp].
    Qed.
  End Astar.
End Queue.

(** ** What the outcomes mean *)

Lemma fucs_means : forall P D go orig dest r, post_wf P -> valid P orig ->
  go_inside P (move_of go) -> one_step P (move_of go) -> affordable D P go orig ->
  foutcome_any P D go (fun _ => 0) orig dest r ->
  (r = Ret (Err DestinationUnreachable) <-> ~ reachable D (move_of go) orig dest) /\
  (r = Panic <-> reachable D (move_of go) orig dest /\ ~ retraceable P orig dest) /\
  (r = Ret (Err DestinationUnreachable) \/ r = Panic \/
   (r = Ret (Err Loop) /\ forall rs, (forall p, reachable D (move_of go) orig p -> In p rs) -> cols P * cols P < Z.of_nat (length rs)) \/
   exists path, r = Ret (Ok path) /\ Forall (allowed D) path /\ follow (move_of go) orig path = Some dest /\
     Z.of_nat (length path) <= cols P * cols P /\
     (cost_of_entering D P go -> exists c, follow_cost go orig path = Some (dest, c) /\ lowest_cost D go orig c dest)).
Proof.
  intros P D go orig dest r WF V HG O SC (r0 & Ho & Hc & Hp). pose proof (afford_HS D P go orig HG SC) as HS.
  destruct (foutcome_cases P D go (fun _ => 0) orig V HS SC WF O dest r0 Ho) as (K1 & K2).
  assert (RD : reachable D (move_of go) orig dest \/ ~ reachable D (move_of go) orig dest) by (destruct Ho as [(_ & NR) | (? & ? & ? & ? & _ & _ & _ & RC & _)]; auto).
  split; [|split].
  + destruct Hc as [-> | (-> & RC)]; [|split; [discriminate | contradiction]]. rewrite <- K1. split; [congruence | intros ->; reflexivity].
  + split.
    * intros E. destruct RD as [RC | NR]; [|destruct Hc as [-> | (_ & RC)]; [discriminate | contradiction]].
      split; [exact RC |]. apply Hp; assumption.
    * intros (RC & NT). apply Hp; assumption.
  + destruct Hc as [-> | (-> & _)]; [|auto]. destruct K2 as [(path & -> & F & A & L) | [-> | ->]]; [|auto|].
    * right. right. right. exists path. split; [reflexivity |]. split; [exact A |]. split; [exact F |]. split; [exact L |]. intros HU.
      destruct Ho as [(X & _) | (c & hp & e & tr & R & Ed & N & RC & E)]; [discriminate |]. symmetry in E.
      destruct (foutcome_optimal P D go (fun _ => 0) orig V HS SC WF O) with (dest := dest) (path := path) (m := maxn P) (c := c) (hp := hp) (e := e) (tr := tr) as (F' & L'); try assumption.
      -- intros p d q w Vp Ad Es. destruct (HS p d q w Vp Es). lia.
      -- intros. lia.
      -- intros x Hx _. rewrite Z.add_0_r. apply (x_prio _ _ _ _ _ _ (fexact_run P D go orig V HS SC HU _ _ _ R)). auto.
      -- exists (c dest). split; [exact F' |]. split; [|exact L']. exists path. auto.
    * right. right. left. split; [reflexivity |]. intros rs Hrs. apply (foutcome_loop_gen P D go (fun _ => 0) orig V HS SC WF O) with (dest := dest).
      -- intros p d q w Vp Ad E. destruct (HS p d q w Vp E). lia.
      -- intros. lia.
      -- exact Ho.
      -- exact Hrs.
Qed.

Lemma fastar_means : forall P D go orig dest rs r, post_wf P -> valid P orig -> go_inside P go -> one_step P go ->
  (forall p, reachable D go orig p -> In p rs) -> Z.of_nat (length rs) <= COST_MAX ->
  foutcome_any P D (unit_cost go) (fun p => mdist p dest) orig dest r ->
  (r = Ret (Err DestinationUnreachable) <-> ~ reachable D go orig dest) /\
  (r = Panic <-> reachable D go orig dest /\ ~ retraceable P orig dest) /\
  (r = Ret (Err DestinationUnreachable) \/ r = Panic \/
   (r = Ret (Err Loop) /\ (D = false -> cols P * cols P < Z.of_nat (length rs))) \/
   exists path, r = Ret (Ok path) /\ Forall (allowed D) path /\ follow go orig path = Some dest /\
     Z.of_nat (length path) <= cols P * cols P /\
     (D = false -> forall n, walk D go orig n dest -> Z.of_nat n = mdist orig dest -> length path = n)).
Proof.
  intros P D go orig dest rs r WF V HG O HR HL (r0 & Ho & Hc & Hp).
  pose proof (gen_HA P D go orig HG rs HR HL) as HA. pose proof (unit_HS P go HG) as HS.
  destruct (foutcome_cases P D (unit_cost go) (fun q => mdist q dest) orig V HS HA WF (one_step_unit go P O) dest r0 Ho) as (K1 & K2).
  rewrite reachable_unit in *.
  assert (RD : reachable D go orig dest \/ ~ reachable D go orig dest).
  { destruct Ho as [(_ & NR) | (? & ? & ? & ? & _ & _ & _ & RC & _)]; rewrite reachable_unit in *; auto. }
  split; [|split].
  + destruct Hc as [-> | (-> & RC)]; [|split; [discriminate | contradiction]]. rewrite <- K1. split; [congruence | intros ->; reflexivity].
  + split.
    * intros E. destruct RD as [RC | NR]; [|destruct Hc as [-> | (_ & RC)]; [discriminate | contradiction]].
      split; [exact RC |]. apply Hp; assumption.
    * intros (RC & NT). apply Hp; assumption.
  + destruct Hc as [-> | (-> & _)]; [|auto]. destruct K2 as [(path & -> & F & A & L) | [-> | ->]]; [|auto|].
    * right. right. right. exists path. rewrite follow_unit in F. split; [reflexivity |]. split; [exact A |]. split; [exact F |]. split; [exact L |].
      intros -> n Hw Hn. destruct Ho as [(X & _) | (c & hp & e & tr & R & Ed & N & RC & E)]; [discriminate |]. symmetry in E.
      exact (fastar_direct P go orig dest c hp e tr path _ n WF V HG O HA R Ed N E Hw Hn).
    * right. right. left. split; [reflexivity |]. intros ->.
      apply (foutcome_loop_gen P false (unit_cost go) (fun q => mdist q dest) orig V HS HA WF (one_step_unit go P O)) with (dest := dest).
      -- intros p d q w Vp Ad E. apply (mdist_consistent P go dest p d q w O Vp Ad E).
      -- intros. apply mdist_nonneg.
      -- exact Ho.
      -- intros q Hq. apply HR. apply (reachable_unit false go). exact Hq.
Qed.
