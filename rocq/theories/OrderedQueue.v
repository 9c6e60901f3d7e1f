(** OrderedQueue.v -- the searches over a queue that breaks ties by an order. *)

From Coq Require Import ZArith List Bool Lia Permutation.
From Verif Require Import Rust BoundedInt Dir PosT Pos SetMap CameFrom Heap Astar Ucs Queue
  Spec SpecSearch SpecOrder SpecBtree SpecOrderPath Lib Deque BoundedIntProofs PosTProofs PosTProofs2 PropDirProofs SetMapProofs Sim CameFromProofs BfProofs
  Fair FairSearch BestFirst Ordered SearchProofs UcsProofs AstarProofs PropUcsProofs PropAstarProofs FairQueue.
Import ListNotations.
Open Scope Z_scope.

Section Loop.
  Context (P : post) (D : bool).
  Context (succ : pos -> dir -> option (pos * Z)) (h : pos -> Z) (orig : pos).
  Context (Vo : valid P orig).
  Context (HS : forall p d q w, valid P p -> succ p d = Some (q, w) -> valid P q /\ 0 <= w).
  Context (HA : affordable D P succ orig).
  Context (le : Z * pos -> Z * pos -> Prop).
  Context {S M : Type} (next : S -> exec (option (pos * dir) * S)).
  Context (mo : mapops (option dir) M) (RM : M -> (pos -> option dir) -> Prop) (LM : lawful_map P mo RM).
  Context (Rel : S -> (pos -> Z) -> heap -> Prop) (far : Prop).

  Notation ORun := (ORun D succ h orig le).
  Notation expand := (expand D succ h).
  Notation e0 := (e0 orig).
  Notation c0 := (put (fun _ : pos => COST_MAX) orig 0).

  Definition ofollows : Prop := forall s c hp tr, ORun c hp tr -> Rel s c hp ->
    (hp = [] /\ next s = Ret (None, s)) \/
    (exists e rest c' hp' s', opops le hp e rest /\ expand (e_pos e) (c, rest) = (c', hp') /\
       next s = Ret (Some (e_pos e, e_dir e), s') /\ Rel s' c' hp') \/
    (far /\ next s = Panic).

  Context (HN : ofollows).

  Definition ooutcome_any (dest : pos) (r : exec (result (list dir))) : Prop :=
    exists r0, ooutcome D succ h orig le P dest r0 /\ (r = Ret r0 \/ (r = Panic /\ reachable D (move_of succ) orig dest)) /\
      (reachable D (move_of succ) orig dest -> (r = Panic <-> ~ retraceable P orig dest)).

  Lemma ogloop_spec : forall dest n c hp tr m f s, (Z.to_nat (measure P c hp) <= n)%nat -> ORun c hp tr -> Rel s c hp -> ~ popped tr dest ->
    RM m f -> (forall p, f p = lastdir tr p) ->
    exists r, (forall fuel, (n < fuel)%nat -> gloop next mo fuel dest m s = r) /\
      ((r = Panic /\ far) \/
       (r = Ret (Err DestinationUnreachable) /\ exists c' tr', ORun c' [] tr' /\ ~ popped tr' dest) \/
       (exists c' hp' e tr' m' f', r = Ret (Ok m') /\ RM m' f' /\ ORun c' hp' (e :: tr') /\ e_pos e = dest /\ ~ popped tr' dest /\
          forall p, f' p = lastdir (e :: tr') p)).
  Proof.
    intros dest n. induction n as [n IH] using (well_founded_induction Wf_nat.lt_wf). intros c hp tr m f s Hn R RS N HM Hf.
    destruct (HN s c hp tr R RS) as [(-> & En) | [(e & rest & c' & hp' & s' & Ep & Ee & En & RS') | (F & En)]].
    - exists (Ret (Err DestinationUnreachable)). split; [intros [|fuel] L; [lia |]; cbn [gloop]; rewrite En; reflexivity |].
      right. left. split; [reflexivity | eauto].
    - pose proof (fmeasure_step P D succ h orig Vo HS HA _ _ _ _ _ _ _ (orun_frun _ _ _ _ _ _ _ _ R) (proj1 Ep) Ee) as MS.
      pose proof (ORun1 D succ h orig le _ _ _ _ _ _ _ R Ep Ee) as R'. pose proof (fmeasure_nonneg P D succ h orig Vo HS HA _ _ _ (orun_frun _ _ _ _ _ _ _ _ R')) as MN.
      destruct (frun_fin P D succ h orig Vo HS HA c hp tr e (orun_frun _ _ _ _ _ _ _ _ R)) as (_ & V); [apply (pops_In _ _ _ (proj1 Ep)); auto |].
      destruct (lm_set _ _ _ LM m f (e_pos e) (Some (e_dir e)) HM V) as (m' & Em & HM').
      assert (Hf' : forall p, put f (e_pos e) (Some (e_dir e)) p = lastdir (e :: tr) p).
      { intros p. unfold put. cbn [lastdir]. rewrite Hf. reflexivity. }
      destruct (pos_eqb (e_pos e) dest) eqn:Ed.
      + eexists. split; [intros [|fuel] L; [lia |]; cbn [gloop]; rewrite En; cbn [bind]; rewrite Em; cbn [bind]; rewrite Ed; reflexivity |].
        right. right. apply pos_eqb_eq in Ed. exists c', hp', e, tr, m', (put f (e_pos e) (Some (e_dir e))). split; [reflexivity |]. auto.
      + destruct n as [|n]; [lia |]. pose proof Ed as Ed'. apply pos_eqb_neq in Ed'.
        assert (N' : ~ popped (e :: tr) dest) by (intros (x & [<- | Hx] & Ex); [contradiction | apply N; exists x; auto]).
        destruct (IH n ltac:(lia) c' hp' (e :: tr) m' (put f (e_pos e) (Some (e_dir e))) s' ltac:(lia) R' RS' N' HM' Hf') as (r & Hr & K).
        exists r. split; [|exact K]. intros [|fuel] L; [lia |]. cbn [gloop]. rewrite En. cbn [bind]. rewrite Em. cbn [bind]. rewrite Ed. apply Hr. lia.
    - exists Panic. split; [intros [|fuel] L; [lia |]; cbn [gloop]; rewrite En; reflexivity | left; auto].
  Qed.

  Lemma ogsearch : forall dest s0 (run : nat -> exec (result (list dir))), post_wf P -> valid P dest -> Rel s0 c0 [e0] ->
    (forall fuel, run fuel = bind (gloop next mo fuel dest (mp_default mo None) s0)
       (fun r => match r with Err e => Ret (Err e) | Ok m => camefrom_into_path P mo fuel m orig dest end)) ->
    exists r, settles run r /\ (ooutcome_any dest r \/ (far /\ r = Panic)).
  Proof.
    intros dest s0 run W Vd R0 Hrun. set (k := Z.to_nat (measure P c0 [e0])).
    destruct (ogloop_spec dest k c0 [e0] [] (mp_default mo None) (fun _ => None) s0) as (r & Hr & K).
    - reflexivity.
    - constructor.
    - exact R0.
    - intros (x & [] & _).
    - exact (lm_default _ _ _ LM None).
    - reflexivity.
    - destruct K as [(-> & F) | [(-> & c & tr & R & N) | (c & hp & e & tr & m & f & -> & HM & R & Ed & N & Hf)]].
      + exists Panic. split; [|right; auto]. exists (Datatypes.S k). intros fuel L. rewrite Hrun, Hr by lia. reflexivity.
      + assert (NR : ~ reachable D (move_of succ) orig dest).
        { intros RC. apply N. apply (frun_end_popped P D succ h orig Vo HS HA c tr dest (orun_frun _ _ _ _ _ _ _ _ R) RC). }
        exists (Ret (Err DestinationUnreachable)). split.
        * exists (Datatypes.S k). intros fuel L. rewrite Hrun, Hr by lia. reflexivity.
        * left. exists (Err DestinationUnreachable). split; [left; auto |]. split; [left; reflexivity |]. intros RC. contradiction.
      + assert (RC : reachable D (move_of succ) orig dest).
        { rewrite <- Ed. apply (frun_popped_reachable P D succ h orig Vo HS HA _ _ _ (e_pos e) (orun_frun _ _ _ _ _ _ _ _ R)). apply popped_head. }
        assert (Nd : f dest <> None) by (rewrite Hf; cbn [lastdir]; rewrite Ed, pos_eqb_refl; discriminate).
        assert (OU : ooutcome D succ h orig le P dest (bp P (lastdir (e :: tr)) orig (maxn P) dest [])).
        { right. exists c, hp, e, tr. split; [exact R |]. split; [exact Ed |]. split; [exact N |]. split; [exact RC | reflexivity]. }
        destruct (retraceable_dec P orig dest) as [RT | RT].
        * exists (Ret (bp P (lastdir (e :: tr)) orig (maxn P) dest [])). split.
          -- exists (Datatypes.S k + maxn P)%nat. intros fuel L. rewrite Hrun, Hr by lia. cbn [bind].
             rewrite (camefrom_sim P mo RM fuel m f orig dest W LM HM Vd).
             rewrite (into_path_gen P f orig dest fuel W Vd RT) by (assumption || (unfold maxn in L; lia)).
             f_equal. apply bp_ext. exact Hf.
          -- left. eexists. split; [exact OU |]. split; [left; reflexivity |]. intros _. split; [discriminate | contradiction].
        * exists Panic. split.
          -- exists (Datatypes.S k). intros fuel L. rewrite Hrun, Hr by lia. cbn [bind].
             rewrite (camefrom_sim P mo RM fuel m f orig dest W LM HM Vd).
             apply (into_path_panics P f orig dest fuel W Vd RT Nd).
          -- left. eexists. split; [exact OU |]. split; [right; auto |]. intros _. split; auto.
  Qed.

  (** What repeated calls yield. *)
  Lemma ogcalls_ended : forall n s c tr, ~ far -> ORun c [] tr -> Rel s c [] ->
    next_calls next n s = Ret (repeat None n) /\ calls_state next n s = Ret s.
  Proof.
    intros n s c tr NF R RS. destruct (HN s c [] tr R RS) as [(_ & En) | [(e & rest & c' & hp' & s' & Ep & _) | (F & _)]].
    - induction n as [|n (IH1 & IH2)]; [split; reflexivity |]. cbn [next_calls calls_state repeat]. rewrite En. cbn [bind]. rewrite IH1, IH2. split; reflexivity.
    - apply proj1, pops_length in Ep. discriminate.
    - contradiction.
  Qed.

  Lemma ogiter : forall m c hp tr s, ~ far -> (Z.to_nat (measure P c hp) <= m)%nat -> ORun c hp tr -> Rel s c hp ->
    exists es : list entry,
      (forall n, next_calls next n s = Ret (items_then_none (map snd es) n)) /\
      (forall n, exists c' hp' s', calls_state next n s = Ret s' /\ Rel s' c' hp' /\ ORun c' hp' (rev (firstn n es) ++ tr)) /\
      exists c', ORun c' [] (rev es ++ tr).
  Proof.
    intros m. induction m as [m IH] using (well_founded_induction Wf_nat.lt_wf). intros c hp tr s NF Hm R RS.
    destruct (HN s c hp tr R RS) as [(-> & En) | [(e & rest & c' & hp' & s' & Ep & Ee & En & RS') | (F & En)]].
    - exists []. cbn [map rev app]. split; [|split; [|eauto]].
      + intros n. unfold items_then_none. rewrite firstn_nil. cbn [map app length]. rewrite Nat.sub_0_r. apply (ogcalls_ended n s c tr NF R RS).
      + intros n. exists c, [], s. rewrite firstn_nil. cbn. split; [apply (ogcalls_ended n s c tr NF R RS) | auto].
    - pose proof (fmeasure_step P D succ h orig Vo HS HA _ _ _ _ _ _ _ (orun_frun _ _ _ _ _ _ _ _ R) (proj1 Ep) Ee) as MS.
      pose proof (ORun1 D succ h orig le _ _ _ _ _ _ _ R Ep Ee) as R'. pose proof (fmeasure_nonneg P D succ h orig Vo HS HA _ _ _ (orun_frun _ _ _ _ _ _ _ _ R')) as MN.
      destruct m as [|m]; [lia |].
      destruct (IH m ltac:(lia) c' hp' (e :: tr) s' NF ltac:(lia) R' RS') as (es & K1 & K2 & c2 & K3).
      exists (e :: es). split; [|split].
      + intros [|n]; [reflexivity |]. cbn [next_calls]. rewrite En. cbn [bind]. rewrite K1. cbn [bind].
        unfold items_then_none. cbn [map firstn length Nat.sub app]. destruct e as [pr [p d]]. reflexivity.
      + intros [|n]; [exists c, hp, s; auto |]. destruct (K2 n) as (c3 & hp3 & s3 & E3 & RS3 & R3).
        exists c3, hp3, s3. cbn [calls_state]. rewrite En. cbn [bind]. split; [exact E3 |]. split; [exact RS3 |].
        cbn [firstn rev]. rewrite <- app_assoc. exact R3.
      + exists c2. cbn [rev]. rewrite <- app_assoc. exact K3.
    - contradiction.
  Qed.
End Loop.

(** ** A queue with an order *)

Section Queue.
  Context (cmp : pos -> pos -> comparison) (TO : total_order cmp).
  Context {H : Type} (qo : queueops H) (ok : H -> Prop) (els : H -> list entry) (P : post) (OQ : ordered_queue P cmp qo ok els).
  Lemma ordered_fair : fair_on P qo ok els.
  Proof using OQ.
    constructor; [apply OQ | apply OQ |]. intros h Hh. pose proof (oq_pop _ _ _ _ _ OQ h Hh) as K. destruct (q_pop qo h) as [[e h']|]; [|exact K].
    destruct K as (K1 & K2 & K3). split; [exact K1 |]. split; [exact K2 |]. intros x Hx. specialize (K3 x Hx). unfold sooner_by in K3. lia.
  Qed.
  Notation FQ := ordered_fair.
  Context {MC M : Type} (D : bool) (co : mapops Z MC) (mo : mapops (option dir) M).
  Context (RC : MC -> (pos -> Z) -> Prop) (RM : M -> (pos -> option dir) -> Prop).
  Context (LC : lawful_map P co RC) (LM : lawful_map P mo RM) (W : post_wf P).
  Notation before := (ahead_by cmp).

  (** What is popped, seen from a list of the elements. *)
  Lemma ordered_pop : forall q hp e1 e q' rest, ok q -> Permutation (els q) hp ->
    q_pop qo q = Some (e1, q') -> pops hp e rest -> (e_pos e, e_dir e) = snd e1 -> opops before hp e rest.
  Proof using OQ TO.
    intros q hp e1 e q' rest Hq Pm Ep Pp Es. split; [exact Pp |].
    assert (SUB : forall x, In x (els q) <-> In x hp) by (intros x; split; [apply (Permutation_in _ Pm) | apply (Permutation_in _ (Permutation_sym Pm))]).
    pose proof (fo_pop _ _ _ _ FQ q Hq) as K. rewrite Ep in K. destruct K as (_ & Pm1 & L1).
    assert (He1 : In e1 (els q)) by (apply (Permutation_in _ (Permutation_sym Pm1)); left; reflexivity).
    assert (He : In e hp) by (apply (pops_In _ _ _ Pp); auto).
    assert (E : e = e1).
    { pose proof (L1 e (proj2 (SUB e) He)). pose proof (pops_min _ _ _ Pp e1 (proj1 (SUB e1) He1)).
      destruct e as [k [p d]], e1 as [k1 m1]. cbn [e_prio e_pos e_dir fst snd] in *. rewrite Es. f_equal. lia. }
    subst e1. intros x Hx. assert (Hx' : In x hp) by (apply (pops_In _ _ _ Pp); auto).
    pose proof (oq_pop _ _ _ _ _ OQ q Hq) as N. rewrite Ep in N. destruct N as (_ & _ & N). specialize (N x (proj2 (SUB x) Hx')).
    pose proof (pops_min _ _ _ Pp x Hx') as L. unfold ahead_by, ek. cbn [fst snd]. unfold sooner_by in N.
    destruct (Z.eq_dec (e_prio e) (e_prio x)) as [Ek | Nk]; [|left; lia]. right. split; [exact Ek |].
    intros G. apply N. right. split; [auto |]. left. rewrite (to_flip _ TO), G. reflexivity.
  Qed.

  Section Ucs.
    Context (go : pos -> dir -> option (pos * Z)) (orig dest : pos) (Vo : valid P orig) (Vd : valid P dest).
    Context (HS : forall p d q w, valid P p -> go p d = Some (q, w) -> valid P q /\ 0 <= w).
    Context (HA : affordable D P go orig).

    Lemma ucsq_ofollows : ofollows D go (fun _ => 0) orig before (ucsq_next qo D co go) (fun it => Rel ok els RC (qu_cost it) (qu_frontier it)) False.
    Proof.
      intros it c hp tr R RS. pose proof (orun_frun _ _ _ _ _ _ _ _ R) as FR.
      destruct (ucsq_follows qo ok els P FQ D co RC LC go orig Vo HS HA it c hp tr FR RS) as [K | [(e & rest & c' & hp' & s' & Ep & Ee & En & RS') | K]]; [left; exact K | right; left | right; right; exact K].
      exists e, rest, c', hp', s'. split; [|auto]. destruct RS as (_ & Hq & Pm).
      unfold ucsq_next in En. destruct (q_pop qo (qu_frontier it)) as [[[k mov] q']|] eqn:Eq; [|discriminate].
      apply (ordered_pop _ hp (k, mov) e q' rest Hq Pm); [exact Eq | exact Ep |].
      destruct (dir_iter_list D); [|discriminate..]. cbn [bind] in En. destruct (foldM _ _ _) as [it'| | |]; [|discriminate..]. cbn [bind] in En. injection En as -> _. reflexivity.
    Qed.

    Lemma ucsq_ooutcome : exists r, settles (fun fuel => ucsq_search_path qo P D co mo go fuel orig dest) r /\ ooutcome_any P D go (fun _ => 0) orig before dest r.
    Proof.
      destruct (rel_new qo ok els P FQ co RC LC orig Vo) as (m0 & E0 & R0).
      destruct (ogsearch P D go (fun _ => 0) orig Vo HS HA before (ucsq_next qo D co go) mo RM LM _ False ucsq_ofollows dest
        (QUIt m0 (q_push qo (q_new qo) (0, (orig, dir_default)))) (fun fuel => ucsq_search_path qo P D co mo go fuel orig dest) W Vd R0) as (r & Hr & [K | ([] & _)]).
      - intros fuel. unfold ucsq_search_path, ucsq_search_mapmov, ucsq_new. rewrite E0. reflexivity.
      - exists r. split; [exact Hr | exact K].
    Qed.

    Lemma ucsq_otrace : exists es : list entry,
      (forall n, ucsq_yields_with qo co D go orig n = Ret (items_then_none (map snd es) n)) /\
      (forall n, exists c hp, (forall p, valid P p -> ucsq_records_with qo co D go orig n p = Ret (c p)) /\ ORun D go (fun _ => 0) orig before c hp (rev (firstn n es))) /\
      exists c, ORun D go (fun _ => 0) orig before c [] (rev es).
    Proof.
      destruct (rel_new qo ok els P FQ co RC LC orig Vo) as (m0 & E0 & R0).
      destruct (ogiter P D go (fun _ => 0) orig Vo HS HA before (ucsq_next qo D co go) _ False ucsq_ofollows _ _ _ []
        (QUIt m0 (q_push qo (q_new qo) (0, (orig, dir_default)))) (fun F => F) (Nat.le_refl _) (ORun0 D go (fun _ => 0) orig before) R0) as (es & K1 & K2 & c & K3).
      rewrite app_nil_r in K3. exists es. split; [|split; [|eauto]].
      - intros n. unfold ucsq_yields_with, ucsq_new. rewrite E0. apply K1.
      - intros n. destruct (K2 n) as (c' & hp' & s' & E & RS & R). rewrite app_nil_r in R. exists c', hp'. split; [|exact R].
        intros p Vp. unfold ucsq_records_with, ucsq_new. rewrite E0. cbn [bind]. rewrite E. cbn [bind]. apply (lm_get _ _ _ LC); [apply RS | exact Vp].
    Qed.
  End Ucs.

  Section Astar.
    Context (go : pos -> dir -> option pos) (orig dest : pos) (Vo : valid P orig) (Vd : valid P dest) (HG : go_inside P go).
    Context (rs : list pos) (HR : forall q, reachable D go orig q -> In q rs) (HL : Z.of_nat (length rs) <= COST_MAX).
    Notation succ := (unit_cost go).
    Notation hd := (fun p => mdist p dest).
    Notation far := (too_far P D go orig dest rs).

    Lemma astarq_ofollows : ofollows D succ hd orig before (astarq_next qo P D co go dest) (fun it => Rel ok els RC (qa_cost it) (qa_frontier it)) far.
    Proof.
      intros it c hp tr R RS. pose proof (orun_frun _ _ _ _ _ _ _ _ R) as FR.
      destruct (astarq_follows qo ok els P FQ D co RC LC W go orig dest Vo Vd HG rs HR HL it c hp tr FR RS) as [K | [(e & rest & c' & hp' & s' & Ep & Ee & En & RS') | K]]; [left; exact K | right; left | right; right; exact K].
      exists e, rest, c', hp', s'. split; [|auto]. destruct RS as (_ & Hq & Pm).
      unfold astarq_next in En. destruct (q_pop qo (qa_frontier it)) as [[[k mov] q']|] eqn:Eq; [|discriminate].
      apply (ordered_pop _ hp (k, mov) e q' rest Hq Pm); [exact Eq | exact Ep |].
      destruct (dir_iter_list D); [|discriminate..]. cbn [bind] in En. destruct (foldM _ _ _) as [it'| | |]; [|discriminate..]. cbn [bind] in En. injection En as -> _. reflexivity.
    Qed.

    Lemma astarq_ooutcome :
      exists r, settles (fun fuel => astarq_search_path qo P D co mo go fuel orig dest) r /\
        (ooutcome_any P D succ hd orig before dest r \/ (far /\ r = Panic)).
    Proof.
      destruct (rel_new qo ok els P FQ co RC LC orig Vo) as (m0 & E0 & R0).
      apply (ogsearch P D succ hd orig Vo (unit_HS P go HG) (gen_HA P D go orig HG rs HR HL) before (astarq_next qo P D co go dest) mo RM LM _ far astarq_ofollows dest
        (QAIt m0 (q_push qo (q_new qo) (0, (orig, dir_default))))); [exact W | exact Vd | exact R0 |].
      intros fuel. unfold astarq_search_path, astarq_search_mapmov, astarq_new. rewrite E0. cbn [bind].
      assert (X : forall n f it, astarq_search_loop qo P D co mo go n dest f it = gloop (astarq_next qo P D co go dest) mo n dest f it).
      { induction n as [|n IH]; intros f it; [reflexivity |]. cbn [astarq_search_loop gloop].
        destruct (astarq_next qo P D co go dest it) as [[[[p d]|] it'] | | |]; [|reflexivity..]. cbn [bind].
        destruct (mp_set mo f p (Some d)); [|reflexivity..]. cbn [bind]. destruct (pos_eqb p dest); [reflexivity | apply IH]. }
      rewrite X. reflexivity.
    Qed.

    Lemma astarq_otrace : ~ far -> exists es : list entry,
      (forall n, astarq_yields_with qo co P D go orig dest n = Ret (items_then_none (map snd es) n)) /\
      (forall n, exists c hp, (forall p, valid P p -> astarq_records_with qo co P D go orig dest n p = Ret (c p)) /\ ORun D succ hd orig before c hp (rev (firstn n es))) /\
      exists c, ORun D succ hd orig before c [] (rev es).
    Proof.
      intros NF. destruct (rel_new qo ok els P FQ co RC LC orig Vo) as (m0 & E0 & R0).
      destruct (ogiter P D succ hd orig Vo (unit_HS P go HG) (gen_HA P D go orig HG rs HR HL) before (astarq_next qo P D co go dest) _ far astarq_ofollows _ _ _ []
        (QAIt m0 (q_push qo (q_new qo) (0, (orig, dir_default)))) NF (Nat.le_refl _) (ORun0 D succ hd orig before) R0) as (es & K1 & K2 & c & K3).
      rewrite app_nil_r in K3. exists es. split; [|split; [|eauto]].
      - intros n. unfold astarq_yields_with, astarq_new. rewrite E0. apply K1.
      - intros n. destruct (K2 n) as (c' & hp' & s' & E & RS & R). rewrite app_nil_r in R. exists c', hp'. split; [|exact R].
        intros p Vp. unfold astarq_records_with, astarq_new. rewrite E0. cbn [bind]. rewrite E. cbn [bind]. apply (lm_get _ _ _ LC); [apply RS | exact Vp].
    Qed.
  End Astar.
End Queue.
