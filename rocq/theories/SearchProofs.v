(** SearchProofs.v -- uniform-cost and A* search as instances of the best-first
    machine. *)

From Coq Require Import ZArith List Bool Lia.
From Verif Require Import Rust BoundedInt Dir PosT Pos SetMap CameFrom Heap Astar Ucs
  Spec SpecSearch Lib Deque BoundedIntProofs PosTProofs PosTProofs2 PropDirProofs SetMapProofs Sim CameFromProofs BfProofs BestFirst.
From Verif Require Export FairSearch.
Import ListNotations.
Open Scope Z_scope.

Section Loop.
  Context (P : post) (D : bool).
  Context (succ : pos -> dir -> option (pos * Z)) (h : pos -> Z) (orig : pos).
  Context (Vo : valid P orig).
  Context (HS : forall p d q w, valid P p -> succ p d = Some (q, w) -> valid P q /\ 0 <= w).
  Context (HA : affordable D P succ orig).

  Notation Run := (Run D succ h orig).
  Notation expand := (expand D succ h).
  Notation e0 := (e0 orig).
  Notation c0 := (put (fun _ : pos => COST_MAX) orig 0).

  Fixpoint bloop (fuel : nat) (dest : pos) (f : pos -> option dir) (s : (pos -> Z) * heap) : exec (result (pos -> option dir)) :=
    match fuel with
    | O => Fuel
    | S fuel' =>
        match heap_pop (snd s) with
        | None => Ret (Err DestinationUnreachable)
        | Some (e, rest) =>
            if pos_eqb (e_pos e) dest then Ret (Ok (put f (e_pos e) (Some (e_dir e))))
            else bloop fuel' dest (put f (e_pos e) (Some (e_dir e))) (expand (e_pos e) (fst s, rest))
        end
    end.

  Lemma run_fin : forall c hp tr e, Run c hp tr -> In e hp -> c (e_pos e) < COST_MAX /\ valid P (e_pos e).
  Proof. intros c hp tr e R. exact (frun_fin P D succ h orig Vo HS HA _ _ _ e (run_fair D succ h orig _ _ _ R)). Qed.

  Lemma run_bounded : forall c hp tr, Run c hp tr -> bounded D succ orig c.
  Proof. intros c hp tr R. exact (frun_bounded P D succ h orig Vo HS HA _ _ _ (run_fair D succ h orig _ _ _ R)). Qed.

  Lemma measure_step : forall c hp tr e rest c' hp', Run c hp tr -> heap_pop hp = Some (e, rest) ->
    expand (e_pos e) (c, rest) = (c', hp') -> measure P c' hp' < measure P c hp.
  Proof.
    intros c hp tr e rest c' hp' R Ep. exact (fmeasure_step P D succ h orig Vo HS HA _ _ _ _ _ _ _ (run_fair D succ h orig _ _ _ R) (heap_pops _ _ _ Ep)).
  Qed.

  Lemma measure_nonneg : forall c hp tr, Run c hp tr -> 0 <= measure P c hp.
  Proof. intros c hp tr R. exact (fmeasure_nonneg P D succ h orig Vo HS HA _ _ _ (run_fair D succ h orig _ _ _ R)). Qed.

  Lemma bloop_spec : forall dest n c hp tr f, (Z.to_nat (measure P c hp) <= n)%nat -> Run c hp tr -> ~ popped tr dest ->
    (forall p, f p = lastdir tr p) ->
    exists r, (forall fuel, (n < fuel)%nat -> bloop fuel dest f (c, hp) = Ret r) /\
      ((r = Err DestinationUnreachable /\ exists c' tr', Run c' [] tr' /\ ~ popped tr' dest) \/
       (exists c' hp' e tr' f', r = Ok f' /\ Run c' hp' (e :: tr') /\ e_pos e = dest /\ ~ popped tr' dest /\
          forall p, f' p = lastdir (e :: tr') p)).
  Proof.
    intros dest n. induction n as [|n IH]; intros c hp tr f Hn R N Hf.
    - pose proof (measure_nonneg _ _ _ R) as M. destruct (heap_pop hp) as [[e rest]|] eqn:Ep.
      + destruct (expand (e_pos e) (c, rest)) as [c' hp'] eqn:Ee. pose proof (measure_step _ _ _ _ _ _ _ R Ep Ee).
        pose proof (measure_nonneg _ _ _ (Run1 D succ h orig _ _ _ _ _ _ _ R Ep Ee)). lia.
      + exists (Err DestinationUnreachable). split; [intros [|fuel] L; [lia |]; cbn [bloop snd]; rewrite Ep; reflexivity |].
        left. split; [reflexivity |]. destruct hp; [eauto | discriminate].
    - destruct (heap_pop hp) as [[e rest]|] eqn:Ep.
      + destruct (expand (e_pos e) (c, rest)) as [c' hp'] eqn:Ee. pose proof (measure_step _ _ _ _ _ _ _ R Ep Ee) as MS.
        pose proof (Run1 D succ h orig _ _ _ _ _ _ _ R Ep Ee) as R'.
        assert (Hf' : forall p, put f (e_pos e) (Some (e_dir e)) p = lastdir (e :: tr) p).
        { intros p. unfold put. cbn [lastdir]. rewrite Hf. reflexivity. }
        destruct (pos_eqb (e_pos e) dest) eqn:Ed.
        * eexists. split; [intros [|fuel] L; [lia |]; cbn [bloop snd]; rewrite Ep, Ed; reflexivity |].
          right. apply pos_eqb_eq in Ed. exists c', hp', e, tr. eexists. split; [reflexivity |]. auto.
        * apply pos_eqb_neq in Ed. pose proof (measure_nonneg _ _ _ R').
          assert (N' : ~ popped (e :: tr) dest) by (intros (x & [<- | Hx] & Ex); [contradiction | apply N; exists x; auto]).
          destruct (IH c' hp' (e :: tr) (put f (e_pos e) (Some (e_dir e))) ltac:(lia) R' N' Hf') as (r & Hr & K).
          exists r. split; [|exact K]. intros [|fuel] L; [lia |]. cbn [bloop snd fst]. rewrite Ep.
          rewrite (proj2 (pos_eqb_neq _ _) Ed), Ee. apply Hr. lia.
      + exists (Err DestinationUnreachable). split; [intros [|fuel] L; [lia |]; cbn [bloop snd]; rewrite Ep; reflexivity |].
        left. split; [reflexivity |]. destruct hp; [eauto | discriminate].
  Qed.

  (** The outcome of a search. *)
  Definition outcome (dest : pos) (r : result (list dir)) : Prop :=
    (r = Err DestinationUnreachable /\ ~ reachable D (move_of succ) orig dest) \/
    (exists c hp e tr, Run c hp (e :: tr) /\ e_pos e = dest /\ ~ popped tr dest /\
       reachable D (move_of succ) orig dest /\ r = bp P (lastdir (e :: tr)) orig (maxn P) dest []).

  Lemma outcome_fair : forall dest r, outcome dest r -> foutcome P D succ h orig dest r.
  Proof using.
    intros dest r [H | (c & hp & e & tr & R & H)]; [left; exact H |]. right. exists c, hp, e, tr.
    split; [apply run_fair; exact R | exact H].
  Qed.

  (** The outcome of a search on any position type. *)
  Definition outcome_any (dest : pos) (r : exec (result (list dir))) : Prop :=
    exists r0, outcome dest r0 /\ (r = Ret r0 \/ (r = Panic /\ reachable D (move_of succ) orig dest)) /\
      (reachable D (move_of succ) orig dest -> (r = Panic <-> ~ retraceable P orig dest)).

  Lemma search_outcome_any : forall dest (run : nat -> exec (result (list dir))), post_wf P -> valid P dest ->
    (forall fuel, run fuel = bind (bloop fuel dest (fun _ => None) (c0, [e0]))
       (fun r => match r with Err e => Ret (Err e) | Ok m => camefrom_into_path P fmap fuel m orig dest end)) ->
    exists r, settles run r /\ outcome_any dest r.
  Proof.
    intros dest run W Vd Hrun.
    destruct (bloop_spec dest (Z.to_nat (measure P c0 [e0])) c0 [e0] [] (fun _ => None)) as (r & Hr & K).
    - reflexivity.
    - constructor.
    - intros (x & [] & _).
    - reflexivity.
    - destruct K as [(-> & c & tr & R & N) | (c & hp & e & tr & f & -> & R & Ed & N & Hf)].
      + assert (NR : ~ reachable D (move_of succ) orig dest).
        { intros RC. apply N. apply (run_end_popped P D succ h orig Vo HS HA c tr dest R RC). }
        exists (Ret (Err DestinationUnreachable)). split.
        * exists (S (Z.to_nat (measure P c0 [e0]))). intros fuel L. rewrite Hrun, Hr by lia. reflexivity.
        * exists (Err DestinationUnreachable). split; [left; auto |]. split; [left; reflexivity |]. intros RC. contradiction.
      + assert (RC : reachable D (move_of succ) orig dest).
        { rewrite <- Ed. apply (run_popped_reachable P D succ h orig Vo HS HA _ _ _ (e_pos e) R). apply popped_head. }
        assert (Nd : f dest <> None) by (rewrite Hf; cbn [lastdir]; rewrite Ed, pos_eqb_refl; discriminate).
        assert (OU : outcome dest (bp P (lastdir (e :: tr)) orig (maxn P) dest [])).
        { right. exists c, hp, e, tr. split; [exact R |]. split; [exact Ed |]. split; [exact N |]. split; [exact RC | reflexivity]. }
        destruct (retraceable_dec P orig dest) as [RT | RT].
        * exists (Ret (bp P (lastdir (e :: tr)) orig (maxn P) dest [])). split.
          -- exists (S (Z.to_nat (measure P c0 [e0])) + maxn P)%nat. intros fuel L. rewrite Hrun, Hr by lia. cbn [bind].
             rewrite (into_path_gen P f orig dest fuel W Vd RT) by (assumption || (unfold maxn in L; lia)).
             f_equal. apply bp_ext. exact Hf.
          -- eexists. split; [exact OU |]. split; [left; reflexivity |]. intros _. split; [discriminate | contradiction].
        * exists Panic. split.
          -- exists (S (Z.to_nat (measure P c0 [e0]))). intros fuel L. rewrite Hrun, Hr by lia. cbn [bind].
             apply (into_path_panics P f orig dest fuel W Vd RT Nd).
          -- eexists. split; [exact OU |]. split; [right; auto |]. intros _. split; auto.
  Qed.

  Lemma search_outcome : forall dest (run : nat -> exec (result (list dir))), grid_type P -> valid P dest ->
    (forall fuel, run fuel = bind (bloop fuel dest (fun _ => None) (c0, [e0]))
       (fun r => match r with Err e => Ret (Err e) | Ok m => camefrom_into_path P fmap fuel m orig dest end)) ->
    exists r, returns run r /\ outcome dest r.
  Proof.
    intros dest run G Vd Hrun. destruct (search_outcome_any dest run (grid_type_wf P G) Vd Hrun) as (r & S & r0 & OU & [-> | (-> & RC)] & NP).
    - exists r0. split; [exact S | exact OU].
    - exfalso. apply (proj1 (NP RC) eq_refl). apply grid_retraceable; assumption.
  Qed.

  Context (W : post_wf P).
  Context (O : one_step P (move_of succ)).

  Lemma run_valid : forall c hp tr p, Run c hp tr -> popped tr p -> valid P p.
  Proof. intros c hp tr p R. exact (frun_valid P D succ h orig Vo HS HA _ _ _ p (run_fair D succ h orig _ _ _ R)). Qed.

  (** Either a path, which uses allowed moves, or Loop. *)
  Lemma outcome_cases : forall dest r, outcome dest r ->
    (r = Err DestinationUnreachable <-> ~ reachable D (move_of succ) orig dest) /\
    ((exists path, r = Ok path /\ follow (move_of succ) orig path = Some dest /\ Forall (allowed D) path /\
        Z.of_nat (length path) <= cols P * cols P) \/
     r = Err DestinationUnreachable \/ r = Err Loop).
  Proof. intros dest r H. exact (foutcome_cases P D succ h orig Vo HS HA W O dest r (outcome_fair _ _ H)). Qed.

  (** With a consistent estimate, Loop only occurs when the path is too long for
      the limit of the path reconstruction. *)
  Context (HH : forall p d q w, valid P p -> allowed D d -> succ p d = Some (q, w) -> h p <= w + h q).
  Context (H0 : forall p, valid P p -> 0 <= h p).

  Lemma outcome_loop_gen : forall dest rs, outcome dest (Err Loop) -> (forall q, reachable D (move_of succ) orig q -> In q rs) ->
    cols P * cols P < Z.of_nat (length rs).
  Proof. intros dest rs H. exact (foutcome_loop_gen P D succ h orig Vo HS HA W O HH H0 dest rs (outcome_fair _ _ H)). Qed.

  Lemma outcome_loop : forall dest, grid_type P -> outcome dest (Err Loop) -> cols P < rows P.
  Proof. intros dest G H. exact (foutcome_loop P D succ h orig Vo HS HA W O HH H0 dest G (outcome_fair _ _ H)). Qed.

  (** Loop means that going back takes more moves than the limit. *)
  Lemma outcome_long : forall c hp e tr, Run c hp (e :: tr) -> bp P (lastdir (e :: tr)) orig (maxn P) (e_pos e) [] = Err Loop ->
    exists path m, bp P (lastdir (e :: tr)) orig m (e_pos e) [] = Ok path /\ cols P * cols P < Z.of_nat (length path).
  Proof. intros c hp e tr R. exact (foutcome_long P D succ h orig Vo HS HA W O HH H0 c hp e tr (run_fair D succ h orig _ _ _ R)). Qed.

  (** If no stale entry was popped, the path has the lowest cost. *)
  Lemma outcome_optimal : forall dest path m c hp e tr, Run c hp (e :: tr) -> e_pos e = dest ->
    bp P (lastdir (e :: tr)) orig m dest [] = Ok path ->
    (forall x, In x (e :: tr) -> e_pos x <> orig -> e_prio x = c (e_pos x) + h (e_pos x)) ->
    follow_cost succ orig path = Some (dest, c dest) /\ forall k, cost_walk D succ orig k dest -> c dest <= k.
  Proof. intros dest path m c hp e tr R. exact (foutcome_optimal P D succ h orig Vo HS HA W O HH H0 dest path m c hp e tr (run_fair D succ h orig _ _ _ R)). Qed.

  Lemma run_pop : forall c hp e tr, Run c hp (e :: tr) ->
    exists c1 hp1 rest, Run c1 hp1 tr /\ heap_pop hp1 = Some (e, rest) /\ expand (e_pos e) (c1, rest) = (c, hp).
  Proof. intros c hp e tr R. inversion R; subst. eauto 8. Qed.

  Lemma run_first : forall c hp, Run c hp [] -> hp = [e0].
  Proof. intros c hp R. inversion R; subst. reflexivity. Qed.

  (** A position popped for the first time has its cost as priority. *)
  Lemma first_pop_prio : forall c hp e tr, Run c hp (e :: tr) -> ~ popped tr (e_pos e) -> e_pos e <> orig ->
    e_prio e = c (e_pos e) + h (e_pos e).
  Proof. intros c hp e tr R. exact (ffirst_pop_prio P D succ h orig Vo HS HA HH H0 c hp e tr (run_fair D succ h orig _ _ _ R)). Qed.

  Lemma pop_order : forall c hp e tr p, Run c hp (e :: tr) -> popped tr p -> ~ popped tr (e_pos e) ->
    c p + h p <= c (e_pos e) + h (e_pos e).
  Proof. intros c hp e tr p R. exact (fpop_order P D succ h orig Vo HS HA HH H0 c hp e tr p (run_fair D succ h orig _ _ _ R)). Qed.

  (** Later pops have higher priorities. *)
  Lemma prio_order : forall c hp e tr x, Run c hp (e :: tr) -> In x tr -> e_prio x <= e_prio e.
  Proof. intros c hp e tr x R. exact (fprio_order P D succ h orig Vo HS HA HH H0 c hp e tr x (run_fair D succ h orig _ _ _ R)). Qed.

  (** When a position is popped for the first time, everything below its priority
      has been popped. *)
  Lemma below_popped : forall c hp e tr, Run c hp (e :: tr) -> ~ popped tr (e_pos e) -> forall p k, cost_walk D succ orig k p ->
    valid P p /\ (popped tr p \/ c (e_pos e) + h (e_pos e) <= k + h p).
  Proof. intros c hp e tr R. exact (fbelow_popped P D succ h orig Vo HS HA HH H0 c hp e tr (run_fair D succ h orig _ _ _ R)). Qed.
End Loop.

(** ** Iterators *)

Section Iter.
  Context (P : post) (D : bool).
  Context (succ : pos -> dir -> option (pos * Z)) (h : pos -> Z) (orig : pos).
  Context (Vo : valid P orig).
  Context (HS : forall p d q w, valid P p -> succ p d = Some (q, w) -> valid P q /\ 0 <= w).
  Context (HA : affordable D P succ orig).
  Context {S : Type} (mk : (pos -> Z) -> heap -> S) (next : S -> exec (option (pos * dir) * S)).
  Context (HN : forall c hp tr, Run D succ h orig c hp tr -> next (mk c hp) =
    match heap_pop hp with
    | None => Ret (None, mk c hp)
    | Some (e, rest) => let '(c', hp') := expand D succ h (e_pos e) (c, rest) in Ret (Some (e_pos e, e_dir e), mk c' hp')
    end).

  Lemma calls_ended : forall n c tr, Run D succ h orig c [] tr ->
    next_calls next n (mk c []) = Ret (repeat None n) /\ calls_state next n (mk c []) = Ret (mk c []).
  Proof.
    intros n c tr R. induction n as [|n (IH1 & IH2)]; [split; reflexivity |]. cbn [next_calls calls_state].
    rewrite (HN _ _ _ R). cbn [heap_pop bind]. rewrite IH1, IH2. split; reflexivity.
  Qed.

  Lemma iter_trace : forall m c hp tr, (Z.to_nat (measure P c hp) <= m)%nat -> Run D succ h orig c hp tr ->
    exists es : list entry,
      (forall n, next_calls next n (mk c hp) = Ret (items_then_none (map snd es) n)) /\
      (forall n, exists c' hp', calls_state next n (mk c hp) = Ret (mk c' hp') /\ Run D succ h orig c' hp' (rev (firstn n es) ++ tr)) /\
      exists c', Run D succ h orig c' [] (rev es ++ tr).
  Proof.
    intros m. induction m as [|m IH]; intros c hp tr Hm R.
    - destruct (heap_pop hp) as [[e rest]|] eqn:Ep.
      + destruct (expand D succ h (e_pos e) (c, rest)) as [c' hp'] eqn:Ee.
        pose proof (measure_step P D succ h orig Vo HS HA _ _ _ _ _ _ _ R Ep Ee) as M1.
        pose proof (measure_nonneg P D succ h orig Vo HS HA _ _ _ R).
        pose proof (measure_nonneg P D succ h orig Vo HS HA _ _ _ (Run1 D succ h orig _ _ _ _ _ _ _ R Ep Ee)). lia.
      + destruct hp; [|discriminate]. exists []. cbn [map rev app]. split; [|split; [|eauto]].
        * intros n. unfold items_then_none. rewrite firstn_nil. cbn [map app length]. rewrite Nat.sub_0_r. apply (calls_ended n c tr R).
        * intros n. exists c, []. rewrite firstn_nil. cbn. split; [apply (calls_ended n c tr R) | exact R].
    - destruct (heap_pop hp) as [[e rest]|] eqn:Ep.
      + destruct (expand D succ h (e_pos e) (c, rest)) as [c' hp'] eqn:Ee.
        pose proof (measure_step P D succ h orig Vo HS HA _ _ _ _ _ _ _ R Ep Ee) as M1.
        pose proof (Run1 D succ h orig _ _ _ _ _ _ _ R Ep Ee) as R'.
        pose proof (measure_nonneg P D succ h orig Vo HS HA _ _ _ R').
        destruct (IH c' hp' (e :: tr) ltac:(lia) R') as (es & K1 & K2 & c2 & K3).
        pose proof (HN _ _ _ R) as HNR. rewrite Ep, Ee in HNR.
        exists (e :: es). split; [|split].
        * intros [|n]; [reflexivity |]. cbn [next_calls]. rewrite HNR. cbn [bind]. rewrite K1. cbn [bind].
          unfold items_then_none. cbn [map firstn length Nat.sub app]. destruct e as [pr [p d]]. reflexivity.
        * intros [|n]; [exists c, hp; split; [reflexivity | exact R] |]. destruct (K2 n) as (c3 & hp3 & E3 & R3).
          exists c3, hp3. cbn [calls_state]. rewrite HNR. cbn [bind]. split; [exact E3 |].
          cbn [firstn rev]. rewrite <- app_assoc. exact R3.
        * exists c2. cbn [rev]. rewrite <- app_assoc. exact K3.
      + destruct hp; [|discriminate]. exists []. cbn [map rev app]. split; [|split; [|eauto]].
        * intros n. unfold items_then_none. rewrite firstn_nil. cbn [map app length]. rewrite Nat.sub_0_r. apply (calls_ended n c tr R).
        * intros n. exists c, []. rewrite firstn_nil. cbn. split; [apply (calls_ended n c tr R) | exact R].
  Qed.
End Iter.
