(** BestFirst.v -- the common shape of uniform-cost and A* search: the machine of
    Fair.v, popping the entry that the heap does. *)

From Coq Require Import ZArith List Bool Lia Permutation.
From Verif Require Import Rust BoundedInt Dir PosT Pos SetMap CameFrom Heap Astar
  Spec SpecSearch Lib Deque BoundedIntProofs PosTProofs PosTProofs2 PropDirProofs SetMapProofs Sim CameFromProofs BfProofs.
From Verif Require Export Fair.
Import ListNotations.
Open Scope Z_scope.

(** ** The heap *)

Lemma entry_ltb_prio : forall a b, entry_ltb a b = false -> e_prio a <= e_prio b.
Proof.
  intros a b H. unfold entry_ltb in H. destruct (e_prio a =? e_prio b) eqn:E; [apply Z.eqb_eq in E; lia |].
  apply Z.ltb_ge in H. exact H.
Qed.

Lemma entry_ltb_prio' : forall a b, entry_ltb a b = true -> e_prio b <= e_prio a.
Proof.
  intros a b H. unfold entry_ltb in H. destruct (e_prio a =? e_prio b) eqn:E; [apply Z.eqb_eq in E; lia |].
  apply Z.ltb_lt in H. lia.
Qed.

Lemma heap_take_min : forall h e m r, heap_take e h = (m, r) -> e_prio m <= e_prio e /\ forall x, In x h -> e_prio m <= e_prio x.
Proof.
  intros h. induction h as [|y h IH]; intros e m r E; cbn [heap_take] in E; [inv E; split; [lia | intros x []] |].
  destruct (entry_ltb e y) eqn:L.
  - destruct (heap_take y h) as [m' r'] eqn:E'. inv E. destruct (IH _ _ _ E') as (H1 & H2).
    apply entry_ltb_prio' in L. split; [lia |]. intros x [<- | Hx]; auto.
  - destruct (heap_take e h) as [m' r'] eqn:E'. inv E. destruct (IH _ _ _ E') as (H1 & H2).
    apply entry_ltb_prio in L. split; [lia |]. intros x [<- | Hx]; [lia | auto].
Qed.

Lemma heap_take_length : forall h e m r, heap_take e h = (m, r) -> length r = length h.
Proof.
  intros h. induction h as [|y h IH]; intros e m r E; cbn [heap_take] in E; [inv E; reflexivity |].
  destruct (entry_ltb e y) eqn:L.
  - destruct (heap_take y h) as [m' r'] eqn:E'. inv E. cbn. f_equal. eapply IH; eassumption.
  - destruct (heap_take e h) as [m' r'] eqn:E'. inv E. cbn. f_equal. eapply IH; eassumption.
Qed.

Lemma heap_pop_min : forall h m r, heap_pop h = Some (m, r) -> forall x, In x h -> e_prio m <= e_prio x.
Proof.
  intros [|e h] m r E x Hx; cbn in E; [discriminate |]. injection E as E. destruct (heap_take_min _ _ _ _ E) as (H1 & H2).
  destruct Hx as [<- | Hx]; auto.
Qed.

Lemma heap_pop_length : forall h m r, heap_pop h = Some (m, r) -> length h = S (length r).
Proof. intros [|e h] m r E; cbn in E; [discriminate |]. injection E as E. cbn. f_equal. symmetry. eapply heap_take_length; exact E. Qed.

Lemma heap_pop_some : forall h, h <> [] -> exists m r, heap_pop h = Some (m, r).
Proof. intros [|e h] H; [congruence |]. cbn. destruct (heap_take e h) as [m r]. eauto. Qed.

(** ** The machine that pops like the heap *)

Lemma heap_take_perm : forall h e m r, heap_take e h = (m, r) -> Permutation (e :: h) (m :: r).
Proof.
  induction h as [|y h IH]; intros e m r E; cbn [heap_take] in E; [inv E; reflexivity |].
  destruct (entry_ltb e y).
  - destruct (heap_take y h) as [m' r'] eqn:E'. inv E. rewrite (IH _ _ _ E'). apply perm_swap.
  - destruct (heap_take e h) as [m' r'] eqn:E'. inv E. rewrite (perm_swap y e h), (IH _ _ _ E'). apply perm_swap.
Qed.

Lemma heap_pop_perm : forall h m r, heap_pop h = Some (m, r) -> Permutation h (m :: r).
Proof. intros [|e h] m r E; cbn in E; [discriminate |]. injection E as E. apply heap_take_perm. exact E. Qed.

Lemma heap_pops : forall hp e rest, heap_pop hp = Some (e, rest) -> pops hp e rest.
Proof. intros hp e rest E. split; [apply (heap_pop_perm _ _ _ E) | apply (heap_pop_min _ _ _ E)]. Qed.

Section Heap.
  Context (P : post) (D : bool).
  Context (succ : pos -> dir -> option (pos * Z)) (h : pos -> Z) (orig : pos).
  Context (Vo : valid P orig).
  Context (HS : forall p d q w, valid P p -> succ p d = Some (q, w) -> valid P q /\ 0 <= w).
  Context (HA : affordable D P succ orig).

  Inductive Run : (pos -> Z) -> heap -> list entry -> Prop :=
  | Run0 : Run (put (fun _ => COST_MAX) orig 0) [e0 orig] []
  | Run1 : forall c hp tr e rest c' hp', Run c hp tr -> heap_pop hp = Some (e, rest) ->
      expand D succ h (e_pos e) (c, rest) = (c', hp') -> Run c' hp' (e :: tr).

  Lemma run_fair : forall c hp tr, Run c hp tr -> FRun D succ h orig c hp tr.
  Proof using.
    intros c hp tr R. induction R as [|c hp tr e rest c' hp' R IH Ep Ee]; [constructor |].
    eapply FRun1; [exact IH | apply heap_pops; exact Ep | exact Ee].
  Qed.

  Lemma inv0_run : forall c hp tr, Run c hp tr -> inv0 D succ h orig c hp tr (fun _ => False).
  Proof. intros c hp tr R. exact (finv0_run P D succ h orig Vo HS HA _ _ _ (run_fair _ _ _ R)). Qed.

  Lemma run_popped_reachable : forall c hp tr p, Run c hp tr -> popped tr p -> reachable D (move_of succ) orig p /\ c p < COST_MAX.
  Proof. intros c hp tr p R. exact (frun_popped_reachable P D succ h orig Vo HS HA _ _ _ p (run_fair _ _ _ R)). Qed.

  Lemma run_end_popped : forall c tr q, Run c [] tr -> reachable D (move_of succ) orig q -> popped tr q.
  Proof. intros c tr q R. exact (frun_end_popped P D succ h orig Vo HS HA _ _ q (run_fair _ _ _ R)). Qed.

  (** Each recorded direction leads to the position the move came from. *)
  Lemma lastdir_back : forall c hp tr p, one_step P (move_of succ) -> Run c hp tr -> popped tr p -> p <> orig ->
    exists e w, In e tr /\ e_pos e = p /\ lastdir tr p = Some (e_dir e) /\ popped tr (step p (e_dir e)) /\
      allowed D (opp (e_dir e)) /\ succ (step p (e_dir e)) (opp (e_dir e)) = Some (p, w) /\
      c (step p (e_dir e)) + w + h p <= e_prio e.
  Proof. intros c hp tr p O R. exact (flastdir_back P D succ h orig Vo HS HA _ _ _ p O (run_fair _ _ _ R)). Qed.

  (** ** The consistent case *)

  Context (HH : forall p d q w, valid P p -> allowed D d -> succ p d = Some (q, w) -> h p <= w + h q).
  Context (H0 : forall p, valid P p -> 0 <= h p).

  Lemma inv1_run : forall c hp tr, Run c hp tr -> tr <> [] -> exists ord, inv1 D succ h orig c hp tr ord.
  Proof. intros c hp tr R. exact (finv1_run P D succ h orig Vo HS HA HH H0 _ _ _ (run_fair _ _ _ R)). Qed.

  (** Popped positions have their true lowest cost. *)
  Lemma run_optimal : forall c hp tr p k, Run c hp tr -> popped tr p -> cost_walk D succ orig k p -> c p <= k.
  Proof. intros c hp tr p k R. exact (frun_optimal P D succ h orig Vo HS HA HH H0 _ _ _ p k (run_fair _ _ _ R)). Qed.

  (** The first time a position is popped, it comes from a position popped before,
      along a move that gives its cost. *)
  Lemma first_pop : forall c hp tr e, Run c hp (e :: tr) -> ~ popped tr (e_pos e) ->
    e = e0 orig \/ exists p d w, popped tr p /\ allowed D d /\ succ p d = Some (e_pos e, w) /\ e_dir e = opp d /\ c (e_pos e) = c p + w.
  Proof. intros c hp tr e R. exact (ffirst_pop P D succ h orig Vo HS HA HH H0 _ _ _ e (run_fair _ _ _ R)). Qed.

  (** The recorded directions lead back to the origin. *)
  Lemma run_leads_back : forall c hp tr p, one_step P (move_of succ) -> Run c hp tr -> popped tr p ->
    exists k, leads_back P (lastdir tr) orig k p /\
      forall rs, (forall q, reachable D (move_of succ) orig q -> In q rs) -> (k < length rs)%nat.
  Proof. intros c hp tr p O R. exact (frun_leads_back P D succ h orig Vo HS HA HH H0 _ _ _ p O (run_fair _ _ _ R)). Qed.
End Heap.
