(** PropQueueProofs.v -- proofs of the statements of PropQueue.v. *)

From Coq Require Import ZArith List Bool Lia Permutation Arith.
From Verif Require Import Rust BoundedInt Dir PosT Pos Grid Gridbool SetMap CameFrom Bf Heap Astar Ucs Queue Spec SpecSearch SpecPrice SpecQueue Lib Deque BoundedIntProofs PosTProofs PosTProofs2 PropDirProofs SetMapProofs Sim BestFirst BeelineProofs.
Import ListNotations.
Open Scope Z_scope.

Lemma sooner_ltb : forall a b, entry_ltb b a = true <-> sooner a b.
Proof.
  intros [pa [[xa ya] da]] [pb [[xb yb] db]]. unfold entry_ltb, sooner, e_prio, e_pos, e_dir. cbn [fst snd].
  destruct (Z.eqb_spec pb pa) as [-> | Np]; [|rewrite Z.ltb_lt; lia].
  destruct (pos_eqb (xb, yb) (xa, ya)) eqn:Ep.
  - apply pos_eqb_eq in Ep. inversion Ep; subst. rewrite Z.ltb_lt. lia.
  - apply pos_eqb_neq in Ep. rewrite pos_ltb_iff. cbn [fst snd]. split; [lia |]. intros [H | (_ & [H | (H & [H' | (H' & _)])])]; [lia | lia | lia |].
    exfalso. apply Ep. congruence.
Qed.

Lemma sooner_trans : forall a b c, sooner a b -> sooner b c -> sooner a c.
Proof. unfold sooner. intros. lia. Qed.

Lemma sooner_irrefl : forall a, ~ sooner a a.
Proof. unfold sooner. intros. lia. Qed.

Lemma sooner_total : forall a b, ~ sooner a b -> ~ sooner b a -> a = b.
Proof.
  intros [pa [[xa ya] da]] [pb [[xb yb] db]]. unfold sooner, e_prio, e_pos, e_dir. cbn [fst snd]. intros H1 H2.
  assert (pa = pb /\ xa = xb /\ ya = yb /\ dir_index da = dir_index db) as (-> & -> & -> & E) by lia.
  destruct da, db; cbn in E; try discriminate E; reflexivity.
Qed.

Lemma heap_take_sooner : forall h e m r, heap_take e h = (m, r) -> ~ sooner e m /\ forall x, In x h -> ~ sooner x m.
Proof.
  induction h as [|y h IH]; intros e m r E; cbn [heap_take] in E.
  - inversion E; subst. split; [apply sooner_irrefl | intros x []].
  - destruct (entry_ltb e y) eqn:L.
    + destruct (heap_take y h) as [m' r'] eqn:E'. inversion E; subst. destruct (IH _ _ _ E') as (K1 & K2). apply sooner_ltb in L.
      split; [intros X; apply K1; eapply sooner_trans; eassumption |]. intros x [<- | Hx]; [exact K1 | apply K2; exact Hx].
    + destruct (heap_take e h) as [m' r'] eqn:E'. inversion E; subst. destruct (IH _ _ _ E') as (K1 & K2).
      split; [exact K1 |]. intros x [<- | Hx]; [|apply K2; exact Hx]. intros X.
      assert (N : ~ sooner y e) by (rewrite <- sooner_ltb, L; discriminate).
      destruct (entry_ltb y e) eqn:L2.
      * apply sooner_ltb in L2. apply K1. eapply sooner_trans; eassumption.
      * assert (y = e) by (apply sooner_total; [exact N | rewrite <- sooner_ltb, L2; discriminate]). subst y. contradiction.
Qed.

Lemma pop_same_list : forall h,
  match heap_pop h with
  | None => h = []
  | Some (e, h') => True /\ Permutation h (e :: h') /\ forall x, In x h -> ~ sooner x e
  end.
Proof.
  intros [|x l]; [reflexivity |]. cbn [heap_pop]. destruct (heap_take x l) as [m r] eqn:E. destruct (heap_take_sooner _ _ _ _ E) as (S1 & S2).
  split; [exact Logic.I |]. split; [exact (heap_take_perm _ _ _ _ E) |]. intros y [<- | Hy]; [exact S1 | apply S2; exact Hy].
Qed.

(** ** Any lawful queue *)

Section AnyQueue.
  Context {H : Type} (qo : queueops H) (ok : H -> Prop) (els : H -> list entry) (LQ : lawful_queue qo ok els).

  Lemma pop_same : forall h l, ok h -> Permutation (els h) l ->
    match q_pop qo h, heap_pop l with
    | None, None => True
    | Some (e, h'), Some (e', l') => e = e' /\ ok h' /\ Permutation (els h') l'
    | _, _ => False
    end.
  Proof using LQ.
    intros h l O PM. pose proof (lq_pop _ _ _ LQ h O) as Q. destruct (q_pop qo h) as [[e h']|].
    - destruct Q as (O' & Q1 & Q2). destruct l as [|x l]; [apply Permutation_sym, Permutation_nil in PM; rewrite PM in Q1; apply Permutation_nil in Q1; discriminate |].
      cbn [heap_pop]. destruct (heap_take x l) as [m r] eqn:E. pose proof (heap_take_perm _ _ _ _ E) as P2. destruct (heap_take_sooner _ _ _ _ E) as (S1 & S2).
      assert (Em : e = m).
      { apply sooner_total.
        - assert (In e (x :: l)) as [<- | Hin]; [|exact S1 | apply S2; exact Hin].
          eapply Permutation_in; [exact PM |]. eapply Permutation_in; [apply Permutation_sym; exact Q1 | left; reflexivity].
        - apply Q2. eapply Permutation_in; [apply Permutation_sym; exact PM |]. eapply Permutation_in; [apply Permutation_sym; exact P2 | left; reflexivity]. }
      subst m. split; [reflexivity |]. split; [exact O' |]. apply Permutation_cons_inv with (a := e).
      etransitivity; [apply Permutation_sym; exact Q1 |]. etransitivity; [exact PM | exact P2].
    - rewrite Q in PM. apply Permutation_nil in PM. subst l. exact Logic.I.
  Qed.

  Lemma push_same : forall h l e, ok h -> Permutation (els h) l -> ok (q_push qo h e) /\ Permutation (els (q_push qo h e)) (heap_push l e).
  Proof using LQ.
    intros h l e O PM. destruct (lq_push _ _ _ LQ h e O) as (O' & Q). split; [exact O' |]. etransitivity; [exact Q |]. apply perm_skip. exact PM.
  Qed.

  Definition Rq {MC} (it : quit (H := H) (MC := MC)) (it' : uit) : Prop :=
    qu_cost it = u_cost it' /\ ok (qu_frontier it) /\ Permutation (els (qu_frontier it)) (u_frontier it').

  Lemma ucsq_next_sim : forall MC D (co : mapops Z MC) go it it', Rq it it' ->
    esim (fun a b => fst a = fst b /\ Rq (snd a) (snd b)) (ucsq_next qo D co go it) (ucs_next D co go it').
  Proof using LQ.
    intros MC D co go [c h] [c' l] (Ec & O & PM). cbn [qu_cost qu_frontier u_cost u_frontier] in *. subst c'.
    unfold ucsq_next, ucs_next. cbn [qu_cost qu_frontier u_cost u_frontier]. pose proof (pop_same h l O PM) as X.
    destruct (q_pop qo h) as [[[pr mov] h']|], (heap_pop l) as [[[pr' mov'] l']|]; try contradiction.
    - destruct X as (Ee & O' & PM'). inversion Ee; subst. apply esim_same. intros ds _. eapply esim_bind with (R := Rq).
      + apply esim_foldM; [|repeat split; assumption]. intros d s s' _ (R1 & R2 & R3). unfold ucsq_step_dir, ucs_step_dir. destruct (go (fst mov') d) as [[q w]|]; [|repeat split; assumption].
        rewrite R1. apply esim_same. intros x1 _. apply esim_same. intros x2 _. apply esim_same. intros x3 _. destruct (x2 <? x3); [|repeat split; assumption].
        apply esim_same. intros x4 _. apply esim_same. intros x5 _. destruct (push_same (qu_frontier s) (u_frontier s') (x2, (q, x5)) R2 R3) as (Y1 & Y2).
        split; [reflexivity |]. split; [exact Y1 | exact Y2].
      + intros a b R. split; [reflexivity | exact R].
    - split; [reflexivity |]. split; [reflexivity |]. split; [exact O | exact PM].
  Qed.

  Lemma ucsq_path_sim : forall MC M P D (co : mapops Z MC) (mo : mapops (option dir) M) go fuel orig dest,
    ucsq_search_path qo P D co mo go fuel orig dest = ucs_search_path P D co mo go fuel orig dest.
  Proof using LQ.
    intros MC M P D co mo go fuel orig dest. unfold ucsq_search_path, ucs_search_path, ucsq_search_mapmov, ucs_search_mapmov. apply esim_eq.
    eapply esim_bind with (R := eq); [|intros a b <-; apply esim_refl].
    assert (K : forall n m it it', Rq it it' -> ucsq_search_loop qo D co mo go n dest m it = ucs_search_loop D co mo go n dest m it').
    { induction n as [|n IH]; intros m it it' R; [reflexivity |]. cbn [ucsq_search_loop ucs_search_loop]. apply esim_eq. eapply esim_bind; [apply ucsq_next_sim; exact R |].
      intros [o i1] [o' i2] (E & R'). cbn [fst snd] in E, R'. subst o'. destruct o as [[p d]|]; [|reflexivity]. apply esim_same. intros m' _.
      destruct (pos_eqb p dest); [reflexivity |]. rewrite (IH _ _ _ R'). apply esim_refl. }
    unfold ucsq_new, ucs_new. destruct (mp_set co (mp_new co COST_MAX) orig 0) as [c | | |]; [|exact Logic.I..]. cbn [bind].
    rewrite (K fuel (mp_default mo None) _ (UIt c (heap_push [] (0, (orig, dir_default))))); [apply esim_refl |].
    destruct (lq_new _ _ _ LQ) as (O & E). destruct (push_same (q_new qo) [] (0, (orig, dir_default)) O) as (Y1 & Y2); [rewrite E; apply Permutation_refl |].
    split; [reflexivity |]. split; [exact Y1 | exact Y2].
  Qed.

  Definition Ra {MC} (it : qait (H := H) (MC := MC)) (it' : ait) : Prop :=
    qa_cost it = a_cost it' /\ ok (qa_frontier it) /\ Permutation (els (qa_frontier it)) (a_frontier it').

  Lemma astarq_next_sim : forall MC P D (co : mapops Z MC) go dest it it', Ra it it' ->
    esim (fun a b => fst a = fst b /\ Ra (snd a) (snd b)) (astarq_next qo P D co go dest it) (astar_next P D co go dest it').
  Proof using LQ.
    intros MC P D co go dest [c h] [c' l] (Ec & O & PM). cbn [qa_cost qa_frontier a_cost a_frontier] in *. subst c'.
    unfold astarq_next, astar_next. cbn [qa_cost qa_frontier a_cost a_frontier]. pose proof (pop_same h l O PM) as X.
    destruct (q_pop qo h) as [[[pr mov] h']|], (heap_pop l) as [[[pr' mov'] l']|]; try contradiction.
    - destruct X as (Ee & O' & PM'). inversion Ee; subst. apply esim_same. intros ds _. eapply esim_bind with (R := Ra).
      + apply esim_foldM; [|repeat split; assumption]. intros d s s' _ (R1 & R2 & R3). unfold astarq_step_dir, astar_step_dir.
        rewrite R1. apply esim_same. intros x1 _. apply esim_same. intros x2 _. destruct (go (fst mov') d) as [q|]; [|repeat split; assumption].
        apply esim_same. intros x3 _. destruct (x2 <? x3); [|repeat split; assumption].
        apply esim_same. intros x4 _. apply esim_same. intros x5 _. apply esim_same. intros x6 _. apply esim_same. intros x7 _.
        destruct (push_same (qa_frontier s) (a_frontier s') (x6, (q, x7)) R2 R3) as (Y1 & Y2).
        split; [reflexivity |]. split; [exact Y1 | exact Y2].
      + intros a b R. split; [reflexivity | exact R].
    - split; [reflexivity |]. split; [reflexivity |]. split; [exact O | exact PM].
  Qed.

  Lemma astarq_path_sim : forall MC M P D (co : mapops Z MC) (mo : mapops (option dir) M) go fuel orig dest,
    astarq_search_path qo P D co mo go fuel orig dest = astar_search_path P D co mo go fuel orig dest.
  Proof using LQ.
    intros MC M P D co mo go fuel orig dest. unfold astarq_search_path, astar_search_path, astarq_search_mapmov, astar_search_mapmov. apply esim_eq.
    eapply esim_bind with (R := eq); [|intros a b <-; apply esim_refl].
    assert (K : forall n m it it', Ra it it' -> astarq_search_loop qo P D co mo go n dest m it = astar_search_loop P D co mo go n dest m it').
    { induction n as [|n IH]; intros m it it' R; [reflexivity |]. cbn [astarq_search_loop astar_search_loop]. apply esim_eq. eapply esim_bind; [apply astarq_next_sim; exact R |].
      intros [o i1] [o' i2] (E & R'). cbn [fst snd] in E, R'. subst o'. destruct o as [[p d]|]; [|reflexivity]. apply esim_same. intros m' _.
      destruct (pos_eqb p dest); [reflexivity |]. rewrite (IH _ _ _ R'). apply esim_refl. }
    unfold astarq_new, astar_new. destruct (mp_set co (mp_new co COST_MAX) orig 0) as [c | | |]; [|exact Logic.I..]. cbn [bind].
    rewrite (K fuel (mp_default mo None) _ (AIt c (heap_push [] (0, (orig, dir_default))))); [apply esim_refl |].
    destruct (lq_new _ _ _ LQ) as (O & E). destruct (push_same (q_new qo) [] (0, (orig, dir_default)) O) as (Y1 & Y2); [rewrite E; apply Permutation_refl |].
    split; [reflexivity |]. split; [exact Y1 | exact Y2].
  Qed.
End AnyQueue.

Lemma C108_any_queue_proof : forall H (qo : queueops H) ok els, lawful_queue qo ok els ->
  (forall b P D fuel go orig dest, ucs_with qo b P D fuel go orig dest = ucs_on b P D fuel go orig dest) /\
  (forall b P D fuel go orig dest, astar_with qo b P D fuel go orig dest = astar_on b P D fuel go orig dest).
Proof.
  intros H qo ok els LQ. split; intros b P D fuel go orig dest.
  - destruct b; cbn [ucs_with ucs_on]; apply (ucsq_path_sim qo ok els LQ).
  - destruct b; cbn [astar_with astar_on]; apply (astarq_path_sim qo ok els LQ).
Qed.

(** ** The binary heap *)

Lemma set_length : forall v i e, length (bh_set v i e) = length v.
Proof. induction v as [|x v IH]; intros [|i] e; cbn; auto. Qed.

Lemma get_set : forall v i e k, (i < length v)%nat -> bh_get (bh_set v i e) k = if (k =? i)%nat then e else bh_get v k.
Proof.
  induction v as [|x v IH]; intros [|i] e k L; cbn in L; try lia.
  - destruct k; reflexivity.
  - destruct k as [|k]; [reflexivity |]. change (bh_get (bh_set v i e) k = if (k =? i)%nat then e else bh_get v k). apply IH. lia.
Qed.

Lemma swap_length : forall v i j, length (bh_swap v i j) = length v.
Proof. intros. unfold bh_swap. rewrite !set_length. reflexivity. Qed.

Lemma get_swap : forall v i j k, (i < length v)%nat -> (j < length v)%nat ->
  bh_get (bh_swap v i j) k = if (k =? j)%nat then bh_get v i else if (k =? i)%nat then bh_get v j else bh_get v k.
Proof. intros v i j k Li Lj. unfold bh_swap. rewrite get_set by (rewrite set_length; exact Lj). rewrite get_set by exact Li. reflexivity. Qed.

Lemma set_perm : forall v i e, (i < length v)%nat -> Permutation (bh_get v i :: bh_set v i e) (e :: v).
Proof.
  induction v as [|x v IH]; intros [|i] e L; cbn in L; try lia.
  - cbn. apply perm_swap.
  - cbn [bh_set]. change (bh_get (x :: v) (S i)) with (bh_get v i). etransitivity; [apply perm_swap |]. etransitivity; [apply perm_skip; apply IH; lia | apply perm_swap].
Qed.

Lemma swap_perm : forall v i j, (i < length v)%nat -> (j < length v)%nat -> Permutation (bh_swap v i j) v.
Proof.
  intros v i j Li Lj. unfold bh_swap. apply Permutation_cons_inv with (a := bh_get v j).
  assert (E : bh_get (bh_set v i (bh_get v j)) j = bh_get v j) by (rewrite get_set by exact Li; destruct (j =? i)%nat; reflexivity).
  rewrite <- E at 1. etransitivity; [apply set_perm; rewrite set_length; exact Lj |]. apply set_perm. exact Li.
Qed.

Definition par (i : nat) : nat := Nat.div2 (i - 1).

Lemma par_child : forall i, (0 < i)%nat -> (i = 2 * par i + 1 \/ i = 2 * par i + 2)%nat.
Proof.
  intros i L. unfold par. pose proof (Nat.div2_odd (i - 1)) as X. destruct (Nat.odd (i - 1)); cbn [Nat.b2n] in X; lia.
Qed.

Lemma par_of : forall i k, (i = 2 * k + 1 \/ i = 2 * k + 2)%nat -> par i = k.
Proof. intros i k L. pose proof (par_child i). lia. Qed.

(** The element at [i] is not to be popped sooner than its parent. *)
Definition fine (v : list entry) (i : nat) : Prop := ~ sooner (bh_get v i) (bh_get v (par i)).

Definition is_heap (v : list entry) : Prop := forall i, (0 < i < length v)%nat -> fine v i.

Lemma not_sooner_trans : forall a b c, ~ sooner a b -> ~ sooner b c -> ~ sooner a c.
Proof.
  intros a b c H1 H2 H3. destruct (entry_ltb a b) eqn:E.
  - apply sooner_ltb in E. apply H2. eapply sooner_trans; eassumption.
  - assert (a = b) by (apply sooner_total; [exact H1 | rewrite <- sooner_ltb, E; discriminate]). subst b. contradiction.
Qed.

Lemma heap_top : forall v i, is_heap v -> (i < length v)%nat -> ~ sooner (bh_get v i) (bh_get v 0).
Proof.
  intros v i HV. induction i as [i IH] using (well_founded_induction lt_wf). intros L.
  destruct (Nat.eq_dec i 0) as [-> | N]; [apply sooner_irrefl |]. pose proof (par_child i ltac:(lia)).
  apply not_sooner_trans with (b := bh_get v (par i)); [apply HV; lia | apply IH; lia].
Qed.

Lemma sift_up_perm : forall n v i, (i < length v)%nat -> Permutation (bh_sift_up n v i) v.
Proof.
  induction n as [|n IH]; intros v i L; [reflexivity |]. cbn [bh_sift_up]. destruct i as [|i]; [reflexivity |].
  change (Nat.div2 (S i - 1)) with (par (S i)). destruct (entry_ltb (bh_get v (par (S i))) (bh_get v (S i))); [|reflexivity].
  pose proof (par_child (S i) ltac:(lia)). etransitivity; [apply IH; rewrite swap_length; lia | apply swap_perm; lia].
Qed.

Lemma sift_up_heap : forall n v i, (i < length v)%nat -> (i <= n)%nat ->
  (forall k, (0 < k < length v)%nat -> k <> i -> fine v k) ->
  (forall k, (0 < k < length v)%nat -> par k = i -> (0 < i)%nat -> ~ sooner (bh_get v k) (bh_get v (par i))) ->
  is_heap (bh_sift_up n v i).
Proof.
  induction n as [|n IH]; intros v i L Ln H1 H2.
  - intros k Lk. cbn [bh_sift_up] in *. apply H1; lia.
  - cbn [bh_sift_up]. destruct i as [|i]; [intros k Lk; apply H1; lia |]. change (Nat.div2 (S i - 1)) with (par (S i)).
    pose proof (par_child (S i) ltac:(lia)) as PC. destruct (entry_ltb (bh_get v (par (S i))) (bh_get v (S i))) eqn:E.
    + apply sooner_ltb in E. set (j := par (S i)) in *. apply IH; [rewrite swap_length; lia | lia | |].
      * intros k Lk Nk. rewrite swap_length in Lk. unfold fine. rewrite !get_swap by lia.
        destruct (Nat.eqb_spec k j) as [-> | _]; [contradiction |]. destruct (Nat.eqb_spec k (S i)) as [-> | Nk2].
        -- change (par (S i)) with j. rewrite Nat.eqb_refl. intros X. apply (sooner_irrefl (bh_get v j)). eapply sooner_trans; eassumption.
        -- destruct (Nat.eqb_spec (par k) j) as [Ej | Nj].
           ++ pose proof (H1 k Lk Nk2) as F. unfold fine in F. rewrite Ej in F. intros X. apply F. eapply sooner_trans; [exact X | exact E].
           ++ destruct (Nat.eqb_spec (par k) (S i)) as [Es | Ns]; [|apply H1; assumption]. apply H2; [exact Lk | exact Es | lia].
      * intros k Lk Pk Lj. rewrite swap_length in Lk. rewrite !get_swap by lia. pose proof (par_child k ltac:(lia)) as PK. pose proof (par_child j Lj) as PJ.
        rewrite (proj2 (Nat.eqb_neq k j)) by lia. rewrite (proj2 (Nat.eqb_neq (par j) j)), (proj2 (Nat.eqb_neq (par j) (S i))) by lia.
        assert (Fj : fine v j) by (apply H1; lia).
        destruct (Nat.eqb_spec k (S i)) as [-> | Nk]; [exact Fj |].
        apply not_sooner_trans with (b := bh_get v j); [|exact Fj]. rewrite <- Pk. apply H1; assumption.
    + intros k Lk. destruct (Nat.eq_dec k (S i)) as [-> | N]; [|apply H1; assumption]. unfold fine. rewrite <- sooner_ltb, E. discriminate.
Qed.

Lemma sift_up_length : forall n v i, length (bh_sift_up n v i) = length v.
Proof.
  induction n as [|n IH]; intros v i; [reflexivity |]. cbn [bh_sift_up]. destruct i; [reflexivity |].
  destruct (entry_ltb _ _); [|reflexivity]. rewrite IH, swap_length. reflexivity.
Qed.

Lemma get_app1 : forall v e i, (i < length v)%nat -> bh_get (v ++ [e]) i = bh_get v i.
Proof. intros v e i L. unfold bh_get. apply app_nth1. exact L. Qed.

Lemma push_ok : forall v e, is_heap v -> is_heap (bh_push v e) /\ Permutation (bh_push v e) (e :: v).
Proof.
  intros v e HV. unfold bh_push. assert (L : (length v < length (v ++ [e]))%nat) by (rewrite app_length; cbn; lia). split.
  - apply sift_up_heap; [exact L | lia | |].
    + intros k Lk N. rewrite app_length in Lk. cbn in Lk. pose proof (par_child k ltac:(lia)). unfold fine. rewrite !get_app1 by lia. apply HV. lia.
    + intros k Lk Pk Lp. rewrite app_length in Lk. cbn in Lk. pose proof (par_child k ltac:(lia)). lia.
  - etransitivity; [apply sift_up_perm; exact L |]. symmetry. apply Permutation_cons_append.
Qed.

Lemma sink_perm : forall n v i, (i < length v)%nat -> Permutation (fst (bh_sink n v i)) v /\ (snd (bh_sink n v i) < length v)%nat.
Proof.
  induction n as [|n IH]; intros v i L; [cbn; auto |]. cbn [bh_sink].
  destruct (Nat.ltb_spec (2 * i + 1 + 1) (length v)) as [L2 | L2].
  - set (c := if entry_ltb _ _ then _ else _). assert (Lc : (c < length v)%nat) by (unfold c; destruct (entry_ltb _ _); lia).
    destruct (IH (bh_swap v i c) c) as (K1 & K2); [rewrite swap_length; exact Lc |]. rewrite swap_length in K2. split; [|exact K2].
    etransitivity; [exact K1 | apply swap_perm; assumption].
  - destruct (Nat.ltb_spec (2 * i + 1) (length v)) as [L1 | L1]; cbn [fst snd]; [split; [apply swap_perm; assumption | exact L1] | auto].
Qed.

Lemma sink_heap : forall n v i, (i < length v)%nat -> (length v <= n + i)%nat ->
  (forall k, (0 < k < length v)%nat -> k <> i -> par k <> i -> fine v k) ->
  (forall k, (0 < k < length v)%nat -> par k = i -> (0 < i)%nat -> ~ sooner (bh_get v k) (bh_get v (par i))) ->
  forall k, (0 < k < length v)%nat ->
    par k <> snd (bh_sink n v i) /\ (k <> snd (bh_sink n v i) -> fine (fst (bh_sink n v i)) k).
Proof.
  induction n as [|n IH]; intros v i L Ln H1 H2; [lia |]. cbn [bh_sink].
  (* moving the child [c] up into the place of [i] *)
  assert (MOVE : forall c, (c = 2 * i + 1 \/ c = 2 * i + 2)%nat -> (c < length v)%nat ->
    (forall k, (0 < k < length v)%nat -> par k = i -> ~ sooner (bh_get v k) (bh_get v c)) ->
    (forall k, (0 < k < length v)%nat -> k <> c -> par k <> c -> fine (bh_swap v i c) k) /\
    (forall k, (0 < k < length v)%nat -> par k = c -> (0 < c)%nat -> ~ sooner (bh_get (bh_swap v i c) k) (bh_get (bh_swap v i c) (par c)))).
  { intros c Ec Lc G. pose proof (par_of c i Ec) as Pc. split.
    - intros k Lk Nk Npk. unfold fine. rewrite !get_swap by assumption. rewrite (proj2 (Nat.eqb_neq k c)), (proj2 (Nat.eqb_neq (par k) c)) by assumption.
      destruct (Nat.eqb_spec k i) as [-> | Nki].
      + pose proof (par_child i ltac:(lia)). rewrite (proj2 (Nat.eqb_neq (par i) i)) by lia. apply H2; [lia | exact Pc | lia].
      + destruct (Nat.eqb_spec (par k) i) as [E | N]; [apply G; assumption | apply H1; assumption].
    - intros k Lk Pk _. pose proof (par_child k ltac:(lia)). rewrite !get_swap by assumption. rewrite Pc.
      rewrite (proj2 (Nat.eqb_neq k c)), (proj2 (Nat.eqb_neq k i)), (proj2 (Nat.eqb_neq i c)) by lia. rewrite Nat.eqb_refl.
      rewrite <- Pk. apply H1; lia. }
  destruct (Nat.ltb_spec (2 * i + 1 + 1) (length v)) as [L2 | L2].
  - set (c := if entry_ltb _ _ then _ else _).
    assert (Ec : (c = 2 * i + 1 \/ c = 2 * i + 2)%nat) by (unfold c; destruct (entry_ltb _ _); lia).
    assert (G : forall k, (0 < k < length v)%nat -> par k = i -> ~ sooner (bh_get v k) (bh_get v c)).
    { intros k Lk Pk. pose proof (par_child k ltac:(lia)) as PK. rewrite Pk in PK. unfold c.
      destruct (entry_ltb (bh_get v (2 * i + 1 + 1)) (bh_get v (2 * i + 1))) eqn:E.
      - apply sooner_ltb in E. destruct PK as [-> | ->]; [apply sooner_irrefl |]. replace (2 * i + 2)%nat with (2 * i + 1 + 1)%nat by lia.
        intros X. apply (sooner_irrefl (bh_get v (2 * i + 1))). eapply sooner_trans; eassumption.
      - destruct PK as [-> | ->]; [rewrite <- sooner_ltb, E; discriminate |]. replace (2 * i + 2)%nat with (2 * i + 1 + 1)%nat by lia. apply sooner_irrefl. }
    destruct (MOVE c Ec ltac:(lia) G) as (M1 & M2). pose proof (IH (bh_swap v i c) c) as K. rewrite swap_length in K. apply K; [lia | lia | exact M1 | exact M2].
  - destruct (Nat.ltb_spec (2 * i + 1) (length v)) as [L1 | L1]; cbn [fst snd].
    + assert (G : forall k, (0 < k < length v)%nat -> par k = i -> ~ sooner (bh_get v k) (bh_get v (2 * i + 1))).
      { intros k Lk Pk. pose proof (par_child k ltac:(lia)) as PK. assert (k = 2 * i + 1)%nat as -> by lia. apply sooner_irrefl. }
      destruct (MOVE (2 * i + 1)%nat (or_introl eq_refl) L1 G) as (M1 & _). intros k Lk. pose proof (par_child k ltac:(lia)) as PK.
      split; [lia |]. intros N. apply M1; [exact Lk | exact N | lia].
    + intros k Lk. pose proof (par_child k ltac:(lia)) as PK. split; [lia |]. intros N. apply H1; [exact Lk | exact N | lia].
Qed.

Lemma pop_ok : forall v, is_heap v ->
  match bh_pop v with
  | None => v = []
  | Some (e, v') => is_heap v' /\ Permutation v (e :: v') /\ forall x, In x v -> ~ sooner x e
  end.
Proof.
  intros [|top t] HV; [reflexivity |]. cbn [bh_pop].
  assert (TOP : forall x, In x (top :: t) -> ~ sooner x top).
  { intros x Hx. apply (In_nth _ _ (0, ((0, 0), dir_default))) in Hx. destruct Hx as (i & Li & <-).
    exact (heap_top (top :: t) i HV Li). }
  destruct (rev t) as [|item r] eqn:Er.
  - assert (t = []) as -> by (rewrite <- (rev_involutive t), Er; reflexivity).
    split; [intros i Li; cbn in Li; lia |]. split; [apply Permutation_refl | exact TOP].
  - assert (Et : t = rev r ++ [item]) by (rewrite <- (rev_involutive t), Er; reflexivity). rewrite Et in *. rewrite removelast_last.
    set (v0 := item :: rev r). assert (P0 : Permutation (rev r ++ [item]) v0) by (symmetry; apply Permutation_cons_append).
    assert (L0 : (0 < length v0)%nat) by (cbn; lia).
    assert (EQ : forall k, (0 < k < length v0)%nat -> bh_get v0 k = bh_get (top :: rev r ++ [item]) k).
    { intros k Lk. destruct k as [|k]; [lia |]. cbn [length v0] in Lk. unfold bh_get, v0. cbn [nth]. symmetry. apply app_nth1. lia. }
    assert (LV : length (top :: rev r ++ [item]) = S (length v0)) by (cbn; rewrite app_length; cbn; lia).
    pose proof (sink_perm (length v0) v0 0 L0) as (S1 & S2).
    pose proof (sink_heap (length v0) v0 0 L0 ltac:(lia)) as SH.
    destruct (bh_sink (length v0) v0 0) as [v1 p] eqn:Es. cbn [fst snd] in *.
    assert (L1 : length v1 = length v0) by (apply Permutation_length; exact S1).
    split; [|split; [|exact TOP]].
    + assert (SH' : forall k, (0 < k < length v0)%nat -> par k <> p /\ (k <> p -> fine v1 k)).
      { apply SH; [|intros; lia]. intros k Lk Nk Npk. pose proof (par_child k ltac:(lia)). unfold fine. rewrite !EQ by lia. apply HV. rewrite LV. lia. }
      apply sift_up_heap; [lia | lia | |].
      * intros k Lk N. apply SH'; [lia | exact N].
      * intros k Lk Pk _. exfalso. destruct (SH' k ltac:(lia)) as (X & _). contradiction.
    + apply perm_skip. etransitivity; [exact P0 |]. symmetry. etransitivity; [apply sift_up_perm; lia | exact S1].
Qed.

Lemma binary_lawful : lawful_queue queue_binary is_heap (fun v => v).
Proof.
  constructor.
  - split; [intros i Li; cbn in Li; lia | reflexivity].
  - intros v e HV. exact (push_ok v e HV).
  - intros v HV. exact (pop_ok v HV).
Qed.

Lemma C109_binary_heap_proof :
  (exists ok, lawful_queue queue_binary ok (fun v => v)) /\
  (forall b P D fuel go orig dest, ucs_with queue_binary b P D fuel go orig dest = ucs_on b P D fuel go orig dest) /\
  (forall b P D fuel go orig dest, astar_with queue_binary b P D fuel go orig dest = astar_on b P D fuel go orig dest).
Proof.
  split; [exists is_heap; exact binary_lawful |]. exact (C108_any_queue_proof _ _ _ _ binary_lawful).
Qed.
