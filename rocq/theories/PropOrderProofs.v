(** PropOrderProofs.v -- proofs of the statements of PropOrder.v. *)

From Coq Require Import ZArith List Bool Lia Permutation Arith.
From Verif Require Import Rust BoundedInt Dir PosT Pos Grid Gridbool SetMap CameFrom Bf Heap Astar Ucs Queue Order Spec SpecSearch SpecPrice SpecQueue SpecOrder Lib Deque BoundedIntProofs PosTProofs PosTProofs2 PropDirProofs SetMapProofs Sim AstarProofs PropUcsProofs FairQueue PropQueueProofs PropAgreeProofs.
Import ListNotations.
Open Scope Z_scope.

(** ** Any queue that pops an element of the lowest cost *)

Lemma C148_ucs_proof : forall H (qo : queueops H) ok els b P D go orig dest,
  fair_queue qo ok els -> post_wf P -> (b = OnGrid -> grid_type P) -> valid P orig -> valid P dest ->
  go_inside P (move_of go) -> one_step P (move_of go) -> affordable D P go orig ->
  exists r, settles (fun fuel => ucs_with qo b P D fuel go orig dest) r /\
    (r = Ret (Err DestinationUnreachable) <-> ~ reachable D (move_of go) orig dest) /\
    (r = Panic <-> reachable D (move_of go) orig dest /\ ~ retraceable P orig dest) /\
    (r = Ret (Err DestinationUnreachable) \/ r = Panic \/
     (r = Ret (Err Loop) /\ forall rs, (forall p, reachable D (move_of go) orig p -> In p rs) -> cols P * cols P < Z.of_nat (length rs)) \/
     exists path, r = Ret (Ok path) /\ Forall (allowed D) path /\ follow (move_of go) orig path = Some dest /\
       Z.of_nat (length path) <= cols P * cols P /\
       (cost_of_entering D P go -> exists c, follow_cost go orig path = Some (dest, c) /\ lowest_cost D go orig c dest)).
Proof.
  intros H qo ok els b P D go orig dest FQ WF Hg V Vd HG O SC. pose proof (afford_HS D P go orig HG SC) as HS.
  assert (K : exists r, settles (fun fuel => ucs_with qo b P D fuel go orig dest) r /\ FairSearch.foutcome_any P D go (fun _ => 0) orig dest r).
  { destruct b; cbn [ucs_with].
    - apply (ucsq_outcome qo ok els P (fair_all FQ P) D _ _ _ _ (lawful_grid _ P (Hg eq_refl)) (lawful_grid _ P (Hg eq_refl)) WF); assumption.
    - apply (ucsq_outcome qo ok els P (fair_all FQ P) D _ _ _ _ (lawful_hmap _ P) (lawful_hmap _ P) WF); assumption.
    - apply (ucsq_outcome qo ok els P (fair_all FQ P) D _ _ _ _ (lawful_bmap _ P) (lawful_bmap _ P) WF); assumption. }
  destruct K as (r & Hr & K). exists r. split; [exact Hr |]. apply fucs_means; assumption.
Qed.

Lemma C148_astar_proof : forall H (qo : queueops H) ok els b P D go orig dest rs,
  fair_queue qo ok els -> post_wf P -> (b = OnGrid -> grid_type P) -> valid P orig -> valid P dest ->
  go_inside P go -> one_step P go ->
  (forall p, reachable D go orig p -> In p rs) ->
  (forall p, reachable D go orig p -> measurable P p dest /\
     Z.of_nat (length rs) + (Z.abs (fst p - fst dest) + Z.abs (snd p - snd dest)) <= 18446744073709551615) ->
  exists r, settles (fun fuel => astar_with qo b P D fuel go orig dest) r /\
    (r = Ret (Err DestinationUnreachable) <-> ~ reachable D go orig dest) /\
    (r = Panic <-> reachable D go orig dest /\ ~ retraceable P orig dest) /\
    (r = Ret (Err DestinationUnreachable) \/ r = Panic \/
     (r = Ret (Err Loop) /\ (D = false -> cols P * cols P < Z.of_nat (length rs))) \/
     exists path, r = Ret (Ok path) /\ Forall (allowed D) path /\ follow go orig path = Some dest /\
       Z.of_nat (length path) <= cols P * cols P /\
       (D = false -> forall n, walk D go orig n dest ->
          Z.of_nat n = Z.abs (fst orig - fst dest) + Z.abs (snd orig - snd dest) -> length path = n)).
Proof.
  intros H qo ok els b P D go orig dest rs FQ WF Hg V Vd HG O HR HM.
  assert (HL : Z.of_nat (length rs) <= COST_MAX).
  { destruct (HM orig (reach_orig D go orig)) as (_ & L). unfold COST_MAX. lia. }
  assert (NF : ~ too_far P D go orig dest rs) by (intros (q & Rq & Nq); apply Nq; exact (HM q Rq)).
  assert (K : exists r, settles (fun fuel => astar_with qo b P D fuel go orig dest) r /\
    (FairSearch.foutcome_any P D (unit_cost go) (fun p => mdist p dest) orig dest r \/ (too_far P D go orig dest rs /\ r = Panic))).
  { destruct b; cbn [astar_with].
    - apply (astarq_outcome qo ok els P (fair_all FQ P) D _ _ _ _ (lawful_grid _ P (Hg eq_refl)) (lawful_grid _ P (Hg eq_refl)) WF); assumption.
    - apply (astarq_outcome qo ok els P (fair_all FQ P) D _ _ _ _ (lawful_hmap _ P) (lawful_hmap _ P) WF); assumption.
    - apply (astarq_outcome qo ok els P (fair_all FQ P) D _ _ _ _ (lawful_bmap _ P) (lawful_bmap _ P) WF); assumption. }
  destruct K as (r & Hr & [K | (F & _)]); [|contradiction]. exists r. split; [exact Hr |]. apply fastar_means; assumption.
Qed.

(** ** The binary heap with any comparison of positions *)

Lemma entry_le_true : forall le a b, entry_le le a b = true -> e_prio b <= e_prio a.
Proof. intros le a b. unfold entry_le. destruct (Z.eqb_spec (e_prio a) (e_prio b)); [lia |]. rewrite Z.ltb_lt. lia. Qed.

Lemma entry_le_false : forall le a b, entry_le le a b = false -> e_prio a <= e_prio b.
Proof. intros le a b. unfold entry_le. destruct (Z.eqb_spec (e_prio a) (e_prio b)); [lia |]. rewrite Z.ltb_ge. lia. Qed.

Lemma osift_up_perm : forall le n v i, (i < length v)%nat -> Permutation (oh_sift_up le n v i) v.
Proof.
  intros le. induction n as [|n IH]; intros v i L; [reflexivity |]. cbn [oh_sift_up]. destruct i as [|i]; [reflexivity |].
  change (Nat.div2 (S i - 1)) with (par (S i)). destruct (entry_le le _ _); [reflexivity |].
  pose proof (par_child (S i) ltac:(lia)). etransitivity; [apply IH; rewrite swap_length; lia | apply swap_perm; lia].
Qed.

Lemma opush_perm : forall le v e, Permutation (oh_push le v e) (e :: v).
Proof.
  intros le v e. unfold oh_push. assert (L : (length v < length (v ++ [e]))%nat) by (rewrite app_length; cbn; lia).
  etransitivity; [apply (osift_up_perm le); exact L |]. symmetry. apply Permutation_cons_append.
Qed.

Lemma osink_perm : forall le n v i, (i < length v)%nat -> Permutation (fst (oh_sink le n v i)) v /\ (snd (oh_sink le n v i) < length v)%nat.
Proof.
  intros le. induction n as [|n IH]; intros v i L; [cbn; auto |]. cbn [oh_sink].
  destruct (Nat.ltb_spec (2 * i + 1 + 1) (length v)) as [L2 | L2].
  - set (c := if entry_le le _ _ then _ else _). assert (Lc : (c < length v)%nat) by (unfold c; destruct (entry_le le _ _); lia).
    destruct (IH (bh_swap v i c) c) as (K1 & K2); [rewrite swap_length; exact Lc |]. rewrite swap_length in K2. split; [|exact K2].
    etransitivity; [exact K1 | apply swap_perm; assumption].
  - destruct (Nat.ltb_spec (2 * i + 1) (length v)) as [L1 | L1]; cbn [fst snd]; [split; [apply swap_perm; assumption | exact L1] | auto].
Qed.

Lemma opop_perm : forall le v, match oh_pop le v with None => v = [] | Some (e, v') => Permutation v (e :: v') end.
Proof.
  intros le [|top t]; [reflexivity |]. cbn [oh_pop]. destruct (rev t) as [|item r] eqn:Er.
  - assert (t = []) as -> by (rewrite <- (rev_involutive t), Er; reflexivity). apply Permutation_refl.
  - assert (Et : t = rev r ++ [item]) by (rewrite <- (rev_involutive t), Er; reflexivity). rewrite Et. rewrite removelast_last.
    set (v0 := item :: rev r). assert (P0 : Permutation (rev r ++ [item]) v0) by (symmetry; apply Permutation_cons_append).
    pose proof (osink_perm le (length v0) v0 0 ltac:(cbn; lia)) as (S1 & S2). destruct (oh_sink le (length v0) v0 0) as [v1 p]. cbn [fst snd] in *.
    assert (L1 : length v1 = length v0) by (apply Permutation_length; exact S1).
    apply perm_skip. etransitivity; [exact P0 |]. symmetry. etransitivity; [apply (osift_up_perm le); lia | exact S1].
Qed.

(** The heap with any relation [before] that agrees with the comparison on the elements
    for which [fit] holds, and is a total preorder of them. *)
Section OrderedHeap.
  Context (le : (pos * dir) -> (pos * dir) -> bool) (fit : entry -> Prop) (before : entry -> entry -> Prop).
  Context (before_true : forall a b, fit a -> fit b -> entry_le le a b = true -> before b a).
  Context (before_false : forall a b, fit a -> fit b -> entry_le le a b = false -> before a b).
  Context (before_refl : forall a, before a a).
  Context (before_trans : forall a b c, fit a -> fit b -> fit c -> before a b -> before b c -> before a c).
  Definition fits (v : list entry) : Prop := forall x, In x v -> fit x.
  Definition in_place (v : list entry) (i : nat) : Prop := before (bh_get v (par i)) (bh_get v i).
  Definition ordered_heap (v : list entry) : Prop := forall i, (0 < i < length v)%nat -> in_place v i.
  Lemma fits_get : forall v i, fits v -> (i < length v)%nat -> fit (bh_get v i).
  Proof using. intros v i F L. apply F. apply nth_In. exact L. Qed.
  Lemma fits_perm : forall v v', Permutation v v' -> fits v -> fits v'.
  Proof using. intros v v' Pm F x Hx. apply F. apply (Permutation_in _ (Permutation_sym Pm)). exact Hx. Qed.
  Lemma ordered_top : forall v i, fits v -> ordered_heap v -> (i < length v)%nat -> before (bh_get v 0) (bh_get v i).
  Proof.
    intros v i FV HV. induction i as [i IH] using (well_founded_induction lt_wf). intros L.
    destruct (Nat.eq_dec i 0) as [-> | N]; [apply before_refl |]. pose proof (par_child i ltac:(lia)).
    apply (before_trans _ (bh_get v (par i))); [apply fits_get; [exact FV | lia].. | apply IH; lia | apply HV; lia].
  Qed.
  Lemma osift_up_heap : forall n v i, fits v -> (i < length v)%nat -> (i <= n)%nat ->
    (forall k, (0 < k < length v)%nat -> k <> i -> in_place v k) ->
    (forall k, (0 < k < length v)%nat -> par k = i -> (0 < i)%nat -> before (bh_get v (par i)) (bh_get v k)) ->
    ordered_heap (oh_sift_up le n v i).
  Proof.
    induction n as [|n IH]; intros v i FV L Ln H1 H2.
    - intros k Lk. cbn [oh_sift_up] in *. apply H1; lia.
    - cbn [oh_sift_up]. destruct i as [|i]; [intros k Lk; apply H1; lia |]. change (Nat.div2 (S i - 1)) with (par (S i)).
      pose proof (par_child (S i) ltac:(lia)) as PC. destruct (entry_le le (bh_get v (S i)) (bh_get v (par (S i)))) eqn:E.
      + apply before_true in E; [|apply fits_get; [exact FV | lia]..]. intros k Lk. destruct (Nat.eq_dec k (S i)) as [-> | N]; [exact E | apply H1; assumption].
      + apply before_false in E; [|apply fits_get; [exact FV | lia]..]. set (j := par (S i)) in *.
        apply IH; [apply (fits_perm v); [symmetry; apply swap_perm; lia | exact FV] | rewrite swap_length; lia | lia | |].
        * intros k Lk Nk. rewrite swap_length in Lk. unfold in_place. rewrite !get_swap by lia.
          destruct (Nat.eqb_spec k j) as [-> | _]; [contradiction |]. destruct (Nat.eqb_spec k (S i)) as [-> | Nk2].
          -- change (par (S i)) with j. rewrite Nat.eqb_refl. exact E.
          -- destruct (Nat.eqb_spec (par k) j) as [Ej | Nj].
             ++ pose proof (H1 k Lk Nk2) as F. unfold in_place in F. rewrite Ej in F.
                apply (before_trans _ (bh_get v j)); [apply fits_get; [exact FV | lia].. | exact E | exact F].
             ++ destruct (Nat.eqb_spec (par k) (S i)) as [Es | Ns]; [|apply H1; assumption]. apply H2; [exact Lk | exact Es | lia].
        * intros k Lk Pk Lj. rewrite swap_length in Lk. rewrite !get_swap by lia. pose proof (par_child k ltac:(lia)) as PK. pose proof (par_child j Lj) as PJ.
          rewrite (proj2 (Nat.eqb_neq k j)) by lia. rewrite (proj2 (Nat.eqb_neq (par j) j)), (proj2 (Nat.eqb_neq (par j) (S i))) by lia.
          assert (Fj : in_place v j) by (apply H1; lia). unfold in_place in Fj.
          destruct (Nat.eqb_spec k (S i)) as [-> | Nk]; [exact Fj |].
          pose proof (H1 k Lk Nk) as F. unfold in_place in F. rewrite Pk in F.
          apply (before_trans _ (bh_get v j)); [apply fits_get; [exact FV | lia].. | exact Fj | exact F].
  Qed.
  Lemma opush_heap : forall v e, fits (e :: v) -> ordered_heap v -> ordered_heap (oh_push le v e).
  Proof.
    intros v e FV HV. unfold oh_push. assert (L : (length v < length (v ++ [e]))%nat) by (rewrite app_length; cbn; lia).
    apply osift_up_heap; [apply (fits_perm (e :: v)); [apply Permutation_cons_append | exact FV] | exact L | lia | |].
    - intros k Lk N. rewrite app_length in Lk. cbn in Lk. pose proof (par_child k ltac:(lia)). unfold in_place. rewrite !get_app1 by lia. apply HV. lia.
    - intros k Lk Pk Lp. rewrite app_length in Lk. cbn in Lk. pose proof (par_child k ltac:(lia)). lia.
  Qed.
  Lemma osink_heap : forall n v i, fits v -> (i < length v)%nat -> (length v <= n + i)%nat ->
    (forall k, (0 < k < length v)%nat -> k <> i -> par k <> i -> in_place v k) ->
    (forall k, (0 < k < length v)%nat -> par k = i -> (0 < i)%nat -> before (bh_get v (par i)) (bh_get v k)) ->
    forall k, (0 < k < length v)%nat ->
      par k <> snd (oh_sink le n v i) /\ (k <> snd (oh_sink le n v i) -> in_place (fst (oh_sink le n v i)) k).
  Proof.
    induction n as [|n IH]; intros v i FV L Ln H1 H2; [lia |]. cbn [oh_sink].
    (* moving the child [c] up into the place of [i] *)
    assert (MOVE : forall c, (c = 2 * i + 1 \/ c = 2 * i + 2)%nat -> (c < length v)%nat ->
      (forall k, (0 < k < length v)%nat -> par k = i -> before (bh_get v c) (bh_get v k)) ->
      (forall k, (0 < k < length v)%nat -> k <> c -> par k <> c -> in_place (bh_swap v i c) k) /\
      (forall k, (0 < k < length v)%nat -> par k = c -> (0 < c)%nat -> before (bh_get (bh_swap v i c) (par c)) (bh_get (bh_swap v i c) k))).
    { intros c Ec Lc G. pose proof (par_of c i Ec) as Pc. split.
      - intros k Lk Nk Npk. unfold in_place. rewrite !get_swap by assumption. rewrite (proj2 (Nat.eqb_neq k c)), (proj2 (Nat.eqb_neq (par k) c)) by assumption.
        destruct (Nat.eqb_spec k i) as [-> | Nki].
        + pose proof (par_child i ltac:(lia)). rewrite (proj2 (Nat.eqb_neq (par i) i)) by lia. apply H2; [lia | exact Pc | lia].
        + destruct (Nat.eqb_spec (par k) i) as [E | N]; [apply G; assumption | apply H1; assumption].
      - intros k Lk Pk _. pose proof (par_child k ltac:(lia)). rewrite !get_swap by assumption. rewrite Pc.
        rewrite (proj2 (Nat.eqb_neq k c)), (proj2 (Nat.eqb_neq k i)), (proj2 (Nat.eqb_neq i c)) by lia. rewrite Nat.eqb_refl.
        assert (F : in_place v k) by (apply H1; lia). unfold in_place in F. rewrite Pk in F. exact F. }
    destruct (Nat.ltb_spec (2 * i + 1 + 1) (length v)) as [L2 | L2].
    - set (c := if entry_le le _ _ then _ else _).
      assert (Ec : (c = 2 * i + 1 \/ c = 2 * i + 2)%nat) by (unfold c; destruct (entry_le le _ _); lia).
      assert (G : forall k, (0 < k < length v)%nat -> par k = i -> before (bh_get v c) (bh_get v k)).
      { intros k Lk Pk. pose proof (par_child k ltac:(lia)) as PK. rewrite Pk in PK. unfold c.
        destruct (entry_le le (bh_get v (2 * i + 1)) (bh_get v (2 * i + 1 + 1))) eqn:E.
        - apply before_true in E; [|apply fits_get; [exact FV | lia]..]. destruct PK as [-> | ->]; [exact E |]. replace (2 * i + 2)%nat with (2 * i + 1 + 1)%nat by lia. apply before_refl.
        - apply before_false in E; [|apply fits_get; [exact FV | lia]..]. destruct PK as [-> | ->]; [apply before_refl |]. replace (2 * i + 2)%nat with (2 * i + 1 + 1)%nat by lia. exact E. }
      destruct (MOVE c Ec ltac:(lia) G) as (M1 & M2). pose proof (IH (bh_swap v i c) c) as K. rewrite swap_length in K.
      apply K; [apply (fits_perm v); [symmetry; apply swap_perm; lia | exact FV] | lia | lia | exact M1 | exact M2].
    - destruct (Nat.ltb_spec (2 * i + 1) (length v)) as [L1 | L1]; cbn [fst snd].
      + assert (G : forall k, (0 < k < length v)%nat -> par k = i -> before (bh_get v (2 * i + 1)) (bh_get v k)).
        { intros k Lk Pk. pose proof (par_child k ltac:(lia)) as PK. assert (k = 2 * i + 1)%nat as -> by lia. apply before_refl. }
        destruct (MOVE (2 * i + 1)%nat (or_introl eq_refl) L1 G) as (M1 & _). intros k Lk. pose proof (par_child k ltac:(lia)) as PK.
        split; [lia |]. intros N. apply M1; [exact Lk | exact N | lia].
      + intros k Lk. pose proof (par_child k ltac:(lia)) as PK. split; [lia |]. intros N. apply H1; [exact Lk | exact N | lia].
  Qed.
  Lemma opop_heap : forall v e v', fits v -> ordered_heap v -> oh_pop le v = Some (e, v') -> ordered_heap v' /\ forall x, In x v -> before e x.
  Proof.
    intros [|top t] e v' FV HV E; [discriminate |]. cbn [oh_pop] in E.
    assert (TOP : forall x, In x (top :: t) -> before top x).
    { intros x Hx. apply (In_nth _ _ (0, ((0, 0), dir_default))) in Hx. destruct Hx as (i & Li & <-).
      exact (ordered_top (top :: t) i FV HV Li). }
    destruct (rev t) as [|item r] eqn:Er.
    - assert (t = []) as -> by (rewrite <- (rev_involutive t), Er; reflexivity). injection E as <- <-.
      split; [intros i Li; cbn in Li; lia | exact TOP].
    - assert (Et : t = rev r ++ [item]) by (rewrite <- (rev_involutive t), Er; reflexivity). rewrite Et in *. rewrite removelast_last in E.
      set (v0 := item :: rev r) in *. assert (L0 : (0 < length v0)%nat) by (cbn; lia).
      assert (F0 : fits v0) by (intros x Hx; apply FV; right; apply in_or_app; destruct Hx as [<- | Hx]; [right; left; reflexivity | left; exact Hx]).
      assert (EQ : forall k, (0 < k < length v0)%nat -> bh_get v0 k = bh_get (top :: rev r ++ [item]) k).
      { intros k Lk. destruct k as [|k]; [lia |]. cbn [length v0] in Lk. unfold bh_get, v0. cbn [nth]. symmetry. apply app_nth1. lia. }
      assert (LV : length (top :: rev r ++ [item]) = S (length v0)) by (cbn; rewrite app_length; cbn; lia).
      pose proof (osink_perm le (length v0) v0 0 L0) as (S1 & S2).
      pose proof (osink_heap (length v0) v0 0 F0 L0 ltac:(lia)) as SH.
      destruct (oh_sink le (length v0) v0 0) as [v1 p] eqn:Es. cbn [fst snd] in *. injection E as <- <-.
      assert (L1 : length v1 = length v0) by (apply Permutation_length; exact S1).
      split; [|exact TOP].
      assert (SH' : forall k, (0 < k < length v0)%nat -> par k <> p /\ (k <> p -> in_place v1 k)).
      { apply SH; [|intros; lia]. intros k Lk Nk Npk. pose proof (par_child k ltac:(lia)). unfold in_place. rewrite !EQ by lia. apply HV. rewrite LV. lia. }
      apply osift_up_heap; [apply (fits_perm v0); [symmetry; exact S1 | exact F0] | lia | lia | |].
      + intros k Lk N. apply SH'; [lia | exact N].
      + intros k Lk Pk _. exfalso. destruct (SH' k ltac:(lia)) as (X & _). contradiction.
  Qed.
End OrderedHeap.

(** No element costs less than its parent. *)
Definition cheaper (a b : entry) : Prop := e_prio a <= e_prio b.

Definition cost_heap (v : list entry) : Prop := ordered_heap cheaper v.

Lemma opush_ok : forall le v e, cost_heap v -> cost_heap (oh_push le v e) /\ Permutation (oh_push le v e) (e :: v).
Proof.
  intros le v e HV. split; [|apply opush_perm]. apply (opush_heap le (fun _ => True) cheaper); unfold cheaper; try (intros; lia).
  - intros a b _ _. apply entry_le_true.
  - intros a b _ _. apply entry_le_false.
  - intros x _. exact I.
  - exact HV.
Qed.

Lemma opop_ok : forall le v, cost_heap v ->
  match oh_pop le v with
  | None => v = []
  | Some (e, v') => cost_heap v' /\ Permutation v (e :: v') /\ forall x, In x v -> e_prio e <= e_prio x
  end.
Proof.
  intros le v HV. pose proof (opop_perm le v) as Pm. destruct (oh_pop le v) as [[e v']|] eqn:E; [|exact Pm].
  destruct (opop_heap le (fun _ => True) cheaper) with (v := v) (e := e) (v' := v') as (K1 & K2); unfold cheaper; try (intros; lia).
  - intros a b _ _. apply entry_le_true.
  - intros a b _ _. apply entry_le_false.
  - intros x _. exact I.
  - exact HV.
  - exact E.
  - split; [exact K1 |]. split; [exact Pm | exact K2].
Qed.

Lemma C148_binary_heap_proof : forall le, exists ok, fair_queue (queue_ordered le) ok (fun v => v).
Proof.
  intros le. exists cost_heap. constructor.
  - split; [intros i Li; cbn in Li; lia | reflexivity].
  - intros v e HV. exact (opush_ok le v e HV).
  - intros v HV. exact (opop_ok le v HV).
Qed.

(** ** With the order of sqrid's own types, the heap of Queue.v *)

Lemma own_le : forall le, (forall x y, le x y = true <-> ~ sooner (0, x) (0, y)) -> forall a b, entry_le le a b = negb (entry_ltb b a).
Proof.
  intros le HL a b. apply eq_true_iff_eq. rewrite negb_true_iff, <- not_true_iff_false, sooner_ltb. unfold entry_le.
  destruct a as [pa ma], b as [pb mb]. destruct (Z.eqb_spec (e_prio (pa, ma)) (e_prio (pb, mb))) as [E | N].
  - cbn [snd]. rewrite HL. unfold sooner, e_prio, e_pos, e_dir in *. cbn [fst snd] in *. lia.
  - rewrite Z.ltb_lt. unfold sooner, e_prio, e_pos, e_dir in *. cbn [fst snd] in *. lia.
Qed.

Lemma C148_own_order_proof : forall le, (forall x y, le x y = true <-> ~ sooner (0, x) (0, y)) ->
  (forall v e, q_push (queue_ordered le) v e = q_push queue_binary v e) /\
  (forall v, q_pop (queue_ordered le) v = q_pop queue_binary v).
Proof.
  intros le HL. pose proof (own_le le HL) as EQ. cbn [queue_ordered queue_binary q_push q_pop].
  assert (UP : forall n v i, oh_sift_up le n v i = bh_sift_up n v i).
  { induction n as [|n IH]; intros v i; [reflexivity |]. cbn [oh_sift_up bh_sift_up]. destruct i; [reflexivity |]. rewrite EQ.
    destruct (entry_ltb _ _); cbn [negb]; [apply IH | reflexivity]. }
  assert (SK : forall n v i, oh_sink le n v i = bh_sink n v i).
  { induction n as [|n IH]; intros v i; [reflexivity |]. cbn [oh_sink bh_sink]. rewrite EQ.
    destruct (_ <? _)%nat; [|reflexivity]. destruct (entry_ltb _ _); cbn [negb]; apply IH. }
  split.
  - intros v e. apply UP.
  - intros [|top t]; [reflexivity |]. cbn [oh_pop bh_pop]. destruct (rev t); [reflexivity |]. rewrite SK.
    destruct (bh_sink _ _ _). rewrite UP. reflexivity.
Qed.
