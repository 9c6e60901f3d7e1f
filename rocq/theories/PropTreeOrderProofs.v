(** PropTreeOrderProofs.v -- proofs of the statements of PropTreeOrder.v. *)

From Coq Require Import ZArith List Bool Lia Sorted Permutation.
From Verif Require Import Rust BoundedInt Dir PosT Pos Grid Gridbool SetMap CameFrom Heap Bf Astar Ucs Queue Order Spec SpecSearch SpecStorage SpecPrice SpecQueue SpecOrder Btree SpecBtree SpecTreeOrder Lib BoundedIntProofs PosTProofs PosTProofs2 SetMapProofs Sim CameFromProofs PropSetMapProofs BfProofs PropBfProofs AstarProofs PropAstarProofs PropUcsProofs FairQueue PropAgreeProofs PropStorageProofs BtreeProofs PropBtreeProofs PropOrderProofs.
Import ListNotations.
Open Scope Z_scope.

(** ** Trees *)

Lemma storage_total : forall cmp P, total_order cmp ->
  (forall ops, Forall (fun o => valid P (set_op_pos o)) ops -> run_set_ops (set_tree_by cmp) tree_empty ops = Ret (set_answers (fun _ => false) ops)) /\
  (forall Item (dflt : Item) ops, Forall (fun o => valid P (map_op_pos o)) ops ->
     run_map_ops (map_tree_by cmp) (mp_new (map_tree_by cmp) dflt) ops = Ret (map_answers (fun _ => dflt) ops)).
Proof.
  intros cmp P TO. split.
  - intros ops F. apply (lawful_set_runs P _ _ (lawful_treeset_by cmp P TO)); [split; [apply good_empty | reflexivity] | exact F].
  - intros Item dflt ops F. apply (lawful_map_runs P _ _ (lawful_treemap_by Item cmp P TO)); [apply (lm_new _ _ _ (lawful_treemap_by Item cmp P TO)) | exact F].
Qed.

Lemma by_lt : forall cmp l, StronglySorted (lt_by cmp) l -> StronglySorted (fun p q => cmp p q = Lt) l.
Proof. intros cmp l H. induction H as [|p l H IH F]; constructor; [exact IH |]. eapply Forall_impl; [|exact F]. intros q. apply ltb_lt. Qed.

Lemma in_assoc : forall V (l : list (pos * V)) p v, NoDup (map fst l) -> (In (p, v) l <-> assoc_get l p = Some v).
Proof.
  intros V l p v. induction l as [|[q u] l IH]; intros N; [split; [contradiction | discriminate] |]. inversion N as [|? ? N1 N2]; subst. cbn [assoc_get In]. destruct (pos_eqb p q) eqn:E.
  - apply pos_eqb_eq in E. subst q. split; [intros [H | H]; [congruence | exfalso; apply N1; apply (in_map fst) in H; exact H] | intros H; left; congruence].
  - apply pos_eqb_neq in E. rewrite (IH N2). split; [intros [H | H]; [congruence | exact H] | intros H; right; exact H].
Qed.

Lemma by_nodup : forall cmp l, total_order cmp -> StronglySorted (fun p q => cmp p q = Lt) l -> NoDup l.
Proof.
  intros cmp l TO H. induction H as [|p l H IH F]; constructor; [|exact IH]. intros I. rewrite Forall_forall in F. specialize (F _ I). rewrite (cmp_refl _ TO) in F. discriminate.
Qed.

Lemma same_entries : forall V cmp cmp' (l l' : list (pos * V)), total_order cmp -> total_order cmp' ->
  StronglySorted (fun p q => cmp p q = Lt) (map fst l) -> StronglySorted (fun p q => cmp' p q = Lt) (map fst l') ->
  (forall p, assoc_get l p = assoc_get l' p) -> Permutation l l'.
Proof.
  intros V cmp cmp' l l' TO TO' S S' H. apply by_nodup in S; [|exact TO]. apply by_nodup in S'; [|exact TO'].
  apply NoDup_Permutation; [apply (NoDup_map_inv fst); exact S | apply (NoDup_map_inv fst); exact S' |]. intros [p v]. rewrite !in_assoc by assumption. rewrite H. reflexivity.
Qed.

Lemma sorted_total : forall cmp, total_order cmp ->
  (forall ops, exists t l, set_after (set_tree_by cmp) tree_empty ops = Ret t /\ set_after set_btree [] ops = Ret l /\
     Permutation (map fst (entries (snd t))) l /\ StronglySorted (fun p q => cmp p q = Lt) (map fst (entries (snd t))) /\ balanced (fst t) (snd t)) /\
  (forall Item (dflt : Item) ops, exists t l, map_after (map_tree_by cmp) (mp_new (map_tree_by cmp) dflt) ops = Ret (t, dflt) /\ map_after map_btree (mp_new map_btree dflt) ops = Ret (l, dflt) /\
     Permutation (entries (snd t)) l /\ StronglySorted (fun p q => cmp p q = Lt) (map fst (entries (snd t))) /\ balanced (fst t) (snd t)).
Proof.
  intros cmp TO.
  assert (SORT : forall V (t : tree V), good cmp t -> StronglySorted (fun p q => cmp p q = Lt) (map fst (entries (snd t)))) by (intros V t G; apply by_lt, G).
  split.
  - intros ops. destruct (proj1 C132_balanced_proof ops) as (t0 & l & E0 & El & K0 & _).
    assert (KK : forall ops (t t0 : tree unit), good cmp t -> good pos_cmp t0 -> (forall p, assoc_get (entries (snd t)) p = assoc_get (entries (snd t0)) p) ->
      exists t' t0', set_after (set_tree_by cmp) t ops = Ret t' /\ set_after set_tree t0 ops = Ret t0' /\ good cmp t' /\ good pos_cmp t0' /\ forall p, assoc_get (entries (snd t')) p = assoc_get (entries (snd t0')) p).
    { clear - TO. induction ops as [|o ops IH]; intros t t0 G G0 H; [exists t, t0; auto |].
      assert (INS : forall p, exists t1 t2, sp_insert (set_tree_by cmp) t p = Ret t1 /\ sp_insert set_tree t0 p = Ret t2 /\ good cmp t1 /\ good pos_cmp t2 /\ forall q, assoc_get (entries (snd t1)) q = assoc_get (entries (snd t2)) q).
      { intros p. destruct (tree_insert_ok _ TO t p tt G) as (t1 & E1 & G1 & EE1). destruct (tree_insert_ok _ pos_cmp_order t0 p tt G0) as (t2 & E2 & G2 & EE2). exists t1, t2. split; [exact E1 |]. split; [exact E2 |]. split; [exact G1 |]. split; [exact G2 |].
        intros q. rewrite EE1, EE2. rewrite (proj1 (proj2 (lset_ok _ TO _ p tt (proj2 G)))), (proj1 (proj2 (lset_ok _ pos_cmp_order _ p tt (proj2 G0)))), H. reflexivity. }
      assert (REM : forall p, exists t1 t2, sp_remove (set_tree_by cmp) t p = Ret t1 /\ sp_remove set_tree t0 p = Ret t2 /\ good cmp t1 /\ good pos_cmp t2 /\ forall q, assoc_get (entries (snd t1)) q = assoc_get (entries (snd t2)) q).
      { intros p. destruct (tree_remove_ok _ TO t p G) as (t1 & E1 & G1 & EE1). destruct (tree_remove_ok _ pos_cmp_order t0 p G0) as (t2 & E2 & G2 & EE2). exists t1, t2. split; [exact E1 |]. split; [exact E2 |]. split; [exact G1 |]. split; [exact G2 |].
        intros q. rewrite EE1, EE2, !get_del, H. reflexivity. }
      destruct o as [p | p | p b | p]; cbn [set_after].
      - destruct (INS p) as (t1 & t2 & -> & -> & G1 & G2 & H'). apply (IH _ _ G1 G2 H').
      - destruct (REM p) as (t1 & t2 & -> & -> & G1 & G2 & H'). apply (IH _ _ G1 G2 H').
      - unfold sp_set. destruct b; [destruct (INS p) as (t1 & t2 & -> & -> & G1 & G2 & H') | destruct (REM p) as (t1 & t2 & -> & -> & G1 & G2 & H')]; apply (IH _ _ G1 G2 H').
      - apply (IH _ _ G G0 H). }
    destruct (KK ops tree_empty tree_empty (good_empty cmp) (good_empty pos_cmp) (fun _ => eq_refl)) as (t & t0' & E & E0' & G & G0 & H).
    rewrite E0 in E0'. injection E0' as <-. exists t, l. split; [exact E |]. split; [exact El |]. split; [|split; [apply SORT; exact G | apply (good_balanced cmp); exact G]].
    rewrite <- K0. apply Permutation_map. apply (same_entries _ cmp pos_cmp); [exact TO | exact pos_cmp_order | apply SORT; exact G | apply by_lt, G0 | exact H].
  - intros Item dflt ops. destruct (proj2 C132_balanced_proof Item dflt ops) as (t0 & l & E0 & El & K0 & _).
    assert (KK : forall ops (t t0 : tree Item), good cmp t -> good pos_cmp t0 -> (forall p, assoc_get (entries (snd t)) p = assoc_get (entries (snd t0)) p) ->
      exists t' t0', map_after (map_tree_by cmp) (t, dflt) ops = Ret (t', dflt) /\ map_after map_tree (t0, dflt) ops = Ret (t0', dflt) /\ good cmp t' /\ good pos_cmp t0' /\ forall p, assoc_get (entries (snd t')) p = assoc_get (entries (snd t0')) p).
    { clear - TO. induction ops as [|o ops IH]; intros t t0 G G0 H; [exists t, t0; auto |]. destruct o as [p v | p]; cbn [map_after]; [|apply (IH _ _ G G0 H)].
      destruct (tree_insert_ok _ TO t p v G) as (t1 & E1 & G1 & EE1). destruct (tree_insert_ok _ pos_cmp_order t0 p v G0) as (t2 & E2 & G2 & EE2). cbn [mp_set map_tree map_tree_by fst snd]. rewrite E1, E2. cbn [bind]. apply (IH _ _ G1 G2).
      intros q. rewrite EE1, EE2. rewrite (proj1 (proj2 (lset_ok _ TO _ p v (proj2 G)))), (proj1 (proj2 (lset_ok _ pos_cmp_order _ p v (proj2 G0)))), H. reflexivity. }
    destruct (KK ops tree_empty tree_empty (good_empty cmp) (good_empty pos_cmp) (fun _ => eq_refl)) as (t & t0' & E & E0' & G & G0 & H).
    change (mp_new map_tree dflt) with (@tree_empty Item, dflt) in E0. rewrite E0' in E0. injection E0 as ->. exists t, l. split; [exact E |]. split; [exact El |]. split; [|split; [apply SORT; exact G | apply (good_balanced cmp); exact G]].
    rewrite <- K0. apply (same_entries _ cmp pos_cmp); [exact TO | exact pos_cmp_order | apply SORT; exact G | apply by_lt, G0 | exact H].
Qed.

(** An order of the values of a type, extended to all pairs: the others come first. *)
Definition in_btyb (b : bty) (v : Z) : bool := (b_min b <=? v) && (v <=? b_max b).

Definition validb (P : post) (p : pos) : bool := in_btyb (pt_x P) (fst p) && in_btyb (pt_y P) (snd p).

Lemma validb_iff : forall P p, validb P p = true <-> valid P p.
Proof. intros P p. unfold validb, valid, in_bty, in_btyb. rewrite !andb_true_iff, !Z.leb_le. tauto. Qed.

Definition ext (P : post) (cmp : pos -> pos -> comparison) (p q : pos) : comparison :=
  if validb P p then if validb P q then cmp p q else Gt
  else if validb P q then Lt else pos_cmp p q.

Lemma ext_order : forall P cmp, order_of P cmp -> total_order (ext P cmp).
Proof.
  intros P cmp OO. pose proof pos_cmp_order as PO. constructor.
  - intros p q. unfold ext. destruct (validb P p) eqn:Ep, (validb P q) eqn:Eq.
    + apply OO; apply validb_iff; assumption.
    + split; [discriminate |]. intros ->. congruence.
    + split; [discriminate |]. intros ->. congruence.
    + apply PO.
  - intros p q. unfold ext. destruct (validb P p) eqn:Ep, (validb P q) eqn:Eq; try reflexivity; [|apply PO]. apply OO; apply validb_iff; assumption.
  - intros p q r. unfold ext. destruct (validb P p) eqn:Ep, (validb P q) eqn:Eq, (validb P r) eqn:Er; try discriminate; try reflexivity; [|apply PO]. apply (oo_trans _ _ OO); apply validb_iff; assumption.
Qed.

Lemma ext_valid : forall P cmp p q, valid P p -> valid P q -> cmp p q = ext P cmp p q.
Proof. intros P cmp p q Vp Vq. apply validb_iff in Vp. apply validb_iff in Vq. unfold ext. rewrite Vp, Vq. reflexivity. Qed.

(** Trees whose keys are values of the type. *)
Definition tidy {V} (P : post) (t : tree V) : Prop := formed t /\ forall k v, In (k, v) (entries (snd t)) -> valid P k.

Lemma tidy_empty : forall V P, tidy P (@tree_empty V).
Proof. intros V P. split; [apply formed_empty | intros k v []]. Qed.

Lemma tidy_agree : forall V P cmp (t : tree V) p, tidy P t -> valid P p -> agree cmp (ext P cmp) p (entries (snd t)).
Proof. intros V P cmp t p (_ & H) Vp k v I. apply ext_valid; [exact Vp | exact (H k v I)]. Qed.

Lemma tidy_insert : forall V P cmp (t : tree V) p v, tidy P t -> valid P p -> exists t', tree_insert cmp t p v = Ret t' /\ tree_insert (ext P cmp) t p v = Ret t' /\ tidy P t'.
Proof.
  intros V P cmp t p v T Vp. destruct (tree_insert_any cmp t p v (proj1 T)) as (t' & E & F & (a & c & b & k & E1 & E2 & H)). exists t'. split; [exact E |]. split; [rewrite <- E; symmetry; apply tree_insert_same; [apply T | apply tidy_agree; assumption] |].
  split; [exact F |]. destruct T as (_ & T). rewrite E1 in T. intros k' v'. rewrite E2, in_app_iff. cbn [In]. intros [I | [I | I]]; [apply (T k' v'); rewrite !in_app_iff; auto | | apply (T k' v'); rewrite !in_app_iff; auto].
  injection I as <- <-. destruct H as [(_ & ->) | (u & -> & _)]; [exact Vp |]. apply (T k u). rewrite !in_app_iff. right. left. left. reflexivity.
Qed.

Lemma tidy_remove : forall V P cmp (t : tree V) p, tidy P t -> valid P p -> exists t', tree_remove cmp t p = Ret t' /\ tree_remove (ext P cmp) t p = Ret t' /\ tidy P t'.
Proof.
  intros V P cmp t p T Vp. destruct (tree_remove_any cmp t p (proj1 T)) as (t' & E & F & (a & c & b & E1 & E2 & H)). exists t'. split; [exact E |]. split; [rewrite <- E; symmetry; apply tree_remove_same; [apply T | apply tidy_agree; assumption] |].
  split; [exact F |]. destruct T as (_ & T). rewrite E1 in T. intros k' v'. rewrite E2, in_app_iff. intros [I | I]; apply (T k' v'); rewrite !in_app_iff; auto.
Qed.

Lemma set_same : forall P cmp ops t, tidy P t -> Forall (fun o => valid P (set_op_pos o)) ops ->
  run_set_ops (set_tree_by cmp) t ops = run_set_ops (set_tree_by (ext P cmp)) t ops /\
  set_after (set_tree_by cmp) t ops = set_after (set_tree_by (ext P cmp)) t ops.
Proof.
  intros P cmp ops. induction ops as [|o ops IH]; intros t T F; [split; reflexivity |]. inversion F as [|? ? V F']; subst.
  assert (INS : forall p, valid P p -> exists t', sp_insert (set_tree_by cmp) t p = Ret t' /\ sp_insert (set_tree_by (ext P cmp)) t p = Ret t' /\ tidy P t') by (intros p Vp; apply (tidy_insert _ P cmp t p tt T Vp)).
  assert (REM : forall p, valid P p -> exists t', sp_remove (set_tree_by cmp) t p = Ret t' /\ sp_remove (set_tree_by (ext P cmp)) t p = Ret t' /\ tidy P t') by (intros p Vp; apply (tidy_remove _ P cmp t p T Vp)).
  destruct o as [p | p | p b | p]; cbn [set_op_pos] in V; cbn [run_set_ops set_after].
  - destruct (INS p V) as (t' & -> & -> & T'). apply (IH _ T' F').
  - destruct (REM p V) as (t' & -> & -> & T'). apply (IH _ T' F').
  - unfold sp_set. destruct b; [destruct (INS p V) as (t' & -> & -> & T') | destruct (REM p V) as (t' & -> & -> & T')]; apply (IH _ T' F').
  - destruct (IH _ T F') as (H1 & H2). split; [|exact H2].
    assert (GET : sp_contains (set_tree_by cmp) t p = sp_contains (set_tree_by (ext P cmp)) t p) by (cbn [sp_contains set_tree_by]; rewrite (tree_get_same cmp (ext P cmp) p t (proj1 T) (tidy_agree _ P cmp t p T V)); reflexivity).
    rewrite GET. destruct (sp_contains (set_tree_by (ext P cmp)) t p); cbn [bind]; try reflexivity. rewrite H1. reflexivity.
Qed.

Lemma map_same : forall Item P cmp (dflt : Item) ops t, tidy P t -> Forall (fun o => valid P (map_op_pos o)) ops ->
  run_map_ops (map_tree_by cmp) (t, dflt) ops = run_map_ops (map_tree_by (ext P cmp)) (t, dflt) ops /\
  map_after (map_tree_by cmp) (t, dflt) ops = map_after (map_tree_by (ext P cmp)) (t, dflt) ops.
Proof.
  intros Item P cmp dflt ops. induction ops as [|o ops IH]; intros t T F; [split; reflexivity |]. inversion F as [|? ? V F']; subst.
  destruct o as [p v | p]; cbn [map_op_pos] in V; cbn [run_map_ops map_after].
  - assert (PUT : exists t', mp_set (map_tree_by cmp) (t, dflt) p v = Ret (t', dflt) /\ mp_set (map_tree_by (ext P cmp)) (t, dflt) p v = Ret (t', dflt) /\ tidy P t').
    { destruct (tidy_insert _ P cmp t p v T V) as (t' & E1 & E2 & T'). exists t'. cbn [mp_set map_tree_by fst snd]. rewrite E1, E2. auto. }
    destruct PUT as (t' & -> & -> & T'). apply (IH _ T' F').
  - destruct (IH _ T F') as (H1 & H2). split; [|exact H2].
    assert (GET : mp_get (map_tree_by cmp) (t, dflt) p = mp_get (map_tree_by (ext P cmp)) (t, dflt) p) by (cbn [mp_get map_tree_by fst snd]; rewrite (tree_get_same cmp (ext P cmp) p t (proj1 T) (tidy_agree _ P cmp t p T V)); reflexivity).
    rewrite GET. destruct (mp_get (map_tree_by (ext P cmp)) (t, dflt) p); cbn [bind]; try reflexivity. rewrite H1. reflexivity.
Qed.

Lemma C150_storage_proof : forall cmp P, order_of P cmp ->
  (forall ops, Forall (fun o => valid P (set_op_pos o)) ops -> run_set_ops (set_tree_by cmp) tree_empty ops = Ret (set_answers (fun _ => false) ops)) /\
  (forall Item (dflt : Item) ops, Forall (fun o => valid P (map_op_pos o)) ops ->
     run_map_ops (map_tree_by cmp) (mp_new (map_tree_by cmp) dflt) ops = Ret (map_answers (fun _ => dflt) ops)).
Proof.
  intros cmp P OO. pose proof (storage_total (ext P cmp) P (ext_order P cmp OO)) as (H1 & H2). split.
  - intros ops F. rewrite (proj1 (set_same P cmp ops tree_empty (tidy_empty _ P) F)). apply H1. exact F.
  - intros Item dflt ops F. change (mp_new (map_tree_by cmp) dflt) with (@tree_empty Item, dflt). rewrite (proj1 (map_same Item P cmp dflt ops tree_empty (tidy_empty _ P) F)). apply H2. exact F.
Qed.

Lemma valid_keys : forall V cmp P (t : tree V), (forall k v, In (k, v) (entries (snd t)) -> valid P k) -> StronglySorted (fun p q => ext P cmp p q = Lt) (map fst (entries (snd t))) -> StronglySorted (fun p q => cmp p q = Lt) (map fst (entries (snd t))).
Proof.
  intros V cmp P t. generalize (entries (snd t)) as l. induction l as [|[k v] l IH]; intros T S; [constructor |]. cbn [map fst] in *. inversion S as [|? ? S1 S2]; subst. constructor; [apply IH; [intros k' v' I; apply (T k' v'); right; exact I | exact S1] |].
  apply Forall_forall. intros q I. pose proof (proj1 (Forall_forall _ _) S2 q I) as L. apply in_map_iff in I as ((q' & w) & <- & I). cbn [fst] in *. rewrite (ext_valid P cmp); [exact L | apply (T k v); left; reflexivity | apply (T q' w); right; exact I].
Qed.

Lemma set_tidy : forall P cmp ops t, tidy P t -> Forall (fun o => valid P (set_op_pos o)) ops -> exists t', set_after (set_tree_by cmp) t ops = Ret t' /\ tidy P t'.
Proof.
  intros P cmp ops. induction ops as [|o ops IH]; intros t T F; [exists t; auto |]. inversion F as [|? ? V F']; subst.
  assert (INS : forall p, valid P p -> exists t', sp_insert (set_tree_by cmp) t p = Ret t' /\ tidy P t') by (intros p Vp; destruct (tidy_insert _ P cmp t p tt T Vp) as (t' & E & _ & T'); exists t'; auto).
  assert (REM : forall p, valid P p -> exists t', sp_remove (set_tree_by cmp) t p = Ret t' /\ tidy P t') by (intros p Vp; destruct (tidy_remove _ P cmp t p T Vp) as (t' & E & _ & T'); exists t'; auto).
  destruct o as [p | p | p b | p]; cbn [set_op_pos] in V; cbn [set_after].
  - destruct (INS p V) as (t' & -> & T'). apply (IH _ T' F').
  - destruct (REM p V) as (t' & -> & T'). apply (IH _ T' F').
  - unfold sp_set. destruct b; [destruct (INS p V) as (t' & -> & T') | destruct (REM p V) as (t' & -> & T')]; apply (IH _ T' F').
  - apply (IH _ T F').
Qed.

Lemma map_tidy : forall Item P cmp (dflt : Item) ops t, tidy P t -> Forall (fun o => valid P (map_op_pos o)) ops -> exists t', map_after (map_tree_by cmp) (t, dflt) ops = Ret (t', dflt) /\ tidy P t'.
Proof.
  intros Item P cmp dflt ops. induction ops as [|o ops IH]; intros t T F; [exists t; auto |]. inversion F as [|? ? V F']; subst.
  destruct o as [p v | p]; cbn [map_op_pos] in V; cbn [map_after]; [|apply (IH _ T F')].
  destruct (tidy_insert _ P cmp t p v T V) as (t' & E & _ & T'). cbn [mp_set map_tree_by fst snd]. rewrite E. cbn [bind]. apply (IH _ T' F').
Qed.

Lemma C150_sorted_proof : forall cmp P, order_of P cmp ->
  (forall ops, Forall (fun o => valid P (set_op_pos o)) ops ->
     exists t l, set_after (set_tree_by cmp) tree_empty ops = Ret t /\ set_after set_btree [] ops = Ret l /\
     Permutation (map fst (entries (snd t))) l /\ StronglySorted (fun p q => cmp p q = Lt) (map fst (entries (snd t))) /\ balanced (fst t) (snd t)) /\
  (forall Item (dflt : Item) ops, Forall (fun o => valid P (map_op_pos o)) ops ->
     exists t l, map_after (map_tree_by cmp) (mp_new (map_tree_by cmp) dflt) ops = Ret (t, dflt) /\ map_after map_btree (mp_new map_btree dflt) ops = Ret (l, dflt) /\
     Permutation (entries (snd t)) l /\ StronglySorted (fun p q => cmp p q = Lt) (map fst (entries (snd t))) /\ balanced (fst t) (snd t)).
Proof.
  intros cmp P OO. pose proof (sorted_total (ext P cmp) (ext_order P cmp OO)) as (H1 & H2). split.
  - intros ops F. destruct (H1 ops) as (t & l & E & El & K1 & K2 & K3). rewrite <- (proj2 (set_same P cmp ops tree_empty (tidy_empty _ P) F)) in E. exists t, l. split; [exact E |]. split; [exact El |]. split; [exact K1 |]. split; [|exact K3].
    destruct (set_tidy P cmp ops tree_empty (tidy_empty _ P) F) as (t' & E' & T). rewrite E in E'. injection E' as <-. apply (valid_keys _ cmp P); [apply T | exact K2].
  - intros Item dflt ops F. destruct (H2 Item dflt ops) as (t & l & E & El & K1 & K2 & K3). change (mp_new (map_tree_by (ext P cmp)) dflt) with (@tree_empty Item, dflt) in E. rewrite <- (proj2 (map_same Item P cmp dflt ops tree_empty (tidy_empty _ P) F)) in E. exists t, l. split; [exact E |]. split; [exact El |]. split; [exact K1 |]. split; [|exact K3].
    destruct (map_tidy Item P cmp dflt ops tree_empty (tidy_empty _ P) F) as (t' & E' & T). rewrite E in E'. injection E' as <-. apply (valid_keys _ cmp P); [apply T | exact K2].
Qed.

Lemma set_tree_acts : forall cmp P, order_of P cmp -> acts_as_set P (set_tree_by cmp).
Proof.
  intros cmp P TO. exists tree_empty. split; [reflexivity |]. intros ops F. apply (proj1 (C150_storage_proof cmp P TO)). eapply Forall_impl; [|exact F]. intros o H. apply H.
Qed.

Lemma map_tree_acts : forall Item cmp P, order_of P cmp -> acts_as_map P (@map_tree_by Item cmp).
Proof. intros Item cmp P OO d ops F. split; apply (proj2 (C150_storage_proof cmp P OO)); exact F. Qed.

(** ** Searches *)

Lemma C150_bfs_proof : forall cmp P D W fuel go orig found, order_of P cmp -> post_wf P -> valid P orig -> go_inside P go ->
  bfs_ordered cmp P D fuel go orig found = bfs_on OnBTree P D W fuel go orig found.
Proof.
  intros cmp P D W fuel go orig found OO WF V HG.
  rewrite (proj1 (proj1 (C131_any_storage_proof _ _ _ P D W _ _ _ orig (set_tree_acts cmp P OO) (map_tree_acts _ cmp P OO) (map_tree_acts Z cmp P OO) WF V) go HG) fuel found : bfs_ordered cmp P D fuel go orig found = _).
  rewrite (bf_search_path_sim P D _ _ (lawful_hset P) WF go HG _ _ (lawful_hmap _ _) fuel orig found V : bfs_on OnHash P D W fuel go orig found = _).
  symmetry. apply (bf_search_path_sim P D _ _ (lawful_bset P) WF go HG _ _ (lawful_bmap _ _)). exact V.
Qed.

Lemma C150_ucs_any_proof : forall H M MC (qo : queueops H) ok els (co : mapops Z MC) (mo : mapops (option dir) M) P D go orig dest,
  fair_queue qo ok els -> acts_as_map P co -> acts_as_map P mo -> post_wf P -> valid P orig -> valid P dest ->
  go_inside P (move_of go) -> one_step P (move_of go) -> affordable D P go orig ->
  exists r, settles (fun fuel => ucsq_search_path qo P D co mo go fuel orig dest) r /\
    (r = Ret (Err DestinationUnreachable) <-> ~ reachable D (move_of go) orig dest) /\
    (r = Panic <-> reachable D (move_of go) orig dest /\ ~ retraceable P orig dest) /\
    (r = Ret (Err DestinationUnreachable) \/ r = Panic \/
     (r = Ret (Err Loop) /\ forall rs, (forall p, reachable D (move_of go) orig p -> In p rs) -> cols P * cols P < Z.of_nat (length rs)) \/
     exists path, r = Ret (Ok path) /\ Forall (allowed D) path /\ follow (move_of go) orig path = Some dest /\
       Z.of_nat (length path) <= cols P * cols P /\
       (cost_of_entering D P go -> exists c, follow_cost go orig path = Some (dest, c) /\ lowest_cost D go orig c dest)).
Proof.
  intros H M MC qo ok els co mo P D go orig dest FQ AC AM WF V Vd HG O SC. pose proof (afford_HS D P go orig HG SC) as HS.
  destruct (ucsq_outcome qo ok els P (fair_all FQ P) D _ _ _ _ (acts_lawful_map _ _ P co AC) (acts_lawful_map _ _ P mo AM) WF go orig dest) as (r & Hr & K); try assumption.
  exists r. split; [exact Hr |]. apply fucs_means; assumption.
Qed.

Lemma C150_astar_any_proof : forall H M MC (qo : queueops H) ok els (co : mapops Z MC) (mo : mapops (option dir) M) P D go orig dest rs,
  fair_queue qo ok els -> acts_as_map P co -> acts_as_map P mo -> post_wf P -> valid P orig -> valid P dest ->
  go_inside P go -> one_step P go ->
  (forall p, reachable D go orig p -> In p rs) ->
  (forall p, reachable D go orig p -> measurable P p dest /\
     Z.of_nat (length rs) + (Z.abs (fst p - fst dest) + Z.abs (snd p - snd dest)) <= 18446744073709551615) ->
  exists r, settles (fun fuel => astarq_search_path qo P D co mo go fuel orig dest) r /\
    (r = Ret (Err DestinationUnreachable) <-> ~ reachable D go orig dest) /\
    (r = Panic <-> reachable D go orig dest /\ ~ retraceable P orig dest) /\
    (r = Ret (Err DestinationUnreachable) \/ r = Panic \/
     (r = Ret (Err Loop) /\ (D = false -> cols P * cols P < Z.of_nat (length rs))) \/
     exists path, r = Ret (Ok path) /\ Forall (allowed D) path /\ follow go orig path = Some dest /\
       Z.of_nat (length path) <= cols P * cols P /\
       (D = false -> forall n, walk D go orig n dest ->
          Z.of_nat n = Z.abs (fst orig - fst dest) + Z.abs (snd orig - snd dest) -> length path = n)).
Proof.
  intros H M MC qo ok els co mo P D go orig dest rs FQ AC AM WF V Vd HG O HR HM.
  assert (HL : Z.of_nat (length rs) <= COST_MAX).
  { destruct (HM orig (reach_orig D go orig)) as (_ & L). unfold COST_MAX. lia. }
  assert (NF : ~ too_far P D go orig dest rs) by (intros (q & Rq & Nq); apply Nq; exact (HM q Rq)).
  destruct (astarq_outcome qo ok els P (fair_all FQ P) D _ _ _ _ (acts_lawful_map _ _ P co AC) (acts_lawful_map _ _ P mo AM) WF go orig dest V Vd HG rs HR HL) as (r & Hr & [K | (F & _)]); [|contradiction].
  exists r. split; [exact Hr |]. apply fastar_means; assumption.
Qed.

Lemma C150_ucs_proof : forall cmp P D go orig dest, order_of P cmp -> post_wf P -> valid P orig -> valid P dest ->
  go_inside P (move_of go) -> one_step P (move_of go) -> affordable D P go orig -> retraceable P orig dest ->
  cost_of_entering D P go -> (exists rs, (forall p, reachable D (move_of go) orig p -> In p rs) /\ Z.of_nat (length rs) <= cols P * cols P) ->
  (reachable D (move_of go) orig dest ->
     exists path c, settles (fun fuel => ucs_ordered cmp P D fuel go orig dest) (Ret (Ok path)) /\
       Forall (allowed D) path /\ follow_cost go orig path = Some (dest, c) /\ lowest_cost D go orig c dest) /\
  (~ reachable D (move_of go) orig dest ->
     settles (fun fuel => ucs_ordered cmp P D fuel go orig dest) (Ret (Err DestinationUnreachable))).
Proof.
  intros cmp P D go orig dest TO WF V Vd HG O SC RT CE (rs & HR & LR). destruct (C148_binary_heap_proof (pair_le cmp)) as (ok & FQ).
  destruct (C150_ucs_any_proof _ _ _ _ _ _ _ _ P D go orig dest FQ (map_tree_acts _ cmp P TO) (map_tree_acts _ cmp P TO) WF V Vd HG O SC) as (r & Hr & H1 & H2 & H3).
  split.
  - intros R. destruct H3 as [-> | [-> | [(-> & K) | (path & -> & A & F & L & C)]]].
    + exfalso. apply (proj1 H1 eq_refl). exact R.
    + exfalso. apply (proj1 H2 eq_refl). exact RT.
    + specialize (K rs HR). lia.
    + destruct (C CE) as (c & C1 & C2). exists path, c. auto.
  - intros NR. apply H1 in NR. subst r. exact Hr.
Qed.

Lemma C150_astar_proof : forall cmp P go orig dest rs, order_of P cmp -> post_wf P -> valid P orig -> valid P dest ->
  go_inside P go -> one_step P go -> retraceable P orig dest ->
  (forall p, reachable false go orig p -> In p rs) -> Z.of_nat (length rs) <= cols P * cols P ->
  (forall p, reachable false go orig p -> measurable P p dest /\
     Z.of_nat (length rs) + (Z.abs (fst p - fst dest) + Z.abs (snd p - snd dest)) <= 18446744073709551615) ->
  (reachable false go orig dest ->
     exists path, settles (fun fuel => astar_ordered cmp P false fuel go orig dest) (Ret (Ok path)) /\
       Forall (allowed false) path /\ follow go orig path = Some dest /\
       forall n, walk false go orig n dest -> Z.of_nat n = Z.abs (fst orig - fst dest) + Z.abs (snd orig - snd dest) -> length path = n) /\
  (~ reachable false go orig dest ->
     settles (fun fuel => astar_ordered cmp P false fuel go orig dest) (Ret (Err DestinationUnreachable))).
Proof.
  intros cmp P go orig dest rs TO WF V Vd HG O RT HR LR HM. destruct (C148_binary_heap_proof (pair_le cmp)) as (ok & FQ).
  destruct (C150_astar_any_proof _ _ _ _ _ _ _ _ P false go orig dest rs FQ (map_tree_acts _ cmp P TO) (map_tree_acts _ cmp P TO) WF V Vd HG O HR HM) as (r & Hr & H1 & H2 & H3).
  split.
  - intros R. destruct H3 as [-> | [-> | [(-> & K) | (path & -> & A & F & L & C)]]].
    + exfalso. apply (proj1 H1 eq_refl). exact R.
    + exfalso. apply (proj1 H2 eq_refl). exact RT.
    + specialize (K eq_refl). lia.
    + exists path. split; [exact Hr |]. split; [exact A |]. split; [exact F |]. intros n. apply (C eq_refl).
  - intros NR. apply H1 in NR. subst r. exact Hr.
Qed.

(** ** Comparisons that are no orders *)

Lemma C150_any_comparison_proof : forall cmp,
  (forall ops, exists t, set_after (set_tree_by cmp) tree_empty ops = Ret t /\ balanced (fst t) (snd t) /\
     (forall p, exists b, sp_contains (set_tree_by cmp) t p = Ret b) /\
     forall p, In p (map fst (entries (snd t))) -> In (OpInsert p) ops \/ In (OpSet p true) ops) /\
  (forall Item (dflt : Item) ops, exists t, map_after (map_tree_by cmp) (mp_new (map_tree_by cmp) dflt) ops = Ret (t, dflt) /\ balanced (fst t) (snd t) /\
     (forall p, exists v, mp_get (map_tree_by cmp) (t, dflt) p = Ret v /\ (v = dflt \/ exists q, In (OpPut q v) ops)) /\
     forall p v, In (p, v) (entries (snd t)) -> (exists u, In (OpPut p u) ops) /\ exists q, In (OpPut q v) ops).
Proof.
  intros cmp. split.
  - intros ops. assert (K : forall ops done t, formed t -> (forall p, In p (map fst (entries (snd t))) -> In (OpInsert p) done \/ In (OpSet p true) done) ->
      exists t', set_after (set_tree_by cmp) t ops = Ret t' /\ formed t' /\ forall p, In p (map fst (entries (snd t'))) -> In (OpInsert p) (done ++ ops) \/ In (OpSet p true) (done ++ ops)).
    { clear ops. induction ops as [|o ops IH]; intros done t G H; [exists t; rewrite app_nil_r; auto |].
      assert (INS : forall p, exists t1, sp_insert (set_tree_by cmp) t p = Ret t1 /\ formed t1 /\ forall q, In q (map fst (entries (snd t1))) -> q = p \/ In q (map fst (entries (snd t)))).
      { intros p. destruct (tree_insert_any cmp t p tt G) as (t1 & E & G' & (a & c & b & k & E1 & E2 & HH)). exists t1. split; [exact E |]. split; [exact G' |]. intros q. rewrite E1, E2, !map_app. cbn [map fst]. rewrite !in_app_iff. cbn [In].
        destruct HH as [(-> & ->) | (u & -> & _)]; cbn [map fst In]; intuition auto. }
      assert (REM : forall p, exists t1, sp_remove (set_tree_by cmp) t p = Ret t1 /\ formed t1 /\ forall q, In q (map fst (entries (snd t1))) -> In q (map fst (entries (snd t)))).
      { intros p. destruct (tree_remove_any cmp t p G) as (t1 & E & G' & (a & c & b & E1 & E2 & HH)). exists t1. split; [exact E |]. split; [exact G' |]. intros q. rewrite E1, E2, !map_app, !in_app_iff. intuition auto. }
      assert (NEXT : forall t1, formed t1 -> (forall p, In p (map fst (entries (snd t1))) -> In (OpInsert p) (done ++ [o]) \/ In (OpSet p true) (done ++ [o])) ->
        exists t', set_after (set_tree_by cmp) t1 ops = Ret t' /\ formed t' /\ forall p, In p (map fst (entries (snd t'))) -> In (OpInsert p) (done ++ o :: ops) \/ In (OpSet p true) (done ++ o :: ops)).
      { intros t1 G1 H1. destruct (IH (done ++ [o]) t1 G1 H1) as (t' & E & G' & H'). exists t'. rewrite <- app_assoc in H'. auto. }
      destruct o as [p | p | p b | p]; cbn [set_after].
      - destruct (INS p) as (t1 & -> & G' & HH). apply NEXT; [exact G' |]. intros q Q. rewrite !in_app_iff. cbn [In]. destruct (HH q Q) as [-> | Q']; [tauto |]. specialize (H q Q'). tauto.
      - destruct (REM p) as (t1 & -> & G' & HH). apply NEXT; [exact G' |]. intros q Q. rewrite !in_app_iff. specialize (H q (HH q Q)). tauto.
      - unfold sp_set. destruct b; [destruct (INS p) as (t1 & -> & G' & HH) | destruct (REM p) as (t1 & -> & G' & HH)]; (apply NEXT; [exact G' |]); intros q Q; rewrite !in_app_iff; cbn [In]; [destruct (HH q Q) as [-> | Q']; [tauto |]; specialize (H q Q'); tauto | specialize (H q (HH q Q)); tauto].
      - apply NEXT; [exact G |]. intros q Q. rewrite !in_app_iff. specialize (H q Q). tauto. }
    destruct (K ops [] tree_empty formed_empty) as (t & E & G & H); [contradiction |]. exists t. split; [exact E |]. split; [apply formed_balanced; exact G |]. split; [|exact H].
    intros p. destruct (tree_get_any cmp t p G) as (o & Eo & _). eexists. cbn [sp_contains set_tree_by]. rewrite Eo. reflexivity.
  - intros Item dflt ops. assert (K : forall ops done t, formed t -> (forall p v, In (p, v) (entries (snd t)) -> (exists u, In (OpPut p u) done) /\ exists q, In (OpPut q v) done) ->
      exists t', map_after (map_tree_by cmp) (t, dflt) ops = Ret (t', dflt) /\ formed t' /\ forall p v, In (p, v) (entries (snd t')) -> (exists u, In (OpPut p u) (done ++ ops)) /\ exists q, In (OpPut q v) (done ++ ops)).
    { clear ops. induction ops as [|o ops IH]; intros done t G H; [exists t; rewrite app_nil_r; auto |].
      assert (NEXT : forall t1, formed t1 -> (forall p v, In (p, v) (entries (snd t1)) -> (exists u, In (OpPut p u) (done ++ [o])) /\ exists q, In (OpPut q v) (done ++ [o])) ->
        exists t', map_after (map_tree_by cmp) (t1, dflt) ops = Ret (t', dflt) /\ formed t' /\ forall p v, In (p, v) (entries (snd t')) -> (exists u, In (OpPut p u) (done ++ o :: ops)) /\ exists q, In (OpPut q v) (done ++ o :: ops)).
      { intros t1 G1 H1. destruct (IH (done ++ [o]) t1 G1 H1) as (t' & E & G' & H'). exists t'. rewrite <- app_assoc in H'. auto. }
      assert (OLD : forall p v, In (p, v) (entries (snd t)) -> (exists u, In (OpPut p u) (done ++ [o])) /\ exists q, In (OpPut q v) (done ++ [o])).
      { intros p v I. destruct (H p v I) as ((u & Hu) & (q & Hq)). split; [exists u | exists q]; apply in_or_app; left; assumption. }
      destruct o as [p v | p]; cbn [map_after]; [|apply NEXT; assumption].
      destruct (tree_insert_any cmp t p v G) as (t1 & E & G' & (a & c & b & k & E1 & E2 & HH)). cbn [mp_set map_tree_by fst snd]. rewrite E. cbn [bind]. apply NEXT; [exact G' |].
      intros q w. rewrite E2, in_app_iff. cbn [In]. intros [I | [I | I]]; [apply OLD; rewrite E1, !in_app_iff; auto | | apply OLD; rewrite E1, !in_app_iff; auto].
      injection I as <- <-. split; [|exists p; apply in_or_app; right; left; reflexivity]. destruct HH as [(_ & ->) | (u & -> & _)]; [exists v; apply in_or_app; right; left; reflexivity |].
      apply (OLD k u). rewrite E1, !in_app_iff. right. left. left. reflexivity. }
    destruct (K ops [] tree_empty formed_empty) as (t & E & G & H); [contradiction |]. exists t. split; [exact E |]. split; [apply formed_balanced; exact G |]. split; [|exact H].
    intros p. destruct (tree_get_any cmp t p G) as (o & Eo & Go). cbn [mp_get map_tree_by fst snd]. rewrite Eo. cbn [bind]. eexists. split; [reflexivity |]. destruct o as [v |]; [right | left; reflexivity]. destruct Go as (k & I & _). exact (proj2 (H k v I)).
Qed.

Lemma less_get : forall V h lo (t : node V) p, ok lo h t -> node_get always_less h t p = Ret None.
Proof.
  intros V h. induction h as [|h IH]; intros lo [ks cs] p O; apply ok_node in O as (L & O); cbn [kvs edges] in L, O; cbn [node_get kvs edges]; assert (E : find_key always_less p ks = (0%nat, false)) by (destruct ks as [|[k v] ks]; reflexivity); rewrite E; [reflexivity |].
  destruct O as (O1 & O2). destruct cs as [|c cs]; [discriminate O1 |]. inversion O2 as [|? ? Oc _]; subst. cbn [cut skipn bind]. apply (IH _ _ _ Oc).
Qed.

Lemma less_contains : forall t p, formed t -> sp_contains (set_tree_by always_less) t p = Ret false.
Proof. intros t p G. cbn [sp_contains set_tree_by]. unfold tree_get. rewrite (less_get _ _ _ _ p G). reflexivity. Qed.

Lemma C150_laws_needed_proof : forall fuel,
  bfs_ordered always_less (Pos 1 0) false fuel (pos_dir_add_ok (Pos 1 0)) (0, 0) (fun _ => false) = Fuel.
Proof.
  set (P := Pos 1 0). set (go := pos_dir_add_ok P). intros fuel.
  assert (INS : forall t p, formed t -> exists t', sp_insert (set_tree_by always_less) t p = Ret t' /\ formed t').
  { intros t p G. destruct (tree_insert_any always_less t p tt G) as (t' & E & G' & _). exists t'. auto. }
  assert (DIRS : dir_iter_list false = Ret [dN; dE; dS; dW]) by reflexivity.
  assert (NEXT : forall x d t, (x = 0 \/ x = 1) -> formed t -> exists t' d', bf_next false (set_tree_by always_less) go (BfIt t [((x, 0), d)]) = Ret (Some [((x, 0), d)], BfIt t' [((1 - x, 0), d')]) /\ formed t').
  { intros x d t X G. unfold bf_next. cbn [bf_nextfront bf_visited foldM]. unfold bf_step_pos at 1. rewrite DIRS. cbn [bind fst foldM].
    assert (NO : forall e it, go (x, 0) e = None -> bf_step_dir (set_tree_by always_less) go (x, 0) it e = Ret it) by (intros e it E; unfold bf_step_dir; rewrite E; reflexivity).
    assert (YES : forall e ne it q, go (x, 0) e = Some q -> dir_neg e = Ret ne -> formed (bf_visited it) -> exists t', bf_step_dir (set_tree_by always_less) go (x, 0) it e = Ret (BfIt t' (bf_nextfront it ++ [(q, ne)])) /\ formed t').
    { intros e ne it q E En F. unfold bf_step_dir. rewrite E, (less_contains _ _ F). cbn [bind]. rewrite En. cbn [bind]. destruct (INS (bf_visited it) q F) as (t' & -> & F'). exists t'. auto. }
    rewrite NO by (destruct X as [-> | ->]; reflexivity). cbn [bind].
    destruct X as [-> | ->].
    - destruct (YES dE dW (BfIt t []) (1, 0)) as (t1 & E1 & F1); [reflexivity | reflexivity | exact G |]. rewrite E1. cbn [bind]. rewrite !NO by reflexivity. cbn [bind]. rewrite NO by reflexivity. cbn [bind bf_visited].
      destruct (INS t1 (0, 0) F1) as (t2 & -> & F2). cbn [bind bf_nextfront app]. exists t2, dW. auto.
    - rewrite NO by reflexivity. cbn [bind]. rewrite NO by reflexivity. cbn [bind]. destruct (YES dW dE (BfIt t []) (0, 0)) as (t1 & E1 & F1); [reflexivity | reflexivity | exact G |]. rewrite E1. cbn [bind bf_visited].
      destruct (INS t1 (1, 0) F1) as (t2 & -> & F2). cbn [bind bf_nextfront app]. exists t2, dE. auto. }
  assert (LOOP : forall fuel x d t from, (x = 0 \/ x = 1) -> formed t -> formed (fst from) ->
    bf_search_loop false (set_tree_by always_less) (map_tree_by always_less) go fuel (fun _ => false) from (BfIt t [((x, 0), d)]) = Fuel).
  { clear fuel. induction fuel as [|fuel IH]; intros x d t from X G F; [reflexivity |]. cbn [bf_search_loop]. destruct (NEXT x d t X G) as (t' & d' & -> & G'). cbn [bind bf_scan]. cbn [mp_set map_tree_by].
    destruct (tree_insert_any always_less (fst from) (x, 0) (Some d) F) as (f' & -> & F' & _). cbn [bind]. apply IH; [lia | exact G' | exact F']. }
  assert (NEW : exists t d, bf_new false (set_tree_by always_less) go (0, 0) = Ret (BfIt t [((1, 0), d)]) /\ formed t).
  { destruct (NEXT 0 dir_default tree_empty (or_introl eq_refl) formed_empty) as (t & d & E & G). exists t, d. split; [|exact G].
    change (bind (bf_next false (set_tree_by always_less) go (BfIt tree_empty [((0, 0), dir_default)])) (fun '(_, it) => Ret it) = Ret (BfIt t [((1, 0), d)])). rewrite E. reflexivity. }
  destruct NEW as (t & d & E & G). unfold bfs_ordered, bf_search_path, bf_search_mapmov, bf_iter. fold go. rewrite E. cbn [bind]. rewrite (LOOP fuel 1 d t (mp_default (map_tree_by always_less) None) (or_intror eq_refl) G formed_empty). reflexivity.
Qed.
