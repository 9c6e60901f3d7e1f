(** PropBtreeProofs.v -- proofs of the statements of PropBtree.v. *)

From Coq Require Import ZArith List Bool Lia Sorted.
From Verif Require Import Rust BoundedInt Dir PosT Pos Grid Gridbool SetMap CameFrom Heap Bf Astar Ucs Spec SpecSearch SpecStorage Btree SpecBtree Lib BoundedIntProofs PosTProofs PosTProofs2 SetMapProofs Sim CameFromProofs PropSetMapProofs BfProofs PropBfProofs BestFirst SearchProofs UcsProofs AstarProofs PropAstarProofs PropUcsProofs PropAgreeProofs BtreeProofs.
Import ListNotations.
Open Scope Z_scope.

Lemma pos_cmp_order : total_order pos_cmp.
Proof.
  constructor.
  - intros [x y] [x' y']. unfold pos_cmp. cbn [fst snd]. destruct (Z.compare_spec x x'); [subst; rewrite Z.compare_eq_iff | |]; split; intros H'; try discriminate; try congruence; inversion H'; lia.
  - intros [x y] [x' y']. unfold pos_cmp. cbn [fst snd]. rewrite (Z.compare_antisym x x'), (Z.compare_antisym y y'). destruct (x ?= x'); reflexivity.
  - intros [x y] [x' y'] [x2 y2]. unfold pos_cmp. cbn [fst snd]. destruct (Z.compare_spec x x'), (Z.compare_spec x' x2), (Z.compare_spec x x2); rewrite ?Z.compare_lt_iff; try discriminate; try reflexivity; lia.
Qed.

Lemma ltb_pos : forall p q, ltb pos_cmp p q = pos_ltb p q.
Proof.
  intros [x y] [x' y']. unfold ltb, pos_cmp, pos_ltb. cbn [fst snd]. destruct (Z.compare_spec x x') as [-> | H | H].
  - rewrite Z.ltb_irrefl, Z.eqb_refl. reflexivity.
  - apply Z.ltb_lt in H. rewrite H. reflexivity.
  - destruct (Z.ltb_spec x x'); [lia |]. destruct (Z.eqb_spec x x'); [lia | reflexivity].
Qed.

Lemma lset_pos : forall V (l : list (pos * V)) p v, lset pos_cmp l p v = btmap_set l p v.
Proof. intros V l p v. induction l as [|[q u] l IH]; [reflexivity |]. cbn [lset btmap_set]. rewrite ltb_pos, IH. reflexivity. Qed.

Lemma keys_set : forall (l : list (pos * unit)) p, map fst (lset pos_cmp l p tt) = btset_insert (map fst l) p.
Proof.
  intros l p. rewrite lset_pos. induction l as [|[q u] l IH]; [reflexivity |]. cbn [map btmap_set btset_insert fst]. destruct (pos_ltb p q) eqn:E1; [reflexivity |]. destruct (pos_eqb p q) eqn:E2; [apply pos_eqb_eq in E2; subst; reflexivity |]. cbn [map fst]. rewrite IH. reflexivity.
Qed.

Lemma keys_del : forall (l : list (pos * unit)) p, sorted pos_cmp l -> map fst (del p l) = btset_remove (map fst l) p.
Proof.
  induction l as [|[q u] l IH]; intros p S; [reflexivity |]. apply sorted_cons in S as (S1 & S2). cbn [map btset_remove fst]. cbn [del filter fst]. destruct (pos_eqb p q) eqn:E2; cbn [negb].
  - apply pos_eqb_eq in E2. subst q. cbn [fst] in S2. destruct (pos_ltb p p) eqn:K; [apply pos_ltb_neq in K; rewrite pos_eqb_refl in K; discriminate |]. fold (del p l). rewrite (del_above _ pos_cmp_order _ _ S2). reflexivity.
  - fold (del p l). destruct (pos_ltb p q) eqn:E1; [|cbn [map fst]; rewrite IH by exact S1; reflexivity]. cbn [map fst]. rewrite (del_above _ pos_cmp_order); [reflexivity |]. eapply (above_trans _ pos_cmp_order); [unfold lt_by; rewrite ltb_pos; exact E1 | exact S2].
Qed.

Lemma get_del : forall V (l : list (pos * V)) p q, assoc_get (del p l) q = if pos_eqb p q then None else assoc_get l q.
Proof.
  intros V l p q. induction l as [|[k v] l IH]; [destruct (pos_eqb p q); reflexivity |]. cbn [del filter fst assoc_get]. fold (del p l). destruct (pos_eqb p k) eqn:E; cbn [negb].
  - rewrite IH. apply pos_eqb_eq in E. subst k. destruct (pos_eqb p q) eqn:E'; [reflexivity |]. rewrite (pos_eqb_sym q p), E'. reflexivity.
  - cbn [assoc_get]. rewrite IH. destruct (pos_eqb q k) eqn:E1; [|reflexivity]. apply pos_eqb_eq in E1. subst k. rewrite E. reflexivity.
Qed.

Definition R_treeset (cmp : pos -> pos -> comparison) (s : tree unit) (f : pos -> bool) : Prop :=
  good cmp s /\ forall p, (match assoc_get (entries (snd s)) p with Some _ => true | None => false end) = f p.

Definition R_treemap {Item} (cmp : pos -> pos -> comparison) (m : tree Item * Item) (f : pos -> Item) : Prop :=
  good cmp (fst m) /\ forall p, unwrap_or (assoc_get (entries (snd (fst m))) p) (snd m) = f p.

Lemma lawful_treeset_by : forall cmp P, total_order cmp -> lawful_set P (set_tree_by cmp) (R_treeset cmp).
Proof.
  intros cmp P TO. constructor.
  - exists tree_empty. split; [reflexivity |]. split; [apply good_empty | reflexivity].
  - intros s f p (G & R) _. cbn [sp_contains set_tree_by]. rewrite (tree_get_ok _ TO _ _ G). cbn [bind]. rewrite (lget_ok _ TO) by apply G. rewrite R. reflexivity.
  - intros s f p (G & R) _. destruct (tree_insert_ok _ TO s p tt G) as (s' & E & G' & EE). exists s'. split; [exact E |]. split; [exact G' |]. intros q. rewrite EE. destruct (lset_ok _ TO (entries (snd s)) p tt (proj2 G)) as (_ & H & _). rewrite H. unfold put. destruct (pos_eqb p q); [reflexivity | apply R].
  - intros s f p (G & R) _. destruct (tree_remove_ok _ TO s p G) as (s' & E & G' & EE). exists s'. split; [exact E |]. split; [exact G' |]. intros q. rewrite EE, get_del. unfold put. destruct (pos_eqb p q); [reflexivity | apply R].
Qed.

Lemma lawful_treemap_by : forall Item cmp P, total_order cmp -> lawful_map P (@map_tree_by Item cmp) (R_treemap cmp).
Proof.
  intros Item cmp P TO. constructor.
  - intros d. split; [apply good_empty | reflexivity].
  - intros d. split; [apply good_empty | reflexivity].
  - intros m f p (G & R) _. cbn [mp_get map_tree_by]. rewrite (tree_get_ok _ TO _ _ G). cbn [bind]. rewrite (lget_ok _ TO) by apply G. rewrite R. reflexivity.
  - intros m f p v (G & R) _. destruct (tree_insert_ok _ TO (fst m) p v G) as (s' & E & G' & EE). exists (s', snd m). split; [cbn [mp_set map_tree_by]; rewrite E; reflexivity |]. split; [exact G' |]. intros q. cbn [fst snd]. rewrite EE. destruct (lset_ok _ TO (entries (snd (fst m))) p v (proj2 G)) as (_ & H & _). rewrite H. unfold put. destruct (pos_eqb p q); [reflexivity | apply R].
Qed.

Lemma lawful_treeset : forall P, lawful_set P set_tree (R_treeset pos_cmp).
Proof. intros P. apply (lawful_treeset_by pos_cmp P pos_cmp_order). Qed.

Lemma lawful_treemap : forall Item P, lawful_map P (@map_tree Item) (R_treemap pos_cmp).
Proof. intros Item P. apply (lawful_treemap_by Item pos_cmp P pos_cmp_order). Qed.

Lemma C132_btrees_proof : forall P,
  (forall ops, Forall (fun o => valid P (set_op_pos o)) ops -> run_set_ops set_tree tree_empty ops = Ret (set_answers (fun _ => false) ops)) /\
  (forall Item (dflt : Item) ops, Forall (fun o => valid P (map_op_pos o)) ops ->
     run_map_ops map_tree (mp_new map_tree dflt) ops = Ret (map_answers (fun _ => dflt) ops)).
Proof.
  intros P. split.
  - intros ops F. apply (lawful_set_runs P _ _ (lawful_treeset P)); [split; [apply good_empty | reflexivity] | exact F].
  - intros Item dflt ops F. apply (lawful_map_runs P _ _ (lawful_treemap Item P)); [apply (lm_new _ _ _ (lawful_treemap Item P)) | exact F].
Qed.

Lemma C132_balanced_proof :
  (forall ops, exists t l, set_after set_tree tree_empty ops = Ret t /\ set_after set_btree [] ops = Ret l /\
     map fst (entries (snd t)) = l /\ balanced (fst t) (snd t) /\ (fst t = 0 \/ 2 * 6 ^ fst t <= S (length l))%nat) /\
  (forall Item (dflt : Item) ops, exists t l, map_after map_tree (mp_new map_tree dflt) ops = Ret (t, dflt) /\ map_after map_btree (mp_new map_btree dflt) ops = Ret (l, dflt) /\
     entries (snd t) = l /\ balanced (fst t) (snd t) /\ (fst t = 0 \/ 2 * 6 ^ fst t <= S (length l))%nat).
Proof.
  split.
  - intros ops. assert (K : forall ops t, good pos_cmp t -> exists t', set_after set_tree t ops = Ret t' /\ set_after set_btree (map fst (entries (snd t))) ops = Ret (map fst (entries (snd t'))) /\ good pos_cmp t').
    { clear ops. induction ops as [|o ops IH]; intros t G; [exists t; repeat split; apply G |].
      assert (INS : forall p, exists t1, sp_insert set_tree t p = Ret t1 /\ good pos_cmp t1 /\ sp_insert set_btree (map fst (entries (snd t))) p = Ret (map fst (entries (snd t1)))).
      { intros p. destruct (tree_insert_ok _ pos_cmp_order t p tt G) as (t1 & E & G' & EE). exists t1. split; [exact E |]. split; [exact G' |]. cbn. rewrite EE, keys_set. reflexivity. }
      assert (REM : forall p, exists t1, sp_remove set_tree t p = Ret t1 /\ good pos_cmp t1 /\ sp_remove set_btree (map fst (entries (snd t))) p = Ret (map fst (entries (snd t1)))).
      { intros p. destruct (tree_remove_ok _ pos_cmp_order t p G) as (t1 & E & G' & EE). exists t1. split; [exact E |]. split; [exact G' |]. cbn. rewrite EE, keys_del by apply G. reflexivity. }
      destruct o as [p | p | p b | p]; cbn [set_after].
      - destruct (INS p) as (t1 & -> & G' & ->). apply (IH _ G').
      - destruct (REM p) as (t1 & -> & G' & ->). apply (IH _ G').
      - unfold sp_set. destruct b; [destruct (INS p) as (t1 & -> & G' & ->) | destruct (REM p) as (t1 & -> & G' & ->)]; apply (IH _ G').
      - apply (IH _ G). }
    destruct (K ops tree_empty (good_empty pos_cmp)) as (t & E1 & E2 & G). exists t, (map fst (entries (snd t))). split; [exact E1 |]. split; [exact E2 |]. split; [reflexivity |]. split; [apply (good_balanced pos_cmp); exact G |]. rewrite map_length. apply (good_height pos_cmp). exact G.
  - intros Item dflt ops. assert (K : forall ops t, good pos_cmp t -> exists t', map_after map_tree (t, dflt) ops = Ret (t', dflt) /\ map_after map_btree (entries (snd t), dflt) ops = Ret (entries (snd t'), dflt) /\ good pos_cmp t').
    { clear ops. induction ops as [|o ops IH]; intros t G; [exists t; repeat split; apply G |]. destruct o as [p v | p]; cbn [map_after].
      - destruct (tree_insert_ok _ pos_cmp_order t p v G) as (t1 & E & G' & EE). cbn [mp_set map_tree map_tree_by map_btree fst snd]. rewrite E. cbn [bind]. rewrite lset_pos in EE. rewrite <- EE. apply (IH _ G').
      - apply (IH _ G). }
    destruct (K ops tree_empty (good_empty pos_cmp)) as (t & E1 & E2 & G). exists t, (entries (snd t)). split; [exact E1 |]. split; [exact E2 |]. split; [reflexivity |]. split; [apply (good_balanced pos_cmp); exact G |]. apply (good_height pos_cmp). exact G.
Qed.

Lemma C132_searches_proof : forall P D W fuel orig, post_wf P -> valid P orig ->
  (forall go found, go_inside P go -> bfs_btrees P D fuel go orig found = bfs_on OnBTree P D W fuel go orig found) /\
  (forall go dest, go_inside P (move_of go) -> valid P dest -> ucs_btrees P D fuel go orig dest = ucs_on OnBTree P D fuel go orig dest) /\
  (forall go dest, go_inside P go -> valid P dest -> astar_btrees P D fuel go orig dest = astar_on OnBTree P D fuel go orig dest).
Proof.
  intros P D W fuel orig WF V. split; [|split].
  - intros go found HG. unfold bfs_btrees. rewrite (bf_search_path_sim P D _ _ (lawful_treeset P) WF go HG _ _ (lawful_treemap _ P) fuel orig found V). symmetry. apply (bf_search_path_sim P D _ _ (lawful_bset P) WF go HG _ _ (lawful_bmap _ _)). exact V.
  - intros go dest HG Vd. unfold ucs_btrees. rewrite (ucs_search_path_sim P D _ _ _ _ (lawful_treemap _ P) (lawful_treemap _ P) WF go HG) by assumption. symmetry. apply (ucs_search_path_sim P D _ _ _ _ (lawful_bmap _ _) (lawful_bmap _ _) WF go HG); assumption.
  - intros go dest HG Vd. unfold astar_btrees. rewrite (astar_search_path_sim P D _ _ _ _ (lawful_treemap _ P) (lawful_treemap _ P) WF go HG) by assumption. symmetry. apply (astar_search_path_sim P D _ _ _ _ (lawful_bmap _ _) (lawful_bmap _ _) WF go HG); assumption.
Qed.
