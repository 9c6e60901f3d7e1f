(** PropStorageProofs.v -- proofs of the statements of PropStorage.v. *)

From Coq Require Import ZArith List Bool Lia.
From Verif Require Import Rust BoundedInt Dir PosT Pos Grid Gridbool SetMap CameFrom Heap Bf Astar Ucs Spec SpecSearch SpecStorage Lib BoundedIntProofs PosTProofs PosTProofs2 SetMapProofs Sim CameFromProofs PropSetMapProofs BfProofs PropBfProofs BestFirst SearchProofs UcsProofs AstarProofs PropAstarProofs PropUcsProofs PropAgreeProofs.
Import ListNotations.
Open Scope Z_scope.

(** States that cannot be told apart from a set. *)
Definition R_calls {S} (P : post) (so : setops S) (s : S) (f : pos -> bool) : Prop :=
  forall ops, Forall (fun o => grows o /\ valid P (set_op_pos o)) ops -> run_set_ops so s ops = Ret (set_answers f ops).

Definition R_mcalls {Item M} (P : post) (mo : mapops Item M) (m : M) (f : pos -> Item) : Prop :=
  forall ops, Forall (fun o => valid P (map_op_pos o)) ops -> run_map_ops mo m ops = Ret (map_answers f ops).

Lemma acts_growing_set : forall S P (so : setops S), acts_as_set P so -> growing_set P so (R_calls P so).
Proof.
  intros S P so A. constructor.
  - exact A.
  - intros s f p R V. specialize (R [OpContains p] (Forall_cons (OpContains p) (conj Logic.I V) (Forall_nil _))). cbn [run_set_ops set_answers] in R. destruct (sp_contains so s p) as [b | | |]; cbn [bind] in R; try discriminate. injection R as ->. reflexivity.
  - intros s f p R V. pose proof (R [OpInsert p] (Forall_cons (OpInsert p) (conj Logic.I V) (Forall_nil _))) as E. cbn [run_set_ops] in E. destruct (sp_insert so s p) as [s' | | |] eqn:Es; cbn [bind] in E; try discriminate. exists s'. split; [reflexivity |].
    intros ops F. specialize (R (OpInsert p :: ops) (Forall_cons (OpInsert p) (conj Logic.I V) F)). cbn [run_set_ops set_answers] in R. rewrite Es in R. exact R.
Qed.

Lemma acts_lawful_map : forall Item M P (mo : mapops Item M), acts_as_map P mo -> lawful_map P mo (R_mcalls P mo).
Proof.
  intros Item M P mo A. constructor.
  - intros d ops F. apply A, F.
  - intros d ops F. apply A, F.
  - intros m f p R V. specialize (R [OpGet p] (Forall_cons (@OpGet Item p) V (Forall_nil _))). cbn [run_map_ops map_answers] in R. destruct (mp_get mo m p) as [b | | |]; cbn [bind] in R; try discriminate. injection R as ->. reflexivity.
  - intros m f p v R V. pose proof (R [OpPut p v] (Forall_cons (OpPut p v) V (Forall_nil _))) as E. cbn [run_map_ops] in E. destruct (mp_set mo m p v) as [m' | | |] eqn:Em; cbn [bind] in E; try discriminate. exists m'. split; [reflexivity |].
    intros ops F. specialize (R (OpPut p v :: ops) (Forall_cons (OpPut p v) V F)). cbn [run_map_ops map_answers] in R. rewrite Em in R. exact R.
Qed.

Lemma growing_acts_set : forall S P (so : setops S) R, growing_set P so R -> acts_as_set P so.
Proof.
  intros S P so R L. destruct (gs_default _ _ _ L) as (s & E & H). exists s. split; [exact E |]. clear E. revert H. generalize (fun _ : pos => false) as f. intros f H ops. revert s f H.
  induction ops as [|o ops IH]; intros s f HR F; [reflexivity |]. inversion F as [|? ? (GO & V) F']; subst. destruct o as [p | p | p b | p]; cbn [run_set_ops set_answers set_op_pos grows] in *; try contradiction.
  - destruct (gs_insert _ _ _ L _ _ p HR V) as (s' & E & HR'). rewrite E. cbn [bind]. apply (IH _ _ HR' F').
  - rewrite (gs_contains _ _ _ L _ _ p HR V). cbn [bind]. rewrite (IH _ _ HR F'). reflexivity.
Qed.

Lemma lawful_acts_map : forall Item M P (mo : mapops Item M) R, lawful_map P mo R -> acts_as_map P mo.
Proof.
  intros Item M P mo R L d ops F. split; apply (lawful_map_runs P mo R L); try exact F; [apply (lm_new _ _ _ L) | apply (lm_default _ _ _ L)].
Qed.

Lemma bf_yields_any : forall S P D (so : setops S) RS go orig n, growing_set P so RS -> valid P orig -> go_inside P go ->
  bind (bf_iter D so go orig) (next_calls (bf_next D so go) n) = next_calls (bf_next D fset go) n (state_at D go orig 0).
Proof.
  intros S P D so RS go orig n L V HG. pose proof (bf_new_sim P D so RS L go HG orig V) as H. rewrite (bf_new_at D go orig) in H. unfold bf_iter. destruct (bf_new D so go orig) as [it | | |]; cbn in H; try contradiction. cbn [bind]. apply (next_calls_sim P D so _ go L HG). exact H.
Qed.

Lemma C131_any_storage_proof : forall S M MC P D W (so : setops S) (mo : mapops (option dir) M) (co : mapops Z MC) orig,
  acts_as_set P so -> acts_as_map P mo -> acts_as_map P co -> post_wf P -> valid P orig ->
  (forall go, go_inside P go ->
     (forall fuel found, bf_search_path P D so mo go fuel orig found = bfs_on OnHash P D W fuel go orig found) /\
     (forall n, bind (bf_iter D so go orig) (next_calls (bf_next D so go) n) = bf_yields OnHash P D W go orig n) /\
     forall dest, valid P dest ->
       (forall fuel, astar_search_path P D co mo go fuel orig dest = astar_on OnHash P D fuel go orig dest) /\
       (forall n, astar_yields_with co P D go orig dest n = astar_yields OnHash P D go orig dest n)) /\
  (forall go, go_inside P (move_of go) ->
     (forall n, ucs_yields_with co D go orig n = ucs_yields OnHash P D go orig n) /\
     forall dest fuel, valid P dest -> ucs_search_path P D co mo go fuel orig dest = ucs_on OnHash P D fuel go orig dest).
Proof.
  intros S M MC P D W so mo co orig AS AM AC WF V. apply acts_growing_set in AS. apply acts_lawful_map in AM. apply acts_lawful_map in AC. split; intros go HG; [split; [|split] |split].
  - intros fuel found. rewrite (bf_search_path_sim P D _ _ AS WF go HG _ _ AM) by exact V. symmetry. apply (bf_search_path_sim P D _ _ (lawful_hset P) WF go HG _ _ (lawful_hmap _ _)). exact V.
  - intros n. rewrite (bf_yields_any _ P D so _ go orig n AS V HG). symmetry. apply (bf_yields_any _ P D set_hash _ go orig n (lawful_hset P) V HG).
  - intros dest Vd. split.
    + intros fuel. rewrite (astar_search_path_sim P D _ _ _ _ AC AM WF go HG) by assumption. symmetry. apply (astar_search_path_sim P D _ _ _ _ (lawful_hmap _ _) (lawful_hmap _ _) WF go HG); assumption.
    + intros n. cbn [astar_yields]. rewrite (proj1 (astar_with_sim P D co _ go AC HG orig dest n V)). symmetry. apply (astar_with_sim P D _ _ go (lawful_hmap _ _) HG orig dest n V).
  - intros n. cbn [ucs_yields]. rewrite (proj1 (ucs_with_sim P D co _ go AC HG orig n V)). symmetry. apply (ucs_with_sim P D _ _ go (lawful_hmap _ _) HG orig n V).
  - intros dest fuel Vd. rewrite (ucs_search_path_sim P D _ _ _ _ AC AM WF go HG) by assumption. symmetry. apply (ucs_search_path_sim P D _ _ _ _ (lawful_hmap _ _) (lawful_hmap _ _) WF go HG); assumption.
Qed.

Lemma filled_lawful : forall Item M P (mo : mapops Item M) R (d : Item) l, lawful_map P mo R -> Forall (fun pv => valid P (fst pv)) l ->
  exists m, filled mo d l = Ret m /\ R m (fold_left (fun f pv => put f (fst pv) (snd pv)) l (fun _ => d)).
Proof.
  intros Item M P mo R d l L. unfold filled. pose proof (lm_new _ _ _ L d) as H. revert H. generalize (fun _ : pos => d) as f. generalize (mp_new mo d) as m. induction l as [|[p v] l IH]; intros m f H F; [exists m; split; [reflexivity | exact H] |].
  inversion F as [|? ? V F']; subst. cbn [foldM fold_left fst snd] in *. destruct (lm_set _ _ _ L m f p v H V) as (m' & E & H'). rewrite E. cbn [bind]. apply IH; assumption.
Qed.

Lemma C131_any_map_proof : forall M P (mo : mapops (option dir) M) l fuel orig dest,
  acts_as_map P mo -> post_wf P -> Forall (fun pv => valid P (fst pv)) l -> valid P dest ->
  bind (filled mo None l) (fun m => camefrom_into_path P mo fuel m orig dest) =
  bind (filled map_hash None l) (fun m => camefrom_into_path P map_hash fuel m orig dest).
Proof.
  intros M P mo l fuel orig dest AM WF F V. apply acts_lawful_map in AM.
  destruct (filled_lawful _ _ P mo _ None l AM F) as (m & E & H). destruct (filled_lawful _ _ P map_hash _ None l (lawful_hmap _ P) F) as (m' & E' & H').
  rewrite E, E'. cbn [bind]. rewrite (camefrom_sim P mo _ fuel m _ orig dest WF AM H V). symmetry. apply (camefrom_sim P map_hash _ fuel m' _ orig dest WF (lawful_hmap _ P) H' V).
Qed.

Lemma list_acts : forall P, acts_as_set P set_list.
Proof.
  intros P. apply (growing_acts_set _ P set_list (fun s f => forall p, existsb (pos_eqb p) s = f p)). constructor.
  - exists []. split; [reflexivity |]. reflexivity.
  - intros s f p R _. cbn. rewrite R. reflexivity.
  - intros s f p R _. eexists. split; [reflexivity |]. intros q. cbn [existsb]. rewrite R. unfold put. rewrite (pos_eqb_sym q p). destruct (pos_eqb p q); reflexivity.
Qed.

Lemma closure_acts : forall Item P, acts_as_map P (@map_closure Item).
Proof.
  intros Item P. apply (lawful_acts_map _ _ P map_closure (fun m f => forall p, m p = f p)). constructor.
  - reflexivity.
  - reflexivity.
  - intros m f p R _. cbn. rewrite R. reflexivity.
  - intros m f p v R _. eexists. split; [reflexivity |]. intros q. unfold put. destruct (pos_eqb p q); [reflexivity | apply R].
Qed.
