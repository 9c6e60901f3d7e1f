(** PropOrderKeepProofs.v -- proofs of the statements of PropOrderKeep.v. *)

From Coq Require Import ZArith List Bool Lia Permutation Arith.
From Verif Require Import Rust BoundedInt Dir PosT Pos Grid Gridbool SetMap CameFrom Bf Heap Astar Ucs Queue Order Btree Spec SpecSearch SpecMaze SpecStorage SpecPrice SpecQueue SpecOrder SpecBtree SpecTreeOrder SpecSettle SpecOrderPath SpecReplan SpecKeep SpecKeepBy Lib Deque BoundedIntProofs PosTProofs PosTProofs2 PropDirProofs SetMapProofs Sim CameFromProofs BfProofs PropBfProofs Fair FairSearch SearchProofs AstarProofs PropAstarProofs FairQueue PropAgreeProofs PropStorageProofs PropEffortProofs GridProofs PropPathProofs PropReplanProofs BtreeProofs PropBtreeProofs PropOrderProofs PropTreeOrderProofs PropSettleProofs BestFirst Ordered OrderedQueue PropOrderWorkProofs PropOrderPathProofs ChronoBy SpineBy KeepBy PropKeepProofs.
Import ListNotations.
Open Scope Z_scope.

(** ** Planning again *)

Lemma C155_astar_rest_unused_proof : forall H M MC (qo : queueops H) ok els (co : mapops Z MC) (mo : mapops (option dir) M) cmp P go go' orig dest rs path l1 l2 p,
  order_of P cmp -> ordered_queue P cmp qo ok els -> acts_as_map P co -> acts_as_map P mo -> post_wf P -> valid P orig -> valid P dest ->
  go_inside P go -> one_step P go -> (forall p, reachable false go orig p -> In p rs) ->
  (forall p, reachable false go orig p -> measurable P p dest /\
     Z.of_nat (length rs) + (Z.abs (fst p - fst dest) + Z.abs (snd p - snd dest)) <= 18446744073709551615) ->
  returns (fun fuel => astarq_search_path qo P false co mo go fuel orig dest) (Ok path) -> at_distance false go orig (length path) dest ->
  (forall p d q, go' p d = Some q -> go p d = Some q) ->
  path = l1 ++ l2 -> follow go orig l1 = Some p -> follow go' p l2 = Some dest -> retraceable P p dest ->
  returns (fun fuel => astarq_search_path qo P false co mo go' fuel p dest) (Ok l2).
Proof.
  intros H M MC qo ok els co mo cmp P go go' orig dest rs path l1 l2 p OO OQ AC AM WF V Vd HG O HR HM Hr SH SUB X F1 F2 RT.
  apply (okeep (ext P cmp) (ext_order P cmp OO) qo _ els P (ext_queue P cmp H qo ok els OQ) co mo _ _ (acts_lawful_map _ _ P co AC) (acts_lawful_map _ _ P mo AM) WF rs go go' orig dest path l1 l2 p V Vd HG O (conj HR HM) Hr SH SUB X F1 F2 RT).
Qed.

Lemma astar_path_walks : forall H M MC (qo : queueops H) ok els (co : mapops Z MC) (mo : mapops (option dir) M) cmp P go orig dest rs path,
  order_of P cmp -> ordered_queue P cmp qo ok els -> acts_as_map P co -> acts_as_map P mo -> post_wf P -> valid P orig -> valid P dest ->
  go_inside P go -> one_step P go -> (forall p, reachable false go orig p -> In p rs) ->
  (forall p, reachable false go orig p -> measurable P p dest /\
     Z.of_nat (length rs) + (Z.abs (fst p - fst dest) + Z.abs (snd p - snd dest)) <= 18446744073709551615) ->
  returns (fun fuel => astarq_search_path qo P false co mo go fuel orig dest) (Ok path) -> at_distance false go orig (length path) dest ->
  Forall (allowed false) path /\ follow go orig path = Some dest.
Proof.
  intros H M MC qo ok els co mo cmp P go orig dest rs path OO OQ AC AM WF V Vd HG O HR HM Hr SH.
  destruct (oshortest_run (ext P cmp) (ext_order P cmp OO) qo _ els P (ext_queue P cmp H qo ok els OQ) co mo _ _ (acts_lawful_map _ _ P co AC) (acts_lawful_map _ _ P mo AM) WF rs go orig dest path V Vd HG O (conj HR HM) Hr SH) as (A & F & _).
  auto.
Qed.

Lemma C155_astar_unused_proof : forall H M MC (qo : queueops H) ok els (co : mapops Z MC) (mo : mapops (option dir) M) cmp P go go' orig dest rs path,
  order_of P cmp -> ordered_queue P cmp qo ok els -> acts_as_map P co -> acts_as_map P mo -> post_wf P -> valid P orig -> valid P dest ->
  go_inside P go -> one_step P go -> (forall p, reachable false go orig p -> In p rs) ->
  (forall p, reachable false go orig p -> measurable P p dest /\
     Z.of_nat (length rs) + (Z.abs (fst p - fst dest) + Z.abs (snd p - snd dest)) <= 18446744073709551615) ->
  returns (fun fuel => astarq_search_path qo P false co mo go fuel orig dest) (Ok path) -> at_distance false go orig (length path) dest ->
  (forall p d q, go' p d = Some q -> go p d = Some q) -> follow go' orig path = Some dest ->
  returns (fun fuel => astarq_search_path qo P false co mo go' fuel orig dest) (Ok path).
Proof.
  intros H M MC qo ok els co mo cmp P go go' orig dest rs path OO OQ AC AM WF V Vd HG O HR HM Hr SH SUB F.
  destruct (retraceable_dec P orig dest) as [RT | RT].
  - apply (C155_astar_rest_unused_proof H M MC qo ok els co mo cmp P go go' orig dest rs path [] path orig OO OQ AC AM WF V Vd HG O HR HM Hr SH SUB eq_refl eq_refl F RT).
  - exfalso. destruct (near_outcome (ext P cmp) (ext_order P cmp OO) qo _ els P (ext_queue P cmp H qo ok els OQ) co mo _ _ (acts_lawful_map _ _ P co AC) (acts_lawful_map _ _ P mo AM) WF rs go orig dest V Vd HG (conj HR HM)) as (r & Hr' & r0 & Ho & Hc & Hp).
    assert (r = Ret (Ok path)) as -> by (apply (settles_unique _ _ _ _ Hr'); exact Hr).
    assert (RR : reachable false (move_of (unit_cost go)) orig dest) by (apply reachable_unit; destruct SH as (W & _); exists (length path); exact W).
    apply (Hp RR) in RT. discriminate.
Qed.

Lemma C155_astar_replanned_proof : forall H M MC (qo : queueops H) ok els (co : mapops Z MC) (mo : mapops (option dir) M) cmp P go orig dest rs path w,
  order_of P cmp -> ordered_queue P cmp qo ok els -> acts_as_map P co -> acts_as_map P mo -> post_wf P -> valid P orig -> valid P dest ->
  go_inside P go -> one_step P go -> (forall p, reachable false go orig p -> In p rs) ->
  (forall p, reachable false go orig p -> measurable P p dest /\ retraceable P p dest /\
     Z.of_nat (length rs) + (Z.abs (fst p - fst dest) + Z.abs (snd p - snd dest)) <= 18446744073709551615) ->
  returns (fun fuel => astarq_search_path qo P false co mo go fuel orig dest) (Ok path) -> at_distance false go orig (length path) dest ->
  (replanned (fun p l => returns (fun fuel => astarq_search_path qo P false co mo go fuel p dest) (Ok l)) go dest orig w <-> w = path).
Proof.
  intros H M MC qo ok els co mo cmp P go orig dest rs path w OO OQ AC AM WF V Vd HG O HR HM' Hr SH.
  assert (HM : forall p, reachable false go orig p -> measurable P p dest /\ Z.of_nat (length rs) + (Z.abs (fst p - fst dest) + Z.abs (snd p - snd dest)) <= 18446744073709551615) by (intros p Rp; destruct (HM' p Rp) as (K1 & _ & K2); auto).
  destruct (astar_path_walks H M MC qo ok els co mo cmp P go orig dest rs path OO OQ AC AM WF V Vd HG O HR HM Hr SH) as (AP & FP).
  assert (ND : forall l1 d l2 p, path = l1 ++ d :: l2 -> follow go orig l1 = Some p -> p <> dest).
  { intros l1 d l2 p X F ->. destruct SH as (_ & Mi). apply (Mi (length l1)); [rewrite X, app_length; cbn [length]; lia |]. exists l1. split; [reflexivity |]. split; [|exact F]. rewrite X in AP. apply Forall_app in AP. apply AP. }
  assert (K : forall l2 l1 p w, path = l1 ++ l2 -> follow go orig l1 = Some p ->
    (replanned (fun p l => returns (fun fuel => astarq_search_path qo P false co mo go fuel p dest) (Ok l)) go dest p w <-> w = l2)).
  { induction l2 as [|d l2 IH]; intros l1 p w0 X F.
    - rewrite app_nil_r in X. subst l1. rewrite FP in F. injection F as <-. split; [|intros ->; constructor].
      intros Hx. inversion Hx; subst; [reflexivity | congruence].
    - assert (Rp : reachable false go orig p) by (exists (length l1), l1; split; [reflexivity |]; split; [rewrite X in AP; apply Forall_app in AP; apply AP | exact F]).
      pose proof FP as F2. rewrite X, follow_app, F in F2.
      pose proof (C155_astar_rest_unused_proof H M MC qo ok els co mo cmp P go go orig dest rs path l1 (d :: l2) p OO OQ AC AM WF V Vd HG O HR HM Hr SH (fun _ _ _ E => E) X F F2 (proj1 (proj2 (HM' p Rp)))) as Hp. pose proof (ND l1 d l2 p X F) as Np.
      assert (X' : path = (l1 ++ [d]) ++ l2) by (rewrite <- app_assoc; exact X).
      pose proof FP as F'. rewrite X', follow_app in F'. destruct (follow go orig (l1 ++ [d])) as [q|] eqn:Fq; [|discriminate].
      assert (Eg : go p d = Some q) by (rewrite follow_app, F in Fq; cbn [follow] in Fq; destruct (go p d); [exact Fq | discriminate]).
      split.
      + intros Hx. inversion Hx as [|p0 d0 rest q0 w1 N0 H0 E0 HR0]; subst; [congruence |].
        pose proof (returns_unique _ _ _ H0 Hp) as Y. injection Y as -> ->. rewrite Eg in E0. injection E0 as <-. f_equal. apply (IH (l1 ++ [d]) q w1 X' Fq). exact HR0.
      + intros ->. apply (Onward _ _ _ p d l2 q l2 Np Hp Eg). apply (IH (l1 ++ [d]) q l2 X' Fq). reflexivity. }
  apply (K path [] orig w eq_refl eq_refl).
Qed.

(** ** Which shortest path *)

Lemma foremost_ext : forall P (b1 b2 : Z * pos -> Z * pos -> Prop) go orig dest path, valid P orig -> go_inside P go ->
  (forall k p k' p', valid P p -> valid P p' -> b1 (k, p) (k', p') -> b2 (k, p) (k', p')) ->
  foremost_by b1 go orig dest path -> foremost_by b2 go orig dest path.
Proof.
  intros P b1 b2 go orig dest path V HG HB (A & F & SH & K). split; [exact A |]. split; [exact F |]. split; [exact SH |].
  assert (FV : forall ds p q, valid P p -> follow go p ds = Some q -> valid P q).
  { induction ds as [|d ds IH]; intros p q Vp Fq; cbn [follow] in Fq; [injection Fq as <-; exact Vp |]. destruct (go p d) as [r|] eqn:E; [|discriminate]. apply (IH r q (HG p d r Vp E) Fq). }
  intros l0 l1 l2 m p q u1 u2 x X F0 F1 Am Lm Fm El N1 N2 Fx. destruct (K l0 l1 l2 m p q u1 u2 x X F0 F1 Am Lm Fm El N1 N2 Fx) as (v1 & v2 & y & Ev & Nv1 & Nv2 & Fy & B).
  exists v1, v2, y. split; [exact Ev |]. split; [exact Nv1 |]. split; [exact Nv2 |]. split; [exact Fy |].
  assert (Vp : valid P p) by (apply (FV l0 orig p V F0)). apply HB; [apply (FV u1 p x Vp Fx) | apply (FV v1 p y Vp Fy) | exact B].
Qed.

Lemma C155_astar_which_proof : forall H M MC (qo : queueops H) ok els (co : mapops Z MC) (mo : mapops (option dir) M) cmp P go orig dest rs path,
  order_of P cmp -> ordered_queue P cmp qo ok els -> acts_as_map P co -> acts_as_map P mo -> post_wf P -> valid P orig -> valid P dest ->
  go_inside P go -> one_step P go -> (forall p, reachable false go orig p -> In p rs) ->
  (forall p, reachable false go orig p -> measurable P p dest /\
     Z.of_nat (length rs) + (Z.abs (fst p - fst dest) + Z.abs (snd p - snd dest)) <= 18446744073709551615) ->
  returns (fun fuel => astarq_search_path qo P false co mo go fuel orig dest) (Ok path) -> at_distance false go orig (length path) dest ->
  foremost_by (ahead_by cmp) go orig dest path.
Proof.
  intros H M MC qo ok els co mo cmp P go orig dest rs path OO OQ AC AM WF V Vd HG O HR HM Hr SH.
  apply (foremost_ext P (ahead_by (ext P cmp)) _ go orig dest path V HG); [intros k p k' p' Vp Vp'; apply ahead_ext; assumption |].
  apply (owhich (ext P cmp) (ext_order P cmp OO) qo _ els P (ext_queue P cmp H qo ok els OQ) co mo _ _ (acts_lawful_map _ _ P co AC) (acts_lawful_map _ _ P mo AM) WF rs go orig dest path V Vd HG O (conj HR HM) Hr SH).
Qed.

Lemma C155_foremost_unique_proof : forall cmp P go orig dest path path', order_of P cmp -> valid P orig -> go_inside P go -> one_step P go ->
  foremost_by (ahead_by cmp) go orig dest path -> foremost_by (ahead_by cmp) go orig dest path' -> path = path'.
Proof.
  intros cmp P go orig dest path path' OO V HG O F F'.
  assert (FE : forall l, foremost_by (ahead_by cmp) go orig dest l -> foremost_by (ahead_by (ext P cmp)) go orig dest l).
  { intros l. apply (foremost_ext P (ahead_by cmp) _ go orig dest l V HG). intros k p k' p' Vp Vp'. apply ahead_ext; assumption. }
  apply (ounique (ext P cmp) (ext_order P cmp OO) P go orig dest path path' V HG O (FE _ F) (FE _ F')).
Qed.

Lemma C155_astar_direct_proof : forall H M MC (qo : queueops H) ok els (co : mapops Z MC) (mo : mapops (option dir) M) cmp P go orig dest rs n path,
  order_of P cmp -> ordered_queue P cmp qo ok els -> acts_as_map P co -> acts_as_map P mo -> post_wf P -> valid P orig -> valid P dest ->
  go_inside P go -> one_step P go -> (forall p, reachable false go orig p -> In p rs) ->
  (forall p, reachable false go orig p -> measurable P p dest /\
     Z.of_nat (length rs) + (Z.abs (fst p - fst dest) + Z.abs (snd p - snd dest)) <= 18446744073709551615) ->
  walk false go orig n dest -> Z.of_nat n = Z.abs (fst orig - fst dest) + Z.abs (snd orig - snd dest) ->
  (returns (fun fuel => astarq_search_path qo P false co mo go fuel orig dest) (Ok path) <->
   foremost_by (ahead_by cmp) go orig dest path /\ Z.of_nat n <= cols P * cols P /\ retraceable P orig dest).
Proof.
  intros H M MC qo ok els co mo cmp P go orig dest rs n path OO OQ AC AM WF V Vd HG O HR HM Wn En.
  rewrite (odirect (ext P cmp) (ext_order P cmp OO) qo _ els P (ext_queue P cmp H qo ok els OQ) co mo _ _ (acts_lawful_map _ _ P co AC) (acts_lawful_map _ _ P mo AM) WF rs go orig dest n path V Vd HG O (conj HR HM) Wn En).
  split; intros (K & L); (split; [|exact L]); revert K; apply (foremost_ext P _ _ go orig dest path V HG); intros k p k' p' Vp Vp'; apply ahead_ext; assumption.
Qed.
