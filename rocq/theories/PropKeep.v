(** PropKeep.v -- a shortest path found by A* search without diagonals stays the
    result when moves off the path are closed, and when planning again on the way. *)

From Coq Require Import ZArith List Bool Lia.
From Verif Require Import Rust BoundedInt Dir PosT Pos Grid Gridbool SetMap CameFrom Bf Heap Astar Ucs Spec SpecSearch SpecReplan SpecSettle SpecKeep Lib Deque BoundedIntProofs PosTProofs PosTProofs2 PropDirProofs SetMapProofs Sim CameFromProofs PropSetMapProofs GridProofs BfProofs PropBfProofs BestFirst SearchProofs UcsProofs PropUcsProofs AstarProofs PropAstarProofs PropAgreeProofs PropSettleProofs PropReplanProofs Chrono Spine.
From Verif Require Import PropKeepProofs.
Import ListNotations.
Open Scope Z_scope.

(** C147: if the path found without diagonals is a shortest one, it is also found
    when moves that it does not use are closed. *)
Theorem C147_astar_unused : forall b P W go go' orig dest path,
  usable b P W -> valid P orig -> valid P dest -> go_inside P go -> one_step P go ->
  returns (fun fuel => astar_on b P false fuel go orig dest) (Ok path) -> at_distance false go orig (length path) dest ->
  (forall p d q, go' p d = Some q -> go p d = Some q) -> follow go' orig path = Some dest ->
  returns (fun fuel => astar_on b P false fuel go' orig dest) (Ok path).
Proof. exact C147_astar_unused_proof. Qed.
Print Assumptions C147_astar_unused.

(** C147: and from any position on the path the rest of it is found. *)
Theorem C147_astar_rest : forall b P W go orig dest path l1 l2 p,
  usable b P W -> valid P orig -> valid P dest -> go_inside P go -> one_step P go ->
  returns (fun fuel => astar_on b P false fuel go orig dest) (Ok path) -> at_distance false go orig (length path) dest ->
  path = l1 ++ l2 -> follow go orig l1 = Some p ->
  returns (fun fuel => astar_on b P false fuel go p dest) (Ok l2).
Proof. exact C147_astar_rest_proof. Qed.
Print Assumptions C147_astar_rest.

(** C147: both at once: a walker that sees the map shrink on its way, but not on the
    rest of its path, finds that rest. *)
Theorem C147_astar_rest_unused : forall b P W go go' orig dest path l1 l2 p,
  usable b P W -> valid P orig -> valid P dest -> go_inside P go -> one_step P go ->
  returns (fun fuel => astar_on b P false fuel go orig dest) (Ok path) -> at_distance false go orig (length path) dest ->
  (forall p d q, go' p d = Some q -> go p d = Some q) ->
  path = l1 ++ l2 -> follow go orig l1 = Some p -> follow go' p l2 = Some dest ->
  returns (fun fuel => astar_on b P false fuel go' p dest) (Ok l2).
Proof. exact C147_astar_rest_unused_proof. Qed.
Print Assumptions C147_astar_rest_unused.

(** C147: so planning again before every move makes no difference. *)
Theorem C147_astar_replanned : forall b P W go orig dest path w,
  usable b P W -> valid P orig -> valid P dest -> go_inside P go -> one_step P go ->
  returns (fun fuel => astar_on b P false fuel go orig dest) (Ok path) -> at_distance false go orig (length path) dest ->
  (replanned (fun p l => returns (fun fuel => astar_on b P false fuel go p dest) (Ok l)) go dest orig w <-> w = path).
Proof. exact C147_astar_replanned_proof. Qed.
Print Assumptions C147_astar_replanned.

(** * Which shortest path *)

(** C147: a shortest path that is found is the foremost one. *)
Theorem C147_astar_which : forall b P W go orig dest path,
  usable b P W -> valid P orig -> valid P dest -> go_inside P go -> one_step P go ->
  returns (fun fuel => astar_on b P false fuel go orig dest) (Ok path) -> at_distance false go orig (length path) dest ->
  foremost go orig dest path.
Proof. exact C147_astar_which_proof. Qed.
Print Assumptions C147_astar_which.

(** C147: and there is no other foremost path. *)
Theorem C147_foremost_unique : forall P go orig dest path path', valid P orig -> go_inside P go -> one_step P go ->
  foremost go orig dest path -> foremost go orig dest path' -> path = path'.
Proof. exact C147_foremost_unique_proof. Qed.
Print Assumptions C147_foremost_unique.

(** C147: in particular, if some walk is as short as the Manhattan distance, the
    path found is exactly the foremost one. *)
Theorem C147_astar_direct : forall b P W go orig dest n path,
  usable b P W -> rows P <= cols P -> valid P orig -> valid P dest -> go_inside P go -> one_step P go ->
  walk false go orig n dest -> Z.of_nat n = Z.abs (fst orig - fst dest) + Z.abs (snd orig - snd dest) ->
  (returns (fun fuel => astar_on b P false fuel go orig dest) (Ok path) <-> foremost go orig dest path).
Proof. exact C147_astar_direct_proof. Qed.
Print Assumptions C147_astar_direct.

Example C147_example :
  let go p d := match pos_dir_add_ok (Pos 4 4) p d with Some q => if (fst q =? 2) && negb (snd q =? 3) then None else Some q | None => None end in
  let go' p d := if (fst p =? 0) && (snd p =? 2) then None else if (fst p =? 3) && (snd p =? 1) then None else go p d in
  astar_on OnGrid (Pos 4 4) false 90 go (0, 1) (4, 0) = Ret (Ok [dE; dS; dS; dE; dE; dE; dN; dN; dN]) /\
  astar_on OnGrid (Pos 4 4) false 90 go (1, 1) (4, 0) = Ret (Ok [dS; dS; dE; dE; dE; dN; dN; dN]) /\
  astar_on OnGrid (Pos 4 4) false 90 go' (0, 1) (4, 0) = Ret (Ok [dE; dS; dS; dE; dE; dE; dN; dN; dN]) /\
  at_distance false go (0, 1) 9 (4, 0) /\
  (forall p d q, go' p d = Some q -> go p d = Some q) /\
  follow go' (0, 1) [dE; dS; dS; dE; dE; dE; dN; dN; dN] = Some (4, 0).
Proof.
  intros go go'. assert (HG : go_inside (Pos 4 4) go).
  { intros p d q V E. unfold go in E. destruct (pos_dir_add_ok (Pos 4 4) p d) as [r|] eqn:E'; [|discriminate]. destruct ((fst r =? 2) && negb (snd r =? 3)); [discriminate |]. injection E as <-.
    apply (open_inside (Pos 4 4) ltac:(apply Pos_grid_type; unfold u16_dims; lia) p d r V E'). }
  assert (O : one_step (Pos 4 4) go).
  { intros p d q V E. unfold go in E. destruct (pos_dir_add_ok (Pos 4 4) p d) as [r|] eqn:E'; [|discriminate]. destruct ((fst r =? 2) && negb (snd r =? 3)); [discriminate |]. injection E as <-.
    apply (open_one_step (Pos 4 4) ltac:(apply Pos_grid_type; unfold u16_dims; lia) p d r V E'). }
  split; [vm_compute; reflexivity |]. split; [vm_compute; reflexivity |]. split; [vm_compute; reflexivity |]. split; [|split; [|vm_compute; reflexivity]].
  - split; [exists [dE; dS; dS; dE; dE; dE; dN; dN; dN]; split; [reflexivity |]; split; [repeat constructor |]; vm_compute; reflexivity |].
    pose (f := fun p : pos => if fst p <=? 2 then fst p - 2 - Z.abs (3 - snd p) else fst p - 2 + Z.abs (3 - snd p)).
    assert (K : forall ds p q, valid (Pos 4 4) p -> (fst p = 2 -> snd p = 3) -> Forall (allowed false) ds -> follow go p ds = Some q -> f q <= f p + Z.of_nat (length ds)).
    { induction ds as [|d ds IH]; intros p q V N A F; cbn [follow length] in *; [injection F as <-; lia |]. inversion A as [|d0 ds0 Ad Ads]. subst.
      destruct (go p d) as [r|] eqn:E; [|discriminate]. pose proof (O p d r V E) as Er. pose proof (HG p d r V E) as Vr.
      assert (Nr : fst r = 2 -> snd r = 3).
      { intros X. unfold go in E. destruct (pos_dir_add_ok (Pos 4 4) p d) as [r'|]; [|discriminate]. destruct ((fst r' =? 2) && negb (snd r' =? 3)) eqn:B; [discriminate |]. injection E as ->.
        rewrite X in B. cbn in B. destruct (snd r =? 3) eqn:B'; [apply Z.eqb_eq; exact B' | discriminate]. }
      specialize (IH r q Vr Nr Ads F). assert (f r <= f p + 1); [|lia]. assert (N' : fst p <> 2 \/ snd p = 3) by (destruct (Z.eq_dec (fst p) 2); auto). assert (Nr' : fst r <> 2 \/ snd r = 3) by (destruct (Z.eq_dec (fst r) 2); auto).
      rewrite Er in *. clear -N' Nr' Ad. destruct p as [x y]. unfold f, step in *. cbn [fst snd] in *.
      destruct d; destruct Ad as [Ad | Ad]; try discriminate; cbn [delta_x delta_y fst snd] in *; repeat match goal with |- context [?u <=? ?v] => destruct (Z.leb_spec u v) end; lia. }
    intros j Lj (ds & L & A & F). pose proof (K ds (0, 1) (4, 0) ltac:(unfold valid, in_bty; cbn; lia) ltac:(cbn; intros Z; discriminate Z) A F) as X. change (5 <= -4 + Z.of_nat (length ds)) in X. lia.
  - intros p d q E. unfold go' in E. destruct ((fst p =? 0) && (snd p =? 2)); [discriminate |]. destruct ((fst p =? 3) && (snd p =? 1)); [discriminate | exact E].
Qed.
