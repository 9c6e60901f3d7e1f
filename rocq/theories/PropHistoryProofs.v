(** PropHistoryProofs.v -- proofs of the statements of PropHistory.v. *)

From Coq Require Import ZArith List Bool Lia.
From Verif Require Import Rust BoundedInt Dir PosT Pos Grid Gridbool Spec SpecHistory Lib Deque BoundedIntProofs PosTProofs PosTProofs2 PropPosProofs GridProofs GridRotProofs GridProofs2 PropGridProofs GridboolProofs GridboolRotProofs PropGridboolProofs.
Import ListNotations.
Open Scope Z_scope.

Lemma same_eq : forall p q, same p q = true <-> p = q.
Proof.
  intros [a b] [c d]. unfold same. cbn [fst snd]. rewrite andb_true_iff, !Z.eqb_eq. split; [intros (-> & ->); reflexivity | intros E; inversion E; auto].
Qed.

Lemma same_In : forall p ps, existsb (same p) ps = true <-> In p ps.
Proof.
  intros p ps. rewrite existsb_exists. split; [intros (x & Hx & E); apply same_eq in E; subst; exact Hx | intros H; exists p; split; [exact H | apply same_eq; reflexivity]].
Qed.

Lemma last_given_const : forall {T} (v : T) ps p, last_given (map (fun q => (q, v)) ps) p = if existsb (same p) ps then Some v else None.
Proof.
  intros T v ps p. induction ps as [|q ps IH]; [reflexivity |]. cbn [map last_given existsb]. rewrite IH.
  destruct (existsb (same p) ps); [rewrite orb_true_r; reflexivity |]. rewrite orb_false_r. destruct (pos_eqb q p) eqn:E.
  - apply pos_eqb_eq in E. subst q. rewrite (proj2 (same_eq p p) eq_refl). reflexivity.
  - apply pos_eqb_neq in E. destruct (same p q) eqn:E'; [|reflexivity]. apply same_eq in E'. congruence.
Qed.

Lemma valid_Pos : forall X Y x y, u16_dims X Y -> (valid (Pos X Y) (x, y) <-> 0 <= x <= X /\ 0 <= y <= Y).
Proof. intros X Y x y D. unfold valid, in_bty. cbn. lia. Qed.

Lemma grid_edit_ok : forall (T : Type) X Y (g : grid T) e f, u16_dims X Y -> proper (Pos X Y) g -> edit_ok X Y e ->
  (forall p, valid (Pos X Y) p -> grid_get (Pos X Y) g p = Ret (f p)) ->
  exists g', grid_edit X Y g e = Ret g' /\ proper (Pos X Y) g' /\ forall p, valid (Pos X Y) p -> grid_get (Pos X Y) g' p = Ret (draw X Y f e p).
Proof.
  intros T X Y g e f D PR EO H. pose proof (Pos_grid_type X Y D) as G. destruct e; cbn [grid_edit edit_ok] in *.
  - destruct (C29_grid_get_set_proof T (Pos X Y) g p v G PR EO) as (_ & g' & E & PR' & E1 & E2). exists g'. split; [exact E |]. split; [exact PR' |].
    intros [x y] V. cbn [draw]. destruct (same p (x, y)) eqn:S; [apply same_eq in S; subst p; exact E1 |].
    rewrite E2; [apply H; exact V | exact V |]. intros Q. rewrite (proj2 (same_eq p (x, y)) (eq_sym Q)) in S. discriminate.
  - destruct (C36_grid_extend_proof T (Pos X Y) g (map (fun p => (p, v)) ps) G PR) as (g' & E & PR' & E1).
    { intros p w Hin. apply in_map_iff in Hin. destruct Hin as (q & Q & Hq). inversion Q; subst. rewrite Forall_forall in EO. auto. }
    exists g'. split; [exact E |]. split; [exact PR' |]. intros [x y] V. cbn [draw]. rewrite E1 by exact V. rewrite last_given_const.
    destruct (existsb (same (x, y)) ps); [reflexivity | apply H; exact V].
  - destruct (C31_grid_flips_proof T (Pos X Y) g G PR) as (gh & gv & E & _ & PR' & _ & _ & _ & K & _). exists gh. split; [exact E |]. split; [exact PR' |].
    intros [x y] V. cbn [draw]. apply (proj1 (valid_Pos X Y x y D)) in V. assert (V' : valid (Pos X Y) (X - x, y)) by (apply (proj2 (valid_Pos X Y _ _ D)); lia).
    destruct (K _ _ V') as (_ & K'). cbn in K'. replace (X - (X - x)) with x in K' by lia. rewrite K'. apply H. exact V'.
  - destruct (C31_grid_flips_proof T (Pos X Y) g G PR) as (gh & gv & _ & E & _ & PR' & _ & _ & _ & K & _). exists gv. split; [exact E |]. split; [exact PR' |].
    intros [x y] V. cbn [draw]. apply (proj1 (valid_Pos X Y x y D)) in V. assert (V' : valid (Pos X Y) (x, Y - y)) by (apply (proj2 (valid_Pos X Y _ _ D)); lia).
    destruct (K _ _ V') as (_ & K'). cbn in K'. replace (Y - (Y - y)) with y in K' by lia. rewrite K'. apply H. exact V'.
  - subst Y. destruct (C32_grid_rotations_proof T X g D PR) as (gw & gc & E & _ & PR' & _ & _ & _ & K & _). exists gw. split; [exact E |]. split; [exact PR' |].
    intros [x y] V. cbn [draw]. apply (proj1 (valid_Pos X X x y D)) in V. assert (V' : valid (Pos X X) (y, X - x)) by (apply (proj2 (valid_Pos X X _ _ D)); lia).
    destruct (K _ _ V') as (_ & K'). replace (X - (X - x)) with x in K' by lia. rewrite K'. apply H. exact V'.
  - subst Y. destruct (C32_grid_rotations_proof T X g D PR) as (gw & gc & _ & E & _ & PR' & _ & _ & _ & K & _). exists gc. split; [exact E |]. split; [exact PR' |].
    intros [x y] V. cbn [draw]. apply (proj1 (valid_Pos X X x y D)) in V. assert (V' : valid (Pos X X) (X - y, x)) by (apply (proj2 (valid_Pos X X _ _ D)); lia).
    destruct (K _ _ V') as (_ & K'). replace (X - (X - y)) with y in K' by lia. rewrite K'. apply H. exact V'.
Qed.

Lemma grid_edits_ok : forall (T : Type) X Y es (g : grid T) f, u16_dims X Y -> proper (Pos X Y) g -> Forall (edit_ok X Y) es ->
  (forall p, valid (Pos X Y) p -> grid_get (Pos X Y) g p = Ret (f p)) ->
  exists g', grid_edits X Y g es = Ret g' /\ proper (Pos X Y) g' /\ forall p, valid (Pos X Y) p -> grid_get (Pos X Y) g' p = Ret (drawing X Y f es p).
Proof.
  intros T X Y es. unfold grid_edits, drawing. induction es as [|e es IH]; intros g f D PR EO H; cbn [foldM fold_left]; [eauto |].
  inversion EO; subst. destruct (grid_edit_ok T X Y g e f D PR) as (g1 & E & PR1 & H1); [assumption | exact H |]. rewrite E. cbn [bind]. apply IH; assumption.
Qed.

Lemma grid_cells : forall (T : Type) P (g : list T) f, grid_type P -> proper P g -> (forall p, valid P p -> grid_get P g p = Ret (f p)) ->
  g = map f (all_rows P).
Proof.
  intros T P g f G PR H. apply nth_error_ext. intros n. rewrite nth_error_map. destruct (nth_error (all_rows P) n) as [p|] eqn:E; cbn [option_map].
  - assert (V : valid P p) by (apply all_rows_In; eapply nth_error_In; exact E).
    destruct (C29_grid_get_set_proof T P g p (f p) G PR V) as ((w & E1 & E2) & _). rewrite H in E1 by exact V. inversion E1; subst w.
    rewrite (all_rows_index P n p G E), Nat2Z.id in E2. exact E2.
  - apply nth_error_None in E. apply nth_error_None. pose proof (all_rows_length P G). unfold proper in PR. lia.
Qed.

Lemma C94_grid_history_proof : forall (T : Type) X Y (v : T) es, u16_dims X Y -> Forall (edit_ok X Y) es ->
  let P := Pos X Y in
  exists g, grid_edits X Y (grid_repeat (cells P) v) es = Ret g /\
    Z.of_nat (length (grid_iter g)) = cells P /\
    (forall p, valid P p -> grid_get P g p = Ret (drawing X Y (fun _ => v) es p)) /\
    grid_iter g = map (drawing X Y (fun _ => v) es) (all_rows P).
Proof.
  intros T X Y v es D EO P. pose proof (Pos_grid_type X Y D) as G. fold P in G.
  assert (PR : proper P (grid_repeat (cells P) v)).
  { unfold proper, grid_repeat. rewrite repeat_length. pose proof (cells_pos P G). lia. }
  destruct (grid_edits_ok T X Y es (grid_repeat (cells P) v) (fun _ => v) D PR EO) as (g & E & PR' & H).
  { intros p V. apply (C29_grid_fresh_proof T P v p G V). }
  exists g. split; [exact E |]. split; [exact PR' |]. split; [exact H |]. exact (grid_cells T P g _ G PR' H).
Qed.

Lemma gb_edit_ok : forall X Y (g : gridbool) e f, u16_dims X Y -> roomy (Pos X Y) g -> edit_ok X Y e ->
  (e = TurnCW \/ e = TurnCC -> X mod 2 = 0) ->
  (forall p, valid (Pos X Y) p -> gb_get (Pos X Y) g p = Ret (f p)) ->
  exists g', gb_edit X Y g e = Ret g' /\ roomy (Pos X Y) g' /\ forall p, valid (Pos X Y) p -> gb_get (Pos X Y) g' p = Ret (draw X Y f e p).
Proof.
  intros X Y g e f D PR EO EV H. pose proof (Pos_grid_type X Y D) as G. destruct e; cbn [gb_edit edit_ok] in *.
  - destruct (C37_gridbool_get_set_proof (Pos X Y) g p v G PR EO) as (_ & g' & E & PR' & _ & _ & E1 & E2). exists g'. split; [exact E |]. split; [exact PR' |].
    intros [x y] V. cbn [draw]. destruct (same p (x, y)) eqn:S; [apply same_eq in S; subst p; exact E1 |].
    rewrite E2; [apply H; exact V | exact V |]. intros Q. rewrite (proj2 (same_eq p (x, y)) (eq_sym Q)) in S. discriminate.
  - rewrite Forall_forall in EO. destruct (C39_gridbool_set_iter_proof (Pos X Y) g ps G PR EO) as ((gt & Et & Rt & _ & Kt) & (gf & Ef & Rf & _ & Kf)).
    assert (B : forall g', (forall p, valid (Pos X Y) p -> (In p ps -> gb_get (Pos X Y) g' p = Ret v) /\ (~ In p ps -> gb_get (Pos X Y) g' p = gb_get (Pos X Y) g p)) ->
      forall p, valid (Pos X Y) p -> gb_get (Pos X Y) g' p = Ret (draw X Y f (PutAll ps v) p)).
    { intros g' K [x y] V. cbn [draw]. destruct (K _ V) as (K1 & K2). destruct (existsb (same (x, y)) ps) eqn:S.
      - apply K1. apply same_In. exact S.
      - rewrite K2; [apply H; exact V |]. rewrite <- same_In, S. discriminate. }
    destruct v; [exists gt | exists gf]; auto.
  - destruct (C40_gridbool_flips_proof (Pos X Y) g G PR) as (gh & gv & E & _ & PR' & _ & K & _). exists gh. split; [exact E |]. split; [exact PR' |].
    intros [x y] V. cbn [draw]. apply (proj1 (valid_Pos X Y x y D)) in V. assert (V' : valid (Pos X Y) (X - x, y)) by (apply (proj2 (valid_Pos X Y _ _ D)); lia).
    pose proof (K _ _ V') as K'. cbn in K'. replace (X - (X - x)) with x in K' by lia. rewrite K'. apply H. exact V'.
  - destruct (C40_gridbool_flips_proof (Pos X Y) g G PR) as (gh & gv & _ & E & _ & PR' & _ & K & _). exists gv. split; [exact E |]. split; [exact PR' |].
    intros [x y] V. cbn [draw]. apply (proj1 (valid_Pos X Y x y D)) in V. assert (V' : valid (Pos X Y) (x, Y - y)) by (apply (proj2 (valid_Pos X Y _ _ D)); lia).
    pose proof (K _ _ V') as K'. cbn in K'. replace (Y - (Y - y)) with y in K' by lia. rewrite K'. apply H. exact V'.
  - subst Y. destruct (C41_gridbool_rotation_partial_proof X g D (EV (or_introl eq_refl)) PR) as (gw & gc & E & _ & PR' & _ & K & _). exists gw. split; [exact E |]. split; [exact PR' |].
    intros [x y] V. cbn [draw]. apply (proj1 (valid_Pos X X x y D)) in V. assert (V' : valid (Pos X X) (y, X - x)) by (apply (proj2 (valid_Pos X X _ _ D)); lia).
    pose proof (K _ _ V') as K'. replace (X - (X - x)) with x in K' by lia. rewrite K'. apply H. exact V'.
  - subst Y. destruct (C41_gridbool_rotation_partial_proof X g D (EV (or_intror eq_refl)) PR) as (gw & gc & _ & E & _ & PR' & _ & K & _). exists gc. split; [exact E |]. split; [exact PR' |].
    intros [x y] V. cbn [draw]. apply (proj1 (valid_Pos X X x y D)) in V. assert (V' : valid (Pos X X) (X - y, x)) by (apply (proj2 (valid_Pos X X _ _ D)); lia).
    pose proof (K _ _ V') as K'. replace (X - (X - y)) with y in K' by lia. rewrite K'. apply H. exact V'.
Qed.

Lemma gb_edits_ok : forall X Y es (g : gridbool) f, u16_dims X Y -> roomy (Pos X Y) g -> Forall (edit_ok X Y) es ->
  (In TurnCW es \/ In TurnCC es -> X mod 2 = 0) ->
  (forall p, valid (Pos X Y) p -> gb_get (Pos X Y) g p = Ret (f p)) ->
  exists g', gb_edits X Y g es = Ret g' /\ roomy (Pos X Y) g' /\ forall p, valid (Pos X Y) p -> gb_get (Pos X Y) g' p = Ret (drawing X Y f es p).
Proof.
  intros X Y es. unfold gb_edits, drawing. induction es as [|e es IH]; intros g f D PR EO EV H; cbn [foldM fold_left]; [eauto |].
  inversion EO; subst. destruct (gb_edit_ok X Y g e f D PR) as (g1 & E & PR1 & H1); [assumption | | exact H |].
  { intros [-> | ->]; apply EV; [left | right]; left; reflexivity. }
  rewrite E. cbn [bind]. apply IH; try assumption. intros [Q | Q]; apply EV; [left | right]; right; exact Q.
Qed.

Lemma C95_gridbool_history_partial_proof : forall X Y WORDS v es, u16_dims X Y -> in_ity usize WORDS = true ->
  let P := Pos X Y in
  cells P <= 32 * WORDS <= cells P + 32 -> Forall (edit_ok X Y) es ->
  (In TurnCW es \/ In TurnCC es -> X mod 2 = 0) ->
  exists g b, grid_edits X Y (grid_repeat (cells P) v) es = Ret g /\
    bind (gb_repeat P WORDS v) (fun b0 => gb_edits X Y b0 es) = Ret b /\
    (forall p, valid P p -> gb_get P b p = grid_get P g p) /\
    gb_iter P b = Ret (grid_iter g) /\ gb_iter_pos P b = grid_iter_pos P g /\
    exists t f, gb_iter_t P b = Ret t /\ gb_iter_f P b = Ret f /\
      t = filter (drawing X Y (fun _ => v) es) (all_rows P) /\
      f = filter (fun p => negb (drawing X Y (fun _ => v) es p)) (all_rows P).
Proof.
  intros X Y WORDS v es D HW P HC EO EV. pose proof (Pos_grid_type X Y D) as G. fold P in G.
  destruct (C94_grid_history_proof bool X Y v es D EO) as (g & Eg & PR & Hg & Ig). fold P in Eg, PR, Hg, Ig.
  destruct (proj1 (C37_gridbool_repeat_proof X Y WORDS v D HW) HC) as (b0 & E0 & R0 & _ & H0 & _). fold P in E0, R0, H0.
  destruct (gb_edits_ok X Y es b0 (fun _ => v) D R0 EO EV H0) as (b & Eb & Rb & Hb). fold P in Rb, Hb.
  exists g, b. split; [exact Eg |]. split; [rewrite E0; exact Eb |].
  split; [intros p V; rewrite Hg, Hb by exact V; reflexivity |].
  destruct (C39_gridbool_iter_proof P b G Rb) as (bs & E1 & L1 & K1 & E2).
  assert (BS : bs = grid_iter g).
  { rewrite Ig. apply nth_error_ext. intros n. rewrite nth_error_map. destruct (nth_error (all_rows P) n) as [p|] eqn:E; cbn [option_map].
    - assert (V : valid P p) by (apply all_rows_In; eapply nth_error_In; exact E). destruct (K1 p V) as (x & X1 & X2). rewrite Hb in X1 by exact V.
      inversion X1; subst x. rewrite (all_rows_index P n p G E), Nat2Z.id in X2. exact X2.
    - apply nth_error_None in E. apply nth_error_None. pose proof (all_rows_length P G). lia. }
  split; [rewrite E1, BS; reflexivity |]. split.
  - rewrite E2, BS. destruct (C33_grid_iterators_proof bool P v negb g G PR) as (_ & (l & El & L2 & L3 & _) & _). rewrite El, <- L2, <- L3. f_equal. clear.
    induction l as [|[p x] l IH]; [reflexivity |]. cbn. rewrite IH. reflexivity.
  - eexists. eexists. unfold gb_iter_t, gb_iter_f. rewrite (iter_list_of P true (grid_type_wf P G)). cbn [bind]. change (all_of P true) with (all_rows P).
    rewrite filterM_pure with (g := drawing X Y (fun _ => v) es) by (intros p Hp; apply all_rows_In in Hp; apply Hb; exact Hp).
    rewrite filterM_pure with (g := fun p => negb (drawing X Y (fun _ => v) es p)) by (intros p Hp; apply all_rows_In in Hp; rewrite Hb by exact Hp; reflexivity).
    auto.
Qed.

Lemma C95_gridbool_history_refuted_proof : exists X Y WORDS v es p, u16_dims X Y /\ cells (Pos X Y) <= 32 * WORDS <= cells (Pos X Y) + 32 /\
  Forall (edit_ok X Y) es /\ valid (Pos X Y) p /\
  exists g b, grid_edits X Y (grid_repeat (cells (Pos X Y)) v) es = Ret g /\
    bind (gb_repeat (Pos X Y) WORDS v) (fun b0 => gb_edits X Y b0 es) = Ret b /\
    grid_get (Pos X Y) g p = Ret true /\ gb_get (Pos X Y) b p = Ret false.
Proof.
  exists 1, 1, 1, false, [Put (0, 0) true; TurnCW], (1, 0). unfold cells, cols, rows. cbn [Pos pt_x pt_y].
  split; [unfold u16_dims; lia |]. split; [vm_compute; split; discriminate |]. split.
  { repeat constructor; vm_compute; discriminate. }
  split; [vm_compute; intuition discriminate |].
  exists [false; true; false; false], [2147483648]. vm_compute. auto.
Qed.

Lemma drawing_app : forall (T : Type) X Y (f : pos -> T) a b, drawing X Y f (a ++ b) = drawing X Y (drawing X Y f a) b.
Proof. intros. unfold drawing. apply fold_left_app. Qed.

Lemma edits_agree : forall (T : Type) X Y (g : grid T) a b, u16_dims X Y -> proper (Pos X Y) g -> Forall (edit_ok X Y) a -> Forall (edit_ok X Y) b ->
  (forall f p, drawing X Y (f : pos -> T) a p = drawing X Y f b p) ->
  exists g', grid_edits X Y g a = Ret g' /\ grid_edits X Y g b = Ret g' /\ proper (Pos X Y) g'.
Proof.
  intros T X Y g a b D PR Ea Eb H. pose proof (Pos_grid_type X Y D) as G.
  destruct g as [|d0 g0] eqn:Eg; [unfold proper in PR; cbn in PR; pose proof (cells_pos _ G); lia |]. rewrite <- Eg in *.
  set (f := fun p => nth (Z.to_nat (index_of (Pos X Y) p)) g d0).
  assert (F : forall p, valid (Pos X Y) p -> grid_get (Pos X Y) g p = Ret (f p)).
  { intros p V. destruct (C29_grid_get_set_proof T (Pos X Y) g p d0 G PR V) as ((w & E1 & E2) & _). rewrite E1. f_equal. symmetry. apply nth_error_nth. exact E2. }
  destruct (grid_edits_ok T X Y a g f D PR Ea F) as (ga & Ga & Pa & Ha). destruct (grid_edits_ok T X Y b g f D PR Eb F) as (gb & Gb & Pb & Hb).
  exists ga. split; [exact Ga |]. split; [|exact Pa]. rewrite Gb. f_equal. rewrite (grid_cells T _ ga _ G Pa Ha), (grid_cells T _ gb _ G Pb Hb).
  apply map_ext. intros p. symmetry. apply H.
Qed.

Lemma foldM_two : forall {A B} (f : A -> B -> exec A) a x y, foldM f [x; y] a = bind (f a x) (fun a1 => f a1 y).
Proof. intros A B f a x y. cbn [foldM]. destruct (f a x) as [b | | |]; [|reflexivity ..]. cbn [bind]. destruct (f b y); reflexivity. Qed.

Lemma C96_grid_flip_flip_proof : forall (T : Type) X Y (g : list T), u16_dims X Y -> proper (Pos X Y) g ->
  let P := Pos X Y in
  exists r, bind (grid_flip_h P g) (grid_flip_v P) = Ret r /\ bind (grid_flip_v P g) (grid_flip_h P) = Ret r /\
    forall x y, valid P (x, y) -> grid_get P r (X - x, Y - y) = grid_get P g (x, y).
Proof.
  intros T X Y g D PR P. pose proof (Pos_grid_type X Y D) as G.
  destruct (edits_agree T X Y g [FlipH; FlipV] [FlipV; FlipH] D PR) as (r & E1 & E2 & _); [repeat constructor | repeat constructor | |].
  { intros f [x y]. reflexivity. }
  unfold grid_edits in E1, E2. rewrite foldM_two in E1, E2. exists r. split; [exact E1 |]. split; [exact E2 |].
  intros x y V. destruct (C31_grid_flips_proof T P g G PR) as (gh & gv & Eh & Ev & Ph & Pv & _ & _ & Kh & Kv & _).
  destruct (C31_grid_flips_proof T P gh G Ph) as (gh' & gv' & _ & Ev' & _ & _ & _ & _ & _ & Kv' & _).
  cbn [grid_edit] in E1. fold P in E1. rewrite Eh in E1. cbn [bind] in E1. rewrite Ev' in E1. inversion E1; subst r.
  destruct (Kh x y V) as (_ & <-). pose proof (proj1 (valid_Pos X Y x y D) V) as V'. change (XM P) with X. destruct (Kv' (X - x) y) as (_ & K); [apply (proj2 (valid_Pos X Y _ _ D)); lia |].
  exact K.
Qed.

Lemma C96_grid_dihedral_proof : forall (T : Type) W (g : list T), u16_dims W W -> proper (Pos W W) g ->
  let P := Pos W W in
  exists half trans anti,
    bind (grid_rotate_cw W g) (grid_rotate_cw W) = Ret half /\ bind (grid_rotate_cc W g) (grid_rotate_cc W) = Ret half /\
    bind (grid_flip_h P g) (grid_flip_v P) = Ret half /\
    bind (grid_rotate_cw W g) (grid_flip_h P) = Ret trans /\ bind (grid_flip_h P g) (grid_rotate_cc W) = Ret trans /\
    bind (grid_flip_v P g) (grid_rotate_cw W) = Ret trans /\ bind (grid_rotate_cc W g) (grid_flip_v P) = Ret trans /\
    bind (grid_rotate_cw W g) (grid_flip_v P) = Ret anti /\ bind (grid_flip_v P g) (grid_rotate_cc W) = Ret anti /\
    bind (grid_flip_h P g) (grid_rotate_cw W) = Ret anti /\ bind (grid_rotate_cc W g) (grid_flip_h P) = Ret anti /\
    (forall x y, valid P (x, y) -> grid_get P trans (y, x) = grid_get P g (x, y)) /\
    (forall x y, valid P (x, y) -> grid_get P anti (W - y, W - x) = grid_get P g (x, y)).
Proof.
  intros T W g D PR P. pose proof (Pos_grid_type W W D) as G. fold P in G.
  assert (AG : forall a b a' b', In a [FlipH; FlipV; TurnCW; TurnCC] -> In b [FlipH; FlipV; TurnCW; TurnCC] -> In a' [FlipH; FlipV; TurnCW; TurnCC] -> In b' [FlipH; FlipV; TurnCW; TurnCC] ->
    (forall f x y, draw W W (draw W W (f : pos -> T) a) b (x, y) = draw W W (draw W W f a') b' (x, y)) ->
    exists r, bind (grid_edit W W g a) (fun g1 => grid_edit W W g1 b) = Ret r /\ bind (grid_edit W W g a') (fun g1 => grid_edit W W g1 b') = Ret r).
  { intros a b a' b' A1 A2 A3 A4 H.
    assert (OK : forall e : edit T, In e [FlipH; FlipV; TurnCW; TurnCC] -> edit_ok W W e) by (intros e He; cbn in He; decompose [or] He; subst; cbn; auto; contradiction).
    destruct (edits_agree T W W g [a; b] [a'; b'] D PR) as (r & E1 & E2 & _); [repeat constructor; auto | repeat constructor; auto | |].
    { intros f [x y]. exact (H f x y). }
    unfold grid_edits in E1, E2. rewrite foldM_two in E1, E2. exists r. auto. }
  assert (IN : In (@FlipH T) [FlipH; FlipV; TurnCW; TurnCC] /\ In (@FlipV T) [FlipH; FlipV; TurnCW; TurnCC] /\ In (@TurnCW T) [FlipH; FlipV; TurnCW; TurnCC] /\ In (@TurnCC T) [FlipH; FlipV; TurnCW; TurnCC]) by (cbn; tauto).
  destruct IN as (I1 & I2 & I3 & I4).
  destruct (AG TurnCW TurnCW TurnCC TurnCC) as (half & A1 & A2); try assumption. { intros f x y. cbn [draw]. f_equal; f_equal; lia. }
  destruct (AG TurnCW TurnCW FlipH FlipV) as (half' & A3 & A4); try assumption. { intros f x y. cbn [draw]. f_equal; f_equal; lia. }
  destruct (AG TurnCW FlipH FlipH TurnCC) as (tr & B1 & B2); try assumption. { intros f x y. cbn [draw]. f_equal; f_equal; lia. }
  destruct (AG TurnCW FlipH FlipV TurnCW) as (tr' & B3 & B4); try assumption. { intros f x y. cbn [draw]. f_equal; f_equal; lia. }
  destruct (AG TurnCW FlipH TurnCC FlipV) as (tr'' & B5 & B6); try assumption. { intros f x y. cbn [draw]. f_equal; f_equal; lia. }
  destruct (AG TurnCW FlipV FlipV TurnCC) as (an & C1 & C2); try assumption. { intros f x y. cbn [draw]. f_equal; f_equal; lia. }
  destruct (AG TurnCW FlipV FlipH TurnCW) as (an' & C3 & C4); try assumption. { intros f x y. cbn [draw]. f_equal; f_equal; lia. }
  destruct (AG TurnCW FlipV TurnCC FlipH) as (an'' & C5 & C6); try assumption. { intros f x y. cbn [draw]. f_equal; f_equal; lia. }
  rewrite A1 in A3. rewrite B1 in B3, B5. rewrite C1 in C3, C5. inversion A3; inversion B3; inversion B5; inversion C3; inversion C5; subst half' tr' tr'' an' an''.
  exists half, tr, an. do 11 (split; [assumption |]).
  destruct (C32_grid_rotations_proof T W g D PR) as (gw & gc & Ew & _ & Pw & _ & _ & _ & Kw & _).
  destruct (C31_grid_flips_proof T P gw G Pw) as (gh & gv & Eh & Ev & _ & _ & _ & _ & Kh & Kv & _).
  cbn [grid_edit] in B1, C1. rewrite Ew in B1, C1. cbn [bind] in B1, C1. fold P in B1, C1. rewrite Eh in B1. rewrite Ev in C1. inversion B1; inversion C1; subst gh gv.
  fold P in Kw. split; intros x y V; destruct (Kw x y V) as (_ & <-); pose proof (proj1 (valid_Pos W W x y D) V) as V'.
  - destruct (Kh (W - y) x) as (_ & K); [apply (proj2 (valid_Pos W W _ _ D)); lia |]. change (XM P) with W in K. replace (W - (W - y)) with y in K by lia. exact K.
  - destruct (Kv (W - y) x) as (_ & K); [apply (proj2 (valid_Pos W W _ _ D)); lia |]. exact K.
Qed.

Lemma set_all_frame : forall P v ps g, grid_type P -> roomy P g -> Forall (valid P) ps ->
  exists g', foldM (fun g p => gb_set P g p v) ps g = Ret g' /\ frame P g g'.
Proof.
  intros P v ps. induction ps as [|p ps IH]; intros g G R F; cbn [foldM].
  - exists g. split; [reflexivity | apply frame_refl; exact R].
  - inversion F; subst. destruct (gb_set_laws P G g p v R) as (g1 & E1 & F1 & _); [assumption |]. rewrite E1. cbn [bind].
    destruct (IH g1 G (proj1 F1)) as (g2 & E2 & F2); [assumption |]. exists g2. split; [exact E2 |]. eapply frame_trans; eassumption.
Qed.

Lemma gb_edit_frame : forall X Y g e g', u16_dims X Y -> roomy (Pos X Y) g -> edit_ok X Y e -> gb_edit X Y g e = Ret g' -> frame (Pos X Y) g g'.
Proof.
  intros X Y g e g' D R EO E. pose proof (Pos_grid_type X Y D) as G. destruct e as [p v|ps v| | | |]; cbn [gb_edit edit_ok] in *.
  - destruct (gb_set_laws (Pos X Y) G g p v R EO) as (g1 & E1 & F & _). congruence.
  - destruct v; [destruct (set_all_frame (Pos X Y) true ps g G R EO) as (g1 & E1 & F) | destruct (set_all_frame (Pos X Y) false ps g G R EO) as (g1 & E1 & F)].
    + change (gb_set_iter_t (Pos X Y) g ps = Ret g1) in E1. congruence.
    + change (gb_set_iter_f (Pos X Y) g ps = Ret g1) in E1. congruence.
  - destruct (gb_flip_h_ok (Pos X Y) G g R) as (g1 & E1 & F & _). congruence.
  - destruct (gb_flip_v_ok (Pos X Y) G g R) as (g1 & E1 & F & _). congruence.
  - subst Y. destruct D as (HW & _). destruct (gb_rotate_cw_ok X HW g R) as (g1 & E1 & F & _). congruence.
  - subst Y. destruct D as (HW & _). destruct (gb_rotate_cc_ok X HW g R) as (g1 & E1 & F & _). congruence.
Qed.

Lemma middle_of_iff : forall X p, middle_of X p = true <-> X mod 2 = 1 /\ X / 2 <= fst p <= X / 2 + 1 /\ X / 2 <= snd p <= X / 2 + 1.
Proof. intros X p. unfold middle_of. rewrite !andb_true_iff, Z.eqb_eq, !Z.leb_le. tauto. Qed.

Lemma gb_edit_exact : forall X Y g e f, u16_dims X Y -> roomy (Pos X Y) g -> edit_ok X Y e ->
  (forall p, valid (Pos X Y) p -> gb_get (Pos X Y) g p = Ret (f p)) ->
  exists g', gb_edit X Y g e = Ret g' /\ frame (Pos X Y) g g' /\ forall p, valid (Pos X Y) p -> gb_get (Pos X Y) g' p = Ret (gb_draw X Y f e p).
Proof.
  intros X Y g e f D R EO H.
  assert (K : exists g', gb_edit X Y g e = Ret g' /\ forall p, valid (Pos X Y) p -> gb_get (Pos X Y) g' p = Ret (gb_draw X Y f e p)).
  2: { destruct K as (g' & E & K). exists g'. split; [exact E |]. split; [eapply gb_edit_frame; eassumption | exact K]. }
  assert (GEN : ~ (e = TurnCW \/ e = TurnCC) -> exists g', gb_edit X Y g e = Ret g' /\ forall p, valid (Pos X Y) p -> gb_get (Pos X Y) g' p = Ret (gb_draw X Y f e p)).
  { intros N. destruct (gb_edit_ok X Y g e f D R EO) as (g' & E & _ & K); [tauto | exact H |]. exists g'. split; [exact E |].
    intros p V. rewrite K by exact V. destruct e; try reflexivity; exfalso; apply N; auto. }
  destruct e; try (apply GEN; intros [Q | Q]; discriminate); clear GEN; cbn [gb_edit edit_ok] in *; subst Y;
    destruct (C69_gridbool_rotation_exact_proof X g D R) as (gw & gc & Ew & Ec & _ & _ & M & Kw & Kc & _).
  - exists gw. split; [exact Ew |]. intros [x y] V. cbn [gb_draw]. destruct (middle_of X (x, y)) eqn:Em.
    + apply middle_of_iff in Em. rewrite (proj1 (M (x, y) V Em)). apply H. exact V.
    + cbn [draw]. pose proof (proj1 (valid_Pos X X x y D) V) as V0. assert (V' : valid (Pos X X) (y, X - x)) by (apply (proj2 (valid_Pos X X _ _ D)); lia).
      rewrite <- (H _ V'), <- (Kw y (X - x) V'); [f_equal; f_equal; lia |]. intros C. cbn [fst snd] in C.
      assert (Q : middle_of X (x, y) = true) by (apply middle_of_iff; cbn [fst snd]; clear - C; lia). congruence.
  - exists gc. split; [exact Ec |]. intros [x y] V. cbn [gb_draw]. destruct (middle_of X (x, y)) eqn:Em.
    + apply middle_of_iff in Em. rewrite (proj2 (M (x, y) V Em)). apply H. exact V.
    + cbn [draw]. pose proof (proj1 (valid_Pos X X x y D) V) as V0. assert (V' : valid (Pos X X) (X - y, x)) by (apply (proj2 (valid_Pos X X _ _ D)); lia).
      rewrite <- (H _ V'), <- (Kc (X - y) x V'); [f_equal; f_equal; lia |]. intros C. cbn [fst snd] in C.
      assert (Q : middle_of X (x, y) = true) by (apply middle_of_iff; cbn [fst snd]; clear - C; lia). congruence.
Qed.

Lemma gb_edits_exact : forall X Y es g f, u16_dims X Y -> roomy (Pos X Y) g -> Forall (edit_ok X Y) es ->
  (forall p, valid (Pos X Y) p -> gb_get (Pos X Y) g p = Ret (f p)) ->
  exists g', gb_edits X Y g es = Ret g' /\ frame (Pos X Y) g g' /\ forall p, valid (Pos X Y) p -> gb_get (Pos X Y) g' p = Ret (gb_drawing X Y f es p).
Proof.
  intros X Y es. unfold gb_edits, gb_drawing. induction es as [|e es IH]; intros g f D R EO H; cbn [foldM fold_left].
  - exists g. split; [reflexivity |]. split; [apply frame_refl; exact R | exact H].
  - inversion EO; subst. destruct (gb_edit_exact X Y g e f D R) as (g1 & E & F1 & H1); [assumption | exact H |]. rewrite E. cbn [bind].
    destruct (IH g1 _ D (proj1 F1) H3 H1) as (g2 & E2 & F2 & H2'). exists g2. split; [exact E2 |]. split; [eapply frame_trans; eassumption | exact H2'].
Qed.

Lemma C112_gridbool_history_exact_proof : forall X Y g f es, u16_dims X Y -> roomy (Pos X Y) g -> Forall (edit_ok X Y) es ->
  let P := Pos X Y in
  (forall p, valid P p -> gb_get P g p = Ret (f p)) ->
  exists g', gb_edits X Y g es = Ret g' /\ roomy P g' /\ length g' = length g /\
    (forall p, valid P p -> gb_get P g' p = Ret (gb_drawing X Y f es p)) /\
    (forall i, cells P <= i < 32 * Z.of_nat (length g) -> bit_at g' i = bit_at g i).
Proof.
  intros X Y g f es D R EO P H. destruct (gb_edits_exact X Y es g f D R EO H) as (g' & E & (F1 & F2 & F3) & K).
  exists g'. auto.
Qed.

Lemma C112_gridbool_history_eq_proof : forall X Y g f es es', u16_dims X Y -> roomy (Pos X Y) g -> Forall (edit_ok X Y) es -> Forall (edit_ok X Y) es' ->
  let P := Pos X Y in
  (forall p, valid P p -> gb_get P g p = Ret (f p)) ->
  exists a b, gb_edits X Y g es = Ret a /\ gb_edits X Y g es' = Ret b /\
    (gb_eqb a b = true <-> forall p, valid P p -> gb_drawing X Y f es p = gb_drawing X Y f es' p) /\
    (gb_eqb a b = true <-> forall p, valid P p -> gb_get P a p = gb_get P b p) /\
    (gb_eqb a b = true <-> a = b).
Proof.
  intros X Y g f es es' D R EO EO' P H. pose proof (Pos_grid_type X Y D) as G. fold P in G.
  destruct (gb_edits_exact X Y es g f D R EO H) as (a & Ea & (A1 & A2 & A3) & Ka).
  destruct (gb_edits_exact X Y es' g f D R EO' H) as (b & Eb & (B1 & B2 & B3) & Kb). fold P in A1, A3, B1, B3, Ka, Kb.
  exists a, b. split; [exact Ea |]. split; [exact Eb |].
  assert (K : gb_eqb a b = true <-> forall p, valid P p -> gb_get P a p = gb_get P b p).
  { rewrite (C70_gridbool_eq_exact_proof P a b G A1 B1) by congruence. split; [tauto |]. intros K. split; [exact K |]. intros i Hi. rewrite A2 in Hi. rewrite A3, B3 by exact Hi. reflexivity. }
  split; [|split; [exact K |]].
  - rewrite K. split; intros Q p V; specialize (Q p V).
    + rewrite Ka, Kb in Q by exact V. congruence.
    + rewrite Ka, Kb by exact V. congruence.
  - apply gb_eqb_eq.
Qed.

Lemma gb_contents : forall P g, grid_type P -> roomy P g -> exists f, forall p, valid P p -> gb_get P g p = Ret (f p).
Proof.
  intros P g G R. exists (fun p => match gb_get P g p with Ret b => b | _ => false end). intros p V.
  destruct (C37_gridbool_get_set_proof P g p true G R V) as ((b & E) & _). rewrite E. reflexivity.
Qed.

Lemma gb_edits_agree : forall X Y g a b, u16_dims X Y -> roomy (Pos X Y) g -> Forall (edit_ok X Y) a -> Forall (edit_ok X Y) b ->
  (forall f p, gb_drawing X Y f a p = gb_drawing X Y f b p) ->
  exists g', gb_edits X Y g a = Ret g' /\ gb_edits X Y g b = Ret g'.
Proof.
  intros X Y g a b D R Ea Eb H. pose proof (Pos_grid_type X Y D) as G. destruct (gb_contents _ g G R) as (f & F).
  destruct (C112_gridbool_history_eq_proof X Y g f a b D R Ea Eb F) as (ga & gb & E1 & E2 & K1 & _ & K3).
  exists ga. split; [exact E1 |]. rewrite E2. f_equal. symmetry. apply K3. apply K1. intros p _. apply H.
Qed.

Lemma C113_gridbool_dihedral_refuted_proof : exists W g, u16_dims W W /\ roomy (Pos W W) g /\
  exists a b, bind (gb_rotate_cw W g) (gb_flip_h (Pos W W)) = Ret a /\ bind (gb_flip_v (Pos W W) g) (gb_rotate_cw W) = Ret b /\
    gb_eqb a b = false.
Proof.
  exists 1, [2147483648]. split; [unfold u16_dims; lia |]. split; [split; [repeat constructor; lia | cbn; lia] |].
  exists [1073741824], [536870912]. vm_compute. auto.
Qed.

Lemma C113_gridbool_dihedral_partial_proof : forall W g, u16_dims W W -> W mod 2 = 0 -> roomy (Pos W W) g ->
  let P := Pos W W in
  exists half trans anti,
    bind (gb_rotate_cw W g) (gb_rotate_cw W) = Ret half /\ bind (gb_rotate_cc W g) (gb_rotate_cc W) = Ret half /\
    bind (gb_flip_h P g) (gb_flip_v P) = Ret half /\
    bind (gb_rotate_cw W g) (gb_flip_h P) = Ret trans /\ bind (gb_flip_h P g) (gb_rotate_cc W) = Ret trans /\
    bind (gb_flip_v P g) (gb_rotate_cw W) = Ret trans /\ bind (gb_rotate_cc W g) (gb_flip_v P) = Ret trans /\
    bind (gb_rotate_cw W g) (gb_flip_v P) = Ret anti /\ bind (gb_flip_v P g) (gb_rotate_cc W) = Ret anti /\
    bind (gb_flip_h P g) (gb_rotate_cw W) = Ret anti /\ bind (gb_rotate_cc W g) (gb_flip_h P) = Ret anti /\
    (forall x y, valid P (x, y) -> gb_get P half (W - x, W - y) = gb_get P g (x, y)) /\
    (forall x y, valid P (x, y) -> gb_get P trans (y, x) = gb_get P g (x, y)) /\
    (forall x y, valid P (x, y) -> gb_get P anti (W - y, W - x) = gb_get P g (x, y)).
Proof.
  intros W g D EV R P. pose proof (Pos_grid_type W W D) as G. fold P in G.
  assert (ND : forall p, middle_of W p = false).
  { intros p. unfold middle_of. rewrite EV. reflexivity. }
  assert (OK : forall e : edit bool, In e [FlipH; FlipV; TurnCW; TurnCC] -> edit_ok W W e) by (intros e He; cbn in He; decompose [or] He; subst; cbn; auto; contradiction).
  assert (AG : forall a b a' b' : edit bool, In a [FlipH; FlipV; TurnCW; TurnCC] -> In b [FlipH; FlipV; TurnCW; TurnCC] -> In a' [FlipH; FlipV; TurnCW; TurnCC] -> In b' [FlipH; FlipV; TurnCW; TurnCC] ->
    (forall (f : pos -> bool) x y, draw W W (draw W W f a) b (x, y) = draw W W (draw W W f a') b' (x, y)) ->
    exists r, bind (gb_edit W W g a) (fun g1 => gb_edit W W g1 b) = Ret r /\ bind (gb_edit W W g a') (fun g1 => gb_edit W W g1 b') = Ret r).
  { intros a b a' b' A1 A2 A3 A4 H.
    destruct (gb_edits_agree W W g [a; b] [a'; b'] D R) as (r & E1 & E2); [repeat constructor; auto | repeat constructor; auto | |].
    { intros f [x y]. unfold gb_drawing. cbn [fold_left].
      assert (GD : forall f e p, gb_draw W W f e p = draw W W f e p) by (intros f0 e0 p0; destruct e0; cbn [gb_draw]; rewrite ?ND; reflexivity).
      rewrite !GD. specialize (H f x y).
      assert (EXT : forall f1 f2 (e : edit bool) p, (forall q, f1 q = f2 q) -> draw W W f1 e p = draw W W f2 e p).
      { intros f1 f2 e [u v] Q. destruct e; cbn [draw]; rewrite ?Q; reflexivity. }
      rewrite (EXT _ _ b (x, y) (GD f a)), (EXT _ _ b' (x, y) (GD f a')). exact H. }
    unfold gb_edits in E1, E2. rewrite foldM_two in E1, E2. exists r. auto. }
  assert (IN : In (@FlipH bool) [FlipH; FlipV; TurnCW; TurnCC] /\ In (@FlipV bool) [FlipH; FlipV; TurnCW; TurnCC] /\ In (@TurnCW bool) [FlipH; FlipV; TurnCW; TurnCC] /\ In (@TurnCC bool) [FlipH; FlipV; TurnCW; TurnCC]) by (cbn; tauto).
  destruct IN as (I1 & I2 & I3 & I4).
  destruct (AG TurnCW TurnCW TurnCC TurnCC) as (half & A1 & A2); try assumption. { intros f x y. cbn [draw]. f_equal; f_equal; lia. }
  destruct (AG TurnCW TurnCW FlipH FlipV) as (half' & A3 & A4); try assumption. { intros f x y. cbn [draw]. f_equal; f_equal; lia. }
  destruct (AG TurnCW FlipH FlipH TurnCC) as (tr & B1 & B2); try assumption. { intros f x y. cbn [draw]. f_equal; f_equal; lia. }
  destruct (AG TurnCW FlipH FlipV TurnCW) as (tr' & B3 & B4); try assumption. { intros f x y. cbn [draw]. f_equal; f_equal; lia. }
  destruct (AG TurnCW FlipH TurnCC FlipV) as (tr'' & B5 & B6); try assumption. { intros f x y. cbn [draw]. f_equal; f_equal; lia. }
  destruct (AG TurnCW FlipV FlipV TurnCC) as (an & C1 & C2); try assumption. { intros f x y. cbn [draw]. f_equal; f_equal; lia. }
  destruct (AG TurnCW FlipV FlipH TurnCW) as (an' & C3 & C4); try assumption. { intros f x y. cbn [draw]. f_equal; f_equal; lia. }
  destruct (AG TurnCW FlipV TurnCC FlipH) as (an'' & C5 & C6); try assumption. { intros f x y. cbn [draw]. f_equal; f_equal; lia. }
  rewrite A1 in A3. rewrite B1 in B3, B5. rewrite C1 in C3, C5. inversion A3; inversion B3; inversion B5; inversion C3; inversion C5; subst half' tr' tr'' an' an''.
  exists half, tr, an. do 11 (split; [assumption |]).
  destruct (C41_gridbool_rotation_partial_proof W g D EV R) as (gw & gc & Ew & _ & Pw & _ & Kw & _).
  destruct (C41_gridbool_rotation_partial_proof W gw D EV Pw) as (gww & gwc & Eww & _ & _ & _ & Kww & _).
  destruct (C40_gridbool_flips_proof P gw G Pw) as (gh & gv & Eh & Ev & _ & _ & Kh & Kv & _).
  cbn [gb_edit] in A1, B1, C1. rewrite Ew in A1, B1, C1. cbn [bind] in A1, B1, C1. fold P in B1, C1. rewrite Eww in A1. rewrite Eh in B1. rewrite Ev in C1.
  inversion A1; inversion B1; inversion C1; subst gww gh gv. fold P in Kw, Kww.
  split; [|split]; intros x y V; rewrite <- (Kw x y V); pose proof (proj1 (valid_Pos W W x y D) V) as V'.
  - apply (Kww (W - y) x). apply (proj2 (valid_Pos W W _ _ D)). lia.
  - pose proof (Kh (W - y) x ltac:(apply (proj2 (valid_Pos W W _ _ D)); lia)) as K. change (XM P) with W in K. replace (W - (W - y)) with y in K by lia. exact K.
  - apply (Kv (W - y) x). apply (proj2 (valid_Pos W W _ _ D)). lia.
Qed.

Lemma C113_gridbool_turns_proof : forall W g, u16_dims W W -> roomy (Pos W W) g ->
  exists half, bind (gb_rotate_cw W g) (gb_rotate_cw W) = Ret half /\ bind (gb_rotate_cc W g) (gb_rotate_cc W) = Ret half /\
    bind (gb_rotate_cw W half) (gb_rotate_cw W) = Ret g /\ bind (gb_rotate_cc W half) (gb_rotate_cc W) = Ret g.
Proof.
  intros W g D R. pose proof (Pos_grid_type W W D) as G.
  destruct (gb_edits_agree W W g [TurnCW; TurnCW] [TurnCC; TurnCC] D R) as (half & E1 & E2); [repeat constructor .. | |].
  { intros f [x y]. unfold gb_drawing. cbn [fold_left gb_draw draw].
    assert (ROT : forall a b, middle_of W (b, W - a) = middle_of W (a, b) /\ middle_of W (W - b, a) = middle_of W (a, b)).
    { intros a b. split; apply eq_true_iff_eq; rewrite !middle_of_iff; cbn [fst snd]; lia. }
    rewrite (proj1 (ROT x y)), (proj2 (ROT x y)). destruct (middle_of W (x, y)); reflexivity. }
  exists half. unfold gb_edits in E1, E2. rewrite foldM_two in E1, E2. cbn [gb_edit] in E1, E2. split; [exact E1 |]. split; [exact E2 |].
  destruct (C69_gridbool_rotation_exact_proof W g D R) as (gw & gc & Ew & Ec & Rw & Rc & _ & _ & _ & Bw & Bc).
  destruct (C69_gridbool_rotation_exact_proof W gw D Rw) as (gww & _ & Eww & _ & _ & _ & _ & _ & _ & Bww & _).
  destruct (C69_gridbool_rotation_exact_proof W gc D Rc) as (_ & gcc & _ & Ecc & _ & _ & _ & _ & _ & _ & Bcc).
  rewrite Ew in E1. rewrite Ec in E2. cbn [bind] in E1, E2. rewrite Eww in E1. rewrite Ecc in E2. inversion E1; inversion E2; subst gww gcc.
  rewrite Bww, Bcc. cbn [bind]. auto.
Qed.
