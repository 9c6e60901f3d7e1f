(** GridRotProofs.v -- rotations of a grid. *)

From Coq Require Import ZArith List Bool Lia Permutation.
From Verif Require Import Rust BoundedInt Dir PosT Pos Grid Spec Lib Deque BoundedIntProofs PosTProofs PosTProofs2 GridProofs.
Import ListNotations.
Open Scope Z_scope.

(** ** Quarter turns of a square with coordinates 0..W *)

Definition turn_cw (W : Z) (p : pos) : pos := (W - snd p, fst p).
Definition turn_cc (W : Z) (p : pos) : pos := (snd p, W - fst p).

Lemma turn_cw_cc : forall W p, turn_cw W (turn_cc W p) = p.
Proof. intros W [x y]. unfold turn_cw, turn_cc. cbn. f_equal. lia. Qed.
Lemma turn_cc_cw : forall W p, turn_cc W (turn_cw W p) = p.
Proof. intros W [x y]. unfold turn_cw, turn_cc. cbn. f_equal. lia. Qed.
Lemma turn_cw4 : forall W p, turn_cw W (turn_cw W (turn_cw W (turn_cw W p))) = p.
Proof. intros W [x y]. unfold turn_cw. cbn. f_equal; lia. Qed.
Lemma turn_cc_3 : forall W p, turn_cc W p = turn_cw W (turn_cw W (turn_cw W p)).
Proof. intros W [x y]. unfold turn_cw, turn_cc. cbn. f_equal; lia. Qed.

Definition orbit (W : Z) (p : pos) : list pos :=
  [p; turn_cw W p; turn_cw W (turn_cw W p); turn_cw W (turn_cw W (turn_cw W p))].

Lemma orbit_cw : forall W p q, In q (orbit W p) -> In (turn_cw W q) (orbit W p).
Proof.
  intros W p q H. unfold orbit in *. destruct H as [<- | [<- | [<- | [<- | []]]]].
  - right. left. reflexivity.
  - right. right. left. reflexivity.
  - right. right. right. left. reflexivity.
  - left. symmetry. apply turn_cw4.
Qed.

Lemma orbit_cc : forall W p q, In q (orbit W p) -> In (turn_cc W q) (orbit W p).
Proof. intros W p q H. rewrite turn_cc_3. do 3 apply orbit_cw. exact H. Qed.

(** The positions the loops start from: a triangle-like quarter of the square. *)
Definition wedge (W : Z) : list pos :=
  flat_map (fun y => map (fun x => (x, y)) (zrange y (W - y))) (zrange 0 ((W + 1) / 2)).

Lemma wedge_In : forall W x y, In (x, y) (wedge W) <-> 0 <= y /\ y <= x < W - y.
Proof.
  intros W x y. unfold wedge. rewrite in_flat_map. split.
  - intros (y' & Hy & Hx). apply in_map_iff in Hx. destruct Hx as (x' & E & Hx). inv E.
    apply zrange_In in Hy, Hx. lia.
  - intros H. exists y. split; [apply zrange_In; lia |].
    apply in_map_iff. exists x. split; [reflexivity | apply zrange_In; lia].
Qed.

Lemma wedge_NoDup : forall W, NoDup (wedge W).
Proof.
  intros W. apply flat_map_NoDup; [apply zrange_NoDup | |].
  - intros y _. apply FinFun.Injective_map_NoDup; [intros a b E; congruence | apply zrange_NoDup].
  - intros a a' [x y] _ _ H1 H2. apply in_map_iff in H1, H2.
    destruct H1 as (? & E1 & _), H2 as (? & E2 & _). congruence.
Qed.

Lemma wedge_disjoint : forall W p p' q, In p (wedge W) -> In p' (wedge W) ->
  In q (orbit W p) -> In q (orbit W p') -> p = p'.
Proof.
  intros W [x y] [x' y'] q H H' O O'. apply wedge_In in H, H'. unfold orbit, turn_cw in *.
  cbn [fst snd In] in *.
  destruct O as [<- | [<- | [<- | [<- | []]]]], O' as [E | [E | [E | [E | []]]]];
    injection E as E1 E2; f_equal; lia.
Qed.

Lemma wedge_cover : forall W p, 0 <= fst p <= W -> 0 <= snd p <= W ->
  (exists q, In q (wedge W) /\ In p (orbit W q)) \/
  ((forall q, In q (wedge W) -> ~ In p (orbit W q)) /\ turn_cw W p = p /\ turn_cc W p = p).
Proof.
  intros W [x y] Hx Hy. cbn [fst snd] in *.
  assert (C : (y <= x < W - y) \/ (W - x <= y < x) \/ (W - y <= W - x < y) \/ (x <= W - y < W - x) \/
              (2 * x = W /\ 2 * y = W)) by lia.
  destruct C as [C | [C | [C | [C | C]]]].
  - left. exists (x, y). split; [apply wedge_In; lia | left; reflexivity].
  - left. exists (y, W - x). split; [apply wedge_In; lia | right; left].
    unfold turn_cw. cbn. f_equal; lia.
  - left. exists (W - x, W - y). split; [apply wedge_In; lia | right; right; left].
    unfold turn_cw. cbn. f_equal; lia.
  - left. exists (W - y, x). split; [apply wedge_In; lia | right; right; right; left].
    unfold turn_cw. cbn. f_equal; lia.
  - right. split; [|split; unfold turn_cw, turn_cc; cbn; f_equal; lia].
    intros [a b] Hq O. apply wedge_In in Hq. unfold orbit, turn_cw in O. cbn [fst snd In] in O.
    destruct O as [E | [E | [E | [E | []]]]]; injection E as E1 E2; lia.
Qed.

(** ** Three swaps make a 4-cycle *)

Lemma swapped_l : forall a b, swapped a b a = b.
Proof. intros a b. unfold swapped. rewrite pos_eqb_refl. reflexivity. Qed.
Lemma swapped_r : forall a b, swapped a b b = a.
Proof.
  intros a b. unfold swapped. rewrite pos_eqb_refl.
  destruct (pos_eqb a b) eqn:E; [apply pos_eqb_eq in E; auto | reflexivity].
Qed.
Lemma swapped_o : forall a b p, p <> a -> p <> b -> swapped a b p = p.
Proof.
  intros a b p H1 H2. unfold swapped.
  destruct (pos_eqb a p) eqn:E; [apply pos_eqb_eq in E; congruence |].
  destruct (pos_eqb b p) eqn:E'; [apply pos_eqb_eq in E'; congruence | reflexivity].
Qed.

Lemma wedge_distinct : forall W p1 p2 p3 p4, In p1 (wedge W) -> p2 = turn_cw W p1 -> p3 = turn_cw W p2 ->
  p4 = turn_cw W p3 -> p1 <> p2 /\ p1 <> p3 /\ p1 <> p4 /\ p2 <> p3 /\ p2 <> p4 /\ p3 <> p4.
Proof.
  intros W [x y] p2 p3 p4 H -> -> ->. apply wedge_In in H. unfold turn_cw. cbn [fst snd].
  repeat split; intros E; injection E as E1 E2; lia.
Qed.

Section Rot.
  Context {T : Type} (W : Z).
  Hypothesis HW : 0 <= W <= 65535.
  Let P := Pos W W.
  Let G : grid_type P.
  Proof. apply Pos_grid_type. split; exact HW. Qed.

  Lemma valid_sq : forall p, valid P p <-> 0 <= fst p <= W /\ 0 <= snd p <= W.
  Proof. intros p. apply (valid_nums P p G). Qed.
  Lemma valid_cw : forall p, valid P p -> valid P (turn_cw W p).
  Proof. intros [x y] V. apply (proj1 (valid_sq _)) in V. apply valid_sq. unfold turn_cw. cbn [fst snd] in *. lia. Qed.
  Lemma valid_cc : forall p, valid P p -> valid P (turn_cc W p).
  Proof. intros [x y] V. apply (proj1 (valid_sq _)) in V. apply valid_sq. unfold turn_cc. cbn [fst snd] in *. lia. Qed.

  Lemma rotate_cw_sq : forall p, valid P p -> pos_rotate_cw P p = Ret (turn_cw W p).
  Proof. intros p V. apply rotate_cw_ok; [exact G | exact V | apply valid_cw; exact V]. Qed.
  Lemma rotate_cc_sq : forall p, valid P p -> pos_rotate_cc P p = Ret (turn_cc W p).
  Proof. intros p V. apply rotate_cc_ok; [exact G | exact V | apply valid_cc; exact V]. Qed.

  Lemma wedge_valid : forall p, In p (wedge W) -> valid P p.
  Proof. intros [x y] H. apply wedge_In in H. apply valid_sq. cbn [fst snd]. lia. Qed.

  (** What one loop iteration does before touching the array. *)
  Definition rot_body (k : list T -> Z -> Z -> Z -> Z -> exec (list T)) (g : list T) (p : pos) : exec (list T) :=
    k g (index_of P p) (index_of P (turn_cw W p)) (index_of P (turn_cw W (turn_cw W p)))
      (index_of P (turn_cw W (turn_cw W (turn_cw W p)))).

  Lemma rot_loop : forall (k : list T -> Z -> Z -> Z -> Z -> exec (list T)) g,
    (h <- height P ;;
     foldM (fun g y =>
       h1 <- usub h 1 ;;
       hi <- usub h1 y ;;
       foldM (fun g x =>
         y' <- unwrap_res (int_try_from u16 y) ;;
         x' <- unwrap_res (int_try_from u16 x) ;;
         pos1 <- unwrap_res (Pos_new W W x' y') ;;
         pos2 <- pos_rotate_cw P pos1 ;;
         pos3 <- pos_rotate_cw P pos2 ;;
         pos4 <- pos_rotate_cw P pos3 ;;
         i1 <- to_usize P pos1 ;;
         i2 <- to_usize P pos2 ;;
         i3 <- to_usize P pos3 ;;
         i4 <- to_usize P pos4 ;;
         k g i1 i2 i3 i4) (zrange y hi) g) (zrange 0 (h / 2)) g) =
    foldM (rot_body k) (wedge W) g.
  Proof.
    intros k g. rewrite (height_ok P G). cbn [bind]. unfold wedge. rewrite foldM_flat_map.
    change (rows P) with (W + 1). apply foldM_ext. intros s y Hy. apply zrange_In in Hy.
    unfold usub. rewrite usize_arith by lia. cbn [bind]. rewrite usize_arith by lia. cbn [bind].
    rewrite foldM_map. replace (W + 1 - 1 - y) with (W - y) by lia.
    apply foldM_ext. intros s' x Hx. apply zrange_In in Hx.
    assert (V : valid P (x, y)) by (apply valid_sq; cbn [fst snd]; lia).
    unfold int_try_from. rewrite !(proj2 (in_ity_true u16 _)) by (cbn; lia). cbn [unwrap_res bind].
    assert (E : Pos_new W W x y = Ok (x, y)).
    { unfold Pos_new. rewrite (proj1 (bounded_new_spec 0 W x)), (proj1 (bounded_new_spec 0 W y)) by lia. reflexivity. }
    rewrite E. cbn [unwrap_res bind].
    rewrite (rotate_cw_sq (x, y)) by exact V. cbn [bind].
    rewrite (rotate_cw_sq (turn_cw W (x, y))) by (apply valid_cw; exact V). cbn [bind].
    rewrite (rotate_cw_sq (turn_cw W (turn_cw W (x, y)))) by (apply valid_cw, valid_cw; exact V). cbn [bind].
    rewrite !(to_usize_ok P) by (try exact G; repeat apply valid_cw; exact V). reflexivity.
  Qed.

  Lemma rot_generic : forall (k : list T -> Z -> Z -> Z -> Z -> exec (list T)) (tau : pos -> pos),
    (tau = turn_cw W \/ tau = turn_cc W) ->
    (forall g0 g p, In p (wedge W) -> good P g0 g -> exists g', rot_body k g p = Ret g' /\ good P g0 g' /\
       forall q, valid P q -> (In q (orbit W p) -> grid_get P g' q = grid_get P g (tau q)) /\
                              (~ In q (orbit W p) -> grid_get P g' q = grid_get P g q)) ->
    forall g, proper P g -> exists g', foldM (rot_body k) (wedge W) g = Ret g' /\ proper P g' /\ Permutation g g' /\
      forall p, valid P p -> grid_get P g' p = grid_get P g (tau p).
  Proof.
    intros k tau Ht Hk g HP.
    destruct (foldM_orbits (valid P) (rot_body k) (good P g) (grid_get P) tau (orbit W) (wedge W))
      with (s := g) as (g' & E & (I1 & I2) & O).
    - intros s p Hp Hs. apply (Hk g s p Hp Hs).
    - intros p q _ Hq. destruct Ht as [-> | ->]; [apply orbit_cw | apply orbit_cc]; exact Hq.
    - intros p V. destruct Ht as [-> | ->]; [apply valid_cw | apply valid_cc]; exact V.
    - apply wedge_NoDup.
    - intros p p' q. apply wedge_disjoint.
    - split; [exact HP | apply Permutation_refl].
    - exists g'. split; [exact E |]. split; [exact I1 |]. split; [exact I2 |].
      intros p V. destruct (O p V) as [O1 O2]. apply (proj1 (valid_sq _)) in V.
      destruct (wedge_cover W p) as [(q & H1 & H2) | (H1 & H2 & H3)]; try lia.
      + apply (O1 q H1 H2).
      + rewrite (O2 H1). destruct Ht as [-> | ->]; congruence.
  Qed.

  Lemma grid_rotate_cw_ok : forall g : list T, proper P g ->
    exists g', grid_rotate_cw W g = Ret g' /\ proper P g' /\ Permutation g g' /\
    forall p, valid P p -> grid_get P g' p = grid_get P g (turn_cc W p).
  Proof.
    intros g HP.
    unfold grid_rotate_cw. fold P.
    rewrite (rot_loop (fun g i1 i2 i3 i4 => g <- array_swap g i1 i2 ;; g <- array_swap g i1 i3 ;; array_swap g i1 i4)).
    apply rot_generic; [right; reflexivity | | exact HP].
    intros g0 s p Hp Hs. unfold rot_body, orbit.
    pose proof (wedge_valid p Hp) as V1.
    remember (turn_cw W p) as p2 eqn:E2. remember (turn_cw W p2) as p3 eqn:E3. remember (turn_cw W p3) as p4 eqn:E4.
    assert (V2 : valid P p2) by (subst p2; apply valid_cw; exact V1).
    assert (V3 : valid P p3) by (subst p3; apply valid_cw; exact V2).
    assert (V4 : valid P p4) by (subst p4; apply valid_cw; exact V3).
    destruct (wedge_distinct W p p2 p3 p4 Hp E2 E3 E4) as (N12 & N13 & N14 & N23 & N24 & N34).
    destruct (swap_step P G g0 s p p2 Hs V1 V2) as (s1 & A1 & H1 & O1). rewrite A1. cbn [bind].
    destruct (swap_step P G g0 s1 p p3 H1 V1 V3) as (s2 & A2 & H2 & O2). rewrite A2. cbn [bind].
    destruct (swap_step P G g0 s2 p p4 H2 V1 V4) as (s3 & A3 & H3 & O3).
    exists s3. split; [exact A3 |]. split; [exact H3 |].
    intros q Vq. split.
    - assert (C : forall a b, b = turn_cw W a -> turn_cc W b = a) by (intros a b ->; apply turn_cc_cw).
      intros [<- | [<- | [<- | [<- | []]]]].
      + assert (C1 : turn_cc W p = p4) by (rewrite turn_cc_3; subst; reflexivity). rewrite C1.
        rewrite O3, swapped_l, O2, (swapped_o p p3 p4), O1, (swapped_o p p2 p4) by (assumption || congruence). reflexivity.
      + rewrite (C p p2 E2).
        rewrite O3, (swapped_o p p4 p2), O2, (swapped_o p p3 p2), O1, swapped_r by (assumption || congruence). reflexivity.
      + rewrite (C p2 p3 E3).
        rewrite O3, (swapped_o p p4 p3), O2, swapped_r, O1, swapped_l by (assumption || congruence). reflexivity.
      + rewrite (C p3 p4 E4).
        rewrite O3, swapped_r, O2, swapped_l, O1, (swapped_o p p2 p3) by (assumption || congruence). reflexivity.
    - intros N. cbn [In] in N.
      rewrite O3, swapped_o, O2, swapped_o, O1, swapped_o by (assumption || intuition congruence). reflexivity.
  Qed.

  Lemma grid_rotate_cc_ok : forall g : list T, proper P g ->
    exists g', grid_rotate_cc W g = Ret g' /\ proper P g' /\ Permutation g g' /\
    forall p, valid P p -> grid_get P g' p = grid_get P g (turn_cw W p).
  Proof.
    intros g HP.
    unfold grid_rotate_cc. fold P.
    rewrite (rot_loop (fun g i1 i2 i3 i4 => g <- array_swap g i1 i4 ;; g <- array_swap g i1 i3 ;; array_swap g i1 i2)).
    apply rot_generic; [left; reflexivity | | exact HP].
    intros g0 s p Hp Hs. unfold rot_body, orbit.
    pose proof (wedge_valid p Hp) as V1.
    remember (turn_cw W p) as p2 eqn:E2. remember (turn_cw W p2) as p3 eqn:E3. remember (turn_cw W p3) as p4 eqn:E4.
    assert (V2 : valid P p2) by (subst p2; apply valid_cw; exact V1).
    assert (V3 : valid P p3) by (subst p3; apply valid_cw; exact V2).
    assert (V4 : valid P p4) by (subst p4; apply valid_cw; exact V3).
    destruct (wedge_distinct W p p2 p3 p4 Hp E2 E3 E4) as (N12 & N13 & N14 & N23 & N24 & N34).
    assert (C4 : turn_cw W p4 = p) by (subst; apply turn_cw4).
    destruct (swap_step P G g0 s p p4 Hs V1 V4) as (s1 & A1 & H1 & O1). rewrite A1. cbn [bind].
    destruct (swap_step P G g0 s1 p p3 H1 V1 V3) as (s2 & A2 & H2 & O2). rewrite A2. cbn [bind].
    destruct (swap_step P G g0 s2 p p2 H2 V1 V2) as (s3 & A3 & H3 & O3).
    exists s3. split; [exact A3 |]. split; [exact H3 |].
    intros q Vq. split.
    - intros [<- | [<- | [<- | [<- | []]]]].
      + rewrite <- E2.
        rewrite O3, swapped_l, O2, (swapped_o p p3 p2), O1, (swapped_o p p4 p2) by (assumption || congruence). reflexivity.
      + rewrite <- E3.
        rewrite O3, swapped_r, O2, swapped_l, O1, (swapped_o p p4 p3) by (assumption || congruence). reflexivity.
      + rewrite <- E4.
        rewrite O3, (swapped_o p p2 p3), O2, swapped_r, O1, swapped_l by (assumption || congruence). reflexivity.
      + rewrite C4.
        rewrite O3, (swapped_o p p2 p4), O2, (swapped_o p p3 p4), O1, swapped_r by (assumption || congruence). reflexivity.
    - intros N. cbn [In] in N.
      rewrite O3, swapped_o, O2, swapped_o, O1, swapped_o by (assumption || intuition congruence). reflexivity.
  Qed.
End Rot.
