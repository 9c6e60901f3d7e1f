(** GridboolRotProofs.v -- flips and rotations of a Gridbool. *)

From Coq Require Import ZArith List Bool Lia.
From Verif Require Import Rust BoundedInt Dir PosT Pos Gridbool Spec Lib Deque BoundedIntProofs PosTProofs PosTProofs2 GridProofs GridRotProofs GridboolProofs.
Import ListNotations.
Open Scope Z_scope.

(** ** Flips *)

Section Flips.
  Context (P : post).
  Hypothesis G : grid_type P.
  Let W : post_wf P := grid_type_wf P G.

  Lemma gb_flip_h_ok : forall g : list Z, roomy P g ->
    exists g', gb_flip_h P g = Ret g' /\ frame P g g' /\
    forall p, valid P p -> gb_get P g' p = gb_get P g ((mirror_h P) p).
  Proof.
    intros g HR. destruct (grid_type_nums P G) as (Ex & Ey & HX & HY).
    unfold gb_flip_h. rewrite iter_y_ok by exact W. cbn [bind].
    set (f := fun (g : list Z) (xy : pos) =>
        pos2 <- pos_flip_h P xy ;; tmp <- gb_get P g xy ;; v2 <- gb_get P g pos2 ;; g <- gb_set P g xy v2 ;; gb_set P g pos2 tmp).
    set (xs := flat_map (fun y => map (fun x => (x, y)) (zrange 0 (cols P / 2))) (interval (b_min (pt_y P)) (YM P))).
    assert (HC : 0 <= cols P / 2 /\ 2 * (cols P / 2) <= XM P + 1 <= 2 * (cols P / 2) + 1) by (unfold cols; lia).
    destruct HC as (HC1 & HC2).
    assert (HI : forall x y, In (x, y) xs <-> 0 <= x < cols P / 2 /\ 0 <= y <= YM P).
    { intros x y. unfold xs. rewrite in_flat_map. split.
      - intros (y' & Hy & Hx). apply in_map_iff in Hx. destruct Hx as (x' & E & Hx). inv E.
        apply interval_In in Hy. apply zrange_In in Hx. lia.
      - intros (Hx & Hy). exists y. split; [apply interval_In; lia |].
        apply in_map_iff. exists x. split; [reflexivity | apply zrange_In; lia]. }
    assert (HF : exists g', foldM f xs g = Ret g' /\ frame P g g' /\
      forall p, valid P p -> gb_get P g' p = gb_get P g ((mirror_h P) p)).
    { destruct (foldM_orbits (valid P) f (frame P g) (gb_get P) (mirror_h P) (fun p => [p; (mirror_h P) p]) xs)
        with (s := g) as (g' & E & I1 & O).
      - intros s [x y] Hin Hs. apply HI in Hin.
        assert (V1 : valid P (x, y)) by (apply valid_nums; [exact G | cbn [fst snd]; lia]).
        assert (V2 : valid P ((mirror_h P) (x, y))) by (apply flip_h_valid; assumption).
        unfold f. rewrite flip_h_ok by assumption. cbn [bind].
        destruct (gb_swap_step P G g s _ _ Hs V1 V2) as (s' & E & Hs' & O). exists s'.
        split; [exact E |]. split; [exact Hs' |]. intros p Hp.
        destruct (swapped_orbit (x, y) ((mirror_h P) (x, y)) p (mirror_h P) eq_refl (mirror_h_inv P _)) as [S1 S2].
        rewrite (O p Hp). split; intros Hi; [rewrite S1 by exact Hi | rewrite S2 by exact Hi]; reflexivity.
      - intros x p _ [<- | [<- | []]]; [right; left; reflexivity | left; symmetry; apply mirror_h_inv].
      - intros p Hp. apply flip_h_valid; assumption.
      - apply flat_map_NoDup; [apply interval_NoDup | |].
        + intros y _. apply FinFun.Injective_map_NoDup; [intros a b E; congruence | apply zrange_NoDup].
        + intros a a' [x y] _ _ H1 H2. apply in_map_iff in H1, H2.
          destruct H1 as (? & E1 & _), H2 as (? & E2 & _). congruence.
      - intros [x y] [x' y'] p Hi Hi' H1 H2. apply HI in Hi, Hi'. unfold mirror_h in *. cbn [fst snd] in *.
        destruct H1 as [<- | [<- | []]], H2 as [E | [E | []]]; inv E; f_equal; lia.
      - apply frame_refl; exact HR.
      - exists g'. split; [exact E |]. split; [exact I1 |].
        intros p Hp. destruct (O p Hp) as [O1 O2]. destruct p as [x y].
        apply valid_nums in Hp; [|exact G]. cbn [fst snd] in Hp.
        destruct (Z_lt_dec x (cols P / 2)) as [L | L].
        + apply (O1 (x, y)); [apply HI; lia | left; reflexivity].
        + destruct (Z_lt_dec (XM P - x) (cols P / 2)) as [L2 | L2].
          * apply (O1 ((mirror_h P) (x, y))); [apply HI; cbn [fst snd]; lia | right; left; apply mirror_h_inv].
          * rewrite O2.
            -- unfold mirror_h. cbn [fst snd]. do 2 f_equal. lia.
            -- intros [x' y'] Hi Hin. apply HI in Hi. unfold mirror_h in Hin. cbn [fst snd] in Hin.
               destruct Hin as [E' | [E' | []]]; inv E'; lia. }
    destruct HF as (g' & E & R). unfold xs in E. rewrite foldM_flat_map in E. exists g'. split; [|exact R].
    etransitivity; [|exact E]. apply foldM_ext. intros s y Hy. apply interval_In in Hy.
    rewrite width_ok by exact G. cbn [bind]. rewrite foldM_map. apply foldM_ext.
    intros s' x Hx. apply zrange_In in Hx. unfold f. rewrite pos_new_mixed_xy; [reflexivity | exact W |].
    unfold in_bty. lia.
  Qed.

  Lemma gb_flip_v_ok : forall g : list Z, roomy P g ->
    exists g', gb_flip_v P g = Ret g' /\ frame P g g' /\
    forall p, valid P p -> gb_get P g' p = gb_get P g ((mirror_v P) p).
  Proof.
    intros g HR. destruct (grid_type_nums P G) as (Ex & Ey & HX & HY).
    unfold gb_flip_v. rewrite height_ok by exact G. cbn [bind].
    set (f := fun (g : list Z) (xy : pos) =>
        pos2 <- pos_flip_v P xy ;; tmp <- gb_get P g xy ;; v2 <- gb_get P g pos2 ;; g <- gb_set P g xy v2 ;; gb_set P g pos2 tmp).
    set (xs := flat_map (fun y => map (fun x => (x, y)) (interval (b_min (pt_x P)) (XM P))) (zrange 0 (rows P / 2))).
    assert (HC : 0 <= rows P / 2 /\ 2 * (rows P / 2) <= YM P + 1 <= 2 * (rows P / 2) + 1) by (unfold rows; lia).
    destruct HC as (HC1 & HC2).
    assert (HI : forall x y, In (x, y) xs <-> 0 <= x <= XM P /\ 0 <= y < rows P / 2).
    { intros x y. unfold xs. rewrite in_flat_map. split.
      - intros (y' & Hy & Hx). apply in_map_iff in Hx. destruct Hx as (x' & E & Hx). inv E.
        apply interval_In in Hx. apply zrange_In in Hy. lia.
      - intros (Hx & Hy). exists y. split; [apply zrange_In; lia |].
        apply in_map_iff. exists x. split; [reflexivity | apply interval_In; lia]. }
    assert (HF : exists g', foldM f xs g = Ret g' /\ frame P g g' /\
      forall p, valid P p -> gb_get P g' p = gb_get P g ((mirror_v P) p)).
    { destruct (foldM_orbits (valid P) f (frame P g) (gb_get P) (mirror_v P) (fun p => [p; (mirror_v P) p]) xs)
        with (s := g) as (g' & E & I1 & O).
      - intros s [x y] Hin Hs. apply HI in Hin.
        assert (V1 : valid P (x, y)) by (apply valid_nums; [exact G | cbn [fst snd]; lia]).
        assert (V2 : valid P ((mirror_v P) (x, y))) by (apply flip_v_valid; assumption).
        unfold f. rewrite flip_v_ok by assumption. cbn [bind].
        destruct (gb_swap_step P G g s _ _ Hs V1 V2) as (s' & E & Hs' & O). exists s'.
        split; [exact E |]. split; [exact Hs' |]. intros p Hp.
        destruct (swapped_orbit (x, y) ((mirror_v P) (x, y)) p (mirror_v P) eq_refl (mirror_v_inv P _)) as [S1 S2].
        rewrite (O p Hp). split; intros Hi; [rewrite S1 by exact Hi | rewrite S2 by exact Hi]; reflexivity.
      - intros x p _ [<- | [<- | []]]; [right; left; reflexivity | left; symmetry; apply mirror_v_inv].
      - intros p Hp. apply flip_v_valid; assumption.
      - apply flat_map_NoDup; [apply zrange_NoDup | |].
        + intros y _. apply FinFun.Injective_map_NoDup; [intros a b E; congruence | apply interval_NoDup].
        + intros a a' [x y] _ _ H1 H2. apply in_map_iff in H1, H2.
          destruct H1 as (? & E1 & _), H2 as (? & E2 & _). congruence.
      - intros [x y] [x' y'] p Hi Hi' H1 H2. apply HI in Hi, Hi'. unfold mirror_v in *. cbn [fst snd] in *.
        destruct H1 as [<- | [<- | []]], H2 as [E | [E | []]]; inv E; f_equal; lia.
      - apply frame_refl; exact HR.
      - exists g'. split; [exact E |]. split; [exact I1 |].
        intros p Hp. destruct (O p Hp) as [O1 O2]. destruct p as [x y].
        apply valid_nums in Hp; [|exact G]. cbn [fst snd] in Hp.
        destruct (Z_lt_dec y (rows P / 2)) as [L | L].
        + apply (O1 (x, y)); [apply HI; lia | left; reflexivity].
        + destruct (Z_lt_dec (YM P - y) (rows P / 2)) as [L2 | L2].
          * apply (O1 ((mirror_v P) (x, y))); [apply HI; cbn [fst snd]; lia | right; left; apply mirror_v_inv].
          * rewrite O2.
            -- unfold mirror_v. cbn [fst snd]. do 2 f_equal. lia.
            -- intros [x' y'] Hi Hin. apply HI in Hi. unfold mirror_v in Hin. cbn [fst snd] in Hin.
               destruct Hin as [E' | [E' | []]]; inv E'; lia. }
    destruct HF as (g' & E & R). unfold xs in E. rewrite foldM_flat_map in E. exists g'. split; [|exact R].
    etransitivity; [|exact E]. apply foldM_ext. intros s y Hy. apply zrange_In in Hy.
    rewrite iter_x_ok by exact W. cbn [bind]. rewrite foldM_map. apply foldM_ext.
    intros s' x Hx. apply interval_In in Hx. unfold f. rewrite pos_new_mixed_yx; [reflexivity | exact W |].
    unfold in_bty. lia.
  Qed.
End Flips.

(** ** Rotations *)

(** The positions the loops start from. *)
Definition gb_wedge (W : Z) : list pos :=
  flat_map (fun y => map (fun x => (x, y)) (zrange y (W - y))) (zrange 0 (W / 2)).

(** The four central positions of a square with an even number of columns. *)
Definition middle (W : Z) (p : pos) : Prop :=
  W mod 2 = 1 /\ W / 2 <= fst p <= W / 2 + 1 /\ W / 2 <= snd p <= W / 2 + 1.

Lemma gb_wedge_In : forall W x y, In (x, y) (gb_wedge W) <-> 0 <= y < W / 2 /\ y <= x < W - y.
Proof.
  intros W x y. unfold gb_wedge. rewrite in_flat_map. split.
  - intros (y' & Hy & Hx). apply in_map_iff in Hx. destruct Hx as (x' & E & Hx). inv E.
    apply zrange_In in Hy, Hx. lia.
  - intros H. exists y. split; [apply zrange_In; lia |].
    apply in_map_iff. exists x. split; [reflexivity | apply zrange_In; lia].
Qed.

Lemma gb_wedge_wedge : forall W p, In p (gb_wedge W) -> In p (wedge W).
Proof. intros W [x y] H. apply gb_wedge_In in H. apply wedge_In. lia. Qed.

Lemma gb_wedge_NoDup : forall W, NoDup (gb_wedge W).
Proof.
  intros W. apply flat_map_NoDup; [apply zrange_NoDup | |].
  - intros y _. apply FinFun.Injective_map_NoDup; [intros a b E; congruence | apply zrange_NoDup].
  - intros a a' [x y] _ _ H1 H2. apply in_map_iff in H1, H2.
    destruct H1 as (? & E1 & _), H2 as (? & E2 & _). congruence.
Qed.

Lemma gb_wedge_cover : forall W p, 0 <= fst p <= W -> 0 <= snd p <= W -> ~ middle W p ->
  (exists q, In q (gb_wedge W) /\ In p (orbit W q)) \/
  ((forall q, In q (gb_wedge W) -> ~ In p (orbit W q)) /\ turn_cw W p = p /\ turn_cc W p = p).
Proof.
  intros W p Hx Hy N. destruct (wedge_cover W p Hx Hy) as [([a b] & Hq & Ho) | (H1 & H2 & H3)].
  - left. exists (a, b). split; [|exact Ho]. apply wedge_In in Hq. apply gb_wedge_In.
    split; [|lia]. split; [lia |]. destruct (Z_lt_dec b (W / 2)) as [L | L]; [exact L |]. exfalso. apply N.
    unfold orbit, turn_cw in Ho. cbn [fst snd In] in Ho. unfold middle.
    destruct Ho as [<- | [<- | [<- | [<- | []]]]]; cbn [fst snd]; lia.
  - right. split; [|auto]. intros q Hq. apply H1. apply gb_wedge_wedge. exact Hq.
Qed.

Lemma middle_fixed : forall W p q, middle W p -> In q (gb_wedge W) -> ~ In p (orbit W q).
Proof.
  intros W [x y] [a b] (H1 & H2 & H3) Hq Ho. apply gb_wedge_In in Hq. unfold orbit, turn_cw in Ho.
  cbn [fst snd In] in *. destruct Ho as [E | [E | [E | [E | []]]]]; injection E as E1 E2; lia.
Qed.

Section Rot.
  Context (W : Z).
  Hypothesis HW : 0 <= W <= 65535.
  Let P := Pos W W.
  Let G : grid_type P.
  Proof. apply Pos_grid_type. split; exact HW. Qed.

  Definition gb_rot_body (k : list Z -> pos -> pos -> pos -> pos -> exec (list Z)) (g : list Z) (p : pos) : exec (list Z) :=
    k g p (turn_cw W p) (turn_cw W (turn_cw W p)) (turn_cw W (turn_cw W (turn_cw W p))).

  Lemma gb_rot_loop : forall (k : list Z -> pos -> pos -> pos -> pos -> exec (list Z)) g,
    foldM (fun g y =>
      hi <- arith u16 (W - y) ;;
      foldM (fun g x =>
        pos0 <- unwrap_res (Pos_try_from_u16 W W (x, y)) ;;
        pos1 <- pos_rotate_cw P pos0 ;;
        pos2 <- pos_rotate_cw P pos1 ;;
        pos3 <- pos_rotate_cw P pos2 ;;
        k g pos0 pos1 pos2 pos3) (zrange y hi) g) (zrange 0 (W / 2)) g =
    foldM (gb_rot_body k) (gb_wedge W) g.
  Proof.
    intros k g. unfold gb_wedge. rewrite foldM_flat_map.
    apply foldM_ext. intros s y Hy. apply zrange_In in Hy.
    unfold arith. rewrite (proj2 (in_ity_true u16 _)) by (cbn; lia). cbn [bind].
    rewrite foldM_map.
    apply foldM_ext. intros s' x Hx. apply zrange_In in Hx.
    assert (V : valid P (x, y)) by (apply valid_sq; cbn [fst snd]; lia).
    assert (E : Pos_try_from_u16 W W (x, y) = Ok (x, y)).
    { unfold Pos_try_from_u16, Pos_new. cbn [fst snd]. rewrite (proj1 (bounded_new_spec 0 W x)), (proj1 (bounded_new_spec 0 W y)) by lia. reflexivity. }
    rewrite E. cbn [unwrap_res bind]. unfold P.
    rewrite (rotate_cw_sq W HW (x, y)) by exact V. cbn [bind].
    rewrite (rotate_cw_sq W HW (turn_cw W (x, y))) by (apply (valid_cw W HW); exact V). cbn [bind].
    rewrite (rotate_cw_sq W HW (turn_cw W (turn_cw W (x, y)))) by (apply (valid_cw W HW), (valid_cw W HW); exact V). cbn [bind].
    reflexivity.
  Qed.

  Lemma gb_rot_generic : forall (k : list Z -> pos -> pos -> pos -> pos -> exec (list Z)) (tau : pos -> pos),
    (tau = turn_cw W \/ tau = turn_cc W) ->
    (forall g0 g p, In p (wedge W) -> frame P g0 g -> exists g', gb_rot_body k g p = Ret g' /\ frame P g0 g' /\
       forall q, valid P q -> (In q (orbit W p) -> gb_get P g' q = gb_get P g (tau q)) /\
                              (~ In q (orbit W p) -> gb_get P g' q = gb_get P g q)) ->
    forall g, roomy P g -> exists g', foldM (gb_rot_body k) (gb_wedge W) g = Ret g' /\ frame P g g' /\
      (forall p, valid P p -> ~ middle W p -> gb_get P g' p = gb_get P g (tau p)) /\
      (forall p, valid P p -> middle W p -> gb_get P g' p = gb_get P g p).
  Proof.
    intros k tau Ht Hk g HR.
    destruct (foldM_orbits (valid P) (gb_rot_body k) (frame P g) (gb_get P) tau (orbit W) (gb_wedge W))
      with (s := g) as (g' & E & I1 & O).
    - intros s p Hp Hs. apply (Hk g s p); [apply gb_wedge_wedge; exact Hp | exact Hs].
    - intros p q _ Hq. destruct Ht as [-> | ->]; [apply orbit_cw | apply orbit_cc]; exact Hq.
    - intros p V. destruct Ht as [-> | ->]; [apply (valid_cw W HW) | apply (valid_cc W HW)]; exact V.
    - apply gb_wedge_NoDup.
    - intros p p' q H1 H2. apply wedge_disjoint; apply gb_wedge_wedge; assumption.
    - apply frame_refl. exact HR.
    - exists g'. split; [exact E |]. split; [exact I1 |]. split.
      + intros p V N. destruct (O p V) as [O1 O2]. apply (proj1 (valid_sq W HW _)) in V.
        destruct (gb_wedge_cover W p) as [(q & H1 & H2) | (H1 & H2 & H3)]; try lia; try exact N.
        * apply (O1 q H1 H2).
        * rewrite (O2 H1). destruct Ht as [-> | ->]; congruence.
      + intros p V M. destruct (O p V) as [_ O2]. apply O2. intros q Hq. apply middle_fixed; assumption.
  Qed.

  Lemma gb_rotate_cw_ok : forall g, roomy P g ->
    exists g', gb_rotate_cw W g = Ret g' /\ frame P g g' /\
    (forall p, valid P p -> ~ middle W p -> gb_get P g' p = gb_get P g (turn_cc W p)) /\
    (forall p, valid P p -> middle W p -> gb_get P g' p = gb_get P g p).
  Proof.
    intros g HR. unfold gb_rotate_cw. fold P.
    rewrite (gb_rot_loop (fun g pos0 pos1 pos2 pos3 =>
      v0 <- gb_get P g pos0 ;; v1 <- gb_get P g pos1 ;; v2 <- gb_get P g pos2 ;; v3 <- gb_get P g pos3 ;;
      g <- gb_set P g pos0 v3 ;; g <- gb_set P g pos1 v0 ;; g <- gb_set P g pos2 v1 ;; gb_set P g pos3 v2)).
    apply gb_rot_generic; [right; reflexivity | | exact HR].
    intros g0 s p Hp Hs. unfold gb_rot_body, orbit.
    pose proof (wedge_valid W HW p Hp) as V1.
    remember (turn_cw W p) as p2 eqn:E2. remember (turn_cw W p2) as p3 eqn:E3. remember (turn_cw W p3) as p4 eqn:E4.
    assert (V2 : valid P p2) by (subst p2; apply (valid_cw W HW); exact V1).
    assert (V3 : valid P p3) by (subst p3; apply (valid_cw W HW); exact V2).
    assert (V4 : valid P p4) by (subst p4; apply (valid_cw W HW); exact V3).
    destruct (wedge_distinct W p p2 p3 p4 Hp E2 E3 E4) as (N12 & N13 & N14 & N23 & N24 & N34).
    assert (R := proj1 Hs).
    rewrite !(gb_get_ok P G s) by assumption. cbn [bind].
    destruct (gb_set4 P G g0 s p p2 p3 p4 (bit_at s (index_of P p4)) (bit_at s (index_of P p))
      (bit_at s (index_of P p2)) (bit_at s (index_of P p3)) Hs) as (s' & E & F & A1 & A2 & A3 & A4 & A5); try assumption.
    exists s'. split; [exact E |]. split; [exact F |]. intros q Vq. split; [|apply A5; exact Vq].
    assert (C : forall a b, b = turn_cw W a -> turn_cc W b = a) by (intros a b ->; apply turn_cc_cw).
    intros [<- | [<- | [<- | [<- | []]]]].
    - assert (C1 : turn_cc W p = p4) by (rewrite turn_cc_3; subst; reflexivity). rewrite C1, A1, (gb_get_ok P G s) by assumption. reflexivity.
    - rewrite (C p p2 E2), A2, (gb_get_ok P G s) by assumption. reflexivity.
    - rewrite (C p2 p3 E3), A3, (gb_get_ok P G s) by assumption. reflexivity.
    - rewrite (C p3 p4 E4), A4, (gb_get_ok P G s) by assumption. reflexivity.
  Qed.

  Lemma gb_rotate_cc_ok : forall g, roomy P g ->
    exists g', gb_rotate_cc W g = Ret g' /\ frame P g g' /\
    (forall p, valid P p -> ~ middle W p -> gb_get P g' p = gb_get P g (turn_cw W p)) /\
    (forall p, valid P p -> middle W p -> gb_get P g' p = gb_get P g p).
  Proof.
    intros g HR. unfold gb_rotate_cc. fold P.
    rewrite (gb_rot_loop (fun g pos0 pos1 pos2 pos3 =>
      v0 <- gb_get P g pos0 ;; v1 <- gb_get P g pos1 ;; v2 <- gb_get P g pos2 ;; v3 <- gb_get P g pos3 ;;
      g <- gb_set P g pos0 v1 ;; g <- gb_set P g pos1 v2 ;; g <- gb_set P g pos2 v3 ;; gb_set P g pos3 v0)).
    apply gb_rot_generic; [left; reflexivity | | exact HR].
    intros g0 s p Hp Hs. unfold gb_rot_body, orbit.
    pose proof (wedge_valid W HW p Hp) as V1.
    remember (turn_cw W p) as p2 eqn:E2. remember (turn_cw W p2) as p3 eqn:E3. remember (turn_cw W p3) as p4 eqn:E4.
    assert (V2 : valid P p2) by (subst p2; apply (valid_cw W HW); exact V1).
    assert (V3 : valid P p3) by (subst p3; apply (valid_cw W HW); exact V2).
    assert (V4 : valid P p4) by (subst p4; apply (valid_cw W HW); exact V3).
    destruct (wedge_distinct W p p2 p3 p4 Hp E2 E3 E4) as (N12 & N13 & N14 & N23 & N24 & N34).
    assert (C4 : turn_cw W p4 = p) by (subst; apply turn_cw4).
    assert (R := proj1 Hs).
    rewrite !(gb_get_ok P G s) by assumption. cbn [bind].
    destruct (gb_set4 P G g0 s p p2 p3 p4 (bit_at s (index_of P p2)) (bit_at s (index_of P p3))
      (bit_at s (index_of P p4)) (bit_at s (index_of P p)) Hs) as (s' & E & F & A1 & A2 & A3 & A4 & A5); try assumption.
    exists s'. split; [exact E |]. split; [exact F |]. intros q Vq. split; [|apply A5; exact Vq].
    intros [<- | [<- | [<- | [<- | []]]]].
    - rewrite <- E2, A1, (gb_get_ok P G s) by assumption. reflexivity.
    - rewrite <- E3, A2, (gb_get_ok P G s) by assumption. reflexivity.
    - rewrite <- E4, A3, (gb_get_ok P G s) by assumption. reflexivity.
    - rewrite C4, A4, (gb_get_ok P G s) by assumption. reflexivity.
  Qed.
End Rot.
