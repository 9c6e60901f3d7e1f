(** GridProofs.v -- lemmas about the grid model. *)

From Coq Require Import ZArith List Bool Lia Permutation.
From Verif Require Import Rust BoundedInt Dir PosT Pos Grid Spec Lib Deque BoundedIntProofs PosTProofs PosTProofs2.
Import ListNotations.
Open Scope Z_scope.

(** ** Loops *)

Lemma foldM_ext : forall {A S} (f g : S -> A -> exec S) l s,
  (forall s x, In x l -> f s x = g s x) -> foldM f l s = foldM g l s.
Proof.
  intros A S f g l. induction l as [|x l IH]; intros s H; [reflexivity |].
  cbn [foldM]. rewrite H by (left; reflexivity). destruct (g s x); cbn [bind]; auto.
  apply IH. intros s' x' Hx. apply H. right. exact Hx.
Qed.

Lemma foldM_map : forall {A B S} (f : S -> B -> exec S) (h : A -> B) l s,
  foldM f (map h l) s = foldM (fun s a => f s (h a)) l s.
Proof.
  intros A B S f h l. induction l as [|x l IH]; intros s; [reflexivity |].
  cbn [foldM map]. destruct (f s (h x)); cbn [bind]; auto.
Qed.

Lemma foldM_flat_map : forall {A B S} (f : S -> B -> exec S) (h : A -> list B) l s,
  foldM f (flat_map h l) s = foldM (fun s a => foldM f (h a) s) l s.
Proof.
  intros A B S f h l. induction l as [|x l IH]; intros s; [reflexivity |].
  cbn [foldM flat_map]. rewrite foldM_app. destruct (foldM f (h x) s); cbn [bind]; auto.
Qed.

(** A loop whose steps permute disjoint orbits of positions. *)
Lemma foldM_orbits : forall {A S V} (valid : pos -> Prop) (f : S -> A -> exec S) (Inv : S -> Prop)
    (obs : S -> pos -> V) (tau : pos -> pos) (orb : A -> list pos) (xs : list A),
  (forall s x, In x xs -> Inv s -> exists s', f s x = Ret s' /\ Inv s' /\
     forall p, valid p -> (In p (orb x) -> obs s' p = obs s (tau p)) /\
                          (~ In p (orb x) -> obs s' p = obs s p)) ->
  (forall x p, In x xs -> In p (orb x) -> In (tau p) (orb x)) ->
  (forall p, valid p -> valid (tau p)) ->
  NoDup xs ->
  (forall x x' p, In x xs -> In x' xs -> In p (orb x) -> In p (orb x') -> x = x') ->
  forall s, Inv s -> exists s', foldM f xs s = Ret s' /\ Inv s' /\
    forall p, valid p ->
      (forall x, In x xs -> In p (orb x) -> obs s' p = obs s (tau p)) /\
      ((forall x, In x xs -> ~ In p (orb x)) -> obs s' p = obs s p).
Proof.
  intros A S V vld f Inv obs tau orb xs. induction xs as [|x xs IH]; intros Hf Ht Hv ND HD s Hs.
  - exists s. split; [reflexivity |]. split; [exact Hs |]. intros p Hp. split; [intros x [] | auto].
  - inversion ND as [|? ? N1 N2]; subst.
    destruct (Hf s x (or_introl eq_refl) Hs) as (s1 & E1 & I1 & O1).
    destruct (IH) with (s := s1) as (s2 & E2 & I2 & O2).
    + intros s0 x0 H0. apply Hf. right. exact H0.
    + intros x0 p0 H0. apply Ht. right. exact H0.
    + exact Hv.
    + exact N2.
    + intros x0 x0' p0 H0 H0'. apply HD; right; assumption.
    + exact I1.
    + exists s2. cbn [foldM]. rewrite E1. cbn [bind]. split; [exact E2 |]. split; [exact I2 |].
      assert (Disj : forall p x', In x' xs -> In p (orb x) -> ~ In p (orb x')).
      { intros p x' H1 H2 H3. apply N1. rewrite (HD x x' p); auto. left. reflexivity. right. exact H1. }
      intros p Hp. destruct (O1 p Hp) as [O1a O1b]. destruct (O2 p Hp) as [O2a O2b]. split.
      * intros x' [<- | Hx'] Hin.
        -- rewrite O2b; [apply O1a; exact Hin |]. intros x' Hx'. apply Disj; assumption.
        -- rewrite (O2a x' Hx' Hin). destruct (O1 (tau p) (Hv p Hp)) as [_ O3]. apply O3.
           intros Hin'. apply (Disj (tau p) x' Hx' Hin'). apply Ht; [right; exact Hx' | exact Hin].
      * intros HN. rewrite O2b; [apply O1b; apply HN; left; reflexivity |].
        intros x' Hx'. apply HN. right. exact Hx'.
Qed.

(** ** Reading and writing *)

Section Access.
  Context {T : Type} (P : post).
  Hypothesis G : grid_type P.

  Lemma get_nth : forall (g : list T) p, valid P p -> grid_get P g p =
    match nth_error g (Z.to_nat (index_of P p)) with Some v => Ret v | None => UB end.
  Proof.
    intros g p V. unfold grid_get. rewrite to_usize_ok by assumption. cbn [bind].
    unfold array_get_unchecked. pose proof (index_bound P p G V) as B.
    replace (0 <=? index_of P p) with true by (symmetry; apply Z.leb_le; lia). reflexivity.
  Qed.

  Lemma get_ok : forall (g : list T) p, proper P g -> valid P p ->
    exists v, grid_get P g p = Ret v /\ nth_error g (Z.to_nat (index_of P p)) = Some v.
  Proof.
    intros g p HP V. rewrite get_nth by exact V. pose proof (index_bound P p G V) as B. unfold proper in HP.
    destruct (nth_error_some g (index_of P p)) as (v & E); [lia |]. rewrite E. eauto.
  Qed.

  Lemma set_nth : forall (g : list T) p v, proper P g -> valid P p ->
    grid_set P g p v = Ret (list_set g (Z.to_nat (index_of P p)) v).
  Proof.
    intros g p v HP V. unfold grid_set. rewrite to_usize_ok by assumption. cbn [bind].
    pose proof (index_bound P p G V) as B. unfold proper in HP. apply array_set_unchecked_ok. lia.
  Qed.

  Lemma proper_set : forall (g : list T) n v, proper P g -> proper P (list_set g n v).
  Proof. intros g n v H. unfold proper. rewrite list_set_length. exact H. Qed.

  Lemma index_nat_inj : forall p q, valid P p -> valid P q ->
    Z.to_nat (index_of P p) = Z.to_nat (index_of P q) -> p = q.
  Proof.
    intros p q Vp Vq E. apply (index_inj P); auto.
    pose proof (index_bound P p G Vp). pose proof (index_bound P q G Vq). lia.
  Qed.

  Lemma get_list_set : forall (g : list T) p q v, proper P g -> valid P p -> valid P q ->
    grid_get P (list_set g (Z.to_nat (index_of P p)) v) q = if pos_eqb p q then Ret v else grid_get P g q.
  Proof.
    intros g p q v HP Vp Vq. rewrite !get_nth by exact Vq. destruct (pos_eqb p q) eqn:E.
    - apply pos_eqb_eq in E. subst q. rewrite list_set_nth_same; [reflexivity |].
      pose proof (index_bound P p G Vp). unfold proper in HP. lia.
    - apply pos_eqb_neq in E. rewrite list_set_nth_other; [reflexivity |].
      intros E2. apply E. apply index_nat_inj; assumption.
  Qed.

  Lemma get_set_laws : forall (g : list T) p v, proper P g -> valid P p ->
    exists g', grid_set P g p v = Ret g' /\ proper P g' /\ grid_get P g' p = Ret v /\
    forall q, valid P q -> q <> p -> grid_get P g' q = grid_get P g q.
  Proof.
    intros g p v HP V. exists (list_set g (Z.to_nat (index_of P p)) v).
    split; [apply set_nth; assumption |]. split; [apply proper_set; exact HP |].
    split; [rewrite get_list_set, pos_eqb_refl by assumption; reflexivity |].
    intros q Vq N. rewrite get_list_set by assumption.
    replace (pos_eqb p q) with false; [reflexivity |]. symmetry. apply pos_eqb_neq. congruence.
  Qed.

  (** Two proper grids with the same elements are the same. *)
  Lemma grid_ext : forall g1 g2 : list T, proper P g1 -> proper P g2 ->
    (forall p, valid P p -> grid_get P g1 p = grid_get P g2 p) -> g1 = g2.
  Proof.
    intros g1 g2 H1 H2 H. unfold proper in *. apply nth_error_ext. intros n.
    destruct (lt_dec n (length g1)) as [L | L].
    - destruct (index_bijection P G) as (_ & B & _).
      destruct (B (Z.of_nat n)) as (p & V & _ & E); [lia |].
      rewrite to_usize_ok in E by assumption. injection E as E.
      specialize (H p V). rewrite !get_nth in H by exact V. rewrite E, Nat2Z.id in H.
      destruct (nth_error g1 n) eqn:E1, (nth_error g2 n) eqn:E2; congruence.
    - rewrite (proj2 (nth_error_None g1 n)), (proj2 (nth_error_None g2 n)) by lia. reflexivity.
  Qed.

  (** ** Swapping *)
  Definition swapped (p1 p2 p : pos) : pos := if pos_eqb p1 p then p2 else if pos_eqb p2 p then p1 else p.

  Lemma swap_ok : forall (g : list T) p1 p2, proper P g -> valid P p1 -> valid P p2 ->
    exists g', array_swap g (index_of P p1) (index_of P p2) = Ret g' /\ proper P g' /\ 
    forall p, valid P p -> grid_get P g' p = grid_get P g (swapped p1 p2 p).
  Proof.
    intros g p1 p2 HP V1 V2.
    destruct (get_ok g p1 HP V1) as (a & Ea & Na). destruct (get_ok g p2 HP V2) as (b & Eb & Nb).
    pose proof (index_bound P p1 G V1) as B1. pose proof (index_bound P p2 G V2) as B2.
    unfold array_swap. rewrite (array_get_ok g _ a), (array_get_ok g _ b) by (lia || assumption). cbn [bind].
    pose proof HP as HL. unfold proper in HL.
    rewrite array_set_ok by lia. cbn [bind]. rewrite array_set_ok by (rewrite list_set_length; lia).
    eexists. split; [reflexivity |]. split; [apply proper_set, proper_set, HP |].
    intros p Vp. rewrite get_list_set; [| apply proper_set, HP | assumption | assumption].
    rewrite get_list_set by assumption. unfold swapped.
    destruct (pos_eqb p1 p) eqn:E1, (pos_eqb p2 p) eqn:E2; try reflexivity; try congruence.
    apply pos_eqb_eq in E1, E2. subst. congruence.
  Qed.
End Access.

Lemma list_set_split : forall {A} (l : list A) n v a, nth_error l n = Some a ->
  exists l1 l2, l = l1 ++ a :: l2 /\ list_set l n v = l1 ++ v :: l2 /\ length l1 = n.
Proof.
  intros A l. induction l as [|x l IH]; intros n v a E; [destruct n; discriminate |].
  destruct n as [|n]; cbn in E.
  - inv E. exists [], l. repeat split.
  - destruct (IH n v a E) as (l1 & l2 & E1 & E2 & E3). exists (x :: l1), l2. cbn.
    rewrite E2. subst. repeat split.
Qed.

Lemma swap_Permutation : forall {A} (l l' : list A) i j, array_swap l i j = Ret l' -> Permutation l l'.
Proof.
  intros A l l' i j E. unfold array_swap, array_get in E.
  destruct (0 <=? i) eqn:Hi; [|discriminate]. destruct (nth_error l (Z.to_nat i)) as [a|] eqn:Ea; [|discriminate].
  destruct (0 <=? j) eqn:Hj; [|discriminate]. cbn [bind] in E.
  destruct (nth_error l (Z.to_nat j)) as [b|] eqn:Eb; [|discriminate]. cbn [bind] in E.
  unfold array_set in E. destruct (_ && _); [|discriminate]. cbn [bind] in E.
  destruct (_ && _); [|discriminate]. inv E.
  destruct (list_set_split l (Z.to_nat i) b a Ea) as (l1 & l2 & E1 & E2 & E3).
  destruct (Nat.eq_dec (Z.to_nat i) (Z.to_nat j)) as [Eij | Nij].
  - rewrite <- Eij in *. rewrite Ea in Eb. inv Eb.
    assert (L : list_set (list_set (l1 ++ b :: l2) (Z.to_nat i) b) (Z.to_nat i) b = l1 ++ b :: l2).
    { apply nth_error_ext. intros n. destruct (Nat.eq_dec (Z.to_nat i) n) as [<- | N].
      - rewrite list_set_nth_same; [|rewrite list_set_length, app_length; cbn; lia]. symmetry. exact Ea.
      - rewrite !list_set_nth_other by exact N. reflexivity. }
    rewrite L. apply Permutation_refl.
  - assert (Ec : nth_error (list_set l (Z.to_nat i) b) (Z.to_nat j) = Some b).
    { rewrite list_set_nth_other by exact Nij. exact Eb. }
    destruct (list_set_split _ (Z.to_nat j) a b Ec) as (m1 & m2 & F1 & F2 & F3).
    rewrite F2. apply Permutation_cons_inv with (a := b).
    transitivity (a :: list_set l (Z.to_nat i) b).
    + rewrite E1 at 1. rewrite E2. rewrite <- (Permutation_middle l1 l2 a).
      rewrite <- (Permutation_middle l1 l2 b). apply perm_swap.
    + rewrite F1. rewrite <- (Permutation_middle m1 m2 b), <- (Permutation_middle m1 m2 a). apply perm_swap.
Qed.

(** ** Flips *)

Section Flips.
  Context {T : Type} (P : post).
  Hypothesis G : grid_type P.
  Let W : post_wf P := grid_type_wf P G.

  Definition good (g0 g : list T) : Prop := proper P g /\ Permutation g0 g.

  Lemma swap_step : forall (g0 g : list T) p1 p2, good g0 g -> valid P p1 -> valid P p2 ->
    exists g', array_swap g (index_of P p1) (index_of P p2) = Ret g' /\ good g0 g' /\
    forall p, valid P p -> grid_get P g' p = grid_get P g (swapped p1 p2 p).
  Proof.
    intros g0 g p1 p2 (HP & HQ) V1 V2. destruct (swap_ok P G g p1 p2 HP V1 V2) as (g' & E & HP' & H).
    exists g'. split; [exact E |]. split; [|exact H]. split; [exact HP' |].
    rewrite HQ. eapply swap_Permutation. exact E.
  Qed.

  Lemma swapped_orbit : forall p1 p2 p (tau : pos -> pos), tau p1 = p2 -> tau p2 = p1 ->
    (In p [p1; p2] -> swapped p1 p2 p = tau p) /\ (~ In p [p1; p2] -> swapped p1 p2 p = p).
  Proof.
    intros p1 p2 p tau H1 H2. unfold swapped. split; intros H.
    - destruct H as [<- | [<- | []]].
      + rewrite pos_eqb_refl. auto.
      + rewrite pos_eqb_refl. destruct (pos_eqb p1 p2) eqn:E; [apply pos_eqb_eq in E; congruence | auto].
    - destruct (pos_eqb p1 p) eqn:E1; [apply pos_eqb_eq in E1; subst; destruct H; left; reflexivity |].
      destruct (pos_eqb p2 p) eqn:E2; [apply pos_eqb_eq in E2; subst; destruct H; right; left; reflexivity |].
      reflexivity.
  Qed.

  Definition mirror_h (p : pos) : pos := (XM P - fst p, snd p).
  Definition mirror_v (p : pos) : pos := (fst p, YM P - snd p).

  Lemma mirror_h_inv : forall p, mirror_h (mirror_h p) = p.
  Proof. intros [x y]. unfold mirror_h. cbn. f_equal. lia. Qed.
  Lemma mirror_v_inv : forall p, mirror_v (mirror_v p) = p.
  Proof. intros [x y]. unfold mirror_v. cbn. f_equal. lia. Qed.

  Lemma grid_flip_h_ok : forall g : list T, proper P g ->
    exists g', grid_flip_h P g = Ret g' /\ proper P g' /\ Permutation g g' /\
    forall p, valid P p -> grid_get P g' p = grid_get P g (mirror_h p).
  Proof.
    intros g HP. destruct (grid_type_nums P G) as (Ex & Ey & HX & HY).
    unfold grid_flip_h. rewrite iter_y_ok by exact W. cbn [bind].
    set (f := fun (g : list T) (xy : pos) =>
        pos2 <- pos_flip_h P xy ;; i1 <- to_usize P xy ;; i2 <- to_usize P pos2 ;; array_swap g i1 i2).
    set (xs := flat_map (fun y => map (fun x => (x, y)) (zrange 0 (cols P / 2))) (interval (b_min (pt_y P)) (YM P))).
    assert (HC : 0 <= cols P / 2 /\ 2 * (cols P / 2) <= XM P + 1 <= 2 * (cols P / 2) + 1) by (unfold cols; lia).
    destruct HC as (HC1 & HC2).
    assert (HI : forall x y, In (x, y) xs <-> 0 <= x < cols P / 2 /\ 0 <= y <= YM P).
    { intros x y. unfold xs. rewrite in_flat_map. split.
      - intros (y' & Hy & Hx). apply in_map_iff in Hx. destruct Hx as (x' & E & Hx). inv E.
        apply interval_In in Hy. apply zrange_In in Hx. lia.
      - intros (Hx & Hy). exists y. split; [apply interval_In; lia |].
        apply in_map_iff. exists x. split; [reflexivity | apply zrange_In; lia]. }
    assert (HF : exists g', foldM f xs g = Ret g' /\ proper P g' /\ Permutation g g' /\
      forall p, valid P p -> grid_get P g' p = grid_get P g (mirror_h p)).
    { destruct (foldM_orbits (valid P) f (good g) (grid_get P) mirror_h (fun p => [p; mirror_h p]) xs)
        with (s := g) as (g' & E & (I1 & I2) & O).
      - intros s [x y] Hin Hs. apply HI in Hin.
        assert (V1 : valid P (x, y)) by (apply valid_nums; [exact G | cbn [fst snd]; lia]).
        assert (V2 : valid P (mirror_h (x, y))) by (apply flip_h_valid; assumption).
        unfold f. rewrite flip_h_ok by assumption. cbn [bind].
        rewrite !to_usize_ok by assumption. cbn [bind].
        destruct (swap_step g s _ _ Hs V1 V2) as (s' & E & Hs' & O). exists s'.
        split; [exact E |]. split; [exact Hs' |]. intros p Hp.
        destruct (swapped_orbit (x, y) (mirror_h (x, y)) p mirror_h eq_refl (mirror_h_inv _)) as [S1 S2].
        rewrite (O p Hp). split; intros Hi; [rewrite S1 by exact Hi | rewrite S2 by exact Hi]; reflexivity.
      - intros x p _ [<- | [<- | []]]; [right; left; reflexivity | left; symmetry; apply mirror_h_inv].
      - intros p Hp. apply flip_h_valid; assumption.
      - apply flat_map_NoDup; [apply interval_NoDup | |].
        + intros y _. apply FinFun.Injective_map_NoDup; [intros a b E; congruence | apply zrange_NoDup].
        + intros a a' [x y] _ _ H1 H2. apply in_map_iff in H1, H2.
          destruct H1 as (? & E1 & _), H2 as (? & E2 & _). congruence.
      - intros [x y] [x' y'] p Hi Hi' H1 H2. apply HI in Hi, Hi'. unfold mirror_h in *. cbn [fst snd] in *.
        destruct H1 as [<- | [<- | []]], H2 as [E | [E | []]]; inv E; f_equal; lia.
      - split; [exact HP | apply Permutation_refl].
      - exists g'. split; [exact E |]. split; [exact I1 |]. split; [exact I2 |].
        intros p Hp. destruct (O p Hp) as [O1 O2]. destruct p as [x y].
        apply valid_nums in Hp; [|exact G]. cbn [fst snd] in Hp.
        destruct (Z_lt_dec x (cols P / 2)) as [L | L].
        + apply (O1 (x, y)); [apply HI; lia | left; reflexivity].
        + destruct (Z_lt_dec (XM P - x) (cols P / 2)) as [L2 | L2].
          * apply (O1 (mirror_h (x, y))); [apply HI; cbn [fst snd]; lia | right; left; apply mirror_h_inv].
          * rewrite O2.
            -- unfold mirror_h. cbn [fst snd]. do 2 f_equal. lia.
            -- intros [x' y'] Hi Hin. apply HI in Hi. unfold mirror_h in Hin. cbn [fst snd] in Hin.
               destruct Hin as [E' | [E' | []]]; inv E'; lia. }
    destruct HF as (g' & E & R). unfold xs in E. rewrite foldM_flat_map in E. exists g'. split; [|exact R].
    etransitivity; [|exact E]. apply foldM_ext. intros s y Hy. apply interval_In in Hy.
    rewrite width_ok by exact G. cbn [bind]. rewrite foldM_map. apply foldM_ext.
    intros s' x Hx. apply zrange_In in Hx. unfold f. rewrite pos_new_mixed_xy; [reflexivity | exact W |].
    unfold in_bty. lia.
  Qed.

  Lemma grid_flip_v_ok : forall g : list T, proper P g ->
    exists g', grid_flip_v P g = Ret g' /\ proper P g' /\ Permutation g g' /\
    forall p, valid P p -> grid_get P g' p = grid_get P g (mirror_v p).
  Proof.
    intros g HP. destruct (grid_type_nums P G) as (Ex & Ey & HX & HY).
    unfold grid_flip_v. rewrite height_ok by exact G. cbn [bind].
    set (f := fun (g : list T) (xy : pos) =>
        pos2 <- pos_flip_v P xy ;; i1 <- to_usize P xy ;; i2 <- to_usize P pos2 ;; array_swap g i1 i2).
    set (xs := flat_map (fun y => map (fun x => (x, y)) (interval (b_min (pt_x P)) (XM P))) (zrange 0 (rows P / 2))).
    assert (HC : 0 <= rows P / 2 /\ 2 * (rows P / 2) <= YM P + 1 <= 2 * (rows P / 2) + 1) by (unfold rows; lia).
    destruct HC as (HC1 & HC2).
    assert (HI : forall x y, In (x, y) xs <-> 0 <= x <= XM P /\ 0 <= y < rows P / 2).
    { intros x y. unfold xs. rewrite in_flat_map. split.
      - intros (y' & Hy & Hx). apply in_map_iff in Hx. destruct Hx as (x' & E & Hx). inv E.
        apply interval_In in Hx. apply zrange_In in Hy. lia.
      - intros (Hx & Hy). exists y. split; [apply zrange_In; lia |].
        apply in_map_iff. exists x. split; [reflexivity | apply interval_In; lia]. }
    assert (HF : exists g', foldM f xs g = Ret g' /\ proper P g' /\ Permutation g g' /\
      forall p, valid P p -> grid_get P g' p = grid_get P g (mirror_v p)).
    { destruct (foldM_orbits (valid P) f (good g) (grid_get P) mirror_v (fun p => [p; mirror_v p]) xs)
        with (s := g) as (g' & E & (I1 & I2) & O).
      - intros s [x y] Hin Hs. apply HI in Hin.
        assert (V1 : valid P (x, y)) by (apply valid_nums; [exact G | cbn [fst snd]; lia]).
        assert (V2 : valid P (mirror_v (x, y))) by (apply flip_v_valid; assumption).
        unfold f. rewrite flip_v_ok by assumption. cbn [bind].
        rewrite !to_usize_ok by assumption. cbn [bind].
        destruct (swap_step g s _ _ Hs V1 V2) as (s' & E & Hs' & O). exists s'.
        split; [exact E |]. split; [exact Hs' |]. intros p Hp.
        destruct (swapped_orbit (x, y) (mirror_v (x, y)) p mirror_v eq_refl (mirror_v_inv _)) as [S1 S2].
        rewrite (O p Hp). split; intros Hi; [rewrite S1 by exact Hi | rewrite S2 by exact Hi]; reflexivity.
      - intros x p _ [<- | [<- | []]]; [right; left; reflexivity | left; symmetry; apply mirror_v_inv].
      - intros p Hp. apply flip_v_valid; assumption.
      - apply flat_map_NoDup; [apply zrange_NoDup | |].
        + intros y _. apply FinFun.Injective_map_NoDup; [intros a b E; congruence | apply interval_NoDup].
        + intros a a' [x y] _ _ H1 H2. apply in_map_iff in H1, H2.
          destruct H1 as (? & E1 & _), H2 as (? & E2 & _). congruence.
      - intros [x y] [x' y'] p Hi Hi' H1 H2. apply HI in Hi, Hi'. unfold mirror_v in *. cbn [fst snd] in *.
        destruct H1 as [<- | [<- | []]], H2 as [E | [E | []]]; inv E; f_equal; lia.
      - split; [exact HP | apply Permutation_refl].
      - exists g'. split; [exact E |]. split; [exact I1 |]. split; [exact I2 |].
        intros p Hp. destruct (O p Hp) as [O1 O2]. destruct p as [x y].
        apply valid_nums in Hp; [|exact G]. cbn [fst snd] in Hp.
        destruct (Z_lt_dec y (rows P / 2)) as [L | L].
        + apply (O1 (x, y)); [apply HI; lia | left; reflexivity].
        + destruct (Z_lt_dec (YM P - y) (rows P / 2)) as [L2 | L2].
          * apply (O1 (mirror_v (x, y))); [apply HI; cbn [fst snd]; lia | right; left; apply mirror_v_inv].
          * rewrite O2.
            -- unfold mirror_v. cbn [fst snd]. do 2 f_equal. lia.
            -- intros [x' y'] Hi Hin. apply HI in Hi. unfold mirror_v in Hin. cbn [fst snd] in Hin.
               destruct Hin as [E' | [E' | []]]; inv E'; lia. }
    destruct HF as (g' & E & R). unfold xs in E. rewrite foldM_flat_map in E. exists g'. split; [|exact R].
    etransitivity; [|exact E]. apply foldM_ext. intros s y Hy. apply zrange_In in Hy.
    rewrite iter_x_ok by exact W. cbn [bind]. rewrite foldM_map. apply foldM_ext.
    intros s' x Hx. apply interval_In in Hx. unfold f. rewrite pos_new_mixed_yx; [reflexivity | exact W |].
    unfold in_bty. lia.
  Qed.
End Flips.
