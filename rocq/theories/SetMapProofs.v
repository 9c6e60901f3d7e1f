(** SetMapProofs.v -- the set and map backends behave like functions. *)

From Coq Require Import ZArith List Bool Lia Sorted.
From Verif Require Import Rust BoundedInt Dir PosT Pos Grid Gridbool SetMap Spec Lib Deque BoundedIntProofs PosTProofs PosTProofs2 GridProofs GridProofs2 GridRotProofs GridboolProofs.
Import ListNotations.
Open Scope Z_scope.

Definition put {A} (f : pos -> A) (p : pos) (v : A) : pos -> A := fun q => if pos_eqb p q then v else f q.

Record lawful_set {S} (P : post) (so : setops S) (R : S -> (pos -> bool) -> Prop) : Prop := LawfulSet {
  ls_default : exists s, sp_default so = Ret s /\ R s (fun _ => false);
  ls_contains : forall s f p, R s f -> valid P p -> sp_contains so s p = Ret (f p);
  ls_insert : forall s f p, R s f -> valid P p -> exists s', sp_insert so s p = Ret s' /\ R s' (put f p true);
  ls_remove : forall s f p, R s f -> valid P p -> exists s', sp_remove so s p = Ret s' /\ R s' (put f p false)
}.

(** Without removal, which the searches do not use. *)
Record growing_set {S} (P : post) (so : setops S) (R : S -> (pos -> bool) -> Prop) : Prop := GrowingSet {
  gs_default : exists s, sp_default so = Ret s /\ R s (fun _ => false);
  gs_contains : forall s f p, R s f -> valid P p -> sp_contains so s p = Ret (f p);
  gs_insert : forall s f p, R s f -> valid P p -> exists s', sp_insert so s p = Ret s' /\ R s' (put f p true)
}.

Lemma lawful_growing : forall {S} P (so : setops S) R, lawful_set P so R -> growing_set P so R.
Proof. intros S P so R L. constructor; apply L. Qed.
Coercion lawful_growing : lawful_set >-> growing_set.

Record lawful_map {Item M} (P : post) (mo : mapops Item M) (R : M -> (pos -> Item) -> Prop) : Prop := LawfulMap {
  lm_default : forall d, R (mp_default mo d) (fun _ => d);
  lm_new : forall d, R (mp_new mo d) (fun _ => d);
  lm_get : forall m f p, R m f -> valid P p -> mp_get mo m p = Ret (f p);
  lm_set : forall m f p v, R m f -> valid P p -> exists m', mp_set mo m p v = Ret m' /\ R m' (put f p v)
}.

(** ** Gridbool and Grid *)

Definition R_gridbool (P : post) (g : gridbool) (f : pos -> bool) : Prop :=
  roomy P g /\ forall p, valid P p -> gb_get P g p = Ret (f p).

Lemma lawful_gridbool : forall P WORDS g0, grid_type P -> gb_default P WORDS = Ret g0 -> roomy P g0 ->
  (forall p, valid P p -> gb_get P g0 p = Ret false) -> lawful_set P (set_gridbool P WORDS) (R_gridbool P).
Proof.
  intros P WORDS g0 G E R H. constructor.
  - exists g0. split; [exact E |]. split; assumption.
  - intros s f p (_ & Hf) V. apply Hf. exact V.
  - intros s f p (Rs & Hf) V. destruct (gb_set_laws P G s p true Rs V) as (s' & E' & F & HS).
    exists s'. split; [exact E' |]. split; [apply F |]. intros q Vq. rewrite HS by exact Vq. unfold put.
    destruct (pos_eqb p q); [reflexivity | apply Hf; exact Vq].
  - intros s f p (Rs & Hf) V. destruct (gb_set_laws P G s p false Rs V) as (s' & E' & F & HS).
    exists s'. split; [exact E' |]. split; [apply F |]. intros q Vq. rewrite HS by exact Vq. unfold put.
    destruct (pos_eqb p q); [reflexivity | apply Hf; exact Vq].
Qed.

Definition R_grid {Item} (P : post) (g : grid Item) (f : pos -> Item) : Prop :=
  proper P g /\ forall p, valid P p -> grid_get P g p = Ret (f p).

Lemma lawful_grid : forall Item P, grid_type P -> lawful_map P (@map_grid Item P (cells P)) (R_grid P).
Proof.
  intros Item P G. constructor.
  - intros d. destruct (repeat_proper P d G) as (_ & H). split; [exact H |]. intros p V. apply (repeat_get P d p G V).
  - intros d. destruct (repeat_proper P d G) as (H & _). split; [exact H |]. intros p V. apply (repeat_get P d p G V).
  - intros m f p (_ & Hf) V. apply Hf. exact V.
  - intros m f p v (HP & Hf) V. exists (list_set m (Z.to_nat (index_of P p)) v).
    split; [apply set_nth; assumption |]. split; [apply proper_set; exact HP |].
    intros q Vq. rewrite get_list_set by assumption. unfold put.
    destruct (pos_eqb p q); [reflexivity | apply Hf; exact Vq].
Qed.

(** ** HashSet and HashMap *)

Definition R_hset (s : list pos) (f : pos -> bool) : Prop := forall p, existsb (pos_eqb p) s = f p.

Lemma pos_eqb_sym : forall p q, pos_eqb p q = pos_eqb q p.
Proof.
  intros p q. destruct (pos_eqb p q) eqn:E.
  - apply pos_eqb_eq in E. subst. symmetry. apply pos_eqb_refl.
  - symmetry. apply pos_eqb_neq. apply pos_eqb_neq in E. congruence.
Qed.

Lemma lawful_hset : forall P, lawful_set P set_hash R_hset.
Proof.
  intros P. constructor.
  - exists []. split; [reflexivity |]. intros p. reflexivity.
  - intros s f p R V. cbn. rewrite R. reflexivity.
  - intros s f p R V. eexists. split; [reflexivity |]. intros q. unfold put. rewrite R. destruct (f p) eqn:E.
    + rewrite R. destruct (pos_eqb p q) eqn:Eq; [apply pos_eqb_eq in Eq; congruence | reflexivity].
    + cbn. rewrite R, (pos_eqb_sym q p). destruct (pos_eqb p q); reflexivity.
  - intros s f p R V. eexists. split; [reflexivity |]. intros q. unfold put. rewrite <- R. clear R V f.
    induction s as [|x s IH]; cbn; [destruct (pos_eqb p q); reflexivity |].
    destruct (pos_eqb p x) eqn:E; cbn [negb].
    + rewrite IH. apply pos_eqb_eq in E. subst x. rewrite (pos_eqb_sym q p). destruct (pos_eqb p q); reflexivity.
    + cbn. rewrite IH. destruct (pos_eqb p q) eqn:Eq; [|reflexivity].
      apply pos_eqb_eq in Eq. subst q. rewrite E. reflexivity.
Qed.

Definition R_hmap {Item} (m : list (pos * Item) * Item) (f : pos -> Item) : Prop :=
  forall p, unwrap_or (assoc_get (fst m) p) (snd m) = f p.

Lemma assoc_set_get : forall {Item} (m : list (pos * Item)) p v q,
  assoc_get (assoc_set m p v) q = if pos_eqb p q then Some v else assoc_get m q.
Proof.
  intros Item m p v q. induction m as [|[x u] m IH]; cbn.
  - rewrite (pos_eqb_sym q p). reflexivity.
  - destruct (pos_eqb p x) eqn:E; cbn.
    + apply pos_eqb_eq in E. subst x. rewrite (pos_eqb_sym q p). destruct (pos_eqb p q); reflexivity.
    + rewrite IH. destruct (pos_eqb p q) eqn:Eq; [|reflexivity].
      apply pos_eqb_eq in Eq. subst q. rewrite E. reflexivity.
Qed.

Lemma lawful_hmap : forall Item P, lawful_map P (@map_hash Item) R_hmap.
Proof.
  intros Item P. constructor.
  - intros d p. reflexivity.
  - intros d p. reflexivity.
  - intros m f p R V. cbn. rewrite R. reflexivity.
  - intros m f p v R V. eexists. split; [reflexivity |]. intros q. cbn [fst snd]. rewrite assoc_set_get.
    unfold put. destruct (pos_eqb p q); [reflexivity | apply R].
Qed.

(** ** BTreeSet and BTreeMap *)

Lemma pos_ltb_trans : forall a b c, pos_ltb a b = true -> pos_ltb b c = true -> pos_ltb a c = true.
Proof. intros a b c H1 H2. rewrite pos_ltb_iff in *. lia. Qed.

Lemma pos_ltb_neq : forall a b, pos_ltb a b = true -> pos_eqb a b = false.
Proof. intros a b H. apply pos_eqb_neq. intros ->. rewrite pos_ltb_iff in H. lia. Qed.

Lemma pos_trichotomy : forall a b, pos_ltb a b = false -> pos_eqb a b = false -> pos_ltb b a = true.
Proof.
  intros [x y] [x' y'] H1 H2. apply pos_eqb_neq in H2. apply pos_ltb_iff. cbn [fst snd].
  assert (H : ~ (x < x' \/ (x = x' /\ y < y'))).
  { intros H. assert (K : pos_ltb (x, y) (x', y') = true) by (apply pos_ltb_iff; exact H). congruence. }
  assert (x <> x' \/ y <> y') by (destruct (Z.eq_dec x x'), (Z.eq_dec y y'); subst; auto). lia.
Qed.

Definition lt_pos (a b : pos) : Prop := pos_ltb a b = true.

Lemma below_not_in : forall s p, Forall (lt_pos p) s -> existsb (pos_eqb p) s = false.
Proof.
  intros s p H. induction H as [|x s Hx H IH]; [reflexivity |]. cbn. rewrite (pos_ltb_neq _ _ Hx). exact IH.
Qed.

Lemma below_trans : forall s p q, lt_pos p q -> Forall (lt_pos q) s -> Forall (lt_pos p) s.
Proof. intros s p q H F. eapply Forall_impl; [|exact F]. intros a Ha. eapply pos_ltb_trans; eassumption. Qed.

Definition R_bset (s : list pos) (f : pos -> bool) : Prop :=
  StronglySorted lt_pos s /\ forall p, existsb (pos_eqb p) s = f p.

Lemma btset_contains_ok : forall s p, StronglySorted lt_pos s -> btset_contains s p = existsb (pos_eqb p) s.
Proof.
  intros s p H. induction H as [|x s H IH F]; [reflexivity |]. cbn.
  destruct (pos_ltb p x) eqn:E.
  - rewrite (pos_ltb_neq _ _ E), below_not_in; [reflexivity |]. eapply below_trans; [exact E | exact F].
  - destruct (pos_eqb p x); [reflexivity | exact IH].
Qed.

Lemma btset_insert_ok : forall s p, StronglySorted lt_pos s ->
  StronglySorted lt_pos (btset_insert s p) /\
  (forall q, existsb (pos_eqb q) (btset_insert s p) = pos_eqb p q || existsb (pos_eqb q) s) /\
  (forall a, Forall (lt_pos a) s -> lt_pos a p -> Forall (lt_pos a) (btset_insert s p)).
Proof.
  intros s p H. induction H as [|x s H (IH1 & IH2 & IH3) F]; cbn.
  - split; [repeat constructor |]. split; [intros q; rewrite (pos_eqb_sym q p); reflexivity | intros a _ Ha; repeat constructor; exact Ha].
  - destruct (pos_ltb p x) eqn:E1; [|destruct (pos_eqb p x) eqn:E2].
    + split; [constructor; [constructor; assumption | constructor; [exact E1 | eapply below_trans; [exact E1 | exact F]]] |].
      split; [intros q; cbn; rewrite (pos_eqb_sym q p); reflexivity | intros a Fa Ha; constructor; assumption].
    + apply pos_eqb_eq in E2. subst x. split; [constructor; assumption |].
      split; [intros q; cbn; rewrite (pos_eqb_sym q p); destruct (pos_eqb p q); reflexivity | auto].
    + pose proof (pos_trichotomy _ _ E1 E2) as L. split; [constructor; [exact IH1 | apply IH3; [exact F | exact L]] |].
      split.
      * intros q. cbn. rewrite IH2. destruct (pos_eqb q x), (pos_eqb p q); reflexivity.
      * intros a Fa Ha. inversion Fa; subst. constructor; auto.
Qed.

Lemma btset_remove_ok : forall s p, StronglySorted lt_pos s ->
  StronglySorted lt_pos (btset_remove s p) /\
  (forall q, existsb (pos_eqb q) (btset_remove s p) = negb (pos_eqb p q) && existsb (pos_eqb q) s) /\
  (forall a, Forall (lt_pos a) s -> Forall (lt_pos a) (btset_remove s p)).
Proof.
  intros s p H. induction H as [|x s H (IH1 & IH2 & IH3) F]; cbn.
  - split; [constructor |]. split; [intros q; rewrite andb_false_r; reflexivity | auto].
  - destruct (pos_ltb p x) eqn:E1; [|destruct (pos_eqb p x) eqn:E2].
    + split; [constructor; assumption |]. split; [|auto]. intros q.
      destruct (pos_eqb p q) eqn:Eq; [|reflexivity]. apply pos_eqb_eq in Eq. subst q. cbn.
      rewrite (pos_ltb_neq _ _ E1). apply below_not_in. eapply below_trans; [exact E1 | exact F].
    + apply pos_eqb_eq in E2. subst x. split; [exact H |]. split; [|intros a Fa; inversion Fa; assumption].
      intros q. rewrite (pos_eqb_sym q p). destruct (pos_eqb p q) eqn:Eq; [|reflexivity].
      apply pos_eqb_eq in Eq. subst q. cbn. apply below_not_in. exact F.
    + split; [constructor; [exact IH1 | apply IH3; exact F] |]. split.
      * intros q. cbn. rewrite IH2. destruct (pos_eqb q x) eqn:Eq, (pos_eqb p q) eqn:Ep; try reflexivity.
        apply pos_eqb_eq in Eq, Ep. subst. rewrite pos_eqb_refl in E2. discriminate.
      * intros a Fa. inversion Fa; subst. constructor; auto.
Qed.

Lemma lawful_bset : forall P, lawful_set P set_btree R_bset.
Proof.
  intros P. constructor.
  - exists []. split; [reflexivity |]. split; [constructor | reflexivity].
  - intros s f p (S & R) V. cbn. rewrite btset_contains_ok, R by exact S. reflexivity.
  - intros s f p (S & R) V. eexists. split; [reflexivity |]. destruct (btset_insert_ok s p S) as (H1 & H2 & _).
    split; [exact H1 |]. intros q. rewrite H2, R. unfold put. destruct (pos_eqb p q); reflexivity.
  - intros s f p (S & R) V. eexists. split; [reflexivity |]. destruct (btset_remove_ok s p S) as (H1 & H2 & _).
    split; [exact H1 |]. intros q. rewrite H2, R. unfold put. destruct (pos_eqb p q); reflexivity.
Qed.

Definition R_bmap {Item} (m : list (pos * Item) * Item) (f : pos -> Item) : Prop :=
  StronglySorted lt_pos (map fst (fst m)) /\ forall p, unwrap_or (assoc_get (fst m) p) (snd m) = f p.

Lemma below_no_entry : forall {Item} (m : list (pos * Item)) p, Forall (lt_pos p) (map fst m) -> assoc_get m p = None.
Proof.
  intros Item m p. induction m as [|[x u] m IH]; intros H; [reflexivity |]. inversion H; subst. cbn in *.
  rewrite pos_ltb_neq by assumption. auto.
Qed.

Lemma btmap_get_ok : forall {Item} (m : list (pos * Item)) p, StronglySorted lt_pos (map fst m) -> btmap_get m p = assoc_get m p.
Proof.
  intros Item m p. induction m as [|[x u] m IH]; intros H; [reflexivity |]. cbn in *. inversion H as [|? ? H1 H2]; subst.
  destruct (pos_ltb p x) eqn:E.
  - rewrite (pos_ltb_neq _ _ E), below_no_entry; [reflexivity |]. eapply below_trans; [exact E | exact H2].
  - destruct (pos_eqb p x); [reflexivity | apply IH; exact H1].
Qed.

Lemma btmap_set_ok : forall {Item} (m : list (pos * Item)) p v, StronglySorted lt_pos (map fst m) ->
  StronglySorted lt_pos (map fst (btmap_set m p v)) /\
  (forall q, assoc_get (btmap_set m p v) q = if pos_eqb p q then Some v else assoc_get m q) /\
  (forall a, Forall (lt_pos a) (map fst m) -> lt_pos a p -> Forall (lt_pos a) (map fst (btmap_set m p v))).
Proof.
  intros Item m p v. induction m as [|[x u] m IH]; intros H; cbn.
  - split; [repeat constructor |].
    split; [intros q; rewrite (pos_eqb_sym q p); reflexivity | intros a _ Ha; repeat constructor; exact Ha].
  - cbn in H. inversion H as [|? ? H1 H2]; subst. destruct (IH H1) as (IH1 & IH2 & IH3).
    destruct (pos_ltb p x) eqn:E1; [|destruct (pos_eqb p x) eqn:E2]; cbn [map fst].
    + split; [constructor; [exact H | constructor; [exact E1 | eapply below_trans; [exact E1 | exact H2]]] |].
      split; [intros q; cbn; rewrite (pos_eqb_sym q p); reflexivity | intros a Fa Ha; constructor; assumption].
    + apply pos_eqb_eq in E2. subst x. split; [exact H |].
      split; [intros q; cbn; rewrite (pos_eqb_sym q p); destruct (pos_eqb p q); reflexivity | auto].
    + pose proof (pos_trichotomy _ _ E1 E2) as L. split; [constructor; [exact IH1 | apply IH3; [exact H2 | exact L]] |].
      split.
      * intros q. cbn. rewrite IH2. destruct (pos_eqb q x) eqn:Eq, (pos_eqb p q) eqn:Ep; try reflexivity.
        apply pos_eqb_eq in Eq, Ep. subst. rewrite pos_eqb_refl in E2. discriminate.
      * intros a Fa Ha. inversion Fa; subst. constructor; auto.
Qed.

Lemma lawful_bmap : forall Item P, lawful_map P (@map_btree Item) R_bmap.
Proof.
  intros Item P. constructor.
  - intros d. split; [constructor | reflexivity].
  - intros d. split; [constructor | reflexivity].
  - intros m f p (S & R) V. cbn. rewrite btmap_get_ok, R by exact S. reflexivity.
  - intros m f p v (S & R) V. eexists. split; [reflexivity |]. destruct (btmap_set_ok (fst m) p v S) as (H1 & H2 & _).
    split; [exact H1 |]. intros q. cbn [fst snd]. rewrite H2. unfold put. destruct (pos_eqb p q); [reflexivity | apply R].
Qed.

(** ** The reference: functions themselves *)

Definition fset : setops (pos -> bool) :=
  SetOps (Ret (fun _ => false)) (fun f p => Ret (f p)) (fun f p => Ret (put f p true)) (fun f p => Ret (put f p false)).

Definition fmap {Item} : mapops Item (pos -> Item) :=
  MapOps (fun d _ => d) (fun d _ => d) (fun f p => Ret (f p)) (fun f p v => Ret (put f p v)).
