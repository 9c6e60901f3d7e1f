(** Lib.v -- generic lemmas: monad, ranges, lists, arrays. *)

From Coq Require Import ZArith List Bool Lia Permutation.
From Verif Require Import Rust BoundedInt Dir PosT Spec.
Import ListNotations.
Open Scope Z_scope.

Ltac Zify.zify_post_hook ::= Z.to_euclidean_division_equations.

(** ** Tactics *)

Ltac inv H := inversion H; subst; clear H.

Ltac case_if :=
  match goal with
  | |- context [if ?b then _ else _] => destruct b eqn:?
  | H : context [if ?b then _ else _] |- _ => destruct b eqn:?
  end.

Ltac bool2prop :=
  repeat match goal with
  | H : _ && _ = true |- _ => apply andb_true_iff in H; destruct H
  | H : _ && _ = false |- _ => apply andb_false_iff in H
  | H : _ || _ = true |- _ => apply orb_true_iff in H
  | H : _ || _ = false |- _ => apply orb_false_iff in H; destruct H
  | H : negb _ = true |- _ => apply negb_true_iff in H
  | H : negb _ = false |- _ => apply negb_false_iff in H
  | H : (_ =? _) = true |- _ => apply Z.eqb_eq in H
  | H : (_ =? _) = false |- _ => apply Z.eqb_neq in H
  | H : (_ <? _) = true |- _ => apply Z.ltb_lt in H
  | H : (_ <? _) = false |- _ => apply Z.ltb_ge in H
  | H : (_ <=? _) = true |- _ => apply Z.leb_le in H
  | H : (_ <=? _) = false |- _ => apply Z.leb_gt in H
  | H : (_ >? _) = true |- _ => rewrite Z.gtb_ltb in H
  | H : (_ >? _) = false |- _ => rewrite Z.gtb_ltb in H
  | H : (_ >=? _) = true |- _ => rewrite Z.geb_leb in H
  | H : (_ >=? _) = false |- _ => rewrite Z.geb_leb in H
  end.

(** ** Ranges *)

Lemma zrange_nil : forall a b, b <= a -> zrange a b = [].
Proof.
  intros a b H. unfold zrange. replace (Z.to_nat (b - a)) with 0%nat by lia. reflexivity.
Qed.

Lemma zrange_cons : forall a b, a < b -> zrange a b = a :: zrange (a + 1) b.
Proof.
  intros a b H. unfold zrange.
  replace (Z.to_nat (b - a)) with (Datatypes.S (Z.to_nat (b - (a + 1)))) by lia.
  cbn [seq map]. f_equal; [lia |].
  rewrite <- seq_shift, map_map. apply map_ext. intros i. lia.
Qed.

Lemma zrange_snoc : forall a b, a <= b -> zrange a (b + 1) = zrange a b ++ [b].
Proof.
  intros a b H. unfold zrange.
  replace (Z.to_nat (b + 1 - a)) with (Z.to_nat (b - a) + 1)%nat by lia.
  rewrite seq_app, map_app. cbn. f_equal. f_equal. lia.
Qed.

Lemma zrange_app : forall a b c, a <= b <= c -> zrange a c = zrange a b ++ zrange b c.
Proof.
  intros a b c H. unfold zrange.
  replace (Z.to_nat (c - a)) with (Z.to_nat (b - a) + Z.to_nat (c - b))%nat by lia.
  rewrite seq_app, map_app. f_equal.
  assert (G : forall n k, map (fun i => a + Z.of_nat i) (seq (Z.to_nat (b - a) + k) n)
            = map (fun i => b + Z.of_nat i) (seq k n)).
  { induction n as [|n IH]; intros k; [reflexivity |].
    cbn [seq map]. f_equal; [lia |].
    replace (Datatypes.S (Z.to_nat (b - a) + k)) with (Z.to_nat (b - a) + Datatypes.S k)%nat by lia.
    apply IH. }
  specialize (G (Z.to_nat (c - b)) 0%nat).
  rewrite Nat.add_0_r in G. rewrite Nat.add_0_l. exact G.
Qed.

Lemma zrange_length : forall a b, length (zrange a b) = Z.to_nat (b - a).
Proof. intros. unfold zrange. rewrite map_length, seq_length. reflexivity. Qed.

Lemma zrange_In : forall a b x, In x (zrange a b) <-> a <= x < b.
Proof.
  intros a b x. unfold zrange. rewrite in_map_iff. split.
  - intros (i & <- & Hi). apply in_seq in Hi. lia.
  - intros H. exists (Z.to_nat (x - a)). split; [lia |]. apply in_seq. lia.
Qed.

Lemma zrange_NoDup : forall a b, NoDup (zrange a b).
Proof.
  intros a b. unfold zrange. apply FinFun.Injective_map_NoDup.
  - intros i j H. lia.
  - apply seq_NoDup.
Qed.

Lemma zrange_nth : forall a b i d, (i < Z.to_nat (b - a))%nat -> nth i (zrange a b) d = a + Z.of_nat i.
Proof.
  intros a b i d H. unfold zrange.
  rewrite nth_indep with (d' := a + Z.of_nat 0) by (rewrite map_length, seq_length; lia).
  rewrite map_nth with (f := fun i => a + Z.of_nat i).
  rewrite seq_nth by lia. lia.
Qed.

Lemma zrange_nth_error : forall a b i, (i < Z.to_nat (b - a))%nat ->
  nth_error (zrange a b) i = Some (a + Z.of_nat i).
Proof.
  intros a b i H. rewrite <- (zrange_nth a b i 0 H). apply nth_error_nth'.
  rewrite zrange_length. exact H.
Qed.

Lemma interval_In : forall a b x, In x (interval a b) <-> a <= x <= b.
Proof. intros. unfold interval. rewrite zrange_In. lia. Qed.

Lemma interval_length : forall a b, a <= b + 1 -> Z.of_nat (length (interval a b)) = b - a + 1.
Proof. intros. unfold interval. rewrite zrange_length. lia. Qed.

Lemma interval_cons : forall a b, a <= b -> interval a b = a :: interval (a + 1) b.
Proof. intros. unfold interval. apply zrange_cons. lia. Qed.

Lemma interval_snoc : forall a b, a <= b -> interval a b = interval a (b - 1) ++ [b].
Proof.
  intros. unfold interval. replace (b - 1 + 1) with b by lia. apply zrange_snoc. lia.
Qed.

Lemma interval_NoDup : forall a b, NoDup (interval a b).
Proof. intros. apply zrange_NoDup. Qed.

(** ** Monad *)

Lemma bind_Ret : forall {A B} (a : A) (k : A -> exec B), bind (Ret a) k = k a.
Proof. reflexivity. Qed.

Lemma bind_assoc : forall {A B C} (m : exec A) (k : A -> exec B) (k' : B -> exec C),
  bind (bind m k) k' = bind m (fun a => bind (k a) k').
Proof. intros. destruct m; reflexivity. Qed.

Lemma bind_Ret_inv : forall {A B} (m : exec A) (k : A -> exec B) b,
  bind m k = Ret b -> exists a, m = Ret a /\ k a = Ret b.
Proof. intros A B m k b H. destruct m; try discriminate. exists a. auto. Qed.

Lemma foldM_app : forall {A S} (f : S -> A -> exec S) l1 l2 s,
  foldM f (l1 ++ l2) s = bind (foldM f l1 s) (foldM f l2).
Proof.
  intros A S f l1. induction l1 as [|x l1 IH]; intros l2 s; [reflexivity |].
  cbn. destruct (f s x); cbn; auto.
Qed.

(** A fold all of whose steps return. *)
Lemma foldM_pure : forall {A S} (f : S -> A -> exec S) (g : S -> A -> S) (Inv : S -> Prop) l s,
  Inv s ->
  (forall s x, Inv s -> In x l -> f s x = Ret (g s x) /\ Inv (g s x)) ->
  foldM f l s = Ret (fold_left g l s) /\ Inv (fold_left g l s).
Proof.
  intros A S f g Inv l. induction l as [|x l IH]; intros s Hs Hstep; [split; auto |].
  cbn. destruct (Hstep s x Hs (or_introl eq_refl)) as [E HI]. rewrite E. cbn.
  apply IH; [exact HI |]. intros s' y HI' Hy. apply Hstep; [exact HI' | right; exact Hy].
Qed.

(** Invariant reasoning on folds. *)
Lemma foldM_inv : forall {A S} (f : S -> A -> exec S) (Inv : list A -> S -> Prop) l s,
  Inv [] s ->
  (forall done x todo s, l = done ++ x :: todo -> Inv done s ->
     exists s', f s x = Ret s' /\ Inv (done ++ [x]) s') ->
  exists s', foldM f l s = Ret s' /\ Inv l s'.
Proof.
  intros A S f Inv l s H0 Hstep.
  assert (G : forall todo done s, l = done ++ todo -> Inv done s ->
            exists s', foldM f todo s = Ret s' /\ Inv l s').
  { induction todo as [|x todo IH]; intros done s' E HI.
    - rewrite app_nil_r in E. subst done. exists s'. split; [reflexivity | exact HI].
    - destruct (Hstep done x todo s' E HI) as (s'' & Ef & HI').
      cbn. rewrite Ef. cbn. apply (IH (done ++ [x]) s''); [|exact HI'].
      rewrite <- app_assoc. exact E. }
  apply (G l [] s); [reflexivity | exact H0].
Qed.

Lemma mapM_pure : forall {A B} (f : A -> exec B) (g : A -> B) l,
  (forall x, In x l -> f x = Ret (g x)) -> mapM f l = Ret (map g l).
Proof.
  intros A B f g l. induction l as [|x l IH]; intros H; [reflexivity |].
  cbn. rewrite H by (left; reflexivity). cbn. rewrite IH; [reflexivity |].
  intros y Hy. apply H. right. exact Hy.
Qed.

(** ** Arrays *)

Lemma array_get_ok : forall {A} (l : list A) i a,
  0 <= i -> nth_error l (Z.to_nat i) = Some a -> array_get l i = Ret a.
Proof.
  intros A l i a H E. unfold array_get. rewrite E.
  destruct (0 <=? i) eqn:E0; [reflexivity | bool2prop; lia].
Qed.

Lemma array_get_unchecked_ok : forall {A} (l : list A) i a,
  0 <= i -> nth_error l (Z.to_nat i) = Some a -> array_get_unchecked l i = Ret a.
Proof.
  intros A l i a H E. unfold array_get_unchecked. rewrite E.
  destruct (0 <=? i) eqn:E0; [reflexivity | bool2prop; lia].
Qed.

Lemma nth_error_some : forall {A} (l : list A) i,
  0 <= i < Z.of_nat (length l) -> exists a, nth_error l (Z.to_nat i) = Some a.
Proof.
  intros A l i H. destruct (nth_error l (Z.to_nat i)) eqn:E; [eauto |].
  apply nth_error_None in E. lia.
Qed.

Lemma array_set_ok : forall {A} (l : list A) i v,
  0 <= i < Z.of_nat (length l) -> array_set l i v = Ret (list_set l (Z.to_nat i) v).
Proof.
  intros A l i v H. unfold array_set.
  destruct (0 <=? i) eqn:E0; destruct (i <? Z.of_nat (length l)) eqn:E1; cbn; bool2prop;
    try reflexivity; lia.
Qed.

Lemma array_set_unchecked_ok : forall {A} (l : list A) i v,
  0 <= i < Z.of_nat (length l) -> array_set_unchecked l i v = Ret (list_set l (Z.to_nat i) v).
Proof.
  intros A l i v H. unfold array_set_unchecked.
  destruct (0 <=? i) eqn:E0; destruct (i <? Z.of_nat (length l)) eqn:E1; cbn; bool2prop;
    try reflexivity; lia.
Qed.

Lemma list_set_length : forall {A} (l : list A) n v, length (list_set l n v) = length l.
Proof.
  intros A l. induction l as [|x l IH]; intros n v; destruct n; cbn; auto.
Qed.

Lemma list_set_nth_same : forall {A} (l : list A) n v,
  (n < length l)%nat -> nth_error (list_set l n v) n = Some v.
Proof.
  intros A l. induction l as [|x l IH]; intros n v H; cbn in H; [lia |].
  destruct n; cbn; [reflexivity |]. apply IH. lia.
Qed.

Lemma list_set_nth_other : forall {A} (l : list A) n m v,
  n <> m -> nth_error (list_set l n v) m = nth_error l m.
Proof.
  intros A l. induction l as [|x l IH]; intros n m v H; [destruct n; reflexivity |].
  destruct n, m; cbn; try reflexivity; [lia |]. apply IH. lia.
Qed.

Lemma nth_error_ext : forall {A} (l1 l2 : list A),
  (forall n, nth_error l1 n = nth_error l2 n) -> l1 = l2.
Proof.
  intros A l1. induction l1 as [|x l1 IH]; intros l2 H.
  - specialize (H 0%nat). destruct l2; [reflexivity | discriminate].
  - destruct l2 as [|y l2]; [specialize (H 0%nat); discriminate |].
    pose proof (H 0%nat) as H0. cbn in H0. inv H0. f_equal. apply IH.
    intros n. apply (H (Datatypes.S n)).
Qed.

(** ** Positions *)

Lemma pos_eqb_eq : forall p q, pos_eqb p q = true <-> p = q.
Proof.
  intros [a b] [c d]. unfold pos_eqb. cbn. rewrite andb_true_iff, !Z.eqb_eq.
  split; [intros [-> ->]; reflexivity | intros H; inv H; auto].
Qed.

Lemma pos_eqb_neq : forall p q, pos_eqb p q = false <-> p <> q.
Proof.
  intros p q. rewrite <- pos_eqb_eq. destruct (pos_eqb p q); split; congruence.
Qed.

Lemma pos_eqb_refl : forall p, pos_eqb p p = true.
Proof. intros p. apply pos_eqb_eq. reflexivity. Qed.

Lemma pos_eq_dec : forall p q : pos, {p = q} + {p <> q}.
Proof.
  intros p q. destruct (pos_eqb p q) eqn:E; [left; apply pos_eqb_eq | right; apply pos_eqb_neq]; exact E.
Qed.

(** ** Enumerations of rectangles *)

Lemma rect_rows_In : forall x0 y0 x1 y1 p,
  In p (rect_rows x0 y0 x1 y1) <-> (x0 <= fst p <= x1 /\ y0 <= snd p <= y1).
Proof.
  intros x0 y0 x1 y1 [x y]. unfold rect_rows. rewrite in_flat_map. cbn. split.
  - intros (y' & Hy & Hx). apply in_map_iff in Hx. destruct Hx as (x' & E & Hx). inv E.
    rewrite interval_In in *. auto.
  - intros [Hx Hy]. exists y. rewrite interval_In. split; [exact Hy |].
    apply in_map_iff. exists x. rewrite interval_In. auto.
Qed.

Lemma rect_cols_In : forall x0 y0 x1 y1 p,
  In p (rect_cols x0 y0 x1 y1) <-> (x0 <= fst p <= x1 /\ y0 <= snd p <= y1).
Proof.
  intros x0 y0 x1 y1 [x y]. unfold rect_cols. rewrite in_flat_map. cbn. split.
  - intros (y' & Hy & Hx). apply in_map_iff in Hx. destruct Hx as (x' & E & Hx). inv E.
    rewrite interval_In in *. auto.
  - intros [Hx Hy]. exists x. rewrite interval_In. split; [exact Hx |].
    apply in_map_iff. exists y. rewrite interval_In. auto.
Qed.

Lemma flat_map_NoDup : forall {A B} (f : A -> list B) l,
  NoDup l -> (forall a, In a l -> NoDup (f a)) ->
  (forall a a' b, In a l -> In a' l -> In b (f a) -> In b (f a') -> a = a') ->
  NoDup (flat_map f l).
Proof.
  intros A B f l. induction l as [|a l IH]; intros Hnd Hf Hdis; [constructor |].
  cbn. inv Hnd.
  assert (G : forall l1 l2 : list B, NoDup l1 -> NoDup l2 ->
            (forall b, In b l1 -> In b l2 -> False) -> NoDup (l1 ++ l2)).
  { induction l1 as [|b l1 IHl]; intros l2 N1 N2 HD; [exact N2 |].
    inv N1. cbn. constructor.
    - rewrite in_app_iff. intros [?|?]; [contradiction |]. apply (HD b); [left; reflexivity | assumption].
    - apply IHl; auto. intros b' Hb. apply HD. right. exact Hb. }
  apply G.
  - apply Hf. left. reflexivity.
  - apply IH; auto.
    + intros a' Ha'. apply Hf. right. exact Ha'.
    + intros a1 a2 b Ha1 Ha2. apply Hdis; right; assumption.
  - intros b Hb Hb'. apply in_flat_map in Hb'. destruct Hb' as (a' & Ha' & Hb').
    assert (a = a') by (apply (Hdis a a' b); auto; [left | right]; auto). subst a'. contradiction.
Qed.

Lemma rect_rows_NoDup : forall x0 y0 x1 y1, NoDup (rect_rows x0 y0 x1 y1).
Proof.
  intros. apply flat_map_NoDup.
  - apply interval_NoDup.
  - intros y _. apply FinFun.Injective_map_NoDup; [intros a b H; congruence | apply interval_NoDup].
  - intros y y' p _ _ H H'. apply in_map_iff in H, H'.
    destruct H as (? & <- & _), H' as (? & E & _). congruence.
Qed.

Lemma rect_cols_NoDup : forall x0 y0 x1 y1, NoDup (rect_cols x0 y0 x1 y1).
Proof.
  intros. apply flat_map_NoDup.
  - apply interval_NoDup.
  - intros y _. apply FinFun.Injective_map_NoDup; [intros a b H; congruence | apply interval_NoDup].
  - intros y y' p _ _ H H'. apply in_map_iff in H, H'.
    destruct H as (? & <- & _), H' as (? & E & _). congruence.
Qed.

Lemma flat_map_length_const : forall {A B} (f : A -> list B) l n,
  (forall a, In a l -> length (f a) = n) -> length (flat_map f l) = (length l * n)%nat.
Proof.
  intros A B f l n. induction l as [|a l IH]; intros H; [reflexivity |].
  cbn. rewrite app_length, H, IH; [reflexivity | | left; reflexivity].
  intros a' Ha'. apply H. right. exact Ha'.
Qed.

Lemma rect_rows_length : forall x0 y0 x1 y1, x0 <= x1 + 1 -> y0 <= y1 + 1 ->
  Z.of_nat (length (rect_rows x0 y0 x1 y1)) = (x1 - x0 + 1) * (y1 - y0 + 1).
Proof.
  intros x0 y0 x1 y1 Hx Hy. unfold rect_rows.
  rewrite flat_map_length_const with (n := Z.to_nat (x1 - x0 + 1)).
  - rewrite Nat2Z.inj_mul, interval_length, Z2Nat.id by lia. lia.
  - intros y _. rewrite map_length. pose proof (interval_length x0 x1 Hx). lia.
Qed.

Lemma rect_cols_length : forall x0 y0 x1 y1, x0 <= x1 + 1 -> y0 <= y1 + 1 ->
  Z.of_nat (length (rect_cols x0 y0 x1 y1)) = (x1 - x0 + 1) * (y1 - y0 + 1).
Proof.
  intros x0 y0 x1 y1 Hx Hy. unfold rect_cols.
  rewrite flat_map_length_const with (n := Z.to_nat (y1 - y0 + 1)).
  - rewrite Nat2Z.inj_mul, interval_length, Z2Nat.id by lia. lia.
  - intros y _. rewrite map_length. pose proof (interval_length y0 y1 Hy). lia.
Qed.
