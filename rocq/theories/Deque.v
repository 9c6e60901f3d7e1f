(** Deque.v -- a double-ended iterator walking a chain behaves like a list
    popped at both ends.  Used for BoundedIntIterator and PosTIter. *)

From Coq Require Import ZArith List Bool Lia.
From Verif Require Import Rust Spec Lib.
Import ListNotations.
Open Scope Z_scope.

Section Deque.
  Context {A : Type} (eqb : A -> A -> bool) (succ pred : A -> option A).
  Context (eqb_eq : forall a b, eqb a b = true <-> a = b).

  Definition oeqb (a b : option A) : bool :=
    match a, b with
    | Some x, Some y => eqb x y
    | None, None => true
    | _, _ => false
    end.

  Definition gnext (it : option A * option A) : option A * (option A * option A) :=
    let '(st, en) := it in
    (st, if oeqb st en then (None, None)
         else match st with Some s => (succ s, en) | None => (st, en) end).

  Definition gnext_back (it : option A * option A) : option A * (option A * option A) :=
    let '(st, en) := it in
    (en, if oeqb st en then (None, None)
         else match en with Some e => (st, pred e) | None => (st, en) end).

  (** Consecutive elements are linked both ways. *)
  Fixpoint chain (l : list A) : Prop :=
    match l with
    | x :: ((y :: _) as l') => succ x = Some y /\ pred y = Some x /\ chain l'
    | _ => True
    end.

  Lemma chain_app : forall l1 l2,
    chain l1 -> chain l2 ->
    (forall a b l1' l2', l1 = l1' ++ [a] -> l2 = b :: l2' -> succ a = Some b /\ pred b = Some a) ->
    chain (l1 ++ l2).
  Proof.
    induction l1 as [|x l1 IH]; intros l2 H1 H2 HL; [exact H2 |].
    destruct l1 as [|y l1].
    - destruct l2 as [|b l2]; [exact I |]. cbn [app chain].
      destruct (HL x b [] l2 eq_refl eq_refl) as [? ?]. auto.
    - cbn [app chain]. cbn [chain] in H1. destruct H1 as (? & ? & H1).
      split; [assumption | split; [assumption |]].
      apply (IH l2 H1 H2). intros a b l1' l2' E1 E2. apply (HL a b (x :: l1') l2'); [|exact E2].
      rewrite E1. reflexivity.
  Qed.

  Lemma chain_tail : forall x l, chain (x :: l) -> chain l.
  Proof. intros x l H. destruct l; [exact I |]. cbn in H. tauto. Qed.

  Lemma chain_init : forall l x, chain (l ++ [x]) -> chain l.
  Proof.
    induction l as [|y l IH]; intros x H; [exact I |].
    destruct l as [|z l]; [exact I |]. cbn [app chain] in *. destruct H as (? & ? & H).
    split; [assumption | split; [assumption |]]. apply (IH x). exact H.
  Qed.

  Lemma chain_last2 : forall l x y, chain (l ++ [x; y]) -> succ x = Some y /\ pred y = Some x.
  Proof.
    induction l as [|z l IH]; intros x y H; [cbn in H; tauto |].
    apply (IH x y). cbn [app] in H. apply (chain_tail z). exact H.
  Qed.

  (** The state that represents the remaining items [l]. *)
  Definition state_of (l : list A) : option A * option A :=
    match l with
    | [] => (None, None)
    | x :: _ => (Some x, Some (List.last l x))
    end.

  Lemma last_app_single : forall (l : list A) x d, List.last (l ++ [x]) d = x.
  Proof. intros. apply List.last_last. Qed.

  Lemma state_of_snoc : forall l x y, state_of (x :: l ++ [y]) = (Some x, Some y).
  Proof.
    intros. cbn [state_of]. f_equal. f_equal.
    change (x :: l ++ [y]) with ((x :: l) ++ [y]). apply List.last_last.
  Qed.

  (** Empty, singleton, or at least two elements. *)
  Lemma list_shape : forall l : list A,
    l = [] \/ (exists x, l = [x]) \/ (exists x m y, l = x :: m ++ [y]).
  Proof.
    intros l. destruct l as [|x l]; [auto |]. right.
    destruct (exists_last (l := x :: l)) as (l' & y & E); [discriminate |].
    destruct l' as [|x' m]; cbn in E.
    - left. exists y. exact E.
    - right. exists x', m, y. exact E.
  Qed.

  Lemma gnext_spec : forall l, NoDup l -> chain l ->
    gnext (state_of l) = (fst (pop_front l), state_of (snd (pop_front l))).
  Proof.
    intros l Hnd Hch. destruct (list_shape l) as [-> | [(x & ->) | (x & m & y & ->)]].
    - reflexivity.
    - cbn. assert (E : eqb x x = true) by (apply eqb_eq; reflexivity). rewrite E. reflexivity.
    - rewrite state_of_snoc. cbn [gnext oeqb pop_front fst snd].
      destruct (eqb x y) eqn:E.
      + exfalso. apply eqb_eq in E. subst y. inv Hnd. apply H1. apply in_or_app. right. left. reflexivity.
      + f_equal. destruct m as [|z m].
        * cbn in Hch. destruct Hch as (-> & _). cbn. reflexivity.
        * cbn [app chain] in Hch. destruct Hch as (-> & _).
          cbn [app]. rewrite state_of_snoc. reflexivity.
  Qed.

  Lemma gnext_back_spec : forall l, NoDup l -> chain l ->
    gnext_back (state_of l) = (fst (pop_back l), state_of (snd (pop_back l))).
  Proof.
    intros l Hnd Hch. destruct (list_shape l) as [-> | [(x & ->) | (x & m & y & ->)]].
    - reflexivity.
    - cbn. assert (E : eqb x x = true) by (apply eqb_eq; reflexivity). rewrite E. reflexivity.
    - rewrite state_of_snoc. unfold pop_back.
      assert (Er : rev (x :: m ++ [y]) = y :: rev (x :: m)).
      { change (x :: m ++ [y]) with ((x :: m) ++ [y]). rewrite rev_app_distr. reflexivity. }
      rewrite Er. cbn [gnext_back oeqb fst snd].
      destruct (eqb x y) eqn:E.
      + exfalso. apply eqb_eq in E. subst y. inv Hnd. apply H1. apply in_or_app. right. left. reflexivity.
      + f_equal. rewrite rev_involutive.
        destruct (list_shape (x :: m)) as [Em | [(x' & Em) | (x' & m' & y' & Em)]].
        * discriminate.
        * inv Em. cbn in Hch. destruct Hch as (_ & -> & _). reflexivity.
        * change (x :: m ++ [y]) with ((x :: m) ++ [y]) in Hch. rewrite Em in *.
          inv Em. rewrite state_of_snoc.
          assert (Hc : chain ((x' :: m') ++ [y'; y])).
          { change (x' :: m' ++ [y']) with ((x' :: m') ++ [y']) in Hch.
            rewrite <- app_assoc in Hch. exact Hch. }
          apply chain_last2 in Hc. destruct Hc as (_ & ->). reflexivity.
  Qed.

  Lemma pop_front_ok : forall l, NoDup l -> chain l ->
    NoDup (snd (pop_front l)) /\ chain (snd (pop_front l)).
  Proof.
    intros l Hnd Hch. destruct l as [|x l]; cbn; [auto |].
    inv Hnd. split; [assumption |]. apply (chain_tail x). exact Hch.
  Qed.

  Lemma pop_back_ok : forall l, NoDup l -> chain l ->
    NoDup (snd (pop_back l)) /\ chain (snd (pop_back l)).
  Proof.
    intros l Hnd Hch. unfold pop_back.
    destruct (rev l) as [|x r] eqn:E; cbn; [split; [constructor | exact I] |].
    assert (El : l = rev r ++ [x]).
    { rewrite <- (rev_involutive l), E. reflexivity. }
    subst l. split.
    - apply NoDup_remove_1 in Hnd. rewrite app_nil_r in Hnd. exact Hnd.
    - apply (chain_init _ x). exact Hch.
  Qed.

  Theorem run_calls_spec : forall cs l, NoDup l -> chain l ->
    run_calls gnext gnext_back cs (state_of l) = run_calls pop_front pop_back cs l.
  Proof.
    induction cs as [|c cs IH]; intros l Hnd Hch; [reflexivity |].
    destruct c; cbn [run_calls].
    - rewrite gnext_spec by assumption. destruct (pop_front_ok l Hnd Hch).
      destruct (pop_front l) as [o l'] eqn:E. cbn in *. f_equal. apply IH; assumption.
    - rewrite gnext_back_spec by assumption. destruct (pop_back_ok l Hnd Hch).
      destruct (pop_back l) as [o l'] eqn:E. cbn in *. f_equal. apply IH; assumption.
  Qed.

  Lemma drain_spec : forall l fuel, NoDup l -> chain l -> (length l < fuel)%nat ->
    drain (fun it => Ret (gnext it)) fuel (state_of l) = Ret l.
  Proof.
    induction l as [|x l IH]; intros fuel Hnd Hch Hf; (destruct fuel as [|fuel]; [cbn in Hf; lia |]).
    - reflexivity.
    - cbn [drain]. rewrite gnext_spec by assumption. cbn [bind pop_front fst snd].
      destruct (pop_front_ok (x :: l) Hnd Hch) as [Hn' Hc']. cbn in Hn', Hc'.
      rewrite IH; [reflexivity | exact Hn' | exact Hc' | cbn in Hf; lia].
  Qed.

  Lemma drain_back_spec : forall l fuel, NoDup l -> chain l -> (length l < fuel)%nat ->
    drain (fun it => Ret (gnext_back it)) fuel (state_of l) = Ret (rev l).
  Proof.
    intros l. induction l as [|x l IH] using rev_ind; intros fuel Hnd Hch Hf;
      (destruct fuel as [|fuel]; [rewrite ?app_length in Hf; cbn in Hf; lia |]).
    - reflexivity.
    - cbn [drain]. rewrite gnext_back_spec by assumption.
      destruct (pop_back_ok (l ++ [x]) Hnd Hch) as [Hn' Hc'].
      unfold pop_back in *. rewrite rev_app_distr in *. cbn [rev app] in *. cbn [bind fst snd] in *.
      rewrite rev_involutive in *. rewrite IH; [reflexivity | assumption | assumption |].
      rewrite app_length in Hf. cbn in Hf. lia.
  Qed.
End Deque.

(** The state after some calls represents what is left of the list. *)
Lemma state_after_spec : forall {A} (eqb : A -> A -> bool) succ pred,
  (forall a b, eqb a b = true <-> a = b) -> forall cs l, NoDup l -> chain succ pred l ->
  exists l', state_after (gnext eqb succ) (gnext_back eqb pred) cs (state_of l) = state_of l' /\
    NoDup l' /\ chain succ pred l' /\ length l' = (length l - length cs)%nat.
Proof.
  intros A eqb succ pred Heq cs. induction cs as [|c cs IH]; intros l Hnd Hch.
  - exists l. cbn. repeat split; auto. lia.
  - destruct c; cbn [state_after].
    + rewrite (gnext_spec eqb succ pred Heq) by assumption. cbn [snd].
      destruct (pop_front_ok succ pred l Hnd Hch) as [Hn Hc].
      destruct (IH _ Hn Hc) as (l' & E & N & C & L). exists l'. repeat split; auto.
      rewrite L. destruct l; cbn; lia.
    + rewrite (gnext_back_spec eqb succ pred Heq) by assumption. cbn [snd].
      destruct (pop_back_ok succ pred l Hnd Hch) as [Hn Hc].
      destruct (IH _ Hn Hc) as (l' & E & N & C & L). exists l'. repeat split; auto.
      rewrite L. unfold pop_back. destruct (rev l) as [|x r] eqn:Er; cbn.
      * assert (l = []) by (rewrite <- (rev_involutive l), Er; reflexivity). subst l. cbn. lia.
      * rewrite rev_length. assert (length l = S (length r)) by (rewrite <- rev_length, Er; reflexivity). lia.
Qed.

Lemma state_after_ext : forall {A St} (n1 n2 b1 b2 : St -> option A * St) cs s,
  (forall s, n1 s = n2 s) -> (forall s, b1 s = b2 s) ->
  state_after n1 b1 cs s = state_after n2 b2 cs s.
Proof.
  intros A St n1 n2 b1 b2 cs. induction cs as [|c cs IH]; intros s Hn Hb; [reflexivity |].
  destruct c; cbn; [rewrite Hn | rewrite Hb]; apply IH; assumption.
Qed.
