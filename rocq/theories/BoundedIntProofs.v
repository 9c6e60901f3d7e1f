(** BoundedIntProofs.v -- lemmas about BoundedInt.v. *)

From Coq Require Import ZArith List Bool Lia.
From Verif Require Import Rust BoundedInt Dir PosT Spec Lib Deque.
Import ListNotations.
Open Scope Z_scope.

Lemma all_ity_bounds : forall t, In t all_ity -> imin t <= 0 /\ 127 <= imax t.
Proof.
  intros t H. unfold all_ity in H.
  repeat (destruct H as [<- | H]; [cbn; lia |]). destruct H.
Qed.

Lemma in_ity_true : forall t v, in_ity t v = true <-> imin t <= v <= imax t.
Proof. intros. unfold in_ity. rewrite andb_true_iff, !Z.leb_le. reflexivity. Qed.

Lemma in_ity_false : forall t v, in_ity t v = false <-> v < imin t \/ imax t < v.
Proof. intros. unfold in_ity. rewrite andb_false_iff, !Z.leb_gt. reflexivity. Qed.

Lemma in_ity_dec : forall t v, (imin t <= v <= imax t /\ in_ity t v = true) \/
  ((v < imin t \/ imax t < v) /\ in_ity t v = false).
Proof.
  intros t v. destruct (in_ity t v) eqn:E; [left | right]; (split; [|reflexivity]).
  - apply in_ity_true. exact E.
  - apply in_ity_false. exact E.
Qed.

Lemma arith_ok : forall t v, imin t <= v <= imax t -> arith t v = Ret v.
Proof. intros t v H. unfold arith. rewrite (proj2 (in_ity_true t v) H). reflexivity. Qed.

Lemma arith_panic : forall t v, v < imin t \/ imax t < v -> arith t v = Panic.
Proof. intros t v H. unfold arith. rewrite (proj2 (in_ity_false t v) H). reflexivity. Qed.

Lemma bounded_new_spec : forall mn mx v,
  (mn <= v <= mx -> bounded_new mn mx v = Ok v) /\
  (~ mn <= v <= mx -> bounded_new mn mx v = Err OutOfBounds).
Proof.
  intros. unfold bounded_new. split; intros H; case_if; bool2prop; try reflexivity; try lia.
Qed.

Lemma bounded_new_unwrap_spec : forall mn mx v,
  (mn <= v <= mx -> bounded_new_unwrap mn mx v = Ret v) /\
  (~ mn <= v <= mx -> bounded_new_unwrap mn mx v = Panic).
Proof.
  intros. unfold bounded_new_unwrap. split; intros H; case_if; bool2prop; try reflexivity; try lia.
Qed.

Lemma bounded_new_static_spec : forall mn mx v,
  (mn <= v <= mx -> bounded_new_static mn mx v = Ret v) /\
  (~ mn <= v <= mx -> bounded_new_static mn mx v = Panic).
Proof.
  intros. unfold bounded_new_static. split; intros H; case_if; bool2prop; try reflexivity; try lia.
Qed.

Lemma b_try_from_spec : forall b s v, bty_wf b ->
  (in_bty b v -> b_try_from b (FromInt s) v = Ok v) /\
  (~ in_bty b v -> b_try_from b (FromInt s) v = Err OutOfBounds).
Proof.
  intros b s v (Hin & H1 & H2 & H3). unfold in_bty.
  destruct b as [t | t mn mx]; cbn in *.
  - unfold int_try_from. destruct (in_ity_dec t v) as [[H ->] | [H ->]]; split; intros; try reflexivity; lia.
  - unfold int_try_from. destruct (in_ity_dec t v) as [[H ->] | [H ->]]; cbn.
    + apply bounded_new_spec.
    + split; intros; [lia | reflexivity].
Qed.

Lemma b_checked_add_spec : forall b x y, bty_wf b ->
  b_checked_add b x y = if (b_min b <=? x + y) && (x + y <=? b_max b) then Some (x + y) else None.
Proof.
  intros b x y (Hin & H1 & H2 & H3). destruct b as [t | t mn mx]; cbn in *.
  - unfold int_checked_add, in_ity. reflexivity.
  - unfold int_checked_add.
    destruct (in_ity_dec t (x + y)) as [[H ->] | [H ->]]; [reflexivity |].
    destruct ((mn <=? x + y) && (x + y <=? mx)) eqn:E; [|reflexivity]. bool2prop. lia.
Qed.

Lemma b_checked_sub_spec : forall b x y, bty_wf b ->
  b_checked_sub b x y = if (b_min b <=? x - y) && (x - y <=? b_max b) then Some (x - y) else None.
Proof.
  intros b x y (Hin & H1 & H2 & H3). destruct b as [t | t mn mx]; cbn in *.
  - unfold int_checked_sub, in_ity. reflexivity.
  - unfold int_checked_sub.
    destruct (in_ity_dec t (x - y)) as [[H ->] | [H ->]]; [reflexivity |].
    destruct ((mn <=? x - y) && (x - y <=? mx)) eqn:E; [|reflexivity]. bool2prop. lia.
Qed.

Lemma b_checked_add_some : forall b x y, bty_wf b -> in_bty b (x + y) ->
  b_checked_add b x y = Some (x + y).
Proof.
  intros b x y Hb H. rewrite b_checked_add_spec by exact Hb. unfold in_bty in H.
  case_if; [reflexivity | bool2prop; lia].
Qed.

Lemma b_checked_add_none : forall b x y, bty_wf b -> ~ in_bty b (x + y) ->
  b_checked_add b x y = None.
Proof.
  intros b x y Hb H. rewrite b_checked_add_spec by exact Hb. unfold in_bty in H.
  case_if; [bool2prop; lia | reflexivity].
Qed.

Lemma b_checked_sub_some : forall b x y, bty_wf b -> in_bty b (x - y) ->
  b_checked_sub b x y = Some (x - y).
Proof.
  intros b x y Hb H. rewrite b_checked_sub_spec by exact Hb. unfold in_bty in H.
  case_if; [reflexivity | bool2prop; lia].
Qed.

Lemma b_checked_sub_none : forall b x y, bty_wf b -> ~ in_bty b (x - y) ->
  b_checked_sub b x y = None.
Proof.
  intros b x y Hb H. rewrite b_checked_sub_spec by exact Hb. unfold in_bty in H.
  case_if; [bool2prop; lia | reflexivity].
Qed.

Lemma b_inc_some : forall b v, bty_wf b -> in_bty b v -> v < b_max b -> b_inc b v = Some (v + 1).
Proof.
  intros b v Hb H Hlt. unfold b_inc, b_one, b_from_bool. apply b_checked_add_some; [exact Hb |].
  unfold in_bty in *. lia.
Qed.

Lemma b_inc_none : forall b, bty_wf b -> b_inc b (b_max b) = None.
Proof.
  intros b Hb. unfold b_inc, b_one, b_from_bool. apply b_checked_add_none; [exact Hb |].
  unfold in_bty in *. lia.
Qed.

Lemma b_dec_some : forall b v, bty_wf b -> in_bty b v -> b_min b < v -> b_dec b v = Some (v - 1).
Proof.
  intros b v Hb H Hlt. unfold b_dec, b_one, b_from_bool. apply b_checked_sub_some; [exact Hb |].
  unfold in_bty in *. lia.
Qed.

Lemma b_dec_none : forall b, bty_wf b -> b_dec b (b_min b) = None.
Proof.
  intros b Hb. unfold b_dec, b_one, b_from_bool. apply b_checked_sub_none; [exact Hb |].
  unfold in_bty in *. lia.
Qed.

(** ** Iterator *)

Lemma interval_chain : forall b, bty_wf b -> forall n lo,
  b_min b <= lo -> Z.of_nat n = b_max b - lo + 1 ->
  chain (b_inc b) (b_dec b) (interval lo (b_max b)).
Proof.
  intros b Hb n. induction n as [|n IH]; intros lo Hlo Hn.
  - unfold interval. rewrite zrange_nil by lia. exact I.
  - rewrite interval_cons by lia.
    destruct (Z.eq_dec lo (b_max b)) as [-> | Hne].
    + unfold interval. rewrite zrange_nil by lia. exact I.
    + rewrite (interval_cons (lo + 1)) by lia. cbn [chain].
      split; [|split].
      * apply b_inc_some; [exact Hb | unfold in_bty; lia | lia].
      * rewrite b_dec_some; [f_equal; lia | exact Hb | unfold in_bty; lia | lia].
      * specialize (IH (lo + 1)). rewrite (interval_cons (lo + 1)) in IH by lia. apply IH; lia.
Qed.

Lemma interval_last : forall a b d, a <= b -> List.last (interval a b) d = b.
Proof. intros a b d H. rewrite interval_snoc by exact H. apply List.last_last. Qed.

Lemma b_iter_state : forall b, bty_wf b -> b_iter b = state_of (interval (b_min b) (b_max b)).
Proof.
  intros b (_ & _ & H & _). unfold b_iter, biter_new. rewrite interval_cons by lia.
  cbn [state_of]. rewrite <- interval_cons by lia. rewrite interval_last by lia. reflexivity.
Qed.

Lemma biter_next_g : forall b it, biter_next b it = gnext Z.eqb (b_inc b) it.
Proof. intros b [st en]. reflexivity. Qed.

Lemma biter_next_back_g : forall b it, biter_next_back b it = gnext_back Z.eqb (b_dec b) it.
Proof. intros b [st en]. reflexivity. Qed.

Lemma b_chain : forall b, bty_wf b -> chain (b_inc b) (b_dec b) (interval (b_min b) (b_max b)).
Proof.
  intros b Hb. apply (interval_chain b Hb (Z.to_nat (b_max b - b_min b + 1))); [lia |].
  destruct Hb as (_ & _ & H & _). lia.
Qed.

Lemma run_calls_ext : forall {A St} (n1 n2 b1 b2 : St -> option A * St) cs s,
  (forall s, n1 s = n2 s) -> (forall s, b1 s = b2 s) ->
  run_calls n1 b1 cs s = run_calls n2 b2 cs s.
Proof.
  intros A St n1 n2 b1 b2 cs. induction cs as [|c cs IH]; intros s Hn Hb; [reflexivity |].
  destruct c; cbn; [rewrite Hn; destruct (n2 s) | rewrite Hb; destruct (b2 s)]; f_equal; apply IH; assumption.
Qed.

Lemma drain_ext : forall {A St} (n1 n2 : St -> exec (option A * St)) fuel s,
  (forall s, n1 s = n2 s) -> drain n1 fuel s = drain n2 fuel s.
Proof.
  intros A St n1 n2 fuel. induction fuel as [|fuel IH]; intros s H; [reflexivity |].
  cbn. rewrite H. destruct (n2 s) as [[o s'] | | |]; cbn; [|reflexivity..].
  destruct o; [|reflexivity]. rewrite IH by exact H. reflexivity.
Qed.

Lemma b_iter_calls : forall b cs, bty_wf b ->
  run_calls (biter_next b) (biter_next_back b) cs (b_iter b) =
  run_calls pop_front pop_back cs (interval (b_min b) (b_max b)).
Proof.
  intros b cs Hb. rewrite b_iter_state by exact Hb.
  rewrite (run_calls_ext _ (gnext Z.eqb (b_inc b)) _ (gnext_back Z.eqb (b_dec b))).
  - apply run_calls_spec; [apply Z.eqb_eq | apply interval_NoDup | apply b_chain; exact Hb].
  - intros s. apply biter_next_g.
  - intros s. apply biter_next_back_g.
Qed.

Lemma b_iter_list_spec : forall b, bty_wf b -> b_iter_list b = Ret (interval (b_min b) (b_max b)).
Proof.
  intros b Hb. unfold b_iter_list. rewrite b_iter_state by exact Hb.
  rewrite (drain_ext _ (fun it => Ret (gnext Z.eqb (b_inc b) it))).
  - apply (drain_spec Z.eqb (b_inc b) (b_dec b)).
    + apply Z.eqb_eq.
    + apply interval_NoDup.
    + apply b_chain. exact Hb.
    + destruct Hb as (_ & _ & H & _). pose proof (interval_length (b_min b) (b_max b)). lia.
  - intros s. rewrite biter_next_g. reflexivity.
Qed.

(** ** Statements of the property file *)

Lemma bounded_construction : forall t mn mx s v,
  bty_wf (Bounded t mn mx) ->
  (mn <= v <= mx ->
     bounded_new mn mx v = Ok v /\
     b_try_from (Bounded t mn mx) (FromInt s) v = Ok v /\
     bounded_new_unwrap mn mx v = Ret v /\
     bounded_new_static mn mx v = Ret v) /\
  (~ (mn <= v <= mx) ->
     bounded_new mn mx v = Err OutOfBounds /\
     b_try_from (Bounded t mn mx) (FromInt s) v = Err OutOfBounds /\
     bounded_new_unwrap mn mx v = Panic /\
     bounded_new_static mn mx v = Panic).
Proof.
  intros t mn mx s v Hb.
  destruct (bounded_new_spec mn mx v), (b_try_from_spec _ s v Hb),
    (bounded_new_unwrap_spec mn mx v), (bounded_new_static_spec mn mx v).
  unfold in_bty in *. cbn in *. split; intros; auto.
Qed.

Lemma checked_arithmetic : forall b x y,
  bty_wf b ->
  (in_bty b (x + y) -> b_checked_add b x y = Some (x + y)) /\
  (~ in_bty b (x + y) -> b_checked_add b x y = None) /\
  (in_bty b (x - y) -> b_checked_sub b x y = Some (x - y)) /\
  (~ in_bty b (x - y) -> b_checked_sub b x y = None) /\
  (in_bty b (x + 1) -> b_inc b x = Some (x + 1)) /\
  (~ in_bty b (x + 1) -> b_inc b x = None) /\
  (in_bty b (x - 1) -> b_dec b x = Some (x - 1)) /\
  (~ in_bty b (x - 1) -> b_dec b x = None).
Proof.
  intros b x y Hb.
  repeat split; intros H.
  - apply b_checked_add_some; assumption.
  - apply b_checked_add_none; assumption.
  - apply b_checked_sub_some; assumption.
  - apply b_checked_sub_none; assumption.
  - apply b_checked_add_some; assumption.
  - apply b_checked_add_none; assumption.
  - apply b_checked_sub_some; assumption.
  - apply b_checked_sub_none; assumption.
Qed.

Lemma bounded_iteration : forall b, bty_wf b ->
  (forall cs, run_calls (biter_next b) (biter_next_back b) cs (b_iter b) =
              run_calls pop_front pop_back cs (interval (b_min b) (b_max b))) /\
  b_iter_list b = Ret (interval (b_min b) (b_max b)).
Proof.
  intros b Hb. split; [intros cs; apply b_iter_calls | apply b_iter_list_spec]; exact Hb.
Qed.

Lemma safe_conversions_refuted :
  exists b : bty, bty_wf b /\
    ~ in_bty b (b_from_bool b true) /\ ~ in_bty b (b_from_bool b false) /\ ~ in_bty b (b_default b).
Proof.
  exists (Bounded u8 5 10). unfold bty_wf, in_bty, b_default, b_from_bool. cbn [b_inner b_min b_max].
  repeat split; try (cbn; lia). right. left. reflexivity.
Qed.

Lemma b_checked_add_in : forall b x y v, bty_wf b -> b_checked_add b x y = Some v -> v = x + y /\ in_bty b v.
Proof.
  intros b x y v Hb H. rewrite b_checked_add_spec in H by exact Hb. unfold in_bty.
  case_if; [|discriminate]. inv H. bool2prop. lia.
Qed.

Lemma b_checked_sub_in : forall b x y v, bty_wf b -> b_checked_sub b x y = Some v -> v = x - y /\ in_bty b v.
Proof.
  intros b x y v Hb H. rewrite b_checked_sub_spec in H by exact Hb. unfold in_bty.
  case_if; [|discriminate]. inv H. bool2prop. lia.
Qed.

Lemma safe_conversions_partial : forall b, bty_wf b ->
  in_bty b (b_min b) /\ in_bty b (b_max b) /\
  (forall s v v', b_try_from b (FromInt s) v = Ok v' -> in_bty b v') /\
  (forall v v', bounded_new (b_min b) (b_max b) v = Ok v' -> in_bty b v') /\
  (forall v v', bounded_new_unwrap (b_min b) (b_max b) v = Ret v' -> in_bty b v') /\
  (forall x y v', b_checked_add b x y = Some v' -> in_bty b v') /\
  (forall x y v', b_checked_sub b x y = Some v' -> in_bty b v') /\
  (forall x v', b_inc b x = Some v' -> in_bty b v') /\
  (forall x v', b_dec b x = Some v' -> in_bty b v').
Proof.
  intros b Hb. pose proof Hb as (_ & H1 & H2 & H3).
  split; [unfold in_bty; lia | split; [unfold in_bty; lia |]].
  repeat split; intros.
  1,2: destruct (b_try_from_spec b s v Hb) as [Ha Hn];
    (assert (D : in_bty b v \/ ~ in_bty b v) by (unfold in_bty; lia));
    destruct D as [D | D]; [rewrite Ha in H by exact D; inv H; apply D | rewrite Hn in H by exact D; discriminate].
  1,2: unfold bounded_new in H; case_if; [discriminate |]; inv H; bool2prop; lia.
  1,2: unfold bounded_new_unwrap in H; case_if; [|discriminate]; inv H; bool2prop; lia.
  1,2: eapply b_checked_add_in; eassumption.
  1,2: eapply b_checked_sub_in; eassumption.
  1,2: eapply b_checked_add_in; eassumption.
  1,2: eapply b_checked_sub_in; eassumption.
Qed.

Lemma bool_and_default : forall b v,
  b_from_bool b v = Z.b2z v /\ b_default b = 0 /\
  (in_bty b (b_from_bool b v) <-> b_min b <= Z.b2z v <= b_max b) /\
  (in_bty b (b_default b) <-> b_min b <= 0 <= b_max b).
Proof. intros b v. unfold in_bty, b_default. destruct v; cbn; intuition. Qed.

Lemma builtin_bounds :
  let unsigned n := (0, 2 ^ n - 1) in
  let signed n := (- 2 ^ (n - 1), 2 ^ (n - 1) - 1) in
  let bounds t := (b_min (Builtin t), b_max (Builtin t)) in
  map bounds [u8; u16; u32; u64; u128; usize] = map unsigned [8; 16; 32; 64; 128; 64] /\
  map bounds [i8; i16; i32; i64; i128; isize] = map signed [8; 16; 32; 64; 128; 64] /\
  forall t, bty_wf (Builtin t) <-> In t [u8; u16; u32; u64; u128; usize; i8; i16; i32; i64; i128; isize].
Proof.
  split; [vm_compute; reflexivity |]. split; [vm_compute; reflexivity |]. intros t. unfold bty_wf. cbn [b_inner b_min b_max]. split.
  - intros (H & _). unfold all_ity in H. cbn [In] in *. tauto.
  - intros H. split; [unfold all_ity; cbn [In] in *; tauto |]. cbn [In] in H. split; [lia |]. split; [|lia]. repeat (destruct H as [<- | H]; [vm_compute; discriminate |]). destruct H.
Qed.
