(** PropHashProofs.v -- proofs of the statements of PropHash.v. *)

From Coq Require Import ZArith List Bool Lia Permutation.
From Verif Require Import Rust BoundedInt Dir PosT Pos Grid Gridbool SetMap CameFrom Heap Bf Astar Ucs Hash Spec SpecSearch SpecHash Lib BoundedIntProofs PosTProofs PosTProofs2 GridProofs GridProofs2 GridboolProofs PropGridboolProofs SetMapProofs Sim CameFromProofs PropSetMapProofs BfProofs PropBfProofs BestFirst SearchProofs UcsProofs AstarProofs PropAstarProofs PropUcsProofs PropAgreeProofs.
Import ListNotations.
Open Scope Z_scope.

Lemma app_same_length : forall A (a b x y : list A), length a = length b -> a ++ x = b ++ y -> a = b /\ x = y.
Proof.
  intros A. induction a as [|c a IH]; intros [|d b] x y L E; cbn in *; try discriminate; [auto |]. injection E as -> E. injection L as L. destruct (IH b x y L E) as (-> & ->). auto.
Qed.

Lemma C129_feeds_proof :
  (forall b v w, b_feed b v = b_feed b w <-> v = w) /\
  (forall P p q, pos_feed P p = pos_feed P q <-> pos_eqb p q = true) /\
  (forall d e, dir_feed d = dir_feed e <-> d = e) /\
  (forall g h : gridbool, gb_feed g = gb_feed h <-> g = h) /\
  (forall Item (feed : Item -> list hcall), (forall a b, feed a = feed b <-> a = b) -> (forall a b, length (feed a) = length (feed b)) ->
     forall g h : grid Item, grid_feed feed g = grid_feed feed h <-> g = h).
Proof.
  split; [|split; [|split; [|split]]].
  - intros b v w. unfold b_feed. split; [intros E; injection E as E; exact E | intros ->; reflexivity].
  - intros P [a b] [c d]. rewrite pos_eqb_eq. unfold pos_feed, b_feed. cbn [app fst snd]. split; [intros E; injection E as -> ->; reflexivity | intros E; injection E as -> ->; reflexivity].
  - intros d e. split; [|intros ->; reflexivity]. destruct d, e; cbn; intros E; first [reflexivity | discriminate E].
  - intros g h. split; [|intros ->; reflexivity]. unfold gb_feed. intros E. injection E as _ E. revert h E. induction g as [|w g IH]; intros [|w' h] E; cbn in E; try discriminate; [reflexivity |]. injection E as -> E. f_equal. apply IH. exact E.
  - intros Item feed HI HL g h. split; [|intros ->; reflexivity]. unfold grid_feed. intros E. injection E as EL E. apply Nat2Z.inj in EL. revert h EL E. induction g as [|a g IH]; intros [|b h] EL E; cbn [length flat_map] in *; try discriminate; [reflexivity |].
    assert (EA : feed a = feed b /\ flat_map feed g = flat_map feed h) by (apply app_same_length; [apply HL | exact E]).
    destruct EA as (EA & EB). apply HI in EA. subst b. f_equal. apply IH; [lia | exact EB].
Qed.

Section Tables.
  Context {V : Type} (hash : pos -> Z) (probe : nat -> Z -> list nat) (FAIR : fair probe).
  Notation at_ s i := (nth i s (@Empty V)).
  Definition w1 (s : list (slot V)) : Prop := forall i t p v, at_ s i = Full t p v -> t = tag_of (hash p) /\ exists l1 l2, probe (length s) (hash p) = l1 ++ i :: l2 /\ forall j, In j l1 -> at_ s j <> Empty.
  Definition w2 (s : list (slot V)) : Prop := forall i j t p v t' v', at_ s i = Full t p v -> at_ s j = Full t' p v' -> i = j.
  Definition repr (s : list (slot V)) (f : pos -> option V) : Prop := w1 s /\ w2 s /\ forall p v, f p = Some v <-> exists i t, at_ s i = Full t p v.
  Lemma fill_length : forall (s : list (slot V)) i x, length (fill s i x) = length s.
  Proof using Type. clear. induction s as [|y s IH]; intros [|i] x; cbn; auto. Qed.
  Lemma fill_nth : forall (s : list (slot V)) i x j, (i < length s)%nat -> at_ (fill s i x) j = if Nat.eqb j i then x else at_ s j.
  Proof using Type. clear. induction s as [|y s IH]; intros [|i] x [|j] H; cbn in *; try lia; auto. apply IH. lia. Qed.
  Lemma at_inside : forall (s : list (slot V)) i, at_ s i <> Empty -> (i < length s)%nat.
  Proof using Type. clear. intros s i H. destruct (Nat.lt_ge_cases i (length s)) as [L | L]; [exact L |]. rewrite nth_overflow in H by exact L. congruence. Qed.
  Lemma find_sound : forall s tag p l i v, find_in s tag p l = Some (i, v) -> In i l /\ exists t, at_ s i = Full t p v.
  Proof using Type.
    intros s tag p l i v. induction l as [|j l IH]; cbn [find_in]; [discriminate |]. destruct (at_ s j) as [| |t q w] eqn:E; [discriminate | intros H; destruct (IH H); split; [right|]; assumption |].
    destruct ((t =? tag) && pos_eqb q p) eqn:B; [|intros H; destruct (IH H); split; [right|]; assumption]. intros H. injection H as -> ->. apply andb_prop in B. destruct B as (_ & B). apply pos_eqb_eq in B. subst q. split; [left; reflexivity | exists t; exact E].
  Qed.
  Lemma find_at : forall s i t p v, w1 s -> w2 s -> at_ s i = Full t p v -> find hash probe s p = Some (i, v).
  Proof using Type.
    intros s i t p v W1 W2 E. destruct (W1 i t p v E) as (-> & l1 & l2 & Ep & H). unfold find. rewrite Ep. clear Ep. induction l1 as [|j l1 IH]; cbn [app find_in].
    - rewrite E, Z.eqb_refl, (proj2 (pos_eqb_eq p p) eq_refl). reflexivity.
    - pose proof (H j (or_introl eq_refl)) as Hj. destruct (at_ s j) as [| |t q w] eqn:Ej; [congruence | apply IH; intros k Hk; apply H; right; exact Hk |].
      destruct ((t =? tag_of (hash p)) && pos_eqb q p) eqn:B; [|apply IH; intros k Hk; apply H; right; exact Hk]. apply andb_prop in B. destruct B as (_ & B). apply pos_eqb_eq in B. subst q. pose proof (W2 i j _ _ _ _ _ E Ej) as <-. rewrite E in Ej. injection Ej as _ ->. reflexivity.
  Qed.
  Lemma repr_find : forall s f p, repr s f -> option_map snd (find hash probe s p) = f p /\ (forall i v, find hash probe s p = Some (i, v) -> exists t, at_ s i = Full t p v).
  Proof using Type.
    intros s f p (W1 & W2 & H). split; [|intros i v E; apply find_sound in E; apply E]. destruct (find hash probe s p) as [[i v]|] eqn:E; cbn [option_map snd].
    - apply find_sound in E. destruct E as (_ & t & E). symmetry. apply H. eauto.
    - destruct (f p) as [v|] eqn:Ef; [|reflexivity]. apply H in Ef. destruct Ef as (i & t & Ei). rewrite (find_at s i t p v W1 W2 Ei) in E. discriminate.
  Qed.
  Lemma repr_get : forall s f p, repr s f -> table_get hash probe s p = f p.
  Proof using Type. intros s f p R. apply (repr_find s f p R). Qed.
  (** Filling a slot with a key that is in no other slot. *)
  Lemma repr_fill : forall s f i p v, repr s f -> (i < length s)%nat -> (forall t q w, at_ s i = Full t q w -> q = p) -> (f p = None \/ exists t w, at_ s i = Full t p w) ->
    (exists l1 l2, probe (length s) (hash p) = l1 ++ i :: l2 /\ forall j, In j l1 -> at_ s j <> Empty) -> repr (fill s i (Full (tag_of (hash p)) p v)) (put f p (Some v)).
  Proof using Type.
    intros s f i p v (W1 & W2 & H) L HI HN (l1 & l2 & Ep & Hl).
    assert (NE : forall j, at_ s j <> Empty -> at_ (fill s i (Full (tag_of (hash p)) p v)) j <> Empty) by (intros j Hj; rewrite fill_nth by exact L; destruct (Nat.eqb j i); [discriminate | exact Hj]).
    assert (OTHER : forall j t w, at_ s j = Full t p w -> j = i). { intros j t w Ej. destruct HN as [HN | (t' & w' & Ei)]; [|exact (W2 _ _ _ _ _ _ _ Ej Ei)]. assert (K : f p = Some w) by (apply H; eauto). congruence. }
    split; [|split].
    - intros j t q w E. rewrite fill_length. rewrite fill_nth in E by exact L. destruct (Nat.eqb j i) eqn:B.
      + injection E as <- <- <-. apply Nat.eqb_eq in B. subst j. split; [reflexivity |]. exists l1, l2. split; [exact Ep |]. intros k Hk. apply NE, Hl, Hk.
      + destruct (W1 j t q w E) as (-> & k1 & k2 & Eq & Hk). split; [reflexivity |]. exists k1, k2. split; [exact Eq |]. intros k Hk'. apply NE, Hk, Hk'.
    - intros j k t q w t' w' Ej Ek. rewrite fill_nth in Ej, Ek by exact L. destruct (Nat.eqb j i) eqn:Bj, (Nat.eqb k i) eqn:Bk; try apply Nat.eqb_eq in Bj; try apply Nat.eqb_eq in Bk; [congruence | | |exact (W2 _ _ _ _ _ _ _ Ej Ek)].
      + injection Ej as <- <- <-. apply OTHER in Ek. congruence.
      + injection Ek as <- <- <-. apply OTHER in Ej. congruence.
    - intros q w. unfold put. destruct (pos_eqb p q) eqn:B.
      + apply pos_eqb_eq in B. subst q. split.
        * intros E. injection E as ->. exists i. eexists. rewrite fill_nth by exact L. rewrite Nat.eqb_refl. reflexivity.
        * intros (j & t & E). rewrite fill_nth in E by exact L. destruct (Nat.eqb j i) eqn:Bj; [injection E as _ ->; reflexivity |]. apply OTHER in E. subst j. rewrite Nat.eqb_refl in Bj. discriminate.
      + rewrite H. assert (Nq : p <> q) by (intros <-; rewrite (proj2 (pos_eqb_eq p p) eq_refl) in B; discriminate). split; intros (j & t & E).
        * exists j, t. rewrite fill_nth by exact L. destruct (Nat.eqb j i) eqn:Bj; [|exact E]. apply Nat.eqb_eq in Bj. subst j. apply HI in E. congruence.
        * rewrite fill_nth in E by exact L. destruct (Nat.eqb j i) eqn:Bj; [injection E as _ E _; congruence |]. eauto.
  Qed.
  Lemma free_sound : forall s l i, free_in s l = Some i -> (forall t q w, at_ s i <> Full t q w) /\ exists l1 l2, l = l1 ++ i :: l2 /\ forall j, In j l1 -> at_ s j <> Empty.
  Proof using Type.
    intros s l i. induction l as [|j l IH]; cbn [free_in]; [discriminate |]. destruct (at_ s j) as [| |t q w] eqn:E; [intros H; injection H as <-; split; [intros; congruence | exists [], l; split; [reflexivity | intros k []]] .. |].
    intros H. destruct (IH H) as (K1 & l1 & l2 & -> & K2). split; [exact K1 |]. exists (j :: l1), l2. split; [reflexivity |]. intros k [<- | Hk]; [congruence | apply K2, Hk].
  Qed.
  Lemma probe_in : forall n h i, In i (probe n h) <-> (i < n)%nat.
  Proof using FAIR. intros n h i. rewrite (Permutation_in' eq_refl (FAIR n h)). rewrite in_seq. lia. Qed.
  Lemma repr_place : forall s f i p v, repr s f -> f p = None -> free hash probe s p = Some i -> repr (place hash probe s (p, v)) (put f p (Some v)).
  Proof using FAIR.
    intros s f i p v R N E. unfold place. cbn [fst snd]. rewrite E. unfold free in E. pose proof (free_sound _ _ _ E) as (K1 & l1 & l2 & K2 & K3).
    assert (L : (i < length s)%nat) by (apply (probe_in (length s) (hash p)); rewrite K2; apply in_elt). apply repr_fill; [exact R | exact L | intros t q w Ei; destruct (K1 _ _ _ Ei) | left; exact N | eauto].
  Qed.
  Lemma items_in : forall (s : list (slot V)) p v, In (p, v) (items s) <-> exists i t, at_ s i = Full t p v.
  Proof using Type.
    intros s p v. unfold items. rewrite in_flat_map. split.
    - intros (x & Hx & K). apply (In_nth _ _ Empty) in Hx. destruct Hx as (i & _ & Hi). destruct x as [| |t q w]; [destruct K | destruct K |]. destruct K as [K | []]. injection K as -> ->. eauto.
    - intros (i & t & E). exists (Full t p v). split; [rewrite <- E; apply nth_In; apply at_inside; rewrite E; discriminate | left; reflexivity].
  Qed.
  Lemma items_nodup : forall (s : list (slot V)), w2 s -> NoDup (map fst (items s)).
  Proof using Type.
    induction s as [|x s IH]; intros W; [constructor |]. assert (W' : w2 s) by (intros i j t p v t' v' Ei Ej; pose proof (W (S i) (S j) t p v t' v' Ei Ej) as Q; injection Q as Q; exact Q). specialize (IH W'). cbn [items flat_map]. destruct x as [| |t p v]; [exact IH | exact IH |]. cbn [app map fst]. constructor; [|exact IH].
    intros K. apply in_map_iff in K. destruct K as ([q w] & Eq & K). cbn [fst] in Eq. subst q. apply (items_in s) in K. destruct K as (i & t' & Ei). pose proof (W 0%nat (S i) t p v t' w eq_refl Ei). discriminate.
  Qed.
  Lemma items_length : forall (s : list (slot V)), (length (items s) <= length s)%nat.
  Proof using Type. clear. induction s as [|x s IH]; [cbn; lia |]. cbn [items flat_map length]. rewrite app_length. fold (items s). destruct x; cbn [length]; lia. Qed.
  Lemma items_full : forall (s : list (slot V)), (forall i, (i < length s)%nat -> exists t p v, at_ s i = Full t p v) -> length (items s) = length s.
  Proof using Type. clear.
    induction s as [|x s IH]; intros H; [reflexivity |]. cbn [items flat_map length]. rewrite app_length. fold (items s). rewrite IH by (intros i L; apply (H (S i)); cbn; lia). destruct (H 0%nat ltac:(cbn; lia)) as (t & p & v & E). cbn in E. subst x. reflexivity.
  Qed.
  Lemma items_fill : forall (s : list (slot V)) i t p v, (i < length s)%nat -> (forall t q w, at_ s i <> Full t q w) -> length (items (fill s i (Full t p v))) = S (length (items s)).
  Proof using Type. clear.
    induction s as [|x s IH]; intros [|i] t p v L H; cbn [length fill] in *; try lia.
    - cbn [items flat_map]. fold (items s). destruct x; cbn; [reflexivity | reflexivity | destruct (H _ _ _ eq_refl)].
    - cbn [items flat_map]. fold (items s) (items (fill s i (Full t p v))). rewrite !app_length, IH; [lia | lia | intros t' q w; apply (H t' q w)].
  Qed.
  Lemma free_exists : forall (s : list (slot V)) p, (length (items s) < length s)%nat -> exists i, free hash probe s p = Some i.
  Proof using FAIR.
    intros s p L. destruct (free hash probe s p) as [i|] eqn:E; [eauto |]. exfalso. unfold free in E.
    assert (A : forall i, In i (probe (length s) (hash p)) -> exists t q v, at_ s i = Full t q v). { revert E. generalize (probe (length s) (hash p)). induction l as [|j l IH]; intros E i; [intros [] |]. cbn [free_in] in E. destruct (at_ s j) as [| |t q w] eqn:Ej; try discriminate. intros [<- | Hi]; [eauto | apply IH; assumption]. }
    rewrite items_full in L; [lia |]. intros i Hi. apply A. apply probe_in. exact Hi.
  Qed.
  Lemma place_count : forall (s : list (slot V)) pv, (length (items s) < length s)%nat -> length (items (place hash probe s pv)) = S (length (items s)) /\ length (place hash probe s pv) = length s.
  Proof using FAIR.
    intros s [p v] L. destruct (free_exists s p L) as (i & E). unfold place. cbn [fst snd]. rewrite E. unfold free in E. pose proof (free_sound _ _ _ E) as (K1 & l1 & l2 & K2 & _). rewrite fill_length. split; [|reflexivity].
    apply items_fill; [|exact K1]. apply (probe_in (length s) (hash p)). rewrite K2. apply in_elt.
  Qed.
  Definition puts (l : list (pos * V)) (f : pos -> option V) : pos -> option V := fold_left (fun f pv => put f (fst pv) (Some (snd pv))) l f.
  Lemma repr_places : forall l s f, repr s f -> NoDup (map fst l) -> (forall p, In p (map fst l) -> f p = None) -> (length (items s) + length l <= length s)%nat ->
    repr (fold_left (place hash probe) l s) (puts l f) /\ length (items (fold_left (place hash probe) l s)) = (length (items s) + length l)%nat /\ length (fold_left (place hash probe) l s) = length s.
  Proof using FAIR.
    induction l as [|[p v] l IH]; intros s f R ND HN L; cbn [fold_left puts length map fst snd] in *; [split; [exact R | split; lia] |]. inversion ND as [|? ? N1 N2]; subst.
    destruct (free_exists s p ltac:(lia)) as (i & E). destruct (place_count s (p, v) ltac:(lia)) as (C1 & C2). destruct (IH (place hash probe s (p, v)) (put f p (Some v))) as (K1 & K2 & K3).
    - eapply repr_place; [exact R | apply HN; left; reflexivity | exact E].
    - exact N2.
    - intros q Hq. unfold put. destruct (pos_eqb p q) eqn:B; [apply pos_eqb_eq in B; subst q; destruct (N1 Hq) | apply HN; right; exact Hq].
    - lia.
    - split; [exact K1 | lia].
  Qed.
  Lemma puts_in : forall l f p v, NoDup (map fst l) -> (puts l f p = Some v <-> In (p, v) l \/ ~ In p (map fst l) /\ f p = Some v).
  Proof using Type. clear.
    induction l as [|[q w] l IH]; intros f p v ND; cbn [puts fold_left map fst snd In]; [tauto |]. inversion ND as [|? ? N1 N2]; subst. fold (puts l (put f q (Some w))). rewrite IH by exact N2. unfold put. destruct (pos_eqb q p) eqn:B.
    - apply pos_eqb_eq in B. subst q. split.
      + intros [K | (_ & K)]; [left; right; exact K | injection K as ->; left; left; reflexivity].
      + intros [[K | K] | (K & _)]; [injection K as ->; right; auto | left; exact K | destruct (K (or_introl eq_refl))].
    - assert (Nq : q <> p) by (intros <-; rewrite (proj2 (pos_eqb_eq q q) eq_refl) in B; discriminate). split.
      + intros [K | (K1 & K2)]; [left; right; exact K | right; split; [intros [E | E]; [exact (Nq E) | exact (K1 E)] | exact K2]].
      + intros [[K | K] | (K1 & K2)]; [injection K as E _; congruence | left; exact K | right; split; [intros E; apply K1; right; exact E | exact K2]].
  Qed.
  Lemma repr_ext : forall s f g, (forall p, f p = g p) -> repr s f -> repr s g.
  Proof using Type. intros s f g E (W1 & W2 & H). split; [exact W1 |]. split; [exact W2 |]. intros p v. rewrite <- E. apply H. Qed.
  Lemma repr_empty : forall n, repr (repeat Empty n) (fun _ => None).
  Proof using Type. intros n. assert (E : forall i, at_ (repeat Empty n) i = Empty) by (intros i; apply nth_repeat). split; [intros i t p v K; rewrite E in K; discriminate |]. split; [intros i j t p v t' v' K; rewrite E in K; discriminate |]. intros p v. split; [discriminate | intros (i & t & K); rewrite E in K; discriminate]. Qed.
  Lemma items_empty : forall n, items (repeat (@Empty V) n) = [].
  Proof using Type. clear. induction n; cbn; auto. Qed.
  Lemma repr_rebuild : forall s f, repr s f -> repr (rebuild hash probe s) f /\ (length (items (rebuild hash probe s)) < length (rebuild hash probe s))%nat.
  Proof using FAIR.
    intros s f R. pose proof R as (W1 & W2 & H). unfold rebuild. set (n' := if Nat.ltb (length s) 4 then _ else _). pose proof (items_length s) as IL. assert (B : (length (items s) < n')%nat).
    { unfold n'. destruct (Nat.ltb_spec (length s) 4); [lia |]. destruct (Nat.leb_spec (S (length (items s))) (Nat.div (room (length s)) 2)) as [K | K]; [|lia].
      assert (room (length s) <= length s)%nat. { unfold room. destruct (Nat.ltb_spec (length s) 8); [lia |]. pose proof (Nat.div_mod (length s) 8). lia. }
      pose proof (Nat.div_le_upper_bound (room (length s)) 2 (room (length s))). lia. }
    clearbody n'. destruct (repr_places (items s) (repeat Empty n') (fun _ => None) (repr_empty n') (items_nodup s W2) ltac:(reflexivity)) as (K1 & K2 & K3).
    { rewrite items_empty, repeat_length. cbn [length]. lia. }
    rewrite K2, K3, items_empty, repeat_length. cbn [length]. split; [|lia]. eapply repr_ext; [|exact K1]. intros p. destruct (f p) as [v|] eqn:Ef.
    - apply (puts_in _ _ _ _ (items_nodup s W2)). left. apply items_in, H. exact Ef.
    - destruct (puts (items s) (fun _ => None) p) as [v|] eqn:Ep; [|reflexivity]. apply (puts_in _ _ _ _ (items_nodup s W2)) in Ep. destruct Ep as [Ep | (_ & Ep)]; [|discriminate]. apply items_in, H in Ep. congruence.
  Qed.
  Lemma repr_insert : forall s f p v, repr s f -> repr (table_insert hash probe s p v) (put f p (Some v)).
  Proof using FAIR.
    intros s f p v R. unfold table_insert. destruct (repr_find s f p R) as (E & K). destruct (find hash probe s p) as [[i w]|] eqn:Ef; cbn [option_map snd] in E.
    - destruct (K i w eq_refl) as (t & Ei). apply repr_fill; [exact R | apply at_inside; rewrite Ei; discriminate | intros t' q w' E'; congruence | right; eauto |]. destruct R as (W1 & _). destruct (W1 i t p w Ei) as (_ & Q). exact Q.
    - assert (RB : repr (place hash probe (rebuild hash probe s) (p, v)) (put f p (Some v))) by (destruct (repr_rebuild s f R) as (R' & L); destruct (free_exists _ p L) as (i & Ei); eapply repr_place; [exact R' | congruence | exact Ei]).
      destruct (free hash probe s p) as [i|] eqn:Efr; [|exact RB]. assert (RP : repr (place hash probe s (p, v)) (put f p (Some v))) by (eapply repr_place; [exact R | congruence | exact Efr]).
      destruct (at_ s i); [|exact RP | exact RP]. destruct (Nat.ltb _ _); assumption.
  Qed.
  Lemma repr_remove : forall s f p, repr s f -> repr (table_remove hash probe s p) (put f p None).
  Proof using Type.
    intros s f p R. unfold table_remove. destruct (repr_find s f p R) as (E & K). destruct (find hash probe s p) as [[i w]|]; cbn [option_map snd] in E.
    - destruct (K i w eq_refl) as (t & Ei). pose proof R as (W1 & W2 & H). assert (L : (i < length s)%nat) by (apply at_inside; rewrite Ei; discriminate).
      assert (NE : forall j, at_ s j <> Empty -> at_ (fill s i Deleted) j <> Empty) by (intros j Hj; rewrite fill_nth by exact L; destruct (Nat.eqb j i); [discriminate | exact Hj]).
      split; [|split].
      + intros j t' q w' Ej. rewrite fill_length. rewrite fill_nth in Ej by exact L. destruct (Nat.eqb j i); [discriminate |]. destruct (W1 j t' q w' Ej) as (-> & k1 & k2 & Eq & Hk). split; [reflexivity |]. exists k1, k2. split; [exact Eq |]. intros k Hk'. apply NE, Hk, Hk'.
      + intros j k t1 q w1' t2 w2' Ej Ek. rewrite fill_nth in Ej, Ek by exact L. destruct (Nat.eqb j i); [discriminate |]. destruct (Nat.eqb k i); [discriminate |]. exact (W2 _ _ _ _ _ _ _ Ej Ek).
      + intros q w'. unfold put. destruct (pos_eqb p q) eqn:B.
        * apply pos_eqb_eq in B. subst q. split; [discriminate |]. intros (j & t' & Ej). rewrite fill_nth in Ej by exact L. destruct (Nat.eqb j i) eqn:Bj; [discriminate |]. pose proof (W2 _ _ _ _ _ _ _ Ej Ei). subst j. rewrite Nat.eqb_refl in Bj. discriminate.
        * rewrite H. split; intros (j & t' & Ej).
          -- exists j, t'. rewrite fill_nth by exact L. destruct (Nat.eqb j i) eqn:Bj; [|exact Ej]. apply Nat.eqb_eq in Bj. subst j. rewrite Ei in Ej. injection Ej as _ <- _. rewrite (proj2 (pos_eqb_eq p p) eq_refl) in B. discriminate.
          -- rewrite fill_nth in Ej by exact L. destruct (Nat.eqb j i); [discriminate | eauto].
    - eapply repr_ext; [|exact R]. intros q. unfold put. destruct (pos_eqb p q) eqn:B; [|reflexivity]. apply pos_eqb_eq in B. subst q. symmetry. exact E.
  Qed.
End Tables.

Definition R_tset (hash : pos -> Z) (probe : nat -> Z -> list nat) (s : list (slot unit)) (f : pos -> bool) : Prop := repr hash probe s (fun p => if f p then Some tt else None).

Definition R_tmap {Item} (hash : pos -> Z) (probe : nat -> Z -> list nat) (m : list (slot Item) * Item) (f : pos -> Item) : Prop :=
  exists g, repr hash probe (fst m) g /\ forall p, f p = match g p with Some v => v | None => snd m end.

Lemma lawful_tset : forall hash probe P, fair probe -> lawful_set P (set_table hash probe) (R_tset hash probe).
Proof.
  intros hash probe P F. constructor; unfold R_tset; cbn [set_table sp_default sp_contains sp_insert sp_remove].
  - exists []. split; [reflexivity |]. apply (repr_empty hash probe 0).
  - intros s f p R _. rewrite (repr_get hash probe s _ p R). destruct (f p); reflexivity.
  - intros s f p R _. eexists. split; [reflexivity |]. eapply repr_ext; [|apply (repr_insert hash probe F s _ p tt R)]. intros q. unfold put. destruct (pos_eqb p q); reflexivity.
  - intros s f p R _. eexists. split; [reflexivity |]. eapply repr_ext; [|apply (repr_remove hash probe s _ p R)]. intros q. unfold put. destruct (pos_eqb p q); reflexivity.
Qed.

Lemma lawful_tmap : forall Item hash probe P, fair probe -> lawful_map P (@map_table Item hash probe) (R_tmap hash probe).
Proof.
  intros Item hash probe P F. constructor; unfold R_tmap; cbn [map_table mp_default mp_new mp_get mp_set fst snd].
  - intros d. exists (fun _ => None). split; [apply (repr_empty hash probe 0) | reflexivity].
  - intros d. exists (fun _ => None). split; [apply (repr_empty hash probe 0) | reflexivity].
  - intros [s d] f p (g & R & H) _. cbn [fst snd] in *. rewrite (repr_get hash probe s _ p R), H. destruct (g p); reflexivity.
  - intros [s d] f p v (g & R & H) _. cbn [fst snd] in *. eexists. split; [reflexivity |]. cbn [fst snd]. eexists. split; [apply (repr_insert hash probe F s g p v R) |]. intros q. unfold put. destruct (pos_eqb p q); [reflexivity | apply H].
Qed.

Lemma C129_tables_proof : forall P hash probe, fair probe ->
  (forall ops, Forall (fun o => valid P (set_op_pos o)) ops -> run_set_ops (set_table hash probe) [] ops = Ret (set_answers (fun _ => false) ops)) /\
  (forall Item (dflt : Item) ops, Forall (fun o => valid P (map_op_pos o)) ops ->
     run_map_ops (map_table hash probe) (mp_new (map_table hash probe) dflt) ops = Ret (map_answers (fun _ => dflt) ops)).
Proof.
  intros P hash probe F. split.
  - intros ops V. apply (lawful_set_runs P _ _ (lawful_tset hash probe P F)); [|exact V]. apply (repr_empty hash probe 0).
  - intros Item dflt ops V. apply (lawful_map_runs P _ _ (lawful_tmap Item hash probe P F)); [|exact V]. apply (lm_new _ _ _ (lawful_tmap Item hash probe P F)).
Qed.

Lemma in_use_fill : forall V (s : list (slot V)) i x, (i < length s)%nat -> (in_use (fill s i x) + (if is_empty (nth i s Empty) then 0 else 1) = in_use s + (if is_empty x then 0 else 1))%nat.
Proof.
  intros V s. unfold in_use. induction s as [|y s IH]; intros [|i] x L; cbn [length fill nth filter] in *; try lia.
  - destruct x, y; cbn [is_empty length]; lia.
  - specialize (IH i x ltac:(lia)). destruct y; cbn [length]; lia.
Qed.

Lemma in_use_full : forall V (s : list (slot V)), (forall i, (i < length s)%nat -> nth i s Empty <> Empty) -> in_use s = length s.
Proof.
  intros V s. unfold in_use. induction s as [|y s IH]; intros H; [reflexivity |]. cbn [filter length]. pose proof (H 0%nat ltac:(cbn; lia)) as H0. cbn in H0. destruct y; [destruct (H0 eq_refl) | |]; cbn [length]; rewrite IH; try reflexivity; intros i L; apply (H (S i)); cbn; lia.
Qed.

Lemma in_use_repeat : forall V n, in_use (repeat (@Empty V) n) = 0%nat.
Proof. intros V n. unfold in_use. induction n; [reflexivity |]. exact IHn. Qed.

Definition table_ok {V} (s : list (slot V)) : Prop := s = [] \/ (in_use s <= room (length s))%nat /\ exists k, length s = (4 * 2 ^ k)%nat.

Lemma room_small : forall k, (room (4 * 2 ^ k) < 4 * 2 ^ k)%nat /\ (8 * room (4 * 2 ^ k) <= 7 * (4 * 2 ^ k))%nat /\ (S (room (4 * 2 ^ k)) <= room (2 * (4 * 2 ^ k)))%nat.
Proof.
  intros [|k]; [cbn; lia |]. assert (P : (1 <= 2 ^ k)%nat) by (pose proof (Nat.pow_nonzero 2 k); lia). rewrite Nat.pow_succ_r'. replace (4 * (2 * 2 ^ k))%nat with (2 ^ k * 8)%nat by lia. unfold room.
  destruct (Nat.ltb_spec (2 ^ k * 8) 8); [lia |]. destruct (Nat.ltb_spec (2 * (2 ^ k * 8)) 8); [lia |]. rewrite Nat.div_mul by lia. replace (2 * (2 ^ k * 8))%nat with ((2 * 2 ^ k) * 8)%nat by lia. rewrite Nat.div_mul by lia. lia.
Qed.

Lemma place_use : forall V hash probe (s : list (slot V)) pv, fair probe -> (in_use (place hash probe s pv) <= S (in_use s))%nat /\ length (place hash probe s pv) = length s.
Proof.
  intros V hash probe s [p v] F. unfold place. cbn [fst snd]. destruct (free hash probe s p) as [i|] eqn:E; [|lia]. rewrite fill_length. split; [|reflexivity].
  unfold free in E. destruct (free_sound _ _ _ E) as (_ & l1 & l2 & K & _). assert (L : (i < length s)%nat) by (apply (probe_in probe F (length s) (hash p)); rewrite K; apply in_elt).
  pose proof (in_use_fill V s i (Full (tag_of (hash p)) p v) L) as U. cbn [is_empty] in U. destruct (is_empty (nth i s Empty)); lia.
Qed.

Lemma places_use : forall V hash probe l (s : list (slot V)), fair probe -> (in_use (fold_left (place hash probe) l s) <= in_use s + length l)%nat /\ length (fold_left (place hash probe) l s) = length s.
Proof.
  intros V hash probe l. induction l as [|pv l IH]; intros s F; [cbn [fold_left length]; lia |]. cbn [fold_left length]. destruct (place_use V hash probe s pv F) as (A & B). destruct (IH (place hash probe s pv) F) as (C & D). lia.
Qed.

Lemma items_use : forall V (s : list (slot V)), (length (items s) <= in_use s)%nat.
Proof. intros V s. unfold items, in_use. induction s as [|y s IH]; [cbn; lia |]. cbn [flat_map filter]. rewrite app_length. destruct y; cbn [length]; lia. Qed.

Lemma rebuild_use : forall V hash probe (s : list (slot V)) pv, fair probe -> table_ok s -> table_ok (place hash probe (rebuild hash probe s) pv).
Proof.
  intros V hash probe s pv F T. unfold rebuild. set (n' := if Nat.ltb (length s) 4 then _ else _). right.
  destruct (places_use V hash probe (items s) (repeat Empty n') F) as (A & B). destruct (place_use V hash probe (fold_left (place hash probe) (items s) (repeat Empty n')) pv F) as (C & D). rewrite in_use_repeat in A. rewrite repeat_length in B. rewrite D, B.
  assert (N : exists k, n' = (4 * 2 ^ k)%nat /\ (S (length (items s)) <= room n')%nat).
  { destruct T as [-> | (U & k & E)]; [exists 0%nat; cbn; split; lia |]. pose proof (items_use V s) as IU. destruct (room_small k) as (R1 & R2 & R3). unfold n'. rewrite E in *.
    destruct (Nat.ltb_spec (4 * 2 ^ k) 4) as [Z | Z]; [pose proof (Nat.pow_nonzero 2 k); lia |]. destruct (Nat.leb_spec (S (length (items s))) (Nat.div (room (4 * 2 ^ k)) 2)) as [K | K].
    - exists k. split; [reflexivity |]. pose proof (Nat.div_le_upper_bound (room (4 * 2 ^ k)) 2 (room (4 * 2 ^ k))). lia.
    - exists (S k). split; [rewrite Nat.pow_succ_r'; lia | lia]. }
  destruct N as (k & EN & RN). split; [lia | exists k; exact EN].
Qed.

Lemma find_inside : forall V hash probe (s : list (slot V)) p i v, fair probe -> find hash probe s p = Some (i, v) -> (i < length s)%nat /\ nth i s Empty <> Empty.
Proof.
  intros V hash probe s p i v F E. unfold find in E. assert (K : forall l, find_in s (tag_of (hash p)) p l = Some (i, v) -> In i l /\ nth i s Empty <> Empty).
  { intros l. induction l as [|j l IH]; cbn [find_in]; [discriminate |]. destruct (nth j s Empty) as [| |t q w] eqn:Ej; [discriminate | intros Hf; destruct (IH Hf); split; [right|]; assumption |].
    destruct ((t =? tag_of (hash p)) && pos_eqb q p); [intros Hf; injection Hf as <- <-; rewrite Ej; split; [left; reflexivity | discriminate] | intros Hf; destruct (IH Hf); split; [right|]; assumption]. }
  destruct (K _ E) as (I & N). split; [apply (probe_in probe F (length s) (hash p)); exact I | exact N].
Qed.

Lemma table_ok_insert : forall V hash probe (s : list (slot V)) p v, fair probe -> table_ok s -> table_ok (table_insert hash probe s p v).
Proof.
  intros V hash probe s p v F T. unfold table_insert. destruct (find hash probe s p) as [[i w]|] eqn:Ef.
  - destruct (find_inside V hash probe s p i w F Ef) as (L & N). destruct T as [-> | (U & k & E)]; [cbn in L; lia |]. right. rewrite fill_length. pose proof (in_use_fill V s i (Full (tag_of (hash p)) p v) L) as Q. destruct (nth i s Empty); [destruct (N eq_refl) | |]; cbn [is_empty] in Q; (split; [lia | exists k; exact E]).
  - pose proof (rebuild_use V hash probe s (p, v) F T) as RB. destruct (free hash probe s p) as [i|] eqn:Efr; [|exact RB].
    assert (PL : forall x, x = in_use (place hash probe s (p, v)) -> (is_empty (nth i s Empty) = false -> x <= in_use s)%nat).
    { intros x -> H. unfold place. cbn [fst snd]. rewrite Efr. unfold free in Efr. destruct (free_sound _ _ _ Efr) as (_ & l1 & l2 & K & _). assert (L : (i < length s)%nat) by (apply (probe_in probe F (length s) (hash p)); rewrite K; apply in_elt).
      pose proof (in_use_fill V s i (Full (tag_of (hash p)) p v) L) as Q. rewrite H in Q. cbn [is_empty] in Q. lia. }
    destruct (place_use V hash probe s (p, v) F) as (A & B).
    destruct T as [-> | (U & k & E)]; [exfalso; unfold free in Efr; destruct (free_sound _ _ _ Efr) as (_ & l1 & l2 & K & _); assert (L : (i < 0)%nat) by (apply (probe_in probe F 0%nat (hash p)); change 0%nat with (length (@nil (slot V))); rewrite K; apply in_elt); lia |].
    destruct (nth i s Empty) eqn:Ei; [|right; rewrite B; split; [specialize (PL _ eq_refl eq_refl); lia | exists k; exact E] ..].
    destruct (Nat.ltb_spec (in_use s) (room (length s))); [|exact RB]. right. rewrite B. split; [lia | exists k; exact E].
Qed.

Lemma table_ok_remove : forall V hash probe (s : list (slot V)) p, fair probe -> table_ok s -> table_ok (table_remove hash probe s p).
Proof.
  intros V hash probe s p F T. unfold table_remove. destruct (find hash probe s p) as [[i w]|] eqn:Ef; [|exact T].
  destruct (find_inside V hash probe s p i w F Ef) as (L & N). destruct T as [-> | (U & k & E)]; [cbn in L; lia |]. right. rewrite fill_length. pose proof (in_use_fill V s i Deleted L) as Q. destruct (nth i s Empty); [destruct (N eq_refl) | |]; cbn [is_empty] in Q; (split; [lia | exists k; exact E]).
Qed.

Lemma C129_room_proof : forall V hash probe (ops : list (table_op V)), fair probe ->
  let s := run_table hash probe ops in
  s = [] \/
  (exists k, length s = (4 * 2 ^ k)%nat) /\ (8 * length (filter (fun x => negb (is_empty x)) s) <= 7 * length s)%nat /\
  forall p, exists i, In i (probe (length s) (hash p)) /\ nth_error s i = Some Empty.
Proof.
  intros V hash probe ops F s. assert (T : table_ok s).
  { unfold s, run_table. assert (T0 : table_ok (@nil (slot V))) by (left; reflexivity). revert T0. generalize (@nil (slot V)). induction ops as [|o ops IH]; intros s0 T0; [exact T0 |]. cbn [fold_left]. apply IH. destruct o; [apply table_ok_insert | apply table_ok_remove]; assumption. }
  destruct T as [E | (U & k & E)]; [left; exact E | right]. destruct (room_small k) as (R1 & R2 & _). split; [exists k; exact E |].
  assert (EU : length (filter (fun x => negb (is_empty x)) s) = in_use s) by (unfold in_use; f_equal; apply filter_ext; intros []; reflexivity). rewrite EU. rewrite <- E in *. split; [lia |].
  intros p. assert (D : (exists i, (i < length s)%nat /\ nth i s Empty = Empty) \/ forall i, (i < length s)%nat -> nth i s Empty <> Empty).
  { clear. induction s as [|y s IH]; [right; cbn; lia |]. destruct IH as [(i & L & Hi) | H]; [left; exists (S i); cbn; split; [lia | exact Hi] |]. destruct y; [left; exists 0%nat; cbn; split; [lia | reflexivity] | |]; right; intros [|i] L; cbn; try discriminate; apply H; cbn in L; lia. }
  destruct D as [(i & L & Hi) | H]; [|rewrite (in_use_full V s H) in U; lia]. exists i. split; [apply (probe_in probe F); exact L |]. rewrite <- Hi. apply nth_error_nth'. exact L.
Qed.

Lemma linear_fair : fair linear.
Proof.
  intros n h. unfold linear. set (k := Z.to_nat _). rewrite Permutation_app_comm. rewrite firstn_skipn. reflexivity.
Qed.

Lemma C129_bfs_hashed_proof : forall H probe P D W fuel go orig found, fair probe -> post_wf P -> valid P orig -> go_inside P go ->
  bfs_hashed H probe P D fuel go orig found = bfs_on OnHash P D W fuel go orig found.
Proof.
  intros H probe P D W fuel go orig found F WF V HG. unfold bfs_hashed. cbn [bfs_on].
  rewrite (bf_search_path_sim P D _ _ (lawful_tset _ probe P F) WF go HG _ _ (lawful_tmap _ _ probe P F)) by exact V.
  symmetry. apply (bf_search_path_sim P D _ _ (lawful_hset P) WF go HG _ _ (lawful_hmap _ _)). exact V.
Qed.

Lemma C129_ucs_hashed_proof : forall H probe P D fuel go orig dest, fair probe -> post_wf P -> valid P orig -> valid P dest -> go_inside P (move_of go) ->
  ucs_hashed H probe P D fuel go orig dest = ucs_on OnHash P D fuel go orig dest.
Proof.
  intros H probe P D fuel go orig dest F WF V Vd HG. unfold ucs_hashed. cbn [ucs_on].
  rewrite (ucs_search_path_sim P D _ _ _ _ (lawful_tmap _ _ probe P F) (lawful_tmap _ _ probe P F) WF go HG) by assumption.
  symmetry. apply (ucs_search_path_sim P D _ _ _ _ (lawful_hmap _ _) (lawful_hmap _ _) WF go HG); assumption.
Qed.

Lemma C129_astar_hashed_proof : forall H probe P D fuel go orig dest, fair probe -> post_wf P -> valid P orig -> valid P dest -> go_inside P go ->
  astar_hashed H probe P D fuel go orig dest = astar_on OnHash P D fuel go orig dest.
Proof.
  intros H probe P D fuel go orig dest F WF V Vd HG. unfold astar_hashed. cbn [astar_on].
  rewrite (astar_search_path_sim P D _ _ _ _ (lawful_tmap _ _ probe P F) (lawful_tmap _ _ probe P F) WF go HG) by assumption.
  symmetry. apply (astar_search_path_sim P D _ _ _ _ (lawful_hmap _ _) (lawful_hmap _ _) WF go HG); assumption.
Qed.
