(** BtreeProofs.v -- a B-tree behaves like the sorted list of its entries. *)

From Coq Require Import ZArith List Bool Arith Lia Sorted.
From Verif Require Import Rust BoundedInt Dir PosT Pos Grid Gridbool SetMap Btree SpecBtree Lib PosTProofs2 SetMapProofs.
Import ListNotations.
Open Scope nat_scope.

(** ** Lists *)

Lemma Forall_first : forall A (Q : A -> Prop) n l, Forall Q l -> Forall Q (firstn n l).
Proof. intros A Q n l H. rewrite <- (firstn_skipn n l) in H. apply Forall_app in H. apply H. Qed.
Lemma Forall_rest : forall A (Q : A -> Prop) n l, Forall Q l -> Forall Q (skipn n l).
Proof. intros A Q n l H. rewrite <- (firstn_skipn n l) in H. apply Forall_app in H. apply H. Qed.

Lemma cut_app : forall A (a b : list A) x i, length a = i -> cut i (a ++ x :: b) = Ret (a, x, b).
Proof. intros A a b x i <-. unfold cut. rewrite skipn_app, skipn_all, Nat.sub_diag, firstn_app, firstn_all, Nat.sub_diag. cbn. rewrite app_nil_r. reflexivity. Qed.

Lemma break : forall A (l : list A) i, i < length l -> exists a x b, l = a ++ x :: b /\ length a = i.
Proof.
  intros A l i H. exists (firstn i l). destruct (skipn i l) as [|x b] eqn:E.
  - apply (f_equal (@length A)) in E. rewrite skipn_length in E. cbn in E. lia.
  - exists x, b. split; [rewrite <- E, firstn_skipn; reflexivity | apply firstn_length_le; lia].
Qed.

Lemma first_app_le : forall A (a b : list A) n, n <= length a -> firstn n (a ++ b) = firstn n a.
Proof. intros A a b n H. rewrite firstn_app. replace (n - length a) with 0 by lia. cbn. apply app_nil_r. Qed.
Lemma rest_app_le : forall A (a b : list A) n, n <= length a -> skipn n (a ++ b) = skipn n a ++ b.
Proof. intros A a b n H. rewrite skipn_app. replace (n - length a) with 0 by lia. reflexivity. Qed.
Lemma first_app_ge : forall A (a b : list A) n, length a <= n -> firstn n (a ++ b) = a ++ firstn (n - length a) b.
Proof. intros A a b n H. rewrite firstn_app, firstn_all2 by exact H. reflexivity. Qed.
Lemma rest_app_ge : forall A (a b : list A) n, length a <= n -> skipn n (a ++ b) = skipn (n - length a) b.
Proof. intros A a b n H. rewrite skipn_app, skipn_all2 by exact H. reflexivity. Qed.

Lemma SS_app : forall (R : pos -> pos -> Prop) (a b : list pos), StronglySorted R (a ++ b) <->
  StronglySorted R a /\ StronglySorted R b /\ Forall (fun x => Forall (R x) b) a.
Proof.
  induction a as [|x a IH]; intros b; cbn [app].
  - split; [intros H; split; [constructor |]; split; [exact H | constructor] | intros (_ & H & _); exact H].
  - split.
    + intros H. inversion H as [|? ? H1 H2]; subst. apply IH in H1 as (A & B & C). apply Forall_app in H2 as (D & E). split; [constructor; assumption |]. split; [exact B |]. constructor; assumption.
    + intros (A & B & C). inversion A; subst. inversion C; subst. constructor; [apply IH; auto |]. apply Forall_app. auto.
Qed.

(** ** Weaving *)

Section Weave.
Context {A : Type}.
Fixpoint wl (ks : list A) (cs : list (list A)) : list A :=
  match ks, cs with k :: ks', c :: cs' => c ++ k :: wl ks' cs' | _, _ => [] end.
Fixpoint wr (ks : list A) (cs : list (list A)) : list A :=
  match ks, cs with k :: ks', c :: cs' => k :: c ++ wr ks' cs' | _, _ => [] end.

Lemma weave_right : forall (ks : list A) c cs, length ks = length cs -> weave ks (c :: cs) = c ++ wr ks cs.
Proof.
  induction ks as [|k ks IH]; intros c cs H; destruct cs as [|c' cs]; cbn in H; try discriminate; [reflexivity |].
  change (weave (k :: ks) (c :: c' :: cs)) with (c ++ k :: weave ks (c' :: cs)). rewrite IH by lia. reflexivity.
Qed.

Lemma weave_at : forall (ks1 ks2 : list A) cs1 c cs2, length ks1 = length cs1 -> length ks2 = length cs2 ->
  weave (ks1 ++ ks2) (cs1 ++ c :: cs2) = wl ks1 cs1 ++ c ++ wr ks2 cs2.
Proof.
  induction ks1 as [|k ks1 IH]; intros ks2 cs1 c cs2 H1 H2; destruct cs1 as [|c1 cs1]; cbn in H1; try discriminate.
  - apply weave_right. exact H2.
  - cbn [app weave wl]. rewrite IH by lia. rewrite <- app_assoc. reflexivity.
Qed.

Lemma weave_split : forall (ks1 : list A) k ks2 cs1 cs2, (cs1 = [] /\ cs2 = []) \/ length cs1 = S (length ks1) ->
  weave (ks1 ++ k :: ks2) (cs1 ++ cs2) = weave ks1 cs1 ++ k :: weave ks2 cs2.
Proof.
  intros ks1 k ks2 cs1 cs2 [(-> & ->) | H]; [reflexivity |]. revert cs1 H.
  induction ks1 as [|k1 ks1 IH]; intros cs1 H; destruct cs1 as [|c1 cs1]; cbn in H; try discriminate.
  - destruct cs1; [|discriminate]. cbn. rewrite app_nil_r. reflexivity.
  - cbn [app weave]. rewrite IH by lia. rewrite <- app_assoc. reflexivity.
Qed.
End Weave.

(** ** Sorted entries *)

Section Trees.
Context {V : Type} (cmp : pos -> pos -> comparison) (TO : total_order cmp).
Notation kv := (pos * V)%type.

Definition ltb (p q : pos) : bool := match cmp p q with Lt => true | _ => false end.
Definition lt_by (p q : pos) : Prop := ltb p q = true.

Lemma ltb_lt : forall p q, ltb p q = true <-> cmp p q = Lt.
Proof. intros p q. unfold ltb. destruct (cmp p q); split; congruence. Qed.
Lemma cmp_refl : forall p, cmp p p = Eq.
Proof. intros p. apply TO. reflexivity. Qed.
Lemma ltb_trans : forall a b c, ltb a b = true -> ltb b c = true -> ltb a c = true.
Proof. intros a b c. rewrite !ltb_lt. apply TO. Qed.
Lemma ltb_neq : forall a b, ltb a b = true -> pos_eqb a b = false.
Proof. intros a b H. apply pos_eqb_neq. intros ->. apply ltb_lt in H. rewrite cmp_refl in H. discriminate. Qed.
Lemma ltb_tri : forall a b, ltb a b = false -> pos_eqb a b = false -> ltb b a = true.
Proof.
  intros a b H1 H2. apply ltb_lt. rewrite (to_flip _ TO). apply pos_eqb_neq in H2. unfold ltb in H1.
  destruct (cmp a b) eqn:E; [apply TO in E; contradiction | discriminate | reflexivity].
Qed.

(** Sorted lists of entries, as in SetMap.v. *)
Fixpoint lget (m : list kv) (p : pos) : option V :=
  match m with
  | [] => None
  | (q, v) :: m' => if ltb p q then None else if pos_eqb p q then Some v else lget m' p
  end.
Fixpoint lset (m : list kv) (p : pos) (v : V) : list kv :=
  match m with
  | [] => [(p, v)]
  | (q, u) :: m' => if ltb p q then (p, v) :: m else if pos_eqb p q then (p, v) :: m' else (q, u) :: lset m' p v
  end.

Lemma by_trans : forall s p q, lt_by p q -> Forall (lt_by q) s -> Forall (lt_by p) s.
Proof. intros s p q H F. eapply Forall_impl; [|exact F]. intros a Ha. eapply ltb_trans; eassumption. Qed.

Lemma lget_ok : forall (m : list kv) p, StronglySorted lt_by (map fst m) -> lget m p = assoc_get m p.
Proof.
  intros m p. induction m as [|[x u] m IH]; intros H; [reflexivity |]. cbn in *. inversion H as [|? ? H1 H2]; subst.
  destruct (ltb p x) eqn:E.
  - rewrite (ltb_neq _ _ E). assert (F : Forall (lt_by p) (map fst m)) by (eapply by_trans; [exact E | exact H2]). clear - F TO.
    induction m as [|[y w] m IH]; [reflexivity |]. inversion F as [|? ? F1 F2]; subst. cbn. rewrite (ltb_neq _ _ F1). apply IH. exact F2.
  - destruct (pos_eqb p x); [reflexivity | apply IH; exact H1].
Qed.

Lemma lset_ok : forall (m : list kv) p v, StronglySorted lt_by (map fst m) ->
  StronglySorted lt_by (map fst (lset m p v)) /\
  (forall q, assoc_get (lset m p v) q = if pos_eqb p q then Some v else assoc_get m q) /\
  (forall a, Forall (lt_by a) (map fst m) -> lt_by a p -> Forall (lt_by a) (map fst (lset m p v))).
Proof.
  intros m p v. induction m as [|[x u] m IH]; intros H; cbn.
  - split; [repeat constructor |].
    split; [intros q; rewrite (pos_eqb_sym q p); reflexivity | intros a _ Ha; repeat constructor; exact Ha].
  - cbn in H. inversion H as [|? ? H1 H2]; subst. destruct (IH H1) as (IH1 & IH2 & IH3).
    destruct (ltb p x) eqn:E1; [|destruct (pos_eqb p x) eqn:E2]; cbn [map fst].
    + split; [constructor; [exact H | constructor; [exact E1 | eapply by_trans; [exact E1 | exact H2]]] |].
      split; [intros q; cbn; rewrite (pos_eqb_sym q p); reflexivity | intros a Fa Ha; constructor; assumption].
    + apply pos_eqb_eq in E2. subst x. split; [exact H |].
      split; [intros q; cbn; rewrite (pos_eqb_sym q p); destruct (pos_eqb p q); reflexivity | auto].
    + pose proof (ltb_tri _ _ E1 E2) as L. split; [constructor; [exact IH1 | apply IH3; [exact H2 | exact L]] |].
      split.
      * intros q. cbn. rewrite IH2. destruct (pos_eqb q x) eqn:Eq, (pos_eqb p q) eqn:Ep; try reflexivity.
        apply pos_eqb_eq in Eq, Ep. subst. rewrite pos_eqb_refl in E2. discriminate.
      * intros a Fa Ha. inversion Fa; subst. constructor; auto.
Qed.

Definition below (p : pos) (l : list kv) := Forall (fun k => lt_by (fst k) p) l.
Definition above (p : pos) (l : list kv) := Forall (fun k => lt_by p (fst k)) l.
Definition sorted (l : list kv) := StronglySorted lt_by (map fst l).
Definition del (p : pos) (l : list kv) := filter (fun k => negb (pos_eqb p (fst k))) l.

Lemma sorted_app : forall a b, sorted (a ++ b) <-> sorted a /\ sorted b /\ Forall (fun x => above (fst x) b) a.
Proof. intros a b. unfold sorted, above. rewrite map_app, SS_app, Forall_map. split; intros (H1 & H2 & H3); (split; [exact H1 |]; split; [exact H2 |]); (eapply Forall_impl; [|exact H3]); intros x Hx; [apply (proj1 (Forall_map fst _ b)) in Hx | apply (proj2 (Forall_map fst _ b))]; exact Hx. Qed.
Lemma sorted_cons : forall k l, sorted (k :: l) <-> sorted l /\ above (fst k) l.
Proof. intros k l. unfold sorted, above. cbn. split; [intros H; inversion H; subst; split; [assumption | apply (proj1 (Forall_map fst _ l)); assumption] | intros (H1 & H2); constructor; [exact H1 | apply (proj2 (Forall_map fst _ l)); exact H2]]. Qed.
Lemma sorted_mid : forall a k b, sorted (a ++ k :: b) -> below (fst k) a /\ above (fst k) b /\ sorted a /\ sorted b.
Proof.
  intros a k b H. apply sorted_app in H as (H1 & H2 & H3). apply sorted_cons in H2 as (H2 & H4). split; [|auto].
  eapply Forall_impl; [|exact H3]. intros x Hx. inversion Hx; subst. assumption.
Qed.
Lemma lt_trans : forall a b c, lt_by a b -> lt_by b c -> lt_by a c.
Proof. exact ltb_trans. Qed.
Lemma above_trans : forall p q l, lt_by p q -> above q l -> above p l.
Proof. intros p q l H. apply Forall_impl. intros a. apply lt_trans. exact H. Qed.
Lemma below_trans' : forall p q l, lt_by p q -> below p l -> below q l.
Proof. intros p q l H. apply Forall_impl. intros a K. eapply lt_trans; [exact K | exact H]. Qed.
Lemma lt_neq : forall a b, lt_by a b -> pos_eqb b a = false.
Proof. intros a b H. rewrite pos_eqb_sym. apply ltb_neq. exact H. Qed.
Lemma lt_asym : forall a b, lt_by a b -> ltb b a = false.
Proof. intros a b H. destruct (ltb b a) eqn:E; [|reflexivity]. pose proof (lt_trans _ _ _ H E) as K. apply ltb_neq in K. rewrite pos_eqb_refl in K. discriminate. Qed.

Lemma set_skip : forall p v a (b : list kv), below p a -> lset (a ++ b) p v = a ++ lset b p v.
Proof. intros p v a b H. induction H as [|[q u] a Hq H IH]; [reflexivity |]. cbn [app lset]. cbn in Hq. rewrite (lt_asym _ _ Hq), (lt_neq _ _ Hq), IH. reflexivity. Qed.
Lemma set_stop : forall p v a (b : list kv), above p b -> lset (a ++ b) p v = lset a p v ++ b.
Proof.
  intros p v a b H. induction a as [|[q u] a IH].
  - destruct H as [|[q u] b Hq H]; [reflexivity |]. cbn in Hq. cbn. rewrite Hq. reflexivity.
  - cbn [app lset]. destruct (ltb p q); [reflexivity |]. destruct (pos_eqb p q); [reflexivity |]. rewrite IH. reflexivity.
Qed.
Lemma get_skip : forall p a (b : list kv), below p a -> lget (a ++ b) p = lget b p.
Proof. intros p a b H. induction H as [|[q u] a Hq H IH]; [reflexivity |]. cbn [app lget]. cbn in Hq. rewrite (lt_asym _ _ Hq), (lt_neq _ _ Hq), IH. reflexivity. Qed.
Lemma get_stop : forall p a (b : list kv), above p b -> lget (a ++ b) p = lget a p.
Proof.
  intros p a b H. induction a as [|[q u] a IH].
  - destruct H as [|[q u] b Hq H]; [reflexivity |]. cbn in Hq. cbn. rewrite Hq. reflexivity.
  - cbn [app lget]. destruct (ltb p q); [reflexivity |]. destruct (pos_eqb p q); [reflexivity |]. exact IH.
Qed.
Lemma del_app : forall p (a b : list kv), del p (a ++ b) = del p a ++ del p b.
Proof. intros. apply filter_app. Qed.
Lemma del_below : forall p (a : list kv), below p a -> del p a = a.
Proof. intros p a H. induction H as [|x a Hx H IH]; [reflexivity |]. cbn. rewrite (lt_neq _ _ Hx). cbn. unfold del in IH. rewrite IH. reflexivity. Qed.
Lemma del_above : forall p (a : list kv), above p a -> del p a = a.
Proof. intros p a H. induction H as [|x a Hx H IH]; [reflexivity |]. cbn. unfold lt_by in Hx. rewrite (ltb_neq _ _ Hx). cbn. unfold del in IH. rewrite IH. reflexivity. Qed.

(** ** Searching a node *)

Lemma find_key_spec : forall p (ks : list kv), let '(i, found) := find_key cmp p ks in
  if found then exists a v b, ks = a ++ (p, v) :: b /\ length a = i
  else exists a b, ks = a ++ b /\ length a = i /\ below p a /\ match b with [] => True | k :: _ => lt_by p (fst k) end.
Proof.
  intros p ks. induction ks as [|[k v] ks IH]; cbn [find_key].
  - exists [], []. repeat split; constructor.
  - destruct (cmp p k) eqn:E.
    + apply TO in E. subst k. exists [], v, ks. split; reflexivity.
    + exists [], ((k, v) :: ks). repeat split; [constructor | apply ltb_lt; exact E].
    + destruct (find_key cmp p ks) as [i found]. destruct found.
      * destruct IH as (a & w & b & -> & <-). exists ((k, v) :: a), w, b. split; reflexivity.
      * destruct IH as (a & b & -> & <- & H1 & H2). exists ((k, v) :: a), b. repeat split; [|exact H2]. constructor; [|exact H1]. cbn. apply ltb_lt. rewrite (to_flip _ TO), E. reflexivity.
Qed.

Lemma wl_below : forall p (ks : list kv) cs, length ks = length cs -> sorted (wl ks cs) -> below p ks -> below p (wl ks cs).
Proof.
  intros p ks. induction ks as [|k ks IH]; intros cs H S B; destruct cs as [|c cs]; cbn in H; try discriminate; [constructor |].
  cbn [wl] in *. inversion B as [|? ? B1 B2]; subst. destruct (sorted_mid _ _ _ S) as (S1 & S2 & S3 & S4). apply Forall_app. split; [eapply below_trans'; [exact B1 | exact S1] |]. constructor; [exact B1 |]. apply IH; auto.
Qed.
Lemma wr_above : forall p (ks : list kv) cs, length ks = length cs -> sorted (wr ks cs) -> match ks with [] => True | k :: _ => lt_by p (fst k) end -> above p (wr ks cs).
Proof.
  intros p ks cs H S B. destruct ks as [|k ks], cs as [|c cs]; cbn in H; try discriminate; [constructor |].
  cbn [wr] in *. apply sorted_cons in S as (S1 & S2). constructor; [exact B |]. eapply above_trans; [exact B | exact S2].
Qed.

(** ** Shapes *)

Fixpoint ok (lo : nat) (h : nat) (t : node V) : Prop :=
  lo <= length (kvs t) <= 11 /\
  match h with O => edges t = [] | S h' => length (edges t) = S (length (kvs t)) /\ Forall (ok 5 h') (edges t) end.
Definition okc (h : nat) (cs : list (node V)) (n : nat) : Prop :=
  match h with O => cs = [] | S h' => length cs = S n /\ Forall (ok 5 h') cs end.

Lemma ok_iff : forall lo h t, ok lo h t <-> lo <= length (kvs t) <= 11 /\ okc h (edges t) (length (kvs t)).
Proof. intros lo h t. destruct h; reflexivity. Qed.
Lemma ok_node : forall lo h ks cs, ok lo h (Node ks cs) <-> lo <= length ks <= 11 /\ okc h cs (length ks).
Proof. intros. apply ok_iff. Qed.

Lemma okc_split : forall h cs n m, okc h cs n -> m < n -> okc h (firstn (S m) cs) m /\ okc h (skipn (S m) cs) (n - S m).
Proof.
  intros [|h] cs n m H L; unfold okc in *; [subst; split; [rewrite firstn_nil | rewrite skipn_nil]; reflexivity |].
  destruct H as (H1 & H2). rewrite firstn_length, skipn_length. split; (split; [lia |]); [apply Forall_first | apply Forall_rest]; exact H2.
Qed.
Lemma okc_app : forall h c1 c2 n1 n2, okc h c1 n1 -> okc h c2 n2 -> okc h (c1 ++ c2) (S (n1 + n2)).
Proof.
  intros [|h] c1 c2 n1 n2 H1 H2; unfold okc in *; [subst; reflexivity |]. destruct H1 as (H1 & F1), H2 as (H2 & F2). rewrite app_length. split; [lia |]. apply Forall_app. auto.
Qed.

Lemma entries_split : forall ks1 k ks2 h cs1 cs2 n, okc h cs1 n -> n = length ks1 -> (h = 0 -> cs2 = []) ->
  weave (ks1 ++ k :: ks2) (map (@entries V) (cs1 ++ cs2)) = weave ks1 (map entries cs1) ++ k :: weave ks2 (map entries cs2).
Proof.
  intros ks1 k ks2 h cs1 cs2 n O -> H. rewrite map_app. apply weave_split. destruct h as [|h]; cbn in O; [left; subst; rewrite (H eq_refl); split; reflexivity |].
  right. rewrite map_length. apply O.
Qed.

Lemma entries_hit : forall a k b h cs, okc h cs (length (a ++ k :: b)) ->
  weave (a ++ k :: b) (map (@entries V) cs) = weave a (map entries (firstn (S (length a)) cs)) ++ k :: weave b (map entries (skipn (S (length a)) cs)).
Proof.
  intros a k b h cs O. destruct (okc_split _ _ _ (length a) O) as (O1 & O2); [rewrite app_length; cbn; lia |]. rewrite <- (firstn_skipn (S (length a)) cs) at 1.
  apply (entries_split a k b h _ _ _ O1 eq_refl). intros ->. exact O2.
Qed.

(** ** Lookup *)

Lemma node_get_ok : forall h lo t p, ok lo h t -> sorted (entries t) -> node_get cmp h t p = Ret (lget (entries t) p).
Proof.
  induction h as [|h IH]; intros lo [ks cs] p O S; pose proof (find_key_spec p ks) as F; apply ok_node in O as (L & O); cbn [kvs edges] in L, O; cbn [node_get kvs edges]; destruct (find_key cmp p ks) as [i found]; destruct found.
  - destruct F as (a & v & b & -> & E). rewrite cut_app by exact E. cbn in O. subst cs. cbn [bind entries map weave] in *. apply sorted_mid in S as (S1 & S2 & _). cbn in *. rewrite get_skip by exact S1. cbn. destruct (ltb p p) eqn:K; [apply ltb_neq in K; rewrite pos_eqb_refl in K; discriminate |]. rewrite pos_eqb_refl. reflexivity.
  - destruct F as (a & b & -> & E & B1 & B2). cbn in O. subst cs. cbn [entries map weave] in *. rewrite get_skip by exact B1. destruct b as [|k b]; [reflexivity |]. change (Ret None = Ret (lget ([] ++ k :: b) p)). rewrite get_stop; [reflexivity |]. apply sorted_app in S as (_ & S & _). apply sorted_cons in S as (_ & S). constructor; [exact B2 | eapply above_trans; eassumption].
  - destruct F as (a & v & b & -> & E). rewrite cut_app by exact E. cbn [bind].
    cbn [entries] in *. rewrite (entries_hit _ _ _ (Datatypes.S h) _ O) in S |- *. apply sorted_mid in S as (S1 & S2 & _). cbn in *. rewrite get_skip by exact S1. cbn. destruct (ltb p p) eqn:K; [apply ltb_neq in K; rewrite pos_eqb_refl in K; discriminate |]. rewrite pos_eqb_refl. reflexivity.
  - destruct F as (a & b & -> & E & B1 & B2). destruct O as (O1 & O2). rewrite app_length in O1, L. destruct (break _ cs i) as (ca & c & cb & -> & Ec); [lia |]. rewrite cut_app by exact Ec. cbn [bind].
    rewrite app_length in O1. cbn [length] in O1. cbn [entries] in *. rewrite map_app in *. cbn [map] in *. rewrite weave_at in * by (rewrite map_length; lia).
    apply sorted_app in S as (S1 & S & _). apply sorted_app in S as (S2 & S3 & _).
    rewrite get_skip by (apply wl_below; [rewrite map_length; lia | exact S1 | exact B1]). rewrite get_stop by (apply wr_above; [rewrite map_length; lia | exact S3 | exact B2]).
    apply Forall_app in O2 as (_ & O2). inversion O2 as [|? ? Oc _]; subst. apply (IH _ _ _ Oc S2).
Qed.

(** ** Insertion *)

Definition okedge (h : nat) (edge : list (node V)) : Prop := match h with O => edge = [] | S h' => exists r, edge = [r] /\ ok 5 h' r end.

Lemma okc_insert : forall h cs n i edge, okc h cs n -> i <= n -> okedge h edge -> okc h (firstn (S i) cs ++ edge ++ skipn (S i) cs) (S n).
Proof.
  intros [|h] cs n i edge O L E; unfold okc, okedge in *; [subst; rewrite firstn_nil, skipn_nil; reflexivity |].
  destruct O as (O1 & O2), E as (r & -> & Or). rewrite !app_length, firstn_length, skipn_length. cbn [length]. split; [lia |].
  apply Forall_app. split; [apply Forall_first; exact O2 |]. constructor; [exact Or | apply Forall_rest; exact O2].
Qed.

Lemma insert_fit_ok : forall ks cs i kv edge h, okc h cs (length ks) -> i <= length ks -> length ks <= 10 -> okedge h edge ->
  insert_fit ks cs i kv edge = Ret (Node (firstn i ks ++ kv :: skipn i ks) (firstn (S i) cs ++ edge ++ skipn (S i) cs)) /\
  ok (S (length ks)) h (Node (firstn i ks ++ kv :: skipn i ks) (firstn (S i) cs ++ edge ++ skipn (S i) cs)).
Proof.
  intros ks cs i kv edge h O L1 L2 E. assert (K : length (firstn i ks ++ kv :: skipn i ks) = S (length ks)) by (rewrite app_length, firstn_length; cbn [length]; rewrite skipn_length; lia).
  split; [unfold insert_fit, fit_node, CAPACITY; rewrite K; destruct (Nat.leb_spec (S (length ks)) 11); [reflexivity | lia] |].
  apply ok_node. rewrite K. split; [lia |]. apply okc_insert; assumption.
Qed.

Lemma ok_weaken : forall lo lo' h t, ok lo h t -> lo' <= lo -> ok lo' h t.
Proof. intros lo lo' h t O L. apply ok_iff in O as (L' & O). apply ok_iff. split; [lia | exact O]. Qed.

Lemma insert_node_ok : forall ks cs i kv edge h lo, okc h cs (length ks) -> i <= length ks -> lo <= length ks <= 11 -> okedge h edge ->
  exists g, insert_node ks cs i kv edge = Ret g /\
    let all := weave (firstn i ks ++ kv :: skipn i ks) (map entries (firstn (S i) cs ++ edge ++ skipn (S i) cs)) in
    match g with
    | Fit t => ok lo h t /\ entries t = all
    | Split l mid r => ok 5 h l /\ ok 5 h r /\ entries l ++ mid :: entries r = all
    end.
Proof.
  intros ks cs i kv edge h lo O L1 L2 E. unfold insert_node, CAPACITY. destruct (Nat.ltb_spec (length ks) 11) as [H | H].
  - destruct (insert_fit_ok ks cs i kv edge h O L1 ltac:(lia) E) as (E1 & E2). rewrite E1. cbn [bind]. eexists. split; [reflexivity |]. cbv zeta. split; [eapply ok_weaken; [exact E2 | lia] | reflexivity].
  - assert (N : length ks = 11) by lia. unfold splitpoint.
    assert (LEFT : forall m, i <= m -> 4 <= m <= 5 -> exists g, (
      '(k1, mid, k2) <- cut m ks ;; l <- insert_fit k1 (firstn (S m) cs) i kv edge ;; Ret (Split l mid (Node k2 (skipn (S m) cs)))) = Ret g /\
      match g with Fit t => False | Split l mid r => ok 5 h l /\ ok 5 h r /\ entries l ++ mid :: entries r = weave (firstn i ks ++ kv :: skipn i ks) (map entries (firstn (S i) cs ++ edge ++ skipn (S i) cs)) end).
    { intros m M1 M2. destruct (break _ ks m) as (k1 & mid & k2 & -> & Ek); [lia |]. rewrite cut_app by exact Ek. cbn [bind]. rewrite app_length in *. cbn [length] in *.
      destruct (okc_split _ _ _ m O ltac:(lia)) as (O1 & O2). destruct (insert_fit_ok k1 (firstn (S m) cs) i kv edge h) as (E1 & E2); [rewrite Ek; exact O1 | lia | lia | exact E |]. rewrite E1. cbn [bind]. eexists. split; [reflexivity |]. cbv beta iota.
      split; [eapply ok_weaken; [exact E2 | lia] |]. split; [apply ok_node; split; [lia |]; replace (length k2) with (length k1 + S (length k2) - S m) by lia; exact O2 |].
      rewrite (first_app_le _ k1) by lia. rewrite (rest_app_le _ k1) by lia.
      assert (C : firstn (S i) cs ++ edge ++ skipn (S i) cs = (firstn (S i) (firstn (S m) cs) ++ edge ++ skipn (S i) (firstn (S m) cs)) ++ skipn (S m) cs).
      { rewrite <- !app_assoc. rewrite firstn_firstn, Nat.min_l by lia. f_equal. f_equal. destruct (Nat.le_gt_cases (length cs) (S m)) as [K | K].
        - rewrite (firstn_all2 (n := S m) cs), (skipn_all2 (n := S m) cs), app_nil_r by exact K. reflexivity.
        - rewrite <- rest_app_le by (rewrite firstn_length; lia). rewrite firstn_skipn. reflexivity. }
      rewrite C. cbn [entries]. symmetry. rewrite (app_comm_cons (skipn i k1)). rewrite (app_assoc (firstn i k1)).
      apply (entries_split _ mid k2 h _ _ (S (length k1))); [| rewrite app_length, firstn_length; cbn [length]; rewrite skipn_length; lia | intros ->; cbn in O2; exact O2].
      apply okc_insert; [rewrite Ek; exact O1 | lia | exact E]. }
    assert (RIGHT : forall m, m < i -> 5 <= m <= 6 -> exists g, (
      '(k1, mid, k2) <- cut m ks ;; r <- insert_fit k2 (skipn (S m) cs) (i - S m) kv edge ;; Ret (Split (Node k1 (firstn (S m) cs)) mid r)) = Ret g /\
      match g with Fit t => False | Split l mid r => ok 5 h l /\ ok 5 h r /\ entries l ++ mid :: entries r = weave (firstn i ks ++ kv :: skipn i ks) (map entries (firstn (S i) cs ++ edge ++ skipn (S i) cs)) end).
    { intros m M1 M2. destruct (break _ ks m) as (k1 & mid & k2 & -> & Ek); [lia |]. rewrite cut_app by exact Ek. cbn [bind]. rewrite app_length in *. cbn [length] in *.
      destruct (okc_split _ _ _ m O ltac:(lia)) as (O1 & O2). replace (length k1 + S (length k2) - S m) with (length k2) in O2 by lia. destruct (insert_fit_ok k2 (skipn (S m) cs) (i - S m) kv edge h) as (E1 & E2); [exact O2 | lia | lia | exact E |]. rewrite E1. cbn [bind]. eexists. split; [reflexivity |]. cbv beta iota.
      split; [apply ok_node; split; [lia | rewrite Ek; exact O1] |]. split; [eapply ok_weaken; [exact E2 | lia] |].
      rewrite (first_app_ge _ k1) by lia. rewrite (rest_app_ge _ k1) by lia. replace (i - length k1) with (S (i - S m)) by lia. rewrite firstn_cons, skipn_cons.
      assert (C : firstn (S i) cs ++ edge ++ skipn (S i) cs = firstn (S m) cs ++ firstn (S (i - S m)) (skipn (S m) cs) ++ edge ++ skipn (S (i - S m)) (skipn (S m) cs)).
      { destruct h as [|h]; [cbn in O; subst cs; reflexivity |]. destruct O as (O & _).
        rewrite <- (firstn_skipn (S m) cs) at 1 2. assert (Q : length (firstn (S m) cs) = S m) by (rewrite firstn_length; lia). rewrite first_app_ge, rest_app_ge by lia. rewrite Q. replace (S i - S m) with (S (i - S m)) by lia. rewrite <- app_assoc. reflexivity. }
      rewrite C. cbn [entries]. symmetry. rewrite <- app_assoc. cbn [app].
      apply (entries_split _ mid _ h _ _ (length k1)); [rewrite Ek; exact O1 | reflexivity | intros ->; unfold okc in O2; unfold okedge in E; rewrite O2, E; rewrite firstn_nil, skipn_nil; reflexivity]. }
    destruct (Nat.ltb_spec i 5) as [C1 | C1]; [|destruct (Nat.eqb_spec i 5) as [C2 | C2]; [|destruct (Nat.eqb_spec i 6) as [C3 | C3]]].
    + destruct (LEFT 4 ltac:(lia) ltac:(lia)) as (g & Eg & Hg). cbv beta iota zeta. rewrite Eg. exists g. split; [reflexivity |]. destruct g; [contradiction | exact Hg].
    + destruct (LEFT 5 ltac:(lia) ltac:(lia)) as (g & Eg & Hg). cbv beta iota zeta. rewrite Eg. exists g. split; [reflexivity |]. destruct g; [contradiction | exact Hg].
    + destruct (RIGHT 5 ltac:(lia) ltac:(lia)) as (g & Eg & Hg). cbv beta iota zeta. subst i. change (6 - 6) with 0 in Eg. rewrite Eg. exists g. split; [reflexivity |]. destruct g; [contradiction | exact Hg].
    + destruct (RIGHT 6 ltac:(lia) ltac:(lia)) as (g & Eg & Hg). cbv beta iota zeta. rewrite Eg. exists g. split; [reflexivity |]. destruct g; [contradiction | exact Hg].
Qed.

Lemma set_hit : forall p u v (a b : list kv), below p a -> lset (a ++ (p, u) :: b) p v = a ++ (p, v) :: b.
Proof. intros p u v a b H. rewrite set_skip by exact H. cbn. destruct (ltb p p) eqn:K; [apply ltb_neq in K; rewrite pos_eqb_refl in K; discriminate |]. rewrite pos_eqb_refl. reflexivity. Qed.

Lemma node_insert_ok : forall h lo t p v, ok lo h t -> sorted (entries t) ->
  exists g, node_insert cmp h t p v = Ret g /\
    match g with
    | Fit t' => ok lo h t' /\ entries t' = lset (entries t) p v
    | Split l mid r => ok 5 h l /\ ok 5 h r /\ entries l ++ mid :: entries r = lset (entries t) p v
    end.
Proof.
  intros h lo t p v. revert lo t. induction h as [|h IH]; intros lo [ks cs] O S; pose proof (find_key_spec p ks) as F; apply ok_node in O as (L & O); cbn [kvs edges] in L, O; cbn [node_insert kvs edges]; destruct (find_key cmp p ks) as [i found]; destruct found.
  - destruct F as (a & u & b & -> & E). rewrite cut_app by exact E. cbn [bind]. eexists. split; [reflexivity |]. cbv beta iota. cbn in O. subst cs. cbn [fst entries map weave] in *. rewrite app_length in L. split; [apply ok_node; rewrite app_length; split; [exact L | reflexivity] |].
    apply sorted_mid in S as (S1 & S2 & _). rewrite set_hit by exact S1. reflexivity.
  - destruct F as (a & b & -> & E & B1 & B2). rewrite app_length in L.
    destruct (insert_node_ok (a ++ b) cs i (p, v) [] 0 lo O) as (g & Eg & Hg); [rewrite app_length; lia | rewrite app_length; lia | reflexivity |]. exists g. split; [exact Eg |].
    assert (K : weave (firstn i (a ++ b) ++ (p, v) :: skipn i (a ++ b)) (map entries (firstn (Datatypes.S i) cs ++ [] ++ skipn (Datatypes.S i) cs)) = lset (entries (Node (a ++ b) cs)) p v).
    { cbn in O. subst cs. rewrite firstn_nil, skipn_nil. cbn [entries map weave app] in *. rewrite set_skip by exact B1. rewrite first_app_le, rest_app_le by lia. rewrite <- E, firstn_all, skipn_all. cbn [app]. f_equal. destruct b as [|[k u] b]; [reflexivity |]. cbn in *. unfold lt_by in B2. rewrite B2. reflexivity. }
    cbv zeta in Hg. rewrite K in Hg. exact Hg.
  - destruct F as (a & u & b & -> & E). rewrite cut_app by exact E. cbn [bind]. eexists. split; [reflexivity |]. cbv beta iota. cbn [fst].
    split; [apply ok_node; rewrite app_length in *; split; [exact L | exact O] |]. cbn [entries] in *. rewrite (entries_hit _ _ _ (Datatypes.S h) _ O) in S |- *. apply sorted_mid in S as (S1 & S2 & _). rewrite set_hit by exact S1. apply (entries_hit _ _ _ (Datatypes.S h)). rewrite app_length in *. exact O.
  - destruct F as (a & b & -> & E & B1 & B2). destruct O as (O1 & O2). rewrite app_length in O1, L. destruct (break _ cs i) as (ca & c & cb & -> & Ec); [lia |]. rewrite cut_app by exact Ec. cbn [bind].
    rewrite app_length in O1. cbn [length] in O1. cbn [entries] in *. rewrite map_app in S |- *. cbn [map] in S |- *. rewrite weave_at in S |- * by (rewrite map_length; lia).
    apply sorted_app in S as (S1 & S & _). apply sorted_app in S as (S2 & S3 & _).
    rewrite set_skip by (apply wl_below; [rewrite map_length; lia | exact S1 | exact B1]). rewrite set_stop by (apply wr_above; [rewrite map_length; lia | exact S3 | exact B2]).
    apply Forall_app in O2 as (Oa & O2). inversion O2 as [|? ? Oc Ob]; subst. destruct (IH _ _ Oc S2) as (g & Eg & Hg). rewrite Eg. cbn [bind]. destruct g as [c' | l mid r].
    + destruct Hg as (H1 & H2). eexists. split; [reflexivity |]. cbv beta iota. split.
      * apply ok_node. rewrite app_length. split; [exact L |]. split; [rewrite app_length; cbn [length]; lia |]. apply Forall_app. split; [exact Oa |]. constructor; assumption.
      * cbn [entries]. rewrite map_app. cbn [map]. rewrite weave_at by (rewrite map_length; lia). rewrite H2. reflexivity.
    + destruct Hg as (H1 & H2 & H3). destruct (insert_node_ok (a ++ b) (ca ++ l :: cb) (length a) mid [r] (Datatypes.S h) lo) as (g & Eg' & Hg).
      * rewrite app_length. split; [rewrite app_length; cbn [length]; lia |]. apply Forall_app. split; [exact Oa |]. constructor; assumption.
      * rewrite app_length. lia.
      * rewrite app_length. exact L.
      * exists r. split; [reflexivity | exact H2].
      * exists g. split; [exact Eg' |].
        assert (K : weave (firstn (length a) (a ++ b) ++ mid :: skipn (length a) (a ++ b)) (map entries (firstn (Datatypes.S (length a)) (ca ++ l :: cb) ++ [r] ++ skipn (Datatypes.S (length a)) (ca ++ l :: cb))) = wl a (map entries ca) ++ lset (entries c) p v ++ wr b (map entries cb)).
        { rewrite first_app_le, rest_app_le by lia. rewrite firstn_all, skipn_all. cbn [app]. rewrite first_app_ge, rest_app_ge by lia. replace (Datatypes.S (length a) - length ca) with 1 by lia. cbn [firstn skipn]. rewrite <- app_assoc. cbn [app]. rewrite map_app. cbn [map].
          rewrite weave_at by (cbn [length]; rewrite map_length; lia). cbn [wr]. rewrite <- H3. rewrite <- !app_assoc. cbn [app]. reflexivity. }
        cbv zeta in Hg. rewrite K in Hg. exact Hg.
Qed.

(** ** Removal *)

Lemma fit_ok : forall (ks : list kv) cs, length ks <= 11 -> fit_node ks cs = Ret (Node ks cs).
Proof. intros ks cs H. unfold fit_node, CAPACITY. destruct (Nat.leb_spec (length ks) 11); [reflexivity | lia]. Qed.

(** Two neighbours [l] and [r] with the entry [k] between them, and what replaces them. *)
Lemma rebalance_ok : forall h ka pk kb ca l r cb (fl : bool), length ka = length ca -> length kb = length cb ->
  (if fl then ok 5 h l /\ ok 4 h r /\ len r = 4 else ok 4 h l /\ ok 5 h r /\ len l = 4) ->
  exists ks' mids, rebalance (ka ++ pk :: kb) (ca ++ l :: r :: cb) (length ka) fl = Ret (Node ks' (ca ++ mids ++ cb)) /\
    length ks' = length ka + length kb + (length mids - 1) /\ 1 <= length mids <= 2 /\ Forall (ok 5 h) mids /\
    weave ks' (map entries (ca ++ mids ++ cb)) = weave (ka ++ pk :: kb) (map entries (ca ++ l :: r :: cb)).
Proof.
  intros h ka pk kb ca [kl cl] [kr cr] cb fl La Lb H. unfold rebalance, CAPACITY, MIN_LEN, len. cbn [kvs edges]. rewrite cut_app by reflexivity. cbn [bind]. rewrite cut_app by (symmetry; exact La). cbn [bind]. change (cut 0 (Node kr cr :: cb)) with (Ret (@nil (node V), Node kr cr, cb)). cbn [bind]. cbv beta iota zeta. unfold len. cbn [kvs edges].
  assert (EL : weave (ka ++ pk :: kb) (map entries (ca ++ Node kl cl :: Node kr cr :: cb)) = wl ka (map entries ca) ++ (weave kl (map entries cl) ++ pk :: weave kr (map entries cr)) ++ wr kb (map entries cb)).
  { rewrite map_app. cbn [map]. rewrite weave_at by (cbn [length]; rewrite map_length; lia). cbn [wr entries]. rewrite <- !app_assoc. cbn [app]. reflexivity. }
  rewrite EL. clear EL.
  assert (HH : okc h cl (length kl) /\ okc h cr (length kr) /\ 4 <= length kl <= 11 /\ 4 <= length kr <= 11 /\ (if fl then 5 <= length kl /\ length kr = 4 else 5 <= length kr /\ length kl = 4)).
  { destruct fl; destruct H as (H1 & H2 & H3); apply ok_node in H1 as (A1 & A2); apply ok_node in H2 as (B1 & B2); unfold len in H3; cbn [kvs edges] in *; repeat split; try lia; assumption. }
  clear H. destruct HH as (Ol & Or & Ll & Lr & H).
  destruct (Nat.leb_spec (length kl + 1 + length kr) 11) as [C | C].
  - rewrite fit_ok by (rewrite app_length; cbn [length]; lia). cbn [bind]. exists (ka ++ kb), [Node (kl ++ pk :: kr) (cl ++ cr)]. split; [reflexivity |]. split; [rewrite app_length; cbn [length]; lia |]. split; [cbn [length]; lia |]. split.
    + constructor; [|constructor]. apply ok_node. rewrite app_length. cbn [length]. split; [lia |]. rewrite Nat.add_succ_r. apply okc_app; assumption.
    + cbn [app]. rewrite map_app. cbn [map]. rewrite weave_at by (rewrite map_length; lia). cbn [entries]. rewrite (entries_split kl pk kr h cl cr (length kl) Ol eq_refl); [reflexivity |]. intros ->. exact Or.
  - destruct fl.
    + destruct H as (H1 & H2). destruct (break _ kl (length kl - (5 - length kr))) as (k1 & k & k2 & -> & E); [lia |]. rewrite cut_app by exact E. cbn [bind]. rewrite app_length in *. cbn [length] in *.
      rewrite fit_ok by (rewrite app_length; cbn [length]; lia). cbn [bind]. destruct (okc_split _ _ _ (length k1) Ol ltac:(lia)) as (O1 & O2). replace (length k1 + S (length k2) - S (length k1)) with (length k2) in O2 by lia.
      eexists (ka ++ k :: kb), [_; _]. split; [reflexivity |]. split; [rewrite app_length; cbn [length]; lia |]. split; [cbn [length]; lia |]. split.
      * constructor; [|constructor; [|constructor]]; apply ok_node; [split; [lia | exact O1] |]. rewrite app_length. cbn [length]. split; [lia |]. rewrite Nat.add_succ_r. apply okc_app; assumption.
      * cbn [app]. rewrite map_app. cbn [map]. rewrite weave_at by (cbn [length]; rewrite map_length; lia). cbn [wr entries]. rewrite (entries_split k2 pk kr h _ cr (length k2) O2 eq_refl) by (intros ->; exact Or).
        rewrite (entries_hit k1 k k2 h cl) by (rewrite app_length; cbn [length]; exact Ol). repeat (rewrite <- !app_assoc; cbn [app]). reflexivity.
    + destruct H as (H1 & H2). destruct (break _ kr (5 - length kl - 1)) as (k1 & k & k2 & -> & E); [lia |]. rewrite cut_app by exact E. cbn [bind]. rewrite app_length in *. cbn [length] in *.
      rewrite fit_ok by (rewrite app_length; cbn [length]; lia). cbn [bind]. replace (5 - length kl) with (S (length k1)) by lia. destruct (okc_split _ _ _ (length k1) Or ltac:(lia)) as (O1 & O2). replace (length k1 + S (length k2) - S (length k1)) with (length k2) in O2 by lia.
      eexists (ka ++ k :: kb), [_; _]. split; [reflexivity |]. split; [rewrite app_length; cbn [length]; lia |]. split; [cbn [length]; lia |]. split.
      * constructor; [|constructor; [|constructor]]; apply ok_node; [|split; [lia | exact O2]]. rewrite app_length. cbn [length]. split; [lia |]. rewrite Nat.add_succ_r. apply okc_app; assumption.
      * cbn [app]. rewrite map_app. cbn [map]. rewrite weave_at by (cbn [length]; rewrite map_length; lia). cbn [wr entries]. rewrite (entries_split kl pk k1 h cl _ (length kl) Ol eq_refl) by (intros ->; exact O1).
        rewrite (entries_hit k1 k k2 h cr) by (rewrite app_length; cbn [length]; exact Or). repeat (rewrite <- !app_assoc; cbn [app]). reflexivity.
Qed.

Lemma fix_child_ok : forall h ks ca c cb lo, lo <= length ks <= 11 -> 1 <= lo -> length (ca ++ c :: cb) = S (length ks) -> Forall (ok 5 h) ca -> ok 4 h c -> Forall (ok 5 h) cb ->
  exists t, fix_child ks (ca ++ c :: cb) (length ca) = Ret t /\ ok (lo - 1) (S h) t /\ entries t = weave ks (map entries (ca ++ c :: cb)).
Proof.
  intros h ks ca c cb lo L L0 Lc Fa Oc Fb. unfold fix_child, MIN_LEN. rewrite cut_app by reflexivity. cbn [bind]. rewrite app_length in Lc. cbn [length] in Lc. destruct (Nat.leb_spec 5 (len c)) as [C | C].
  - eexists. split; [reflexivity |]. split; [|reflexivity]. apply ok_node. split; [lia |]. split; [rewrite app_length; cbn [length]; lia |]. apply Forall_app. split; [exact Fa |]. constructor; [|exact Fb]. apply ok_iff in Oc as (O1 & O2). apply ok_iff. split; [unfold len in C; lia | exact O2].
  - assert (L4 : len c = 4) by (apply ok_iff in Oc as (O1 & _); unfold len in *; lia). destruct (length ca) as [|j] eqn:Ej.
    + apply length_zero_iff_nil in Ej. subst ca. destruct ks as [|k ks]; [cbn in *; lia |]. destruct cb as [|r cb]; [cbn in *; lia |]. inversion Fb; subst.
      destruct (rebalance_ok h [] k ks [] c r cb false) as (ks' & mids & E1 & E2 & E3 & E4 & E5); [reflexivity | cbn in *; lia | auto |]. cbn [app length] in *. rewrite E1. eexists. split; [reflexivity |]. split; [|exact E5].
      apply ok_node. split; [lia |]. split; [rewrite app_length; lia |]. apply Forall_app. auto.
    + destruct (break _ ca j) as (ca' & l & e & -> & Ea); [lia |]. rewrite app_length in *. cbn [length] in *. destruct e; [|cbn in *; lia]. apply Forall_app in Fa as (Fa & Fl). inversion Fl; subst.
      destruct (break _ ks (length ca')) as (ka & k & kb & -> & Ek); [lia |]. rewrite app_length in *. cbn [length] in *.
      destruct (rebalance_ok h ka k kb ca' l c cb true) as (ks' & mids & E1 & E2 & E3 & E4 & E5); [lia | lia | auto |]. rewrite <- app_assoc. cbn [app]. rewrite Ek in E1. rewrite E1. eexists. split; [reflexivity |]. split; [|exact E5].
      apply ok_node. split; [lia |]. split; [rewrite !app_length; lia |]. apply Forall_app. split; [exact Fa |]. apply Forall_app. auto.
Qed.

Lemma pop_last_ok : forall h lo t, ok lo h t -> 1 <= lo -> exists t' k, pop_last h t = Ret (t', k) /\ ok (lo - 1) h t' /\ entries t = entries t' ++ [k].
Proof.
  induction h as [|h IH]; intros lo [ks cs] O L0; apply ok_node in O as (L & O); cbn [kvs edges] in L, O; cbn [pop_last]; unfold len; cbn [kvs edges].
  - destruct (break _ ks (length ks - 1)) as (a & k & b & -> & E); [lia |]. rewrite cut_app by exact E. cbn [bind]. rewrite app_length in *. cbn [length] in *. destruct b; [|cbn in *; lia]. cbn [length] in *. eexists _, _. split; [reflexivity |]. cbn in O. subst cs. split; [apply ok_node; split; [lia | reflexivity] | reflexivity].
  - destruct O as (O1 & O2). destruct (break _ cs (length ks)) as (ca & c & cb & -> & E); [lia |]. rewrite cut_app by exact E. cbn [bind]. rewrite app_length in O1. cbn [length] in O1. destruct cb; [|cbn in *; lia]. apply Forall_app in O2 as (Oa & Oc). inversion Oc as [|? ? Oc' _]; subst.
    destruct (IH _ _ Oc' ltac:(lia)) as (c' & k & E1 & E2 & E3). rewrite E1. cbn [bind]. destruct (fix_child_ok h ks ca c' [] lo) as (t & F1 & F2 & F3); [exact L | exact L0 | rewrite app_length; cbn [length]; lia | exact Oa | exact E2 | constructor |].
    rewrite E in F1. rewrite F1. cbn [bind]. eexists _, _. split; [reflexivity |]. split; [exact F2 |]. rewrite F3. cbn [entries]. rewrite !map_app. cbn [map]. pose proof (weave_at ks [] (map (@entries V) ca)) as W. rewrite app_nil_r in W. rewrite !W by (rewrite ?map_length; reflexivity || lia). cbn [wr]. rewrite !app_nil_r, E3, app_assoc. reflexivity.
Qed.

Lemma node_remove_ok : forall h lo t p, ok lo h t -> (h = 0 \/ 1 <= lo) -> sorted (entries t) ->
  exists t', node_remove cmp h t p = Ret t' /\ ok (lo - 1) h t' /\ entries t' = del p (entries t).
Proof.
  intros h lo t p. revert lo t. induction h as [|h IH]; intros lo [ks cs] O L0 S; pose proof (find_key_spec p ks) as F; apply ok_node in O as (L & O); cbn [kvs edges] in L, O; cbn [node_remove kvs edges]; destruct (find_key cmp p ks) as [i found]; destruct found.
  - destruct F as (a & u & b & -> & E). rewrite cut_app by exact E. cbn [bind]. eexists. split; [reflexivity |]. cbn in O. subst cs. cbn [entries map weave] in *. rewrite app_length in L. cbn [length] in L. split; [apply ok_node; rewrite app_length; split; [lia | reflexivity] |].
    apply sorted_mid in S as (S1 & S2 & _). cbn [fst] in *. rewrite del_app, (del_below _ _ S1). f_equal. change ((p, u) :: b) with ([(p, u)] ++ b). rewrite del_app, (del_above _ _ S2). cbn. rewrite pos_eqb_refl. reflexivity.
  - destruct F as (a & b & -> & E & B1 & B2). eexists. split; [reflexivity |]. split; [apply ok_node; split; [lia | exact O] |]. cbn in O. subst cs. cbn [entries map weave] in *. rewrite del_app, (del_below _ _ B1). f_equal. symmetry. apply del_above. destruct b as [|k b]; [constructor |]. apply sorted_app in S as (_ & S & _). apply sorted_cons in S as (_ & S). constructor; [exact B2 | eapply above_trans; eassumption].
  - destruct L0 as [L0 | L0]; [discriminate |]. destruct F as (a & u & b & -> & E). destruct O as (O1 & O2). rewrite app_length in *. cbn [length] in *. destruct (break _ cs i) as (ca & c & cb & -> & Ec); [lia |]. rewrite cut_app by exact Ec. cbn [bind]. rewrite cut_app by exact E. cbn [bind].
    rewrite app_length in O1. cbn [length] in O1. apply Forall_app in O2 as (Oa & O2). inversion O2 as [|? ? Oc Ob]; subst.
    destruct (pop_last_ok h 5 c Oc ltac:(lia)) as (c' & k & E1 & E2 & E3). rewrite E1. cbn [bind]. destruct (fix_child_ok h (a ++ k :: b) ca c' cb lo) as (t & F1 & F2 & F3); [rewrite app_length; cbn [length]; lia | exact L0 | rewrite !app_length; cbn [length]; lia | exact Oa | exact E2 | exact Ob |].
    rewrite Ec in F1. rewrite F1. eexists. split; [reflexivity |]. split; [exact F2 |]. rewrite F3. cbn [entries] in *. rewrite map_app in S |- *. rewrite map_app. cbn [map] in *. destruct (map (@entries V) cb) as [|e es] eqn:Eb; [apply (f_equal (@length _)) in Eb; rewrite map_length in Eb; cbn in Eb; lia |].
    apply (f_equal (@length _)) in Eb. rewrite map_length in Eb. cbn [length] in Eb.
    rewrite weave_at in S |- * by (cbn [length]; rewrite ?map_length; lia). rewrite weave_at by (cbn [length]; rewrite ?map_length; lia). cbn [wr] in S |- *. rewrite E3 in S |- *.
    assert (S' : sorted ((wl a (map entries ca) ++ entries c' ++ [k]) ++ (p, u) :: e ++ wr b es)) by (rewrite <- !app_assoc in *; exact S). apply sorted_mid in S' as (S1 & S2 & _). cbn [fst] in *.
    replace (wl a (map entries ca) ++ (entries c' ++ [k]) ++ (p, u) :: e ++ wr b es) with ((wl a (map entries ca) ++ entries c' ++ [k]) ++ [(p, u)] ++ (e ++ wr b es)) by (rewrite <- !app_assoc; reflexivity).
    rewrite del_app, (del_below _ _ S1), del_app, (del_above _ _ S2). cbn [del filter fst]. rewrite pos_eqb_refl. cbn [negb app]. rewrite <- !app_assoc. reflexivity.
  - destruct L0 as [L0 | L0]; [discriminate |]. destruct F as (a & b & -> & E & B1 & B2). destruct O as (O1 & O2). rewrite app_length in O1, L. destruct (break _ cs i) as (ca & c & cb & -> & Ec); [lia |]. rewrite cut_app by exact Ec. cbn [bind].
    rewrite app_length in O1. cbn [length] in O1. cbn [entries] in *. rewrite map_app in S |- *. cbn [map] in S |- *. rewrite weave_at in S |- * by (rewrite map_length; lia).
    apply sorted_app in S as (S1 & S & _). apply sorted_app in S as (S2 & S3 & _).
    apply Forall_app in O2 as (Oa & O2). inversion O2 as [|? ? Oc Ob]; subst. destruct (IH _ _ Oc ltac:(lia) S2) as (c' & E1 & E2 & E3). rewrite E1. cbn [bind].
    destruct (fix_child_ok h (a ++ b) ca c' cb lo) as (t & F1 & F2 & F3); [rewrite app_length; lia | exact L0 | rewrite !app_length; cbn [length]; lia | exact Oa | exact E2 | exact Ob |].
    rewrite Ec in F1. rewrite F1. eexists. split; [reflexivity |]. split; [exact F2 |]. rewrite F3, map_app. cbn [map]. rewrite weave_at by (rewrite map_length; lia). rewrite !del_app, E3.
    rewrite (del_below p (wl _ _)) by (apply wl_below; [rewrite map_length; lia | exact S1 | exact B1]). rewrite (del_above p (wr _ _)) by (apply wr_above; [rewrite map_length; lia | exact S3 | exact B2]). reflexivity.
Qed.

(** ** Trees *)

Definition good (t : tree V) : Prop := ok (match fst t with O => 0 | S _ => 1 end) (fst t) (snd t) /\ sorted (entries (snd t)).

Lemma good_empty : good tree_empty.
Proof. split; [cbn; repeat split; lia | constructor]. Qed.
Lemma tree_get_ok : forall t p, good t -> tree_get cmp t p = Ret (lget (entries (snd t)) p).
Proof. intros t p (O & S). apply (node_get_ok _ _ _ _ O S). Qed.
Lemma tree_insert_ok : forall t p v, good t -> exists t', tree_insert cmp t p v = Ret t' /\ good t' /\ entries (snd t') = lset (entries (snd t)) p v.
Proof.
  intros [h n] p v (O & S). cbn [fst snd] in *. unfold tree_insert. cbn [fst snd]. destruct (node_insert_ok _ _ _ p v O S) as (g & Eg & Hg). rewrite Eg. cbn [bind]. eexists. split; [reflexivity |].
  assert (K : sorted (lset (entries n) p v)) by (apply lset_ok; exact S). destruct g as [n' | l mid r]; cbn [fst snd].
  - destruct Hg as (H1 & H2). split; [split; [exact H1 | cbn [snd]; rewrite H2; exact K] | exact H2].
  - destruct Hg as (H1 & H2 & H3). assert (E : entries (Node [mid] [l; r]) = lset (entries n) p v) by (cbn [entries map weave]; rewrite app_nil_r; exact H3). split; [|exact E]. split; [|cbn [snd]; rewrite E; exact K].
    cbn [fst snd]. apply ok_node. cbn [length]. split; [lia |]. split; [reflexivity |]. repeat constructor; assumption.
Qed.
Lemma del_sorted : forall p (l : list kv), sorted l -> sorted (del p l).
Proof.
  intros p l. induction l as [|k l IH]; intros S; [constructor |]. apply sorted_cons in S as (S1 & S2). cbn [del filter]. destruct (negb (pos_eqb p (fst k))); [|apply IH; exact S1]. apply sorted_cons. split; [apply IH; exact S1 |].
  apply Forall_forall. intros x Hx. apply filter_In in Hx as (Hx & _). unfold above in S2. rewrite Forall_forall in S2. apply S2. exact Hx.
Qed.
Lemma tree_remove_ok : forall t p, good t -> exists t', tree_remove cmp t p = Ret t' /\ good t' /\ entries (snd t') = del p (entries (snd t)).
Proof.
  intros [h n] p (O & S). cbn [fst snd] in *. unfold tree_remove. cbn [fst snd]. destruct (node_remove_ok _ _ _ p O) as (n' & E & O' & EE); [destruct h; [left; reflexivity | right; lia] | exact S |]. rewrite E. cbn [bind]. pose proof (del_sorted p _ S) as K. rewrite <- EE in K. destruct h as [|h].
  - eexists. split; [reflexivity |]. cbn [snd]. split; [split; assumption | exact EE].
  - destruct n' as [ks cs]. unfold len. cbn [kvs]. destruct (Nat.eqb_spec (length ks) 0) as [Z | Z].
    + apply length_zero_iff_nil in Z. subst ks. apply ok_node in O' as (_ & O1 & O2). cbn [length kvs edges] in *. destruct cs as [|c [|c2 cs]]; cbn in O1; try discriminate. inversion O2 as [|? ? Oc _]; subst. cbn [cut skipn firstn bind]. cbn [entries map weave] in *. rewrite app_nil_r in *.
      eexists. split; [reflexivity |]. cbn [snd]. split; [|exact EE]. split; [|exact K]. cbn [fst snd]. eapply ok_weaken; [exact Oc | destruct h; lia].
    + eexists. split; [reflexivity |]. cbn [snd]. split; [|exact EE]. split; [|exact K]. cbn [fst snd]. apply ok_node in O' as (O1 & O2). apply ok_node. split; [cbn [kvs] in *; lia | exact O2].
Qed.

(** ** Height *)

Lemma ok_balanced : forall h lo t, ok lo h t -> (h = 0 \/ 1 <= lo) -> balanced h t.
Proof.
  induction h as [|h IH]; intros lo [ks cs] O L0; apply ok_node in O as (L & O); cbn [kvs edges] in L, O.
  - cbn in O. subst cs. constructor. lia.
  - destruct O as (O1 & O2). constructor; [lia | exact O1 |]. eapply Forall_impl; [|exact O2]. intros c Oc. split; [apply ok_iff in Oc as (Lc & _); lia |]. apply (IH 5); [exact Oc | lia].
Qed.
Lemma good_balanced : forall t, good t -> balanced (fst t) (snd t).
Proof. intros [h n] (O & _). cbn [fst snd] in *. eapply ok_balanced; [exact O |]. destruct h; [left; reflexivity | right; lia]. Qed.

Lemma weave_length : forall (ks : list kv) cs m, length cs = S (length ks) -> Forall (fun c => m <= length c) cs -> S (length ks) * S m <= S (length (weave ks cs)).
Proof.
  induction ks as [|k ks IH]; intros cs m E F; destruct cs as [|c cs]; cbn in E; try discriminate; inversion F as [|? ? Fc Fs]; subst; cbn [weave]; rewrite app_length.
  - cbn [length]. lia.
  - specialize (IH cs m ltac:(lia) Fs). cbn [length]. nia.
Qed.
Lemma size_node : forall h lo t, ok lo h t -> S lo * 6 ^ h <= S (length (entries t)).
Proof.
  induction h as [|h IH]; intros lo [ks cs] O; apply ok_node in O as (L & O); cbn [kvs edges] in L, O.
  - cbn in O. subst cs. cbn. lia.
  - destruct O as (O1 & O2). cbn [entries]. pose proof (weave_length ks (map entries cs) (6 ^ S h - 1)) as W. rewrite map_length in W. assert (P6 : 1 <= 6 ^ S h) by (clear; induction h; cbn [Nat.pow] in *; lia). specialize (W O1).
    replace (S (6 ^ S h - 1)) with (6 ^ S h) in W by lia. eapply Nat.le_trans; [|apply W]; [nia |].
    apply Forall_map. eapply Forall_impl; [|exact O2]. intros c Oc. specialize (IH _ _ Oc). cbn [Nat.pow] in *. lia.
Qed.
Lemma good_height : forall t, good t -> fst t = 0 \/ 2 * 6 ^ fst t <= S (length (entries (snd t))).
Proof. intros [h n] (O & _). cbn [fst snd] in *. destruct h as [|h]; [left; reflexivity | right; apply (size_node _ _ _ O)]. Qed.
End Trees.

(** ** Without an order *)

Section AnyComparison.
Context {V : Type} (cmp : pos -> pos -> comparison).
Notation kv := (pos * V)%type.

Lemma find_key_any : forall p (ks : list kv), let '(i, found) := find_key cmp p ks in
  if found then exists a k b, ks = a ++ k :: b /\ length a = i /\ cmp p (fst k) = Eq else i <= length ks.
Proof.
  intros p ks. induction ks as [|[k v] ks IH]; cbn [find_key]; [apply Nat.le_refl |]. destruct (cmp p k) eqn:E.
  - exists [], (k, v), ks. repeat split. exact E.
  - apply Nat.le_0_l.
  - destruct (find_key cmp p ks) as [i found]. destruct found; [|cbn; lia]. destruct IH as (a & x & b & -> & <- & H). exists ((k, v) :: a), x, b. repeat split. exact H.
Qed.

(** What a lookup finds, an insertion and a removal do to the entries. *)
Definition got (p : pos) (l : list kv) (o : option V) : Prop :=
  match o with Some v => exists k, In (k, v) l /\ cmp p k = Eq | None => True end.
Definition added (p : pos) (v : V) (l l' : list kv) : Prop :=
  exists a c b k, l = a ++ c ++ b /\ l' = a ++ (k, v) :: b /\ ((c = [] /\ k = p) \/ exists u, c = [(k, u)] /\ cmp p k = Eq).
Definition dropped (p : pos) (l l' : list kv) : Prop :=
  exists a c b, l = a ++ c ++ b /\ l' = a ++ b /\ (c = [] \/ exists k u, c = [(k, u)] /\ cmp p k = Eq).

Lemma added_in : forall p v l l' x y, added p v l l' -> added p v (x ++ l ++ y) (x ++ l' ++ y).
Proof. intros p v l l' x y (a & c & b & k & -> & -> & H). exists (x ++ a), c, (b ++ y), k. split; [rewrite <- !app_assoc; reflexivity |]. split; [rewrite <- !app_assoc; reflexivity | exact H]. Qed.
Lemma dropped_in : forall p l l' x y, dropped p l l' -> dropped p (x ++ l ++ y) (x ++ l' ++ y).
Proof. intros p l l' x y (a & c & b & -> & -> & H). exists (x ++ a), c, (b ++ y). split; [rewrite <- !app_assoc; reflexivity |]. split; [rewrite <- !app_assoc; reflexivity | exact H]. Qed.

Lemma node_get_any : forall h lo t p, ok lo h t -> exists o, node_get cmp h t p = Ret o /\ got p (entries t) o.
Proof.
  induction h as [|h IH]; intros lo [ks cs] p O; pose proof (find_key_any p ks) as F; apply ok_node in O as (L & O); cbn [kvs edges] in L, O; cbn [node_get kvs edges]; destruct (find_key cmp p ks) as [i found]; destruct found.
  - destruct F as (a & [k v] & b & -> & E & C). rewrite cut_app by exact E. cbn [bind snd]. eexists. split; [reflexivity |]. cbn in O. subst cs. exists k. split; [apply in_elt | exact C].
  - eexists. split; [reflexivity | exact I].
  - destruct F as (a & [k v] & b & -> & E & C). rewrite cut_app by exact E. cbn [bind snd]. eexists. split; [reflexivity |]. exists k. cbn [entries]. rewrite (entries_hit _ _ _ (S h) _ O). split; [apply in_elt | exact C].
  - destruct O as (O1 & O2). destruct (break _ cs i) as (ca & c & cb & -> & Ec); [lia |]. rewrite cut_app by exact Ec. cbn [bind]. apply Forall_app in O2 as (_ & O2). inversion O2 as [|? ? Oc _]; subst.
    destruct (IH _ _ p Oc) as (o & E & G). rewrite E. exists o. split; [reflexivity |]. destruct o as [v |]; [|exact I]. destruct G as (k & G & C). exists k. split; [|exact C].
    cbn [entries]. rewrite map_app. cbn [map]. rewrite app_length in O1. cbn [length] in O1. rewrite <- (firstn_skipn (length ca) ks). rewrite weave_at by (rewrite ?map_length, ?firstn_length, ?skipn_length; lia). apply in_or_app. right. apply in_or_app. left. exact G.
Qed.

Lemma node_insert_any : forall h lo t p v, ok lo h t ->
  exists g, node_insert cmp h t p v = Ret g /\
    match g with
    | Fit t' => ok lo h t' /\ added p v (entries t) (entries t')
    | Split l mid r => ok 5 h l /\ ok 5 h r /\ added p v (entries t) (entries l ++ mid :: entries r)
    end.
Proof.
  intros h lo t p v. revert lo t. induction h as [|h IH]; intros lo [ks cs] O; pose proof (find_key_any p ks) as F; apply ok_node in O as (L & O); cbn [kvs edges] in L, O; cbn [node_insert kvs edges]; destruct (find_key cmp p ks) as [i found]; destruct found.
  - destruct F as (a & [k u] & b & -> & E & C). rewrite cut_app by exact E. cbn [bind fst]. eexists. split; [reflexivity |]. cbv beta iota. cbn in O. subst cs. cbn [entries map weave] in *. rewrite app_length in L. split; [apply ok_node; rewrite app_length; split; [exact L | reflexivity] |].
    exists a, [(k, u)], b, k. split; [reflexivity |]. split; [reflexivity |]. right. exists u. auto.
  - destruct (insert_node_ok ks cs i (p, v) [] 0 lo O F L eq_refl) as (g & Eg & Hg). exists g. split; [exact Eg |].
    assert (K : added p v (entries (Node ks cs)) (weave (firstn i ks ++ (p, v) :: skipn i ks) (map entries (firstn (S i) cs ++ [] ++ skipn (S i) cs)))).
    { cbn in O. subst cs. rewrite firstn_nil, skipn_nil. cbn [entries map weave app]. exists (firstn i ks), [], (skipn i ks), p. cbn [app]. rewrite firstn_skipn. auto. }
    cbv zeta in Hg. destruct g as [t' | l mid r]; [destruct Hg as (H1 & ->) | destruct Hg as (H1 & H2 & ->)]; auto.
  - destruct F as (a & [k u] & b & -> & E & C). rewrite cut_app by exact E. cbn [bind fst]. eexists. split; [reflexivity |]. cbv beta iota.
    split; [apply ok_node; rewrite app_length in *; split; [exact L | exact O] |]. cbn [entries]. rewrite (entries_hit _ _ _ (S h) _ O). rewrite (entries_hit a (k, v) b (S h)) by (rewrite app_length in *; exact O). eexists _, [(k, u)], _, k. split; [reflexivity |]. split; [reflexivity |]. right. exists u. auto.
  - destruct O as (O1 & O2). destruct (break _ cs i) as (ca & c & cb & -> & Ec); [lia |]. rewrite cut_app by exact Ec. cbn [bind]. rewrite app_length in O1. cbn [length] in O1.
    apply Forall_app in O2 as (Oa & O2). inversion O2 as [|? ? Oc Ob]; subst.
    assert (W : forall x, weave ks (map (@entries V) (ca ++ x :: cb)) = wl (firstn (length ca) ks) (map entries ca) ++ entries x ++ wr (skipn (length ca) ks) (map entries cb)).
    { intros x. rewrite map_app. cbn [map]. rewrite <- (firstn_skipn (length ca) ks) at 1. rewrite weave_at by (rewrite ?map_length, ?firstn_length, ?skipn_length; lia). reflexivity. }
    destruct (IH _ _ Oc) as (g & Eg & Hg). rewrite Eg. cbn [bind]. destruct g as [c' | l mid r].
    + destruct Hg as (H1 & H2). eexists. split; [reflexivity |]. cbv beta iota. split.
      * apply ok_node. split; [exact L |]. split; [rewrite app_length; cbn [length]; lia |]. apply Forall_app. split; [exact Oa |]. constructor; assumption.
      * cbn [entries]. rewrite !W. apply added_in. exact H2.
    + destruct Hg as (H1 & H2 & H3). destruct (insert_node_ok ks (ca ++ l :: cb) (length ca) mid [r] (S h) lo) as (g & Eg' & Hg).
      * split; [rewrite app_length; cbn [length]; lia |]. apply Forall_app. split; [exact Oa |]. constructor; assumption.
      * lia.
      * exact L.
      * exists r. split; [reflexivity | exact H2].
      * exists g. split; [exact Eg' |].
        assert (K : added p v (entries (Node ks (ca ++ c :: cb))) (weave (firstn (length ca) ks ++ mid :: skipn (length ca) ks) (map entries (firstn (S (length ca)) (ca ++ l :: cb) ++ [r] ++ skipn (S (length ca)) (ca ++ l :: cb))))).
        { rewrite first_app_ge, rest_app_ge by lia. replace (S (length ca) - length ca) with 1 by lia. cbn [firstn skipn]. rewrite <- app_assoc. cbn [app]. rewrite map_app. cbn [map].
          rewrite weave_at by (cbn [length]; rewrite ?map_length, ?firstn_length, ?skipn_length; lia). cbn [wr]. cbn [entries]. rewrite W.
          replace (entries l ++ mid :: entries r ++ wr (skipn (length ca) ks) (map entries cb)) with ((entries l ++ mid :: entries r) ++ wr (skipn (length ca) ks) (map entries cb)) by (rewrite <- app_assoc; reflexivity).
          apply added_in. exact H3. }
        cbv zeta in Hg. destruct g as [t' | l' mid' r']; [destruct Hg as (G1 & ->) | destruct Hg as (G1 & G2 & ->)]; auto.
Qed.

Lemma node_remove_any : forall h lo t p, ok lo h t -> (h = 0 \/ 1 <= lo) ->
  exists t', node_remove cmp h t p = Ret t' /\ ok (lo - 1) h t' /\ dropped p (entries t) (entries t').
Proof.
  intros h lo t p. revert lo t. induction h as [|h IH]; intros lo [ks cs] O L0; pose proof (find_key_any p ks) as F; apply ok_node in O as (L & O); cbn [kvs edges] in L, O; cbn [node_remove kvs edges]; destruct (find_key cmp p ks) as [i found]; destruct found.
  - destruct F as (a & [k u] & b & -> & E & C). rewrite cut_app by exact E. cbn [bind]. eexists. split; [reflexivity |]. cbn in O. subst cs. rewrite app_length in L. cbn [length] in L. split; [apply ok_node; rewrite app_length; split; [lia | reflexivity] |].
    exists a, [(k, u)], b. split; [reflexivity |]. split; [reflexivity |]. right. exists k, u. auto.
  - eexists. split; [reflexivity |]. split; [apply ok_node; split; [lia | exact O] |]. eexists [], [], _. split; [reflexivity |]. split; [reflexivity | left; reflexivity].
  - destruct L0 as [L0 | L0]; [discriminate |]. destruct F as (a & [k u] & b & -> & E & C). destruct O as (O1 & O2). rewrite app_length in *. cbn [length] in *. destruct (break _ cs i) as (ca & c & cb & -> & Ec); [lia |]. rewrite cut_app by exact Ec. cbn [bind]. rewrite cut_app by exact E. cbn [bind].
    rewrite app_length in O1. cbn [length] in O1. apply Forall_app in O2 as (Oa & O2). inversion O2 as [|? ? Oc Ob]; subst.
    destruct (pop_last_ok h 5 c Oc ltac:(lia)) as (c' & x & E1 & E2 & E3). rewrite E1. cbn [bind]. destruct (fix_child_ok h (a ++ x :: b) ca c' cb lo) as (t & F1 & F2 & F3); [rewrite app_length; cbn [length]; lia | exact L0 | rewrite !app_length; cbn [length]; lia | exact Oa | exact E2 | exact Ob |].
    rewrite Ec in F1. rewrite F1. eexists. split; [reflexivity |]. split; [exact F2 |]. rewrite F3. cbn [entries]. rewrite !map_app. cbn [map]. rewrite !weave_at by (cbn [length]; rewrite ?map_length; lia). cbn [wr]. rewrite E3. destruct (map (@entries V) cb) as [|e es] eqn:Eb; [apply (f_equal (@length _)) in Eb; rewrite map_length in Eb; cbn in Eb; lia |].
    exists (wl a (map entries ca) ++ entries c' ++ [x]), [(k, u)], (e ++ wr b es). split; [rewrite <- !app_assoc; reflexivity |]. split; [rewrite <- !app_assoc; reflexivity |]. right. exists k, u. auto.
  - destruct L0 as [L0 | L0]; [discriminate |]. destruct O as (O1 & O2). destruct (break _ cs i) as (ca & c & cb & -> & Ec); [lia |]. rewrite cut_app by exact Ec. cbn [bind]. rewrite app_length in O1. cbn [length] in O1.
    apply Forall_app in O2 as (Oa & O2). inversion O2 as [|? ? Oc Ob]; subst. destruct (IH _ _ Oc ltac:(lia)) as (c' & E1 & E2 & E3). rewrite E1. cbn [bind].
    destruct (fix_child_ok h ks ca c' cb lo) as (t & F1 & F2 & F3); [exact L | exact L0 | rewrite !app_length; cbn [length]; lia | exact Oa | exact E2 | exact Ob |].
    rewrite F1. eexists. split; [reflexivity |]. split; [exact F2 |]. rewrite F3. cbn [entries]. rewrite !map_app. cbn [map]. rewrite <- (firstn_skipn (length ca) ks). rewrite !weave_at by (rewrite ?map_length, ?firstn_length, ?skipn_length; lia). apply dropped_in. exact E3.
Qed.

Definition formed (t : tree V) : Prop := ok (match fst t with O => 0 | S _ => 1 end) (fst t) (snd t).

Lemma formed_empty : formed tree_empty.
Proof. cbn. repeat split; lia. Qed.
Lemma formed_balanced : forall t, formed t -> balanced (fst t) (snd t).
Proof. intros [h n] O. unfold formed in O. cbn [fst snd] in *. eapply ok_balanced; [exact O |]. destruct h; [left; reflexivity | right; lia]. Qed.
Lemma tree_get_any : forall t p, formed t -> exists o, tree_get cmp t p = Ret o /\ got p (entries (snd t)) o.
Proof. intros t p O. apply (node_get_any _ _ _ _ O). Qed.
Lemma tree_insert_any : forall t p v, formed t -> exists t', tree_insert cmp t p v = Ret t' /\ formed t' /\ added p v (entries (snd t)) (entries (snd t')).
Proof.
  intros [h n] p v O. unfold formed in *. cbn [fst snd] in *. unfold tree_insert. cbn [fst snd]. destruct (node_insert_any _ _ _ p v O) as (g & Eg & Hg). rewrite Eg. cbn [bind]. eexists. split; [reflexivity |].
  destruct g as [n' | l mid r]; cbn [fst snd]; [exact Hg |]. destruct Hg as (H1 & H2 & H3). split; [|cbn [entries map weave]; rewrite app_nil_r; exact H3].
  apply ok_node. cbn [length]. split; [lia |]. split; [reflexivity |]. repeat constructor; assumption.
Qed.
Lemma tree_remove_any : forall t p, formed t -> exists t', tree_remove cmp t p = Ret t' /\ formed t' /\ dropped p (entries (snd t)) (entries (snd t')).
Proof.
  intros [h n] p O. unfold formed in *. cbn [fst snd] in *. unfold tree_remove. cbn [fst snd]. destruct (node_remove_any _ _ _ p O) as (n' & E & O' & EE); [destruct h; [left; reflexivity | right; lia] |]. rewrite E. cbn [bind]. destruct h as [|h].
  - eexists. split; [reflexivity |]. cbn [fst snd]. split; [exact O' | exact EE].
  - destruct n' as [ks cs]. unfold len. cbn [kvs]. destruct (Nat.eqb_spec (length ks) 0) as [Z | Z].
    + apply length_zero_iff_nil in Z. subst ks. apply ok_node in O' as (_ & O1 & O2). cbn [length kvs edges] in *. destruct cs as [|c [|c2 cs]]; cbn in O1; try discriminate. inversion O2 as [|? ? Oc _]; subst. cbn [cut skipn firstn bind]. cbn [entries map weave] in *. rewrite app_nil_r in *.
      eexists. split; [reflexivity |]. cbn [fst snd]. split; [|exact EE]. eapply ok_weaken; [exact Oc | destruct h; lia].
    + eexists. split; [reflexivity |]. cbn [fst snd]. split; [|exact EE]. apply ok_node in O' as (O1 & O2). apply ok_node. split; [cbn [kvs] in *; lia | exact O2].
Qed.
End AnyComparison.

(** ** Comparisons that agree on the keys *)

Section Same.
Context {V : Type} (cmp cmp' : pos -> pos -> comparison) (p : pos).
Definition agree (l : list (pos * V)) : Prop := forall k v, In (k, v) l -> cmp p k = cmp' p k.

Lemma find_key_same : forall ks, agree ks -> find_key cmp p ks = find_key cmp' p ks.
Proof.
  induction ks as [|[k v] ks IH]; intros H; [reflexivity |]. cbn [find_key]. rewrite (H k v (or_introl eq_refl)), IH by (intros k' v' I; apply (H k' v'); right; exact I). reflexivity.
Qed.
Lemma weave_in : forall (A : Type) (ks : list A) cs x, length cs = S (length ks) -> (In x (weave ks cs) <-> In x ks \/ exists c, In c cs /\ In x c).
Proof.
  intros A ks. induction ks as [|k ks IH]; intros cs x E; destruct cs as [|c cs]; cbn in E; try discriminate; cbn [weave]; rewrite in_app_iff.
  - destruct cs; [|discriminate E]. cbn. split; [intros [H | []]; right; exists c; auto | intros [[] | (c' & [-> | []] & H)]; left; exact H].
  - cbn [In]. rewrite IH by lia. split.
    + intros [H | [H | [H | (c' & H1 & H2)]]]; [right; exists c; auto | auto | auto | right; exists c'; auto].
    + intros [[H | H] | (c' & [-> | H1] & H2)]; auto. right. right. right. exists c'. auto.
Qed.
Lemma agree_kvs : forall lo h t, ok lo h t -> agree (entries t) -> agree (kvs t).
Proof.
  intros lo h [ks cs] O H k v I. apply ok_node in O as (_ & O). cbn [kvs edges entries] in *. apply (H k v). destruct h as [|h]; [cbn in O; subst cs; exact I |]. destruct O as (O & _). apply weave_in; [rewrite map_length; exact O | left; exact I].
Qed.
Lemma agree_edge : forall lo h t c, ok lo (S h) t -> agree (entries t) -> In c (edges t) -> ok 5 h c /\ agree (entries c).
Proof.
  intros lo h [ks cs] c O H C. apply ok_node in O as (_ & O & F). cbn [kvs edges entries] in *. rewrite Forall_forall in F. split; [apply F; exact C |]. intros k v I. apply (H k v). apply weave_in; [rewrite map_length; exact O |]. right. exists (entries c). split; [apply in_map; exact C | exact I].
Qed.
Lemma cut_in : forall A i (l : list A) a x b, cut i l = Ret (a, x, b) -> In x l.
Proof. intros A i l a x b. unfold cut. destruct (skipn i l) as [|y r] eqn:E; [discriminate |]. intros H. injection H as _ -> _. rewrite <- (firstn_skipn i l), E. apply in_elt. Qed.

Lemma node_get_same : forall h lo t, ok lo h t -> agree (entries t) -> node_get cmp h t p = node_get cmp' h t p.
Proof.
  induction h as [|h IH]; intros lo t O A; cbn [node_get]; rewrite (find_key_same (kvs t)) by (eapply agree_kvs; eassumption); [reflexivity |].
  destruct (find_key cmp' p (kvs t)) as [i found]. destruct found; [reflexivity |]. destruct (cut i (edges t)) as [[[a c] b] | | |] eqn:E; cbn [bind]; try reflexivity.
  destruct (agree_edge _ _ _ _ O A (cut_in _ _ _ _ _ _ E)) as (Oc & Ac). apply (IH _ _ Oc Ac).
Qed.
Lemma node_insert_same : forall h lo t v, ok lo h t -> agree (entries t) -> node_insert cmp h t p v = node_insert cmp' h t p v.
Proof.
  induction h as [|h IH]; intros lo t v O A; cbn [node_insert]; rewrite (find_key_same (kvs t)) by (eapply agree_kvs; eassumption); [reflexivity |].
  destruct (find_key cmp' p (kvs t)) as [i found]. destruct found; [reflexivity |]. destruct (cut i (edges t)) as [[[a c] b] | | |] eqn:E; cbn [bind]; try reflexivity.
  destruct (agree_edge _ _ _ _ O A (cut_in _ _ _ _ _ _ E)) as (Oc & Ac). rewrite (IH _ _ v Oc Ac). reflexivity.
Qed.
Lemma node_remove_same : forall h lo t, ok lo h t -> agree (entries t) -> node_remove cmp h t p = node_remove cmp' h t p.
Proof.
  induction h as [|h IH]; intros lo t O A; cbn [node_remove]; rewrite (find_key_same (kvs t)) by (eapply agree_kvs; eassumption); [reflexivity |].
  destruct (find_key cmp' p (kvs t)) as [i found]. destruct (cut i (edges t)) as [[[a c] b] | | |] eqn:E; cbn [bind]; try reflexivity. destruct found; [reflexivity |].
  destruct (agree_edge _ _ _ _ O A (cut_in _ _ _ _ _ _ E)) as (Oc & Ac). rewrite (IH _ _ Oc Ac). reflexivity.
Qed.
Lemma tree_get_same : forall t, formed t -> agree (entries (snd t)) -> tree_get cmp t p = tree_get cmp' t p.
Proof. intros t O A. apply (node_get_same _ _ _ O A). Qed.
Lemma tree_insert_same : forall t v, formed t -> agree (entries (snd t)) -> tree_insert cmp t p v = tree_insert cmp' t p v.
Proof. intros t v O A. unfold tree_insert. rewrite (node_insert_same _ _ _ v O A). reflexivity. Qed.
Lemma tree_remove_same : forall t, formed t -> agree (entries (snd t)) -> tree_remove cmp t p = tree_remove cmp' t p.
Proof. intros t O A. unfold tree_remove. rewrite (node_remove_same _ _ _ O A). reflexivity. Qed.
End Same.
