(** PropOrderPathProofs.v -- proofs of the statements of PropOrderPath.v. *)

From Coq Require Import ZArith List Bool Lia Permutation Arith.
From Verif Require Import Rust BoundedInt Dir PosT Pos Grid Gridbool SetMap CameFrom Bf Heap Astar Ucs Queue Order Btree Spec SpecSearch SpecMaze SpecStorage SpecPrice SpecQueue SpecOrder SpecBtree SpecTreeOrder SpecSettle SpecOrderPath Lib Deque BoundedIntProofs PosTProofs PosTProofs2 PropDirProofs SetMapProofs Sim CameFromProofs BfProofs PropBfProofs Fair FairSearch SearchProofs AstarProofs PropAstarProofs UcsProofs PropUcsProofs FairQueue BeelineProofs PropAgreeProofs PropStorageProofs PropEffortProofs GridProofs PropPathProofs PropReplanProofs PropStrayProofs PropLocalProofs BtreeProofs PropBtreeProofs PropOrderProofs PropTreeOrderProofs PropSettleProofs BestFirst Ordered OrderedQueue PropOrderWorkProofs PropPriceProofs.
Import ListNotations.
Open Scope Z_scope.

(** ** The heap *)

Lemma not_sooner : forall P cmp, order_of P cmp -> forall a b, valid P (e_pos a) -> valid P (e_pos b) ->
  (~ sooner_by cmp b a <-> e_prio a < e_prio b \/ e_prio a = e_prio b /\ (cmp (e_pos b) (e_pos a) = Lt \/ e_pos a = e_pos b /\ dir_index (e_dir b) <= dir_index (e_dir a))).
Proof.
  intros P cmp OO a b Va Vb. unfold sooner_by. pose proof (oo_flip _ _ OO (e_pos a) (e_pos b) Va Vb) as FL. pose proof (oo_eq _ _ OO (e_pos a) (e_pos b) Va Vb) as EQ.
  destruct (cmp (e_pos a) (e_pos b)) eqn:C; cbn [CompOpp] in FL; rewrite FL; split.
  - intros N. destruct (Z.lt_trichotomy (e_prio a) (e_prio b)) as [L | [E | L]]; [left; exact L | right; split; [exact E |] | exfalso; apply N; left; exact L].
    right. split; [apply EQ; reflexivity |]. destruct (Z_lt_le_dec (dir_index (e_dir a)) (dir_index (e_dir b))); [|lia]. exfalso. apply N. right. split; [lia |]. right. auto.
  - intros [L | (E & [X | (X & L)])] [L' | (E' & [X' | (_ & L')])]; try lia; discriminate.
  - intros N. destruct (Z.lt_trichotomy (e_prio a) (e_prio b)) as [L | [E | L]]; [left; exact L | exfalso; apply N; right; split; [lia | left; reflexivity] | exfalso; apply N; left; exact L].
  - intros [L | (E & [X | (X & L)])]; [lia | discriminate | apply EQ in X; discriminate].
  - intros N. destruct (Z.lt_trichotomy (e_prio a) (e_prio b)) as [L | [E | L]]; [left; exact L | right; split; [exact E | left; reflexivity] | exfalso; apply N; left; exact L].
  - intros [L | (E & _)] [L' | (E' & [X' | (X' & _)])]; try lia; discriminate.
Qed.

(** Heaps with positions of the type, in order. *)
Definition cmp_heap (P : post) (cmp : pos -> pos -> comparison) (v : list entry) : Prop :=
  (forall x, In x v -> valid P (e_pos x)) /\ ordered_heap (fun a b => a = b \/ ~ sooner_by cmp b a) v.

Lemma le_not_sooner : forall P cmp, order_of P cmp -> forall a b, valid P (e_pos a) -> valid P (e_pos b) ->
  (entry_le (pair_le cmp) a b = true -> ~ sooner_by cmp a b) /\ (entry_le (pair_le cmp) a b = false -> ~ sooner_by cmp b a).
Proof.
  intros P cmp OO a b Va Vb. pose proof (oo_flip _ _ OO (e_pos a) (e_pos b) Va Vb) as FL.
  unfold entry_le, pair_le, sooner_by. change (fst (snd a)) with (e_pos a). change (fst (snd b)) with (e_pos b). change (snd (snd a)) with (e_dir a). change (snd (snd b)) with (e_dir b).
  destruct (Z.eqb_spec (e_prio a) (e_prio b)) as [E | N].
  - destruct (cmp (e_pos a) (e_pos b)); cbn [CompOpp] in FL; rewrite FL; split; intros X.
    + apply Z.leb_le in X. intros [L | (_ & [Y | (_ & Y)])]; [lia | discriminate | lia].
    + apply Z.leb_gt in X. intros [L | (_ & [Y | (_ & Y)])]; [lia | discriminate | lia].
    + intros [L | (_ & [Y | (Y & _)])]; [lia | discriminate | discriminate].
    + discriminate.
    + discriminate.
    + intros [L | (_ & [Y | (Y & _)])]; [lia | discriminate | discriminate].
  - split; intros X; [apply Z.ltb_lt in X | apply Z.ltb_ge in X]; intros [L | (Y & _)]; lia.
Qed.

Lemma not_sooner_refl : forall P cmp, order_of P cmp -> forall a, valid P (e_pos a) -> ~ sooner_by cmp a a.
Proof. intros P cmp OO a Va. apply (not_sooner P cmp OO a a Va Va). right. split; [reflexivity |]. right. split; [reflexivity | lia]. Qed.

Lemma not_sooner_trans : forall P cmp, order_of P cmp -> forall a b c, valid P (e_pos a) -> valid P (e_pos b) -> valid P (e_pos c) ->
  ~ sooner_by cmp b a -> ~ sooner_by cmp c b -> ~ sooner_by cmp c a.
Proof.
  intros P cmp OO a b c Va Vb Vc H1 H2. apply (not_sooner P cmp OO a b Va Vb) in H1. apply (not_sooner P cmp OO b c Vb Vc) in H2. apply (not_sooner P cmp OO a c Va Vc).
  destruct H1 as [L1 | (E1 & H1)]; [left; destruct H2 as [L2 | (E2 & _)]; lia |]. destruct H2 as [L2 | (E2 & H2)]; [left; lia |]. right. split; [lia |].
  destruct H1 as [C1 | (Q1 & L1)], H2 as [C2 | (Q2 & L2)].
  - left. exact (oo_trans _ _ OO _ _ _ Vc Vb Va C2 C1).
  - left. rewrite <- Q2. exact C1.
  - left. rewrite Q1. exact C2.
  - right. split; [congruence | lia].
Qed.

Lemma C152_heap_proof : forall cmp P, order_of P cmp ->
  exists ok, ordered_queue P cmp (queue_ordered (pair_le cmp)) ok (fun v => v).
Proof.
  intros cmp P OO. exists (cmp_heap P cmp).
  set (before := fun a b : entry => a = b \/ ~ sooner_by cmp b a). set (fit := fun x : entry => valid P (e_pos x)).
  assert (BT : forall a b, fit a -> fit b -> entry_le (pair_le cmp) a b = true -> before b a) by (intros a b Va Vb X; right; apply (le_not_sooner P cmp OO a b Va Vb); exact X).
  assert (BF : forall a b, fit a -> fit b -> entry_le (pair_le cmp) a b = false -> before a b) by (intros a b Va Vb X; right; apply (le_not_sooner P cmp OO a b Va Vb); exact X).
  assert (BR : forall a, before a a) by (intros a; left; reflexivity).
  assert (BTR : forall a b c, fit a -> fit b -> fit c -> before a b -> before b c -> before a c).
  { intros a b c Va Vb Vc [-> | H1] H2; [exact H2 |]. destruct H2 as [<- | H2]; [right; exact H1 |]. right. exact (not_sooner_trans P cmp OO a b c Va Vb Vc H1 H2). }
  constructor.
  - split; [|reflexivity]. split; [intros x [] | intros i Li; cbn in Li; lia].
  - intros v e (V & HO) Ve. pose proof (opush_perm (pair_le cmp) v e) as K2. split; [|exact K2].
    assert (V' : fits fit (e :: v)) by (intros x [<- | Hx]; [exact Ve | apply V; exact Hx]).
    split; [intros x Hx; apply V'; apply (Permutation_in _ K2); exact Hx |]. apply (opush_heap (pair_le cmp) fit before BT BF BR BTR v e V' HO).
  - intros v (V & HO). pose proof (opop_perm (pair_le cmp) v) as K2. cbn [q_pop queue_ordered]. destruct (oh_pop (pair_le cmp) v) as [[e v']|] eqn:E; [|exact K2].
    destruct (opop_heap (pair_le cmp) fit before BT BF BR BTR v e v' V HO E) as (K1 & K). split; [|split; [exact K2 |]].
    + split; [|exact K1]. intros x Hx. apply V. apply (Permutation_in _ (Permutation_sym K2)). right. exact Hx.
    + intros x Hx. destruct (K x Hx) as [<- | N]; [|exact N]. apply (not_sooner_refl P cmp OO). apply V. exact Hx.
Qed.

Lemma settles_unique : forall A (run : nat -> exec A) r r', settles run r -> settles run r' -> r = r'.
Proof. intros A run r r' (n & Hn) (m & Hm). rewrite <- (Hn (Nat.max n m)) by lia. apply Hm. lia. Qed.

(** ** The path of uniform-cost search *)

Lemma settled_path_iff : forall P b1 b2 D go orig dest path, valid P orig -> valid P dest -> go_inside P (move_of go) ->
  (forall k p k' p', valid P p -> valid P p' -> (b1 (k, p) (k', p') <-> b2 (k, p) (k', p'))) ->
  settled_path_by b1 D go orig dest path -> settled_path_by b2 D go orig dest path.
Proof.
  intros P b1 b2 D go orig dest path V Vd HG HB (A & F & K). split; [exact A |]. split; [exact F |]. intros l1 d l2 p X Fp.
  assert (VL : forall c q, lowest_cost D go orig c q -> valid P q).
  { intros c q ((ds & A0 & Fc) & _). apply follow_move_of in Fc. apply (BfProofs.walk_valid D (move_of go) P (length ds) orig q HG V). exists ds. auto. }
  assert (VM : forall p d q w, valid P p -> go p d = Some (q, w) -> valid P q) by (intros p0 d0 q0 w0 V0 E0; apply (HG p0 d0 q0 V0); unfold move_of; rewrite E0; reflexivity).
  destruct (K l1 d l2 p X Fp) as (q & Eq & Nq & (k & c & w & Lk & Lc & Es & B & Mi)). exists q. split; [exact Eq |]. split; [exact Nq |].
  assert (Vp : valid P p) by (apply (VL c); exact Lc). assert (Vq : valid P q) by (apply (VM p d q w Vp Es)).
  exists k, c, w. split; [exact Lk |]. split; [exact Lc |]. split; [exact Es |]. split; [apply HB; assumption |].
  intros p' d' w' c' Lp' A' Es' B'. assert (Vp' : valid P p') by (apply (VL c'); exact Lp'). apply HB; [exact Vp | exact Vp' |]. apply (Mi p' d' w' c' Lp' A' Es'). apply HB; assumption.
Qed.

Lemma ext_queue : forall P cmp H (qo : queueops H) ok els, ordered_queue P cmp qo ok els ->
  ordered_queue P (ext P cmp) qo (fun q => ok q /\ forall x, In x (els q) -> valid P (e_pos x)) els.
Proof.
  intros P cmp H qo ok els OQ. constructor.
  - destruct (oq_new _ _ _ _ _ OQ) as (K1 & K2). split; [|exact K2]. split; [exact K1 |]. rewrite K2. intros x [].
  - intros q e (Hq & V) Ve. destruct (oq_push _ _ _ _ _ OQ q e Hq Ve) as (K1 & K2). split; [|exact K2]. split; [exact K1 |].
    intros x Hx. apply (Permutation_in _ K2) in Hx. destruct Hx as [<- | Hx]; [exact Ve | apply V; exact Hx].
  - intros q (Hq & V). pose proof (oq_pop _ _ _ _ _ OQ q Hq) as K. destruct (q_pop qo q) as [[e q']|]; [|exact K]. destruct K as (K1 & K2 & K3).
    assert (IN : forall x, In x (e :: els q') -> In x (els q)) by (intros x; apply (Permutation_in _ (Permutation_sym K2))).
    split; [split; [exact K1 | intros x Hx; apply V; apply IN; right; exact Hx] |]. split; [exact K2 |].
    intros x Hx S. apply (K3 x Hx). unfold sooner_by in *. rewrite (ext_valid P cmp (e_pos e) (e_pos x)); [exact S | apply V; apply IN; left; reflexivity | apply V; exact Hx].
Qed.

Lemma ahead_by_laws : forall cmp, total_order cmp ->
  (forall k p k' p', k < k' -> ahead_by cmp (k, p) (k', p')) /\
  (forall k p k' p', ahead_by cmp (k, p) (k', p') -> k <= k') /\
  (forall a, ahead_by cmp a a) /\
  (forall a b c, ahead_by cmp a b -> ahead_by cmp b c -> ahead_by cmp a c) /\
  (forall c p c' p', ahead_by cmp (c, p) (c', p') -> ahead_by cmp (c', p') (c, p) -> p = p').
Proof.
  intros cmp TO. unfold ahead_by. cbn [fst snd]. split; [auto |]. split; [intros; lia |]. split; [|split].
  - intros a. right. split; [reflexivity |]. rewrite (proj2 (to_eq _ TO _ _) eq_refl). discriminate.
  - intros a b c [L1 | (E1 & C1)] [L2 | (E2 & C2)]; [left; lia.. |]. right. split; [lia |]. intros G.
    destruct (cmp (snd b) (snd a)) eqn:X; [apply (to_eq _ TO) in X | | congruence]; [congruence |].
    destruct (cmp (snd c) (snd b)) eqn:Y; [apply (to_eq _ TO) in Y; congruence | | congruence]. rewrite (to_trans _ TO _ _ _ Y X) in G. discriminate.
  - intros c p c' p' [L1 | (E1 & C1)] [L2 | (E2 & C2)]; try lia. rewrite (to_flip _ TO) in C2. destruct (cmp p' p) eqn:X; [symmetry; apply (to_eq _ TO); exact X | exfalso; apply C2; reflexivity | congruence].
Qed.

Lemma ahead_ext : forall P cmp k p k' p', valid P p -> valid P p' -> (ahead_by (ext P cmp) (k, p) (k', p') <-> ahead_by cmp (k, p) (k', p')).
Proof. intros P cmp k p k' p' Vp Vp'. unfold ahead_by. cbn [fst snd]. rewrite (ext_valid P cmp p' p Vp' Vp). reflexivity. Qed.

Lemma C152_ucs_exact_proof : forall H M MC (qo : queueops H) ok els (co : mapops Z MC) (mo : mapops (option dir) M) cmp P (D : bool) go orig dest path,
  order_of P cmp -> ordered_queue P cmp qo ok els -> acts_as_map P co -> acts_as_map P mo -> post_wf P -> valid P orig -> valid P dest ->
  go_inside P (move_of go) -> one_step P (move_of go) -> affordable D P go orig ->
  (forall p d q w, valid P p -> go p d = Some (q, w) -> 0 < w) ->
  (returns (fun fuel => ucsq_search_path qo P D co mo go fuel orig dest) (Ok path) <->
   settled_path_by (ahead_by cmp) D go orig dest path /\ Z.of_nat (length path) <= cols P * cols P /\ retraceable P orig dest) /\
  forall path', settled_path_by (ahead_by cmp) D go orig dest path -> settled_path_by (ahead_by cmp) D go orig dest path' -> path' = path.
Proof.
  intros H M MC qo ok els co mo cmp P D go orig dest path OO OQ AC AM WF V Vd HG O SC POS. pose proof (afford_HS D P go orig HG SC) as HS.
  destruct (ahead_by_laws (ext P cmp) (ext_order P cmp OO)) as (L1 & L2 & L3 & L4 & L5).
  assert (IFF : forall path, settled_path_by (ahead_by (ext P cmp)) D go orig dest path <-> settled_path_by (ahead_by cmp) D go orig dest path).
  { intros p0. split; apply (settled_path_iff P); try assumption; intros; [apply ahead_ext; assumption | symmetry; apply ahead_ext; assumption]. }
  split.
  - destruct (ucsq_ooutcome (ext P cmp) (ext_order P cmp OO) qo _ els P (ext_queue P cmp H qo ok els OQ) D co mo _ _ (acts_lawful_map _ _ P co AC) (acts_lawful_map _ _ P mo AM) WF go orig dest V Vd HS SC) as (r & Hr & (r0 & Ho & Hc & Hp)).
    pose proof (settled_exact (ahead_by (ext P cmp)) L1 L2 L3 L4 L5 P D go orig dest r0 path WF V HG O SC POS Ho) as EX.
    rewrite IFF in EX. split.
    + intros Hk. assert (r = Ret (Ok path)) as -> by (apply (settles_unique _ _ _ _ Hr); exact Hk).
      destruct Hc as [E | (E & _)]; [injection E as <- | discriminate E]. destruct (proj1 EX eq_refl) as (S & L). split; [exact S |]. split; [exact L |].
      destruct (retraceable_dec P orig dest) as [RT | RT]; [exact RT |]. assert (RC : reachable D (move_of go) orig dest) by (destruct S as (A & F & _); exists (length path), path; auto).
      apply (Hp RC) in RT. discriminate RT.
    + intros (S & L & RT). rewrite (proj2 EX (conj S L)) in *. assert (RC : reachable D (move_of go) orig dest) by (destruct S as (A & F & _); exists (length path), path; auto).
      destruct Hc as [-> | (E & _)]; [exact Hr |]. exfalso. apply (Hp RC) in E. contradiction.
  - intros path' S1 S2. apply IFF in S1. apply IFF in S2. apply (settled_unique (ahead_by (ext P cmp)) L5 P D go orig dest path' path V HG O S2 S1).
Qed.

(** ** Moves, whatever is popped first among elements of equal cost *)

Lemma C152_ucs_moves_proof : forall H M MC (qo : queueops H) ok els (co : mapops Z MC) (mo : mapops (option dir) M) P (D : bool) go orig dest path l1 d l2 p,
  fair_queue qo ok els -> acts_as_map P co -> acts_as_map P mo -> post_wf P -> valid P orig -> valid P dest ->
  go_inside P (move_of go) -> one_step P (move_of go) -> affordable D P go orig ->
  returns (fun fuel => ucsq_search_path qo P D co mo go fuel orig dest) (Ok path) ->
  path = l1 ++ d :: l2 -> follow (move_of go) orig l1 = Some p ->
  exists k c q w, lowest_cost D go orig k dest /\ lowest_cost D go orig c p /\ go p d = Some (q, w) /\ c + w <= k /\
    forall p' d' w' c', lowest_cost D go orig c' p' -> allowed D d' -> go p' d' = Some (q, w') -> c' + w' < k -> c <= c'.
Proof.
  intros H M MC qo ok els co mo P D go orig dest path l1 d l2 p FQ AC AM WF V Vd HG O SC Hk X F. pose proof (afford_HS D P go orig HG SC) as HS.
  destruct (ucsq_outcome qo ok els P (fair_all FQ P) D co mo _ _ (acts_lawful_map _ _ P co AC) (acts_lawful_map _ _ P mo AM) WF go orig dest V Vd HS SC) as (r & Hr & (r0 & Ho & Hc & _)).
  assert (r = Ret (Ok path)) as -> by (apply (settles_unique _ _ _ _ Hr); exact Hk). destruct Hc as [E | (E & _)]; [injection E as <- | discriminate E].
  exact (fucs_moves P D go orig dest path l1 d l2 p WF V HG O SC Ho X F).
Qed.

Lemma C152_astar_moves_proof : forall H M MC (qo : queueops H) ok els (co : mapops Z MC) (mo : mapops (option dir) M) P go orig dest rs path l1 d l2 p,
  fair_queue qo ok els -> acts_as_map P co -> acts_as_map P mo -> post_wf P -> valid P orig -> valid P dest ->
  go_inside P go -> one_step P go -> (forall q, reachable false go orig q -> In q rs) -> Z.of_nat (length rs) <= 18446744073709551615 ->
  returns (fun fuel => astarq_search_path qo P false co mo go fuel orig dest) (Ok path) ->
  path = l1 ++ d :: l2 -> follow go orig l1 = Some p ->
  let left q := Z.abs (fst q - fst dest) + Z.abs (snd q - snd dest) in
  exists n m q, at_distance false go orig n dest /\ at_distance false go orig m p /\ go p d = Some q /\
    Z.of_nat m + 1 + left q <= Z.of_nat n /\
    forall p' d' m', at_distance false go orig m' p' -> allowed false d' -> go p' d' = Some q ->
      Z.of_nat m' + 1 + left q < Z.of_nat n -> Z.of_nat m + left p <= Z.of_nat m' + left p'.
Proof.
  intros H M MC qo ok els co mo P go orig dest rs path l1 d l2 p FQ AC AM WF V Vd HG O HR HL Hk X F left0.
  destruct (astarq_outcome qo ok els P (fair_all FQ P) false co mo _ _ (acts_lawful_map _ _ P co AC) (acts_lawful_map _ _ P mo AM) WF go orig dest V Vd HG rs HR HL) as (r & Hr & K).
  assert (r = Ret (Ok path)) as -> by (apply (settles_unique _ _ _ _ Hr); exact Hk). destruct K as [(r0 & Ho & Hc & _) | (_ & E)]; [|discriminate E]. destruct Hc as [E | (E & _)]; [injection E as <- | discriminate E].
  exact (fastar_moves P go orig dest path l1 d l2 p WF V HG O (gen_HA P false go orig HG rs HR HL) Ho X F).
Qed.

(** ** Nothing but the order matters *)

Section Same.
  Context (P : post) (D : bool) (succ : pos -> dir -> option (pos * Z)) (h : pos -> Z) (orig : pos) (le : Z * pos -> Z * pos -> Prop).
  Context (Vo : valid P orig).
  Context (HS : forall p d q w, valid P p -> succ p d = Some (q, w) -> valid P q /\ 0 <= w).
  Context (HA : affordable D P succ orig).
  Context (anti : forall k p k' p', le (k, p) (k', p') -> le (k', p') (k, p) -> p = p').
  (** Elements of the heap with the same position have different priorities. *)
  Definition apart (c : pos -> Z) (hp : heap) : Prop :=
    (c orig = 0 /\ forall p, 0 <= c p) /\
    (forall x, In x hp -> x = e0 orig \/ c (e_pos x) + h (e_pos x) <= e_prio x /\ e_pos x <> orig) /\
    forall x y, In x hp -> In y hp -> e_pos x = e_pos y -> e_prio x = e_prio y -> x = y.
  Lemma relax_apart : forall p d c hp c' hp', valid P p -> apart c hp -> relax succ h p (c, hp) d = (c', hp') -> apart c' hp'.
  Proof using HS.
    clear -HS. intros p d c hp c' hp' V ((Z0 & Zp) & I1 & I2) E. destruct (relax_cases succ h p c hp d c' hp' E) as [(-> & -> & _) | (q & w & Es & L & -> & ->)]; [split; auto |].
    destruct (HS p d q w V Es) as (_ & Hw). pose proof (Zp p) as Zpp. assert (Nq : q <> orig) by (intros ->; lia).
    split; [split |split].
    - rewrite put_neq by exact Nq. exact Z0.
    - intros r. unfold put. destruct (pos_eqb q r); [lia | apply Zp].
    - intros x [<- | Hx]; [right; change (e_pos (c p + w + h q, (q, opp d))) with q; change (e_prio (c p + w + h q, (q, opp d))) with (c p + w + h q); rewrite put_eq; split; [lia | exact Nq] |].
      destruct (I1 x Hx) as [E0 | (L0 & N0)]; [left; exact E0 |]. right. split; [|exact N0]. unfold put. destruct (pos_eqb q (e_pos x)) eqn:Q; [apply pos_eqb_eq in Q; subst q; lia | exact L0].
    - assert (NEW : forall y, In y hp -> q = e_pos y -> c p + w + h q = e_prio y -> False).
      { intros y Hy Ep Ek. destruct (I1 y Hy) as [-> | (L0 & N0)]; [apply Nq; exact Ep |]. subst q. lia. }
      intros x y [<- | Hx] [<- | Hy] Ep Ek; [reflexivity | exfalso; apply (NEW y Hy Ep Ek) | exfalso; apply (NEW x Hx (eq_sym Ep) (eq_sym Ek)) | apply I2; assumption].
  Qed.
  Lemma frun_apart : forall c hp tr, FRun D succ h orig c hp tr -> apart c hp.
  Proof.
    intros c hp tr R. induction R as [|c hp tr e rest c' hp' R IH Ep Ee].
    - split; [split; [apply put_eq |] | split].
      + intros p. unfold put. destruct (pos_eqb orig p); [lia | unfold COST_MAX; lia].
      + intros x [<- | []]. left. reflexivity.
      + intros x y [<- | []] [<- | []] _ _. reflexivity.
    - destruct (frun_fin P D succ h orig Vo HS HA c hp tr e R) as (_ & V); [apply (pops_In _ _ _ Ep); auto |].
      apply (expand_inv D succ h apart (e_pos e) c rest c' hp' Ee).
      + destruct IH as (I0 & I1 & I2). split; [exact I0 |]. split; [intros x Hx; apply I1; apply (pops_In _ _ _ Ep); auto | intros x y Hx Hy; apply I2; apply (pops_In _ _ _ Ep); auto].
      + intros d c1 hp1 c2 hp2 _ I E. apply (relax_apart (e_pos e) d c1 hp1 c2 hp2 V I E).
  Qed.
  Lemma expand_perm : forall p c (a b : heap), Permutation a b -> fst (expand D succ h p (c, a)) = fst (expand D succ h p (c, b)) /\ Permutation (snd (expand D succ h p (c, a))) (snd (expand D succ h p (c, b))).
  Proof using.
    clear. intros p. unfold expand. generalize (dirs D). induction l as [|d l IH]; intros c a b Pm; cbn [fold_left]; [auto |].
    unfold relax at 2 4 6 8. destruct (succ p d) as [[q w]|]; [|apply IH; exact Pm]. destruct (c p + w <? c q); apply IH; [apply perm_skip; exact Pm | exact Pm].
  Qed.
  Lemma orun_same : forall c hp tr, ORun D succ h orig le c hp tr -> forall c' hp' tr', ORun D succ h orig le c' hp' tr' -> length tr = length tr' ->
    tr = tr' /\ c = c' /\ Permutation hp hp'.
  Proof.
    intros c hp tr R. induction R as [|c hp tr e rest c1 hp1 R IH (Ep & Eo) Ee]; intros c' hp' tr' R' L.
    - destruct R'; [auto | discriminate].
    - destruct R' as [|c' hp' tr' e' rest' c1' hp1' R' (Ep' & Eo') Ee']; [discriminate |]. cbn [length] in L. injection L as L.
      destruct (IH c' hp' tr' R' L) as (<- & <- & Pm).
      assert (He : In e hp) by (apply (pops_In _ _ _ Ep); auto). assert (He' : In e' hp) by (apply (Permutation_in _ (Permutation_sym Pm)); apply (pops_In _ _ _ Ep'); auto).
      assert (EE : e = e').
      { pose proof (pops_min _ _ _ Ep e' He') as M1. pose proof (pops_min _ _ _ Ep' e (Permutation_in _ Pm He)) as M2. assert (Ek : e_prio e = e_prio e') by lia.
        destruct (frun_apart _ _ _ (orun_frun _ _ _ _ _ _ _ _ R)) as (_ & _ & DI).
        apply (proj1 (pops_In _ _ _ Ep e')) in He'. destruct He' as [-> | He']; [reflexivity |].
        apply (Permutation_in _ Pm) in He. apply (proj1 (pops_In _ _ _ Ep' e)) in He. destruct He as [-> | He]; [reflexivity |].
        apply DI; [apply (pops_In _ _ _ Ep); auto | apply (pops_In _ _ _ Ep); auto | | exact Ek].
        apply (anti (e_prio e) (e_pos e) (e_prio e') (e_pos e')); [apply (Eo e' He') | apply (Eo' e He)]. }
      subst e'. assert (PR : Permutation rest rest').
      { apply (Permutation_cons_inv (a := e)). etransitivity; [symmetry; apply Ep |]. etransitivity; [exact Pm | apply Ep']. }
      destruct (expand_perm (e_pos e) c rest rest' PR) as (X1 & X2). rewrite Ee, Ee' in X1, X2. auto.
  Qed.
  Lemma orun_part : forall c hp tr, ORun D succ h orig le c hp tr -> forall n, (n <= length tr)%nat ->
    exists c' hp' l tr', ORun D succ h orig le c' hp' tr' /\ tr = l ++ tr' /\ length tr' = n.
  Proof using.
    clear. intros c hp tr R. induction R as [|c hp tr e rest c1 hp1 R IH Ep Ee]; intros n L.
    - exists (put (fun _ => COST_MAX) orig 0), [e0 orig], [], []. split; [constructor |]. cbn in L. split; [reflexivity | cbn; lia].
    - destruct (Nat.eq_dec n (length (e :: tr))) as [-> | N].
      + exists c1, hp1, [], (e :: tr). split; [econstructor; eassumption | auto].
      + cbn [length] in *. destruct (IH n ltac:(lia)) as (c' & hp' & l & tr' & R' & -> & L'). exists c', hp', (e :: l), tr'. auto.
  Qed.
  Lemma ooutcome_same : forall dest r r', ooutcome D succ h orig le P dest r -> ooutcome D succ h orig le P dest r' -> r = r'.
  Proof.
    assert (LT : forall dest c hp e tr c' hp' e' tr', ORun D succ h orig le c hp (e :: tr) -> e_pos e = dest -> ORun D succ h orig le c' hp' (e' :: tr') -> ~ popped tr' dest -> ~ (length tr < length tr')%nat).
    { intros dest c hp e tr c' hp' e' tr' R Ed R' N' L. destruct (orun_part _ _ _ R' (length (e :: tr))) as (c1 & hp1 & l & tr1 & R1 & X & L1); [cbn [length]; lia |].
      destruct (orun_same _ _ _ R _ _ _ R1 (eq_sym L1)) as (<- & _). destruct l as [|x l].
      - cbn [app] in X. injection X as _ ->. lia.
      - cbn [app] in X. injection X as _ ->. apply N'. exists e. split; [apply in_or_app; right; left; reflexivity | exact Ed]. }
    intros dest r r' [(-> & N) | (c & hp & e & tr & R & Ed & Np & RC & ->)] [(-> & N') | (c' & hp' & e' & tr' & R' & Ed' & Np' & RC' & ->)]; [reflexivity | contradiction | contradiction |].
    pose proof (LT dest _ _ _ _ _ _ _ _ R Ed R' Np'). pose proof (LT dest _ _ _ _ _ _ _ _ R' Ed' R Np).
    destruct (orun_same _ _ _ R _ _ _ R' ltac:(cbn [length]; lia)) as (<- & _). reflexivity.
  Qed.
  Lemma ooutcome_any_same : forall dest r r', ooutcome_any P D succ h orig le dest r -> ooutcome_any P D succ h orig le dest r' -> r = r'.
  Proof.
    intros dest r r' (r0 & Ho & Hc & Hp) (r0' & Ho' & Hc' & Hp'). rewrite (ooutcome_same dest r0' r0 Ho' Ho) in *.
    destruct Hc as [-> | (-> & RC)], Hc' as [-> | (-> & RC')]; try reflexivity; exfalso.
    - specialize (Hp RC'). specialize (Hp' RC'). apply proj1 in Hp'. specialize (Hp' eq_refl). apply Hp in Hp'. discriminate.
    - specialize (Hp RC). specialize (Hp' RC). apply proj1 in Hp. specialize (Hp eq_refl). apply Hp' in Hp. discriminate.
  Qed.
End Same.

Lemma C152_ucs_same_proof : forall H M MC (qo : queueops H) ok els (co : mapops Z MC) (mo : mapops (option dir) M)
    H' M' MC' (qo' : queueops H') ok' els' (co' : mapops Z MC') (mo' : mapops (option dir) M') cmp P (D : bool) go orig dest,
  order_of P cmp -> ordered_queue P cmp qo ok els -> ordered_queue P cmp qo' ok' els' ->
  acts_as_map P co -> acts_as_map P mo -> acts_as_map P co' -> acts_as_map P mo' -> post_wf P -> valid P orig -> valid P dest ->
  go_inside P (move_of go) -> affordable D P go orig ->
  exists r, settles (fun fuel => ucsq_search_path qo P D co mo go fuel orig dest) r /\
    settles (fun fuel => ucsq_search_path qo' P D co' mo' go fuel orig dest) r.
Proof.
  intros H M MC qo ok els co mo H' M' MC' qo' ok' els' co' mo' cmp P D go orig dest OO OQ OQ' AC AM AC' AM' WF V Vd HG SC. pose proof (afford_HS D P go orig HG SC) as HS.
  destruct (ahead_by_laws (ext P cmp) (ext_order P cmp OO)) as (_ & _ & _ & _ & L5).
  destruct (ucsq_ooutcome (ext P cmp) (ext_order P cmp OO) qo _ els P (ext_queue P cmp H qo ok els OQ) D co mo _ _ (acts_lawful_map _ _ P co AC) (acts_lawful_map _ _ P mo AM) WF go orig dest V Vd HS SC) as (r & Hr & Ho).
  destruct (ucsq_ooutcome (ext P cmp) (ext_order P cmp OO) qo' _ els' P (ext_queue P cmp H' qo' ok' els' OQ') D co' mo' _ _ (acts_lawful_map _ _ P co' AC') (acts_lawful_map _ _ P mo' AM') WF go orig dest V Vd HS SC) as (r' & Hr' & Ho').
  exists r. split; [exact Hr |]. rewrite (ooutcome_any_same P D go (fun _ => 0) orig _ V HS SC L5 dest r r' Ho Ho'). exact Hr'.
Qed.

Lemma C152_astar_same_proof : forall H M MC (qo : queueops H) ok els (co : mapops Z MC) (mo : mapops (option dir) M)
    H' M' MC' (qo' : queueops H') ok' els' (co' : mapops Z MC') (mo' : mapops (option dir) M') cmp P (D : bool) go orig dest rs,
  order_of P cmp -> ordered_queue P cmp qo ok els -> ordered_queue P cmp qo' ok' els' ->
  acts_as_map P co -> acts_as_map P mo -> acts_as_map P co' -> acts_as_map P mo' -> post_wf P -> valid P orig -> valid P dest ->
  go_inside P go ->
  (forall p, reachable D go orig p -> In p rs) ->
  (forall p, reachable D go orig p -> measurable P p dest /\
     Z.of_nat (length rs) + (Z.abs (fst p - fst dest) + Z.abs (snd p - snd dest)) <= 18446744073709551615) ->
  exists r, settles (fun fuel => astarq_search_path qo P D co mo go fuel orig dest) r /\
    settles (fun fuel => astarq_search_path qo' P D co' mo' go fuel orig dest) r.
Proof.
  intros H M MC qo ok els co mo H' M' MC' qo' ok' els' co' mo' cmp P D go orig dest rs OO OQ OQ' AC AM AC' AM' WF V Vd HG HR HM.
  assert (HL : Z.of_nat (length rs) <= COST_MAX).
  { assert (RO : reachable D go orig orig) by (exists 0%nat, []; cbn; auto). destruct (HM orig RO) as (_ & L). unfold COST_MAX. lia. }
  assert (NF : ~ too_far P D go orig dest rs) by (intros (q & Rq & Nq); apply Nq; exact (HM q Rq)).
  destruct (ahead_by_laws (ext P cmp) (ext_order P cmp OO)) as (_ & _ & _ & _ & L5).
  destruct (astarq_ooutcome (ext P cmp) (ext_order P cmp OO) qo _ els P (ext_queue P cmp H qo ok els OQ) D co mo _ _ (acts_lawful_map _ _ P co AC) (acts_lawful_map _ _ P mo AM) WF go orig dest V Vd HG rs HR HL) as (r & Hr & [Ho | (F & _)]); [|contradiction].
  destruct (astarq_ooutcome (ext P cmp) (ext_order P cmp OO) qo' _ els' P (ext_queue P cmp H' qo' ok' els' OQ') D co' mo' _ _ (acts_lawful_map _ _ P co' AC') (acts_lawful_map _ _ P mo' AM') WF go orig dest V Vd HG rs HR HL) as (r' & Hr' & [Ho' | (F & _)]); [|contradiction].
  exists r. split; [exact Hr |]. rewrite (ooutcome_any_same P D (unit_cost go) (fun p => mdist p dest) orig _ V (unit_HS P go HG) (gen_HA P D go orig HG rs HR HL) L5 dest r r' Ho Ho'). exact Hr'.
Qed.
