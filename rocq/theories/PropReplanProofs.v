(** PropReplanProofs.v -- proofs of the statements of PropReplan.v. *)

From Coq Require Import ZArith List Bool Lia Sorted.
From Verif Require Import Rust BoundedInt Dir PosT Pos Grid Gridbool SetMap CameFrom Bf Heap Astar Ucs Spec SpecSearch SpecSettle SpecMaze Lib Deque BoundedIntProofs PosTProofs PosTProofs2 PropDirProofs SetMapProofs Sim CameFromProofs PropSetMapProofs BfProofs PropBfProofs PropFirstProofs BestFirst UcsProofs PropUcsProofs AstarProofs PropAstarProofs PropAgreeProofs PropPathProofs PropSettleProofs SpecFirst SpecReplan.
Import ListNotations.
Open Scope Z_scope.

Lemma bfs_limit : forall b P D W go orig found dest path,
  usable b P W -> valid P orig -> go_inside P go -> one_step P go ->
  returns (fun fuel => bfs_on b P D W fuel go orig found) (Ok (dest, path)) ->
  nearest_goal D go orig found (length path) /\ (length path <= Z.to_nat (cols P * cols P))%nat.
Proof.
  intros b P D W go orig found dest path U V GI O R. destruct (C73_bfs_exact_proof b P D W go orig found U V GI O) as (r & Hr & _ & Hn & _).
  rewrite <- (returns_unique _ _ _ R Hr) in Hn. apply (Hn (length path)). exists dest, path. auto.
Qed.

Lemma first_shortest_nearest : forall D go orig found dest path, first_shortest D go orig found dest path -> nearest_goal D go orig found (length path).
Proof.
  intros D go orig found dest path (A & F & N & Fd & M). split; [exists dest; split; [exact N | split; [exact Fd | exists path; auto]] |].
  intros j q Hj Nq Fq (w & L & Aw & Fw). destruct (M q w Nq Fq Aw Fw) as [H | (H & _)]; lia.
Qed.

Lemma before_asym : forall v w, before v w -> before w v -> False.
Proof. intros v w H K. exact (before_irrefl v (before_trans _ _ _ H K)). Qed.

Lemma first_shortest_unique : forall D go orig found dest path dest' path',
  first_shortest D go orig found dest path -> first_shortest D go orig found dest' path' -> dest' = dest /\ path' = path.
Proof.
  intros D go orig found dest path dest' path' (A & F & N & Fd & M) (A' & F' & N' & Fd' & M').
  assert (E : path' = path).
  { destruct (M _ _ N' Fd' A' F') as [H | (L & [H | H])]; [| exact H |]; destruct (M' _ _ N Fd A F) as [K | (L' & [K | K])]; try lia; [auto | destruct (before_asym _ _ H K)]. }
  subst path'. split; [congruence | reflexivity].
Qed.

(** * Breadth-first search *)

Lemma C133_bfs_path_exact_proof : forall b P D W go orig found dest path,
  usable b P W -> valid P orig -> go_inside P go -> one_step P go ->
  (returns (fun fuel => bfs_on b P D W fuel go orig found) (Ok (dest, path)) <->
   first_shortest D go orig found dest path /\ Z.of_nat (length path) <= cols P * cols P) /\
  forall dest' path', first_shortest D go orig found dest path -> first_shortest D go orig found dest' path' -> dest' = dest /\ path' = path.
Proof.
  intros b P D W go orig found dest path U V GI O. split; [|intros; eapply first_shortest_unique; eassumption].
  assert (Fwd : forall dest path, returns (fun fuel => bfs_on b P D W fuel go orig found) (Ok (dest, path)) ->
    first_shortest D go orig found dest path /\ Z.of_nat (length path) <= cols P * cols P).
  { clear dest path. intros dest path R. destruct (bfs_limit b P D W go orig found dest path U V GI O R) as (Hn & L).
    destruct (C48_bfs_shortest_proof b P D W go orig found dest path U V GI O R) as (Fd & A & F & M).
    assert (N : dest <> orig).
    { intros ->. destruct (C118_bfs_simple_proof b P D W go orig found orig path U V GI O R) as (ND & La). destruct path as [|d path].
      - destruct Hn as ((q & Nq & _ & Wq) & _). apply walk_0 in Wq. congruence.
      - cbn [places] in *. inversion ND as [|? ? NI _]; subst. apply NI. rewrite <- La at 1. clear. generalize (step orig d). intros r.
        destruct (@exists_last _ (r :: places r path)) as (l & x & E); [discriminate |]. rewrite E, last_last. apply in_or_app. right. left. reflexivity. }
    split; [|pose proof (Z.square_nonneg (cols P)); lia].
    split; [exact A |]. split; [exact F |]. split; [exact N |]. split; [exact Fd |]. intros q other Nq Fq Ao Fo.
    pose proof (M q (length other) Nq Fq (ex_intro _ other (conj eq_refl (conj Ao Fo)))) as Lo. destruct (Nat.eq_dec (length path) (length other)) as [E | E]; [right; split; [exact E |] | left; lia].
    exact (C121_bfs_first_path_proof b P D W go orig found dest path U V GI O R q other Nq Fq (eq_sym E) Ao Fo). }
  split; [apply Fwd |]. intros (FS & L). destruct (C73_bfs_exact_proof b P D W go orig found U V GI O) as (r & Hr & _ & Hn & _).
  destruct (proj2 (Hn (length path))) as (dest' & path' & -> & _).
  - split; [eapply first_shortest_nearest; exact FS | lia].
  - destruct (first_shortest_unique _ _ _ _ _ _ _ _ FS (proj1 (Fwd _ _ Hr))) as (-> & ->). exact Hr.
Qed.

Lemma before_cancel : forall u v w, before (u ++ v) (u ++ w) -> before v w.
Proof. induction u as [|a u IH]; intros v w H; cbn in H; [exact H |]. destruct H as [H | (_ & H)]; [lia | apply IH; exact H]. Qed.

Lemma before_heads : forall u v s, length u = length v -> before (u ++ s) (v ++ s) -> before u v.
Proof.
  induction u as [|a u IH]; intros [|b v] s L H; cbn in *; try discriminate; [destruct (before_irrefl _ H) |].
  destruct H as [H | (-> & H)]; [left; exact H | right; split; [reflexivity | apply (IH v s); [lia | exact H]]].
Qed.

Lemma rest_nonempty : forall (l : list dir), l <> [] -> (0 < length l)%nat.
Proof. intros [|d l] H; [contradiction | cbn; lia]. Qed.

Lemma first_shortest_rest : forall D go orig found dest l1 l2 p, first_shortest D go orig found dest (l1 ++ l2) -> found orig = false -> l2 <> [] ->
  follow go orig l1 = Some p -> first_shortest D go p found dest l2 /\ found p = false.
Proof.
  intros D go orig found dest l1 l2 p (A & F & N & Fd & M) No Ne Fp. apply Forall_app in A. destruct A as (A1 & A2). rewrite follow_app, Fp in F.
  assert (Fnp : found p = false).
  { destruct (found p) eqn:E; [exfalso | reflexivity]. assert (Np : p <> orig) by congruence. apply rest_nonempty in Ne.
    destruct (M p l1 Np E A1 Fp) as [H | (H & _)]; rewrite app_length in H; lia. }
  split; [|exact Fnp]. split; [exact A2 |]. split; [exact F |]. split; [congruence |]. split; [exact Fd |]. intros q other Nq Fq Ao Fo.
  assert (Nqo : q <> orig) by congruence. destruct (M q (l1 ++ other) Nqo Fq) as [H | (H & [K | K])].
  - apply Forall_app. auto.
  - rewrite follow_app, Fp. exact Fo.
  - rewrite !app_length in H. left. lia.
  - rewrite !app_length in H. right. split; [lia |]. left. exact (app_inv_head _ _ _ K).
  - rewrite !app_length in H. right. split; [lia |]. right. exact (before_cancel _ _ _ K).
Qed.

Lemma first_shortest_part : forall D go orig found dest l1 l2 q, first_shortest D go orig found dest (l1 ++ l2) -> l1 <> [] ->
  follow go orig l1 = Some q -> first_shortest D go orig (fun r => pos_eqb r q) q l1.
Proof.
  intros D go orig found dest l1 l2 q (A & F & N & Fd & M) Ne Fp. apply Forall_app in A. destruct A as (A1 & A2). rewrite follow_app, Fp in F.
  split; [exact A1 |]. split; [exact Fp |]. split.
  { intros ->. apply rest_nonempty in Ne. destruct (M dest l2 N Fd A2 F) as [H | (H & _)]; rewrite app_length in H; lia. }
  split; [apply pos_eqb_refl |]. intros r other Nr Er Ao Fo. apply pos_eqb_eq in Er. subst r. destruct (M dest (other ++ l2) N Fd) as [H | (H & [K | K])].
  - apply Forall_app. auto.
  - rewrite follow_app, Fo. exact F.
  - rewrite !app_length in H. left. lia.
  - rewrite !app_length in H. right. split; [lia |]. left. exact (app_inv_tail _ _ _ K).
  - rewrite !app_length in H. right. split; [lia |]. right. apply (before_heads _ _ l2); [lia | exact K].
Qed.

Lemma follow_fewer : forall (go go' : pos -> dir -> option pos), (forall p d q, go' p d = Some q -> go p d = Some q) ->
  forall path p q, follow go' p path = Some q -> follow go p path = Some q.
Proof. intros go go' H. induction path as [|d path IH]; intros p q F; cbn in *; [exact F |]. destruct (go' p d) as [r|] eqn:E; [|discriminate]. rewrite (H _ _ _ E). apply IH. exact F. Qed.

Lemma C133_bfs_rest_proof : forall b P D W go orig found dest path l1 l2 p,
  usable b P W -> valid P orig -> go_inside P go -> one_step P go -> found orig = false ->
  returns (fun fuel => bfs_on b P D W fuel go orig found) (Ok (dest, path)) ->
  path = l1 ++ l2 -> l2 <> [] -> follow go orig l1 = Some p ->
  returns (fun fuel => bfs_on b P D W fuel go p found) (Ok (dest, l2)).
Proof.
  intros b P D W go orig found dest path l1 l2 p U V GI O No R -> Ne Fp.
  apply (C133_bfs_path_exact_proof b P D W go orig found dest (l1 ++ l2) U V GI O) in R. destruct R as (FS & L).
  apply (C133_bfs_path_exact_proof b P D W go p found dest l2 U); [|exact GI | exact O |].
  - apply (walk_valid D go P (length l1) orig p GI V). exists l1. split; [reflexivity |]. split; [|exact Fp]. destruct FS as (A & _). apply Forall_app in A. apply A.
  - split; [eapply first_shortest_rest; eassumption |]. rewrite app_length in L. lia.
Qed.

Lemma C133_bfs_replanned_proof : forall b P D W go orig found dest path w,
  usable b P W -> valid P orig -> go_inside P go -> one_step P go -> found orig = false ->
  returns (fun fuel => bfs_on b P D W fuel go orig found) (Ok (dest, path)) ->
  (replanned (fun p l => exists d, returns (fun fuel => bfs_on b P D W fuel go p found) (Ok (d, l))) go dest orig w <-> w = path).
Proof.
  intros b P D W go orig found dest path w U V GI O No R.
  apply (C133_bfs_path_exact_proof b P D W go orig found dest path U V GI O) in R. destruct R as (FS & L).
  revert orig V No w FS L. induction path as [|d path IH]; intros orig V No w FS L.
  - exfalso. destruct FS as (_ & F & N & _). cbn in F. congruence.
  - pose proof FS as (A & F & N & Fd & M). cbn in F. destruct (go orig d) as [q|] eqn:Eg; [|discriminate]. pose proof (GI orig d q V Eg) as Vq.
    assert (Rd : returns (fun fuel => bfs_on b P D W fuel go orig found) (Ok (dest, d :: path))) by (apply (C133_bfs_path_exact_proof b P D W go orig found dest (d :: path) U V GI O); auto).
    assert (Hd : forall l e, (exists d0, returns (fun fuel => bfs_on b P D W fuel go orig found) (Ok (d0, e :: l))) -> e = d).
    { intros l e (d0 & K). pose proof (returns_unique _ _ _ Rd K) as E. congruence. }
    assert (Next : path <> [] -> first_shortest D go q found dest path /\ found q = false).
    { intros Ne. apply (first_shortest_rest D go orig found dest [d] path q FS No Ne). cbn. rewrite Eg. reflexivity. }
    assert (LZ : Z.of_nat (length path) <= cols P * cols P) by (cbn [length] in L; lia).
    destruct path as [|e path].
    + cbn in F. inversion F; subst q. split.
      * intros R. inversion R as [|p e rest q w' Np Pl Gq R']; subst; [congruence |]. pose proof (Hd _ _ Pl). subst e. assert (q = dest) by congruence. subst q.
        inversion R' as [|p' e' rest' q' w'' Np' _ _ _]; subst; [reflexivity | congruence].
      * intros ->. eapply Onward; [congruence | exists dest; exact Rd | exact Eg | constructor].
    + destruct Next as (FS' & Nq); [discriminate |]. specialize (IH q Vq Nq). split.
      * intros R. inversion R as [|p e' rest q' w' Np Pl Gq R']; subst; [congruence |]. pose proof (Hd _ _ Pl). subst e'. assert (q' = q) by congruence. subst q'.
        apply (IH w' FS' LZ) in R'. subst w'. reflexivity.
      * intros ->. eapply Onward; [congruence | exists dest; exact Rd | exact Eg |]. apply (IH (e :: path) FS' LZ). reflexivity.
Qed.

Lemma C133_bfs_part_proof : forall b P D W go orig found dest path l1 l2 q,
  usable b P W -> valid P orig -> go_inside P go -> one_step P go ->
  returns (fun fuel => bfs_on b P D W fuel go orig found) (Ok (dest, path)) ->
  path = l1 ++ l2 -> l1 <> [] -> follow go orig l1 = Some q ->
  returns (fun fuel => bfs_on b P D W fuel go orig (fun r => pos_eqb r q)) (Ok (q, l1)).
Proof.
  intros b P D W go orig found dest path l1 l2 q U V GI O R -> Ne Fp.
  apply (C133_bfs_path_exact_proof b P D W go orig found dest (l1 ++ l2) U V GI O) in R. destruct R as (FS & L).
  apply (C133_bfs_path_exact_proof b P D W go orig (fun r => pos_eqb r q) q l1 U V GI O).
  split; [eapply first_shortest_part; eassumption |]. rewrite app_length in L. lia.
Qed.

Lemma C133_bfs_unused_proof : forall b P D W go go' orig found found' dest path,
  usable b P W -> valid P orig -> go_inside P go -> one_step P go ->
  returns (fun fuel => bfs_on b P D W fuel go orig found) (Ok (dest, path)) ->
  (forall p d q, go' p d = Some q -> go p d = Some q) -> (forall p, found' p = true -> found p = true) ->
  follow go' orig path = Some dest -> found' dest = true ->
  returns (fun fuel => bfs_on b P D W fuel go' orig found') (Ok (dest, path)).
Proof.
  intros b P D W go go' orig found found' dest path U V GI O R Hg Hf F' Fd'.
  apply (C133_bfs_path_exact_proof b P D W go orig found dest path U V GI O) in R. destruct R as ((A & F & N & Fd & M) & L).
  apply (C133_bfs_path_exact_proof b P D W go' orig found' dest path U V); [intros p d q Vp E; apply (GI p d q Vp (Hg _ _ _ E)) | intros p d q Vp E; apply (O p d q Vp (Hg _ _ _ E)) |].
  split; [|exact L]. split; [exact A |]. split; [exact F' |]. split; [exact N |]. split; [exact Fd' |]. intros q other Nq Fq Ao Fo.
  apply (M q other Nq (Hf _ Fq) Ao). apply (follow_fewer go go' Hg _ _ _ Fo).
Qed.

Lemma follow_cost_app : forall go u v p, follow_cost go p (u ++ v) =
  match follow_cost go p u with Some (q, a) => match follow_cost go q v with Some (r, b) => Some (r, a + b) | None => None end | None => None end.
Proof.
  intros go. induction u as [|d u IH]; intros v p; cbn [app follow_cost].
  - destruct (follow_cost go p v) as [[r b]|]; reflexivity.
  - destruct (go p d) as [[q a]|]; [|reflexivity]. rewrite IH. destruct (follow_cost go q u) as [[q' a']|]; [|reflexivity].
    destruct (follow_cost go q' v) as [[r b]|]; [rewrite Z.add_assoc; reflexivity | reflexivity].
Qed.

Lemma cost_walk_trans : forall D go p a q b r, cost_walk D go p a q -> cost_walk D go q b r -> cost_walk D go p (a + b) r.
Proof. intros D go p a q b r (u & Au & Fu) (v & Av & Fv). exists (u ++ v). split; [apply Forall_app; auto |]. rewrite follow_cost_app, Fu, Fv. reflexivity. Qed.

Lemma cost_nonneg : forall P go, go_inside P (move_of go) -> (forall p d q c, valid P p -> go p d = Some (q, c) -> 0 <= c) ->
  forall path p q c, valid P p -> follow_cost go p path = Some (q, c) -> 0 <= c /\ valid P q.
Proof.
  intros P go GI H. induction path as [|d path IH]; intros p q c V F; cbn [follow_cost] in F; [inversion F; subst; split; [lia | exact V] |].
  destruct (go p d) as [[r a]|] eqn:E; [|discriminate]. assert (Vr : valid P r) by (apply (GI p d r V); unfold move_of; rewrite E; reflexivity).
  destruct (follow_cost go r path) as [[r' b]|] eqn:E2; [|discriminate]. inversion F; subst. destruct (IH r q b Vr E2). pose proof (H p d r a V E). split; [lia | assumption].
Qed.

Lemma lowest_exists : forall D P go p c q, go_inside P (move_of go) -> (forall p d q c, valid P p -> go p d = Some (q, c) -> 0 <= c) -> valid P p ->
  cost_walk D go p c q -> ~ (forall k, ~ lowest_cost D go p k q).
Proof.
  intros D P go p c q GI H V Wc No. assert (X : forall n c, (Z.to_nat c <= n)%nat -> cost_walk D go p c q -> False); [|exact (X _ c (le_n _) Wc)].
  clear c Wc. induction n as [|n IH]; intros c L Wc; apply (No c); (split; [exact Wc |]); intros c' Wc'; destruct (Z_le_gt_dec c c') as [K | K]; try exact K; exfalso;
    pose proof Wc' as (w & _ & Fw); destruct (cost_nonneg P go GI H w p q c' V Fw) as (N & _); [lia | apply (IH c'); [lia | exact Wc']].
Qed.

(** A walk of lowest cost is one in all its parts. *)
Lemma lowest_parts : forall D go orig u v c dest, Forall (allowed D) (u ++ v) -> follow_cost go orig (u ++ v) = Some (dest, c) -> lowest_cost D go orig c dest ->
  exists r a b, follow_cost go orig u = Some (r, a) /\ follow_cost go r v = Some (dest, b) /\ c = a + b /\ lowest_cost D go orig a r /\ lowest_cost D go r b dest.
Proof.
  intros D go orig u v c dest A F (_ & M). rewrite follow_cost_app in F. destruct (follow_cost go orig u) as [[r a]|] eqn:Eu; [|discriminate].
  destruct (follow_cost go r v) as [[r' b]|] eqn:Ev; [|discriminate]. inversion F; subst. apply Forall_app in A. destruct A as (Au & Av).
  assert (Wu : cost_walk D go orig a r) by (exists u; auto). assert (Wv : cost_walk D go r b dest) by (exists v; auto).
  exists r, a, b. split; [reflexivity |]. split; [exact Ev |]. split; [reflexivity |]. split.
  - split; [exact Wu |]. intros a' W'. pose proof (M _ (cost_walk_trans _ _ _ _ _ _ _ W' Wv)). lia.
  - split; [exact Wv |]. intros b' W'. pose proof (M _ (cost_walk_trans _ _ _ _ _ _ _ Wu W')). lia.
Qed.

Lemma ahead_dec : forall a b, ahead a b \/ ~ ahead a b.
Proof. intros [a p] [b q]. unfold ahead. cbn [fst snd]. lia. Qed.

Lemma settled_rest : forall D P go orig dest l1 l2 p c, go_inside P (move_of go) -> (forall p d q c, valid P p -> go p d = Some (q, c) -> 0 < c) -> valid P orig ->
  settled_path D go orig dest (l1 ++ l2) -> follow_cost go orig (l1 ++ l2) = Some (dest, c) -> lowest_cost D go orig c dest ->
  follow (move_of go) orig l1 = Some p -> settled_path D go p dest l2.
Proof.
  intros D P go orig dest l1 l2 p c GI Pos Vo (A & F & S) Fc Lc Fp.
  assert (NN : forall p d q c, valid P p -> go p d = Some (q, c) -> 0 <= c) by (intros p0 d0 q0 c0 V0 E0; pose proof (Pos p0 d0 q0 c0 V0 E0); lia).
  destruct (lowest_parts D go orig l1 l2 c dest A Fc Lc) as (p_ & c0 & c2 & F1 & F2 & -> & L1 & L2).
  assert (p_ = p) by (apply follow_move_of in F1; congruence). subst p_. destruct (cost_nonneg P go GI NN l1 orig p c0 Vo F1) as (_ & Vp).
  pose proof (proj2 (proj1 (Forall_app _ _ _) A)) as A2. split; [exact A2 |]. split; [eapply follow_move_of; exact F2 |].
  intros m1 d m2 r -> Fr. destruct (S (l1 ++ m1) d m2 r) as (q & Mq & Nq & k & cr & w & Lk & Lr & Gq & Ah & Min).
  { rewrite <- app_assoc. reflexivity. }
  { rewrite follow_app, Fp. exact Fr. }
  pose proof (lowest_unique _ _ _ _ _ _ Lc Lk) as Ek.
  destruct (lowest_parts D go p m1 (d :: m2) c2 dest A2 F2 L2) as (r_ & x & y & G1 & G2 & -> & M1 & M2).
  assert (r_ = r) by (apply follow_move_of in G1; congruence). subst r_.
  assert (Er : cr = c0 + x).
  { assert (A' : Forall (allowed D) ((l1 ++ m1) ++ d :: m2)) by (rewrite <- app_assoc; exact A).
    assert (F' : follow_cost go orig ((l1 ++ m1) ++ d :: m2) = Some (dest, c0 + (x + y))) by (rewrite <- app_assoc; exact Fc).
    destruct (lowest_parts D go orig (l1 ++ m1) (d :: m2) _ dest A' F' Lc) as (r_ & a & b & K1 & _ & _ & K2 & _).
    rewrite follow_cost_app, F1, G1 in K1. injection K1 as <- <-. apply (lowest_unique _ _ _ _ _ _ Lr K2). }
  exists q. split; [exact Mq |]. split.
  { intros ->. destruct (lowest_parts D go p (m1 ++ [d]) m2 (x + y) dest) as (q_ & a & b & K1 & _ & _ & K2 & _).
    - rewrite <- app_assoc. exact A2.
    - rewrite <- app_assoc. exact F2.
    - exact L2.
    - rewrite follow_cost_app, G1 in K1. cbn in K1. rewrite Gq in K1. injection K1 as <- <-. destruct (cost_nonneg P go GI NN m1 p r x Vp G1) as (Nx & Vr).
      pose proof (Pos r d _ w Vr Gq). destruct K2 as (_ & K2). specialize (K2 0 (ex_intro _ [] (conj (Forall_nil _) eq_refl))). lia. }
  exists (x + y), x, w. split; [exact L2 |]. split; [exact M1 |]. split; [exact Gq |]. split; [unfold ahead in *; cbn [fst snd] in *; lia |].
  intros p' d' w' c' Lp' Ad' Gp' Ah'. destruct (ahead_dec (x, r) (c', p')) as [H | NA]; [exact H | exfalso].
  pose proof (cost_walk_trans _ _ _ _ _ _ _ (proj1 L1) (proj1 Lp')) as Wp'.
  apply (lowest_exists D P go orig (c0 + c') p' GI NN Vo Wp'). intros z Lz. pose proof (proj2 Lz _ Wp') as Hz.
  apply NA. specialize (Min p' d' w' z Lz Ad' Gp'). unfold ahead in *. cbn [fst snd] in *. subst cr k. lia.
Qed.

(** * Uniform-cost search *)

Lemma C134_ucs_rest_partial_proof : forall b P D W go orig dest path l1 l2 p c,
  usable b P W -> valid P orig -> valid P dest -> go_inside P (move_of go) -> one_step P (move_of go) ->
  affordable D P go orig -> affordable D P go p -> (forall p d q w, valid P p -> go p d = Some (q, w) -> 0 < w) ->
  returns (fun fuel => ucs_on b P D fuel go orig dest) (Ok path) ->
  follow_cost go orig path = Some (dest, c) -> lowest_cost D go orig c dest ->
  path = l1 ++ l2 -> follow (move_of go) orig l1 = Some p ->
  returns (fun fuel => ucs_on b P D fuel go p dest) (Ok l2).
Proof.
  intros b P D W go orig dest path l1 l2 p c U Vo Vd GI O Ao Ap Pos R Fc Lc -> Fp.
  apply (proj1 (C126_ucs_exact_proof b P D W go orig dest (l1 ++ l2) U Vo Vd GI O Ao Pos)) in R. destruct R as (S & L).
  assert (Vp : valid P p).
  { apply (walk_valid D (move_of go) P (length l1) orig p GI Vo). exists l1. split; [reflexivity |]. split; [|exact Fp]. destruct S as (A & _). apply Forall_app in A. apply A. }
  apply (proj1 (C126_ucs_exact_proof b P D W go p dest l2 U Vp Vd GI O Ap Pos)). split; [exact (settled_rest D P go orig dest l1 l2 p c GI Pos Vo S Fc Lc Fp) |]. rewrite app_length in L. lia.
Qed.

Lemma ucs_positive : forall P go orig q d w path dest c, go_inside P (move_of go) -> (forall p d q w, valid P p -> go p d = Some (q, w) -> 0 < w) -> valid P orig ->
  go orig d = Some (q, w) -> follow_cost go q path = Some (dest, c) -> 0 < w + c.
Proof.
  intros P go orig q d w path dest c GI Pos V Eg F. assert (Vq : valid P q) by (apply (GI orig d q V); unfold move_of; rewrite Eg; reflexivity).
  assert (NN : forall p d q c, valid P p -> go p d = Some (q, c) -> 0 <= c) by (intros p0 d0 q0 c0 V0 E0; pose proof (Pos p0 d0 q0 c0 V0 E0); lia).
  pose proof (Pos _ _ _ _ V Eg). destruct (cost_nonneg P go GI NN path q dest c Vq F). lia.
Qed.

Lemma C134_ucs_replanned_partial_proof : forall b P D W go orig dest path c w,
  usable b P W -> valid P orig -> valid P dest -> go_inside P (move_of go) -> one_step P (move_of go) ->
  (forall p, valid P p -> affordable D P go p) -> (forall p d q w, valid P p -> go p d = Some (q, w) -> 0 < w) ->
  returns (fun fuel => ucs_on b P D fuel go orig dest) (Ok path) ->
  follow_cost go orig path = Some (dest, c) -> lowest_cost D go orig c dest ->
  (replanned (fun p l => returns (fun fuel => ucs_on b P D fuel go p dest) (Ok l)) (move_of go) dest orig w <-> w = path).
Proof.
  intros b P D W go orig dest path c w U V Vd GI O Af Pos R F L. revert orig c w V R F L. induction path as [|d path IH]; intros orig c w V R F L.
  - cbn in F. inversion F; subst orig c. split; [|intros ->; constructor]. intros K. inversion K as [|p e rest q w' Np _ _ _]; subst; [reflexivity | congruence].
  - pose proof F as F0. cbn [follow_cost] in F. destruct (go orig d) as [[q a]|] eqn:Eg; [|discriminate]. destruct (follow_cost go q path) as [[r c']|] eqn:Ef; [|discriminate].
    injection F as -> Ec. assert (Mq : move_of go orig d = Some q) by (unfold move_of; rewrite Eg; reflexivity). pose proof (GI _ _ _ V Mq) as Vq.
    assert (No : orig <> dest).
    { intros ->. pose proof (ucs_positive P go dest q d a path dest c' GI Pos V Eg Ef). pose proof (proj2 L 0 (ex_intro _ [] (conj (Forall_nil _) eq_refl))). lia. }
    assert (Fq : follow (move_of go) orig [d] = Some q) by (cbn; rewrite Mq; reflexivity).
    pose proof (C134_ucs_rest_partial_proof b P D W go orig dest (d :: path) [d] path q c U V Vd GI O (Af _ V) (Af _ Vq) Pos R F0 L eq_refl Fq) as Rq.
    assert (Lq : lowest_cost D go q c' dest).
    { assert (A : Forall (allowed D) ([d] ++ path)) by (apply (proj1 (C126_ucs_exact_proof b P D W go orig dest (d :: path) U V Vd GI O (Af _ V) Pos)) in R; apply R).
      destruct (lowest_parts D go orig [d] path c dest A F0 L) as (q_ & x & y & K1 & K2 & _ & _ & K3). cbn in K1. rewrite Eg in K1. injection K1 as <- <-.
      assert (y = c') by congruence. subst y. exact K3. }
    specialize (IH q c'). split.
    + intros K. inversion K as [|p e rest q' w' Np Pl Gq K']; subst; [congruence |]. pose proof (returns_unique _ _ _ R Pl) as E. injection E as <- <-.
      assert (q' = q) by congruence. subst q'. apply (IH w' Vq Rq Ef Lq) in K'. subst w'. reflexivity.
    + intros ->. eapply Onward; [exact No | exact R | exact Mq |]. apply (IH path Vq Rq Ef Lq). reflexivity.
Qed.

Lemma C134_ucs_entering_partial_proof : forall b P D W go orig dest path w,
  usable b P W -> valid P orig -> valid P dest -> go_inside P (move_of go) -> one_step P (move_of go) ->
  (forall p, valid P p -> affordable D P go p) -> (forall p d q w, valid P p -> go p d = Some (q, w) -> 0 < w) -> cost_of_entering D P go ->
  returns (fun fuel => ucs_on b P D fuel go orig dest) (Ok path) ->
  (replanned (fun p l => returns (fun fuel => ucs_on b P D fuel go p dest) (Ok l)) (move_of go) dest orig w <-> w = path).
Proof.
  intros b P D W go orig dest path w U V Vd GI O Af Pos CE R.
  destruct (C51_ucs_lowest_cost_partial_proof b P D W go orig dest path U V Vd GI O (Af _ V) CE R) as (c & F & L).
  exact (C134_ucs_replanned_partial_proof b P D W go orig dest path c w U V Vd GI O Af Pos R F L).
Qed.

Lemma back_and_forth : forall (plan : pos -> list dir -> Prop) go dest a b d e l m, (forall p l l', plan p l -> plan p l' -> l = l') ->
  plan a (d :: l) -> go a d = Some b -> plan b (e :: m) -> go b e = Some a -> a <> dest -> b <> dest ->
  forall w, ~ replanned plan go dest a w /\ ~ replanned plan go dest b w.
Proof.
  intros plan go dest a b d e l m Fn Pa Ga Pb Gb Na Nb. induction w as [|x w (IHa & IHb)].
  - split; intros K; inversion K; subst; congruence.
  - split; intros K; inversion K as [|p y rest q w' Np Pl Gq K']; subst.
    + pose proof (Fn _ _ _ Pa Pl) as E. injection E as <- <-. rewrite Ga in Gq. injection Gq as <-. exact (IHb K').
    + pose proof (Fn _ _ _ Pb Pl) as E. injection E as <- <-. rewrite Gb in Gq. injection Gq as <-. exact (IHa K').
Qed.

(** A road map: one-way roads between neighbours with their costs. *)
Definition road (roads : list (pos * pos * Z)) (p q : pos) : option Z :=
  match find (fun r => pos_eqb (fst (fst r)) p && pos_eqb (snd (fst r)) q) roads with Some r => Some (snd r) | None => None end.

Lemma road_costs : forall roads lo hi p q c, Forall (fun r => lo <= snd r <= hi) roads -> road roads p q = Some c -> lo <= c <= hi.
Proof.
  intros roads lo hi p q c A E. unfold road in E. destruct (find _ roads) as [r|] eqn:Ef; [|discriminate]. inversion E; subst.
  apply find_some in Ef. rewrite Forall_forall in A. apply A. apply Ef.
Qed.

Lemma C134_ucs_refuted_proof : exists b P D W go orig dest path,
  usable b P W /\ rows P <= cols P /\ valid P orig /\ valid P dest /\ go_inside P (move_of go) /\ one_step P (move_of go) /\
  (forall p d q w, valid P p -> go p d = Some (q, w) -> 1 <= w <= 5) /\
  returns (fun fuel => ucs_on b P D fuel go orig dest) (Ok path) /\
  forall w, ~ replanned (fun p l => returns (fun fuel => ucs_on b P D fuel go p dest) (Ok l)) (move_of go) dest orig w.
Proof.
  pose (roads := [((0, 1), (1, 1), 1); ((0, 2), (0, 1), 2); ((0, 2), (1, 2), 2); ((0, 3), (0, 2), 2); ((0, 3), (1, 3), 1); ((1, 1), (2, 1), 3); ((1, 2), (1, 1), 5);
    ((1, 3), (1, 2), 5); ((1, 3), (2, 3), 3); ((1, 3), (0, 3), 1); ((2, 1), (2, 0), 2); ((2, 2), (2, 1), 1); ((2, 3), (2, 2), 4)] : list (pos * pos * Z)).
  pose (go := fun (p : pos) (d : dir) => match pos_dir_add_ok (Pos 3 3) p d with
    | Some q => match road roads p q with Some c => Some (q, c) | None => None end
    | None => None end).
  assert (U : usable OnGrid (Pos 3 3) 1) by (exists 3, 3; unfold u16_dims, cells, cols, rows; cbn; repeat split; lia).
  pose proof (usable_grid_type _ _ _ U) as G.
  assert (GO : forall p d q w, valid (Pos 3 3) p -> go p d = Some (q, w) -> q = step p d /\ valid (Pos 3 3) q /\ 1 <= w <= 5).
  { intros p d q w V E. unfold go, pos_dir_add_ok in E.
    destruct (add_inside (Pos 3 3) p d (grid_type_wf _ G) V) as [(Vs & Ea) | (_ & Ea)]; rewrite Ea in E; cbn [res_ok] in E; [|discriminate].
    destruct (road roads p (step p d)) as [c|] eqn:Er; [|discriminate]. injection E as <- <-. split; [reflexivity |]. split; [exact Vs |].
    apply (road_costs roads 1 5 p (step p d)); [|exact Er]. unfold roads. repeat constructor; cbn; lia. }
  assert (R1 : returns (fun fuel => ucs_on OnGrid (Pos 3 3) false fuel go (0, 3) (2, 0)) (Ok [dE; dN; dN; dE; dN])) by (apply (ucs_path_mono (Pos 3 3) false _ _ go 60); vm_compute; reflexivity).
  assert (R2 : returns (fun fuel => ucs_on OnGrid (Pos 3 3) false fuel go (1, 3) (2, 0)) (Ok [dW; dN; dN; dE; dE; dN])) by (apply (ucs_path_mono (Pos 3 3) false _ _ go 60); vm_compute; reflexivity).
  exists OnGrid, (Pos 3 3), false, 1, go, (0, 3), (2, 0), [dE; dN; dN; dE; dN]. split; [exact U |]. split; [cbv; discriminate |].
  split; [cbv; repeat split; discriminate |]. split; [cbv; repeat split; discriminate |].
  split; [intros p d q V E; unfold move_of in E; destruct (go p d) as [[r w]|] eqn:Eg; inversion E; subst r; apply (GO p d q w V Eg) |].
  split; [intros p d q V E; unfold move_of in E; destruct (go p d) as [[r w]|] eqn:Eg; inversion E; subst r; apply (GO p d q w V Eg) |].
  split; [intros p d q w V E; apply (GO p d q w V E) |]. split; [exact R1 |].
  intros w. apply (back_and_forth (fun p l => returns (fun fuel => ucs_on OnGrid (Pos 3 3) false fuel go p (2, 0)) (Ok l)) (move_of go) (2, 0) (0, 3) (1, 3) dE dW [dN; dN; dE; dN] [dN; dN; dE; dE; dN]); try assumption; try reflexivity; try discriminate.
  intros p l l' K K'. pose proof (returns_unique _ _ _ K K'). congruence.
Qed.

(** * A-star search *)

Lemma C134_astar_refuted_proof : forall D, exists b P W go orig dest path,
  usable b P W /\ rows P <= cols P /\ valid P orig /\ valid P dest /\ go_inside P go /\ one_step P go /\
  returns (fun fuel => astar_on b P D fuel go orig dest) (Ok path) /\
  forall w, ~ replanned (fun p l => returns (fun fuel => astar_on b P D fuel go p dest) (Ok l)) go dest orig w.
Proof.
  intros [].
  - pose (wall := fun q => existsb (pos_eqb q) [(3, 5); (4, 2); (4, 4); (4, 5); (5, 1); (5, 2); (5, 4); (6, 4); (7, 4)]).
    pose (go := fun (p : pos) (d : dir) => match pos_dir_add_ok (Pos 7 7) p d with Some q => if wall q then None else Some q | None => None end).
    assert (U : usable OnGrid (Pos 7 7) 2) by (exists 7, 7; unfold u16_dims, cells, cols, rows; cbn; repeat split; lia).
    pose proof (walls_ok (Pos 7 7) wall (usable_grid_type _ _ _ U)) as GO.
    assert (R1 : returns (fun fuel => astar_on OnGrid (Pos 7 7) true fuel go (5, 0) (7, 5)) (Ok [dSW; dSW; dSE; dSW; dSW; dSE; dE; dNE; dE; dE])) by (apply (astar_on_mono OnGrid (Pos 7 7) true go 300); vm_compute; reflexivity).
    assert (R2 : returns (fun fuel => astar_on OnGrid (Pos 7 7) true fuel go (4, 1) (7, 5)) (Ok [dNE; dSE; dSE; dSW; dW; dW; dSW; dSW; dSE; dE; dNE; dE; dE])) by (apply (astar_on_mono OnGrid (Pos 7 7) true go 300); vm_compute; reflexivity).
    exists OnGrid, (Pos 7 7), 2, go, (5, 0), (7, 5), [dSW; dSW; dSE; dSW; dSW; dSE; dE; dNE; dE; dE]. split; [exact U |]. split; [cbv; discriminate |].
    split; [cbv; repeat split; discriminate |]. split; [cbv; repeat split; discriminate |]. split; [apply GO |]. split; [apply GO |]. split; [exact R1 |].
    intros w. apply (back_and_forth (fun p l => returns (fun fuel => astar_on OnGrid (Pos 7 7) true fuel go p (7, 5)) (Ok l)) go (7, 5) (5, 0) (4, 1) dSW dNE [dSW; dSE; dSW; dSW; dSE; dE; dNE; dE; dE] [dSE; dSE; dSW; dW; dW; dSW; dSW; dSE; dE; dNE; dE; dE]); try assumption; try reflexivity; try discriminate.
    intros p l l' K K'. pose proof (returns_unique _ _ _ K K'). congruence.
  - pose (wall := fun q => existsb (pos_eqb q) [(0, 0); (1, 0); (3, 1); (5, 1); (1, 2); (5, 2); (1, 3); (3, 3); (4, 3); (1, 4); (2, 5); (5, 5); (6, 6); (1, 7); (2, 7); (3, 7); (4, 7); (5, 7)] || (7 <=? fst q)).
    pose (go := fun (p : pos) (d : dir) => match pos_dir_add_ok (Pos 8 8) p d with Some q => if wall q then None else Some q | None => None end).
    assert (U : usable OnGrid (Pos 8 8) 3) by (exists 8, 8; unfold u16_dims, cells, cols, rows; cbn; repeat split; lia).
    pose proof (walls_ok (Pos 8 8) wall (usable_grid_type _ _ _ U)) as GO.
    assert (R1 : returns (fun fuel => astar_on OnGrid (Pos 8 8) false fuel go (4, 0) (6, 7)) (Ok [dS; dS; dW; dW; dN; dW; dW; dS; dS; dS; dS; dS; dS; dS; dE; dE; dE; dE; dE; dE; dN])) by (apply (astar_on_mono OnGrid (Pos 8 8) false go 300); vm_compute; reflexivity).
    assert (R2 : returns (fun fuel => astar_on OnGrid (Pos 8 8) false fuel go (4, 1) (6, 7)) (Ok [dN; dE; dE; dS; dS; dS; dS; dW; dW; dS; dS; dW; dW; dW; dW; dS; dS; dE; dE; dE; dE; dE; dE; dN])) by (apply (astar_on_mono OnGrid (Pos 8 8) false go 300); vm_compute; reflexivity).
    exists OnGrid, (Pos 8 8), 3, go, (4, 0), (6, 7), [dS; dS; dW; dW; dN; dW; dW; dS; dS; dS; dS; dS; dS; dS; dE; dE; dE; dE; dE; dE; dN]. split; [exact U |]. split; [cbv; discriminate |].
    split; [cbv; repeat split; discriminate |]. split; [cbv; repeat split; discriminate |]. split; [apply GO |]. split; [apply GO |]. split; [exact R1 |].
    intros w. apply (back_and_forth (fun p l => returns (fun fuel => astar_on OnGrid (Pos 8 8) false fuel go p (6, 7)) (Ok l)) go (6, 7) (4, 0) (4, 1) dS dN [dS; dW; dW; dN; dW; dW; dS; dS; dS; dS; dS; dS; dS; dE; dE; dE; dE; dE; dE; dN] [dE; dE; dS; dS; dS; dS; dW; dW; dS; dS; dW; dW; dW; dW; dS; dS; dE; dE; dE; dE; dE; dE; dN]); try assumption; try reflexivity; try discriminate.
    intros p l l' K K'. pose proof (returns_unique _ _ _ K K'). congruence.
Qed.

Fixpoint replay (run : pos -> exec (result (list dir))) (go : pos -> dir -> option pos) (dest : pos) (n : nat) (p : pos) : option (list dir) :=
  if pos_eqb p dest then Some [] else match n with
  | O => None
  | S n => match run p with
    | Ret (Ok (d :: _)) => match go p d with Some q => match replay run go dest n q with Some w => Some (d :: w) | None => None end | None => None end
    | _ => None end
  end.

Lemma replay_replanned : forall (plan : pos -> list dir -> Prop) run go dest, (forall p l, run p = Ret (Ok l) -> plan p l) ->
  forall n p w, replay run go dest n p = Some w -> replanned plan go dest p w.
Proof.
  intros plan run go dest Pl. induction n as [|n IH]; intros p w E; cbn [replay] in E; destruct (pos_eqb p dest) eqn:Ep.
  - apply pos_eqb_eq in Ep. inversion E; subst. constructor.
  - discriminate.
  - apply pos_eqb_eq in Ep. inversion E; subst. constructor.
  - destruct (run p) as [[[|d rest]|]| | |] eqn:Er; try discriminate. destruct (go p d) as [q|] eqn:Eg; [|discriminate]. destruct (replay run go dest n q) as [w'|] eqn:Ew; [|discriminate].
    injection E as <-. eapply Onward; [| apply Pl; exact Er | exact Eg | apply IH; exact Ew].
    intros ->. rewrite (proj2 (pos_eqb_eq dest dest) eq_refl) in Ep. discriminate.
Qed.

Lemma C134_astar_longer_refuted_proof : exists b P W go orig dest path w,
  usable b P W /\ rows P <= cols P /\ valid P orig /\ valid P dest /\ go_inside P go /\ one_step P go /\
  returns (fun fuel => astar_on b P false fuel go orig dest) (Ok path) /\
  replanned (fun p l => returns (fun fuel => astar_on b P false fuel go p dest) (Ok l)) go dest orig w /\
  (length path < length w)%nat.
Proof.
  pose (wall := fun q => existsb (pos_eqb q) [(1, 1); (1, 3); (2, 1); (2, 5); (3, 2); (3, 3); (4, 1); (4, 3)] || (fst q =? 6)).
  pose (go := fun (p : pos) (d : dir) => match pos_dir_add_ok (Pos 6 6) p d with Some q => if wall q then None else Some q | None => None end).
  assert (U : usable OnGrid (Pos 6 6) 2) by (exists 6, 6; unfold u16_dims, cells, cols, rows; cbn; repeat split; lia).
  pose proof (walls_ok (Pos 6 6) wall (usable_grid_type _ _ _ U)) as GO.
  exists OnGrid, (Pos 6 6), 2, go, (0, 6), (3, 1), [dE; dN; dN; dW; dN; dN; dN; dN; dE; dE; dE; dS], [dE; dE; dE; dN; dN; dE; dE; dN; dN; dN; dN; dW; dW; dS].
  split; [exact U |]. split; [cbv; discriminate |].
  split; [cbv; repeat split; discriminate |]. split; [cbv; repeat split; discriminate |]. split; [apply GO |]. split; [apply GO |].
  split; [apply (astar_on_mono OnGrid (Pos 6 6) false go 300); vm_compute; reflexivity |]. split; [|cbn; lia].
  apply (replay_replanned _ (fun p => astar_on OnGrid (Pos 6 6) false 300 go p (3, 1)) go (3, 1)) with (n := 30%nat); [|vm_compute; reflexivity].
  intros p l E. exact (astar_on_mono OnGrid (Pos 6 6) false go 300 p (3, 1) _ E).
Qed.

Lemma C134_astar_replanned_partial_proof : forall b P W go orig dest n,
  usable b P W -> rows P <= cols P -> valid P orig -> valid P dest -> go_inside P go -> one_step P go ->
  walk false go orig n dest -> Z.of_nat n = Z.abs (fst orig - fst dest) + Z.abs (snd orig - snd dest) ->
  (exists w, replanned (fun p l => returns (fun fuel => astar_on b P false fuel go p dest) (Ok l)) go dest orig w) /\
  forall w, replanned (fun p l => returns (fun fuel => astar_on b P false fuel go p dest) (Ok l)) go dest orig w ->
    length w = n /\ Forall (allowed false) w /\ follow go orig w = Some dest.
Proof.
  intros b P W go orig dest n U RC V Vd GI O Hw Hn. revert orig V Hw Hn. induction n as [|n IH]; intros orig V Hw Hn.
  - apply (walk_0 false go) in Hw. subst orig. split; [exists []; constructor |]. intros w K. inversion K as [|p e rest q w' Np _ _ _]; subst; [cbn; auto | congruence].
  - destruct (C56_astar_complete_partial_proof b P W go orig dest U RC V Vd GI O) as (r & Hr & Hu & Ho).
    destruct Ho as (path & ->). { intros E. apply (proj1 Hu E). exists (S n). exact Hw. }
    pose proof (C55_astar_shortest_partial_proof b P W go orig dest path (S n) U V Vd GI O Hr Hw Hn) as Lp.
    destruct (C75_astar_exact_proof b P false W go orig dest U V Vd GI O) as (r & Hr' & _ & Hc & _). rewrite <- (returns_unique _ _ _ Hr Hr') in Hc.
    destruct Hc as [E | [(E & _) | (path' & E & A & F & _)]]; [discriminate | discriminate |]. injection E as <-.
    destruct path as [|d path]; [discriminate |]. cbn [length] in Lp. apply eq_add_S in Lp. inversion A as [|? ? Ad Ap]; subst. cbn [follow] in F.
    destruct (go orig d) as [q|] eqn:Eg; [|discriminate]. pose proof (GI _ _ _ V Eg) as Vq.
    assert (No : orig <> dest) by (intros ->; lia).
    assert (Wq : walk false go q (length path) dest) by (exists path; auto).
    assert (Dq : Z.of_nat (length path) = Z.abs (fst q - fst dest) + Z.abs (snd q - snd dest)).
    { pose proof (walk_mdist P go q _ dest O GI Vq Wq) as H. assert (W1 : walk false go orig 1 q) by (exists [d]; cbn; rewrite Eg; auto).
      pose proof (walk_mdist P go orig _ q O GI V W1) as K. unfold mdist in *. lia. }
    destruct (IH q Vq Wq Dq) as ((w & Kw) & All). split.
    + exists (d :: w). eapply Onward; [exact No | exact Hr | exact Eg | exact Kw].
    + intros v K. inversion K as [|p e rest q' w' Np Pl Gq K']; subst; [congruence |]. pose proof (returns_unique _ _ _ Hr Pl) as E. injection E as <- <-.
      assert (q' = q) by congruence. subst q'. destruct (All w' K') as (L & A' & F'). cbn [length follow]. rewrite Eg. split; [lia |]. split; [constructor; assumption | exact F'].
Qed.

Lemma C134_astar_beeline_partial_proof : forall b P W go orig dest path w,
  usable b P W -> valid P orig -> valid P dest -> go_inside P go -> one_step P go ->
  beeline go dest orig path -> Z.of_nat (length path) <= cols P * cols P ->
  (replanned (fun p l => returns (fun fuel => astar_on b P true fuel go p dest) (Ok l)) go dest orig w <-> w = path).
Proof.
  intros b P W go orig dest path w U V Vd GI O B L. revert orig w V B. induction path as [|d path IH]; intros orig w V B.
  - cbn in B. subst orig. split; [|intros ->; constructor]. intros K. inversion K as [|p e rest q w' Np _ _ _]; subst; [reflexivity | congruence].
  - destruct (C76_astar_beeline_proof b P W go orig dest (d :: path) U V Vd GI O B) as (R & _).
    destruct (Z.leb_spec (Z.of_nat (length (d :: path))) (cols P * cols P)) as [_ | H]; [|lia].
    cbn [beeline] in B. destruct B as (No & _ & _ & Eg & B). pose proof (GI _ _ _ V Eg) as Vq.
    assert (Lq : Z.of_nat (length path) <= cols P * cols P) by (cbn [length] in L; lia). specialize (IH Lq (step orig d)). split.
    + intros K. inversion K as [|p e rest q' w' Np Pl Gq K']; subst; [congruence |]. pose proof (returns_unique _ _ _ R Pl) as E. injection E as <- <-.
      assert (q' = step orig d) by congruence. subst q'. apply (IH w' Vq B) in K'. subst w'. reflexivity.
    + intros ->. eapply Onward; [exact No | exact R | exact Eg |]. apply (IH path Vq B). reflexivity.
Qed.
