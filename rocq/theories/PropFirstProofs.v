(** PropFirstProofs.v -- proofs of the statements of PropFirst.v. *)

From Coq Require Import ZArith List Bool Lia Sorted.
From Verif Require Import Rust BoundedInt Dir PosT Pos Grid Gridbool SetMap CameFrom Bf Spec SpecSearch SpecFirst Lib Deque BoundedIntProofs PosTProofs PosTProofs2 PropDirProofs SetMapProofs Sim CameFromProofs PropSetMapProofs BfProofs PropBfProofs.
Import ListNotations.
Open Scope Z_scope.

Lemma heading_inj : forall d e, heading d = heading e -> d = e.
Proof. intros [] []; cbn; congruence. Qed.

Lemma before_trans : forall u v w, before u v -> before v w -> before u w.
Proof.
  induction u as [|a u IH]; intros [|b v] [|c w] H K; cbn in *; try contradiction.
  destruct H as [H | (-> & H)], K as [K | (-> & K)]; [left; lia | left; exact H | left; exact K | right; split; [reflexivity | eapply IH; eassumption]].
Qed.

Lemma before_irrefl : forall w, ~ before w w.
Proof. induction w as [|d w IH]; cbn; [auto |]. intros [H | (_ & H)]; [lia | auto]. Qed.

Lemma before_app : forall v w s t, length v = length w -> before v w -> before (v ++ s) (w ++ t).
Proof.
  induction v as [|a v IH]; intros [|b w] s t L H; cbn in *; try contradiction. destruct H as [H | (-> & H)]; [left; exact H | right; split; [reflexivity |]].
  apply IH; [lia | exact H].
Qed.

Lemma before_snoc : forall w d e, heading d < heading e -> before (w ++ [d]) (w ++ [e]).
Proof. induction w as [|a w IH]; intros d e H; cbn; [left; exact H | right; split; [reflexivity | apply IH; exact H]]. Qed.

Lemma before_snoc_inv : forall v w d e, length v = length w -> before (v ++ [d]) (w ++ [e]) -> before v w \/ (v = w /\ heading d < heading e).
Proof.
  induction v as [|a v IH]; intros [|b w] d e L H; cbn in *; try discriminate; [tauto |]. destruct H as [H | (-> & H)]; [auto |].
  destruct (IH w d e) as [K | (-> & K)]; [lia | exact H | auto | auto].
Qed.

(** The words made from [w] by one more direction. *)
Definition longer (D : bool) (w : list dir) : list (list dir) := map (fun d => w ++ [d]) (dirs D).

Lemma longer_sorted : forall D w, StronglySorted before (longer D w).
Proof.
  intros D w. unfold longer. assert (H : StronglySorted (fun d e => heading d < heading e) (dirs D)).
  { destruct D; cbn; repeat (constructor; [|repeat constructor]); constructor. }
  induction H as [|d l S IH F]; cbn; constructor; [exact IH |]. apply Forall_forall. intros x Hx. apply in_map_iff in Hx. destruct Hx as (e & <- & He).
  apply before_snoc. rewrite Forall_forall in F. apply F. exact He.
Qed.

Lemma sorted_app : forall (l1 l2 : list (list dir)), StronglySorted before l1 -> StronglySorted before l2 ->
  (forall v w, In v l1 -> In w l2 -> before v w) -> StronglySorted before (l1 ++ l2).
Proof.
  induction l1 as [|v l1 IH]; intros l2 S1 S2 H; [exact S2 |]. inversion S1; subst. cbn. constructor.
  - apply IH; [assumption | assumption |]. intros; apply H; [right|]; assumption.
  - apply Forall_app. split; [assumption |]. apply Forall_forall. intros w Hw. apply H; [left; reflexivity | exact Hw].
Qed.

Lemma sorted_app_inv : forall (l1 l2 : list (list dir)), StronglySorted before (l1 ++ l2) ->
  StronglySorted before l1 /\ StronglySorted before l2 /\ (forall v w, In v l1 -> In w l2 -> before v w).
Proof.
  induction l1 as [|v l1 IH]; intros l2 S1; cbn in S1; [split; [constructor | split; [exact S1 | intros v w []]] |].
  inversion S1 as [|? ? S2 F]; subst. destruct (IH l2 S2) as (A & B & C). apply Forall_app in F. destruct F as (F1 & F2).
  split; [constructor; assumption |]. split; [exact B |]. intros x w [<- | Hx] Hw; [rewrite Forall_forall in F2; apply F2; exact Hw | apply C; assumption].
Qed.

Lemma longer_all_sorted : forall D n ws, StronglySorted before ws -> (forall w, In w ws -> length w = n) -> StronglySorted before (flat_map (longer D) ws).
Proof.
  intros D n ws H. induction H as [|w ws S IH F]; intros L; cbn; [constructor |]. apply sorted_app.
  - apply longer_sorted.
  - apply IH. intros; apply L; right; assumption.
  - intros x y Hx Hy. apply in_map_iff in Hx. destruct Hx as (d & <- & _). apply in_flat_map in Hy. destruct Hy as (v & Hv & Hy). apply in_map_iff in Hy. destruct Hy as (e & <- & _).
    apply before_app; [rewrite (L w (or_introl eq_refl)), (L v (or_intror Hv)); reflexivity |]. rewrite Forall_forall in F. apply F. exact Hv.
Qed.

Section Order.
  Context (D : bool) (go : pos -> dir -> option pos) (orig : pos) (NS : ~ stays D go orig).
  Notation bstate := (@bfit (pos -> bool)).
  Definition carries (x : pos * dir) (w : list dir) : Prop :=
    follow go orig w = Some (fst x) /\ exists w0 e, w = w0 ++ [e] /\ snd x = opp e.
  Definition built (done : list (list dir)) (it : bstate) : Prop :=
    exists ws, Forall2 carries (bf_nextfront it) ws /\ (forall w, In w ws -> In w done) /\ StronglySorted before ws /\
      (forall w q, In w done -> follow go orig w = Some q -> bf_visited it q = true) /\
      (forall w w' q, In w ws -> In w' done -> follow go orig w = Some q -> follow go orig w' = Some q -> w' = w \/ before w w').
  Lemma built_dir : forall done w p d it it', follow go orig w = Some p -> built done it -> (forall v, In v done -> before v (w ++ [d])) ->
    bf_step_dir fset go p it d = Ret it' -> built (done ++ [w ++ [d]]) it'.
  Proof using.
    intros done w p d it it' Fw (ws & B1 & B2 & B3 & B4 & B5) Hb E. unfold bf_step_dir in E.
    assert (Fd : follow go orig (w ++ [d]) = go p d) by (rewrite follow_app, Fw; cbn; destruct (go p d); reflexivity).
    destruct (go p d) as [q|] eqn:Eg.
    - cbn [fset sp_contains bind] in E. destruct (bf_visited it q) eqn:Ev.
      + inv E. exists ws. split; [exact B1 |]. split; [intros x Hx; apply in_or_app; left; auto |]. split; [exact B3 |]. split.
        * intros x r Hx Fx. apply in_app_or in Hx. destruct Hx as [Hx | [<- | []]]; [apply (B4 x r Hx Fx) | congruence].
        * intros x y r Hx Hy Fx Fy. apply in_app_or in Hy. destruct Hy as [Hy | [<- | []]]; [apply (B5 x y r Hx Hy Fx Fy) | right; apply Hb; apply B2; exact Hx].
      + rewrite dir_neg_opp in E. cbn [bind sp_insert] in E. inv E. exists (ws ++ [w ++ [d]]). cbn [bf_nextfront bf_visited]. split; [|split; [|split; [|split]]].
        * apply Forall2_app; [exact B1 |]. constructor; [|constructor]. split; [exact Fd |]. exists w, d. auto.
        * intros x Hx. apply in_app_or in Hx. apply in_or_app. destruct Hx as [Hx | Hx]; [left; auto | right; exact Hx].
        * apply sorted_app; [exact B3 | repeat constructor |]. intros x y Hx [<- | []]. apply Hb. apply B2. exact Hx.
        * intros x r Hx Fx. unfold put. destruct (pos_eqb q r) eqn:Er; [reflexivity |]. apply in_app_or in Hx. destruct Hx as [Hx | [<- | []]]; [apply (B4 x r Hx Fx) |].
          apply pos_eqb_neq in Er. congruence.
        * intros x y r Hx Hy Fx Fy. apply in_app_or in Hx. apply in_app_or in Hy. destruct Hx as [Hx | [<- | []]], Hy as [Hy | [<- | []]].
          -- apply (B5 x y r Hx Hy Fx Fy).
          -- right. apply Hb. apply B2. exact Hx.
          -- exfalso. assert (r = q) by congruence. subst r. rewrite (B4 y q Hy Fy) in Ev. discriminate.
          -- left. reflexivity.
    - inv E. exists ws. split; [exact B1 |]. split; [intros x Hx; apply in_or_app; left; auto |]. split; [exact B3 |]. split.
      + intros x r Hx Fx. apply in_app_or in Hx. destruct Hx as [Hx | [<- | []]]; [apply (B4 x r Hx Fx) | congruence].
      + intros x y r Hx Hy Fx Fy. apply in_app_or in Hy. destruct Hy as [Hy | [<- | []]]; [apply (B5 x y r Hx Hy Fx Fy) | congruence].
  Qed.
  Lemma built_dirs : forall w p ds done it it', follow go orig w = Some p -> built done it -> StronglySorted before (done ++ map (fun d => w ++ [d]) ds) ->
    foldM (bf_step_dir fset go p) ds it = Ret it' -> built (done ++ map (fun d => w ++ [d]) ds) it'.
  Proof using.
    intros w p. induction ds as [|d ds IH]; intros done it it' Fw B S E; cbn [foldM map] in *; [inv E; rewrite app_nil_r; exact B |].
    destruct (bf_step_dir fset go p it d) as [it1 | | |] eqn:E1; cbn [bind] in E; try discriminate.
    replace (done ++ (w ++ [d]) :: map (fun d => w ++ [d]) ds) with ((done ++ [w ++ [d]]) ++ map (fun d => w ++ [d]) ds) in S |- * by (rewrite <- app_assoc; reflexivity).
    apply (IH (done ++ [w ++ [d]]) it1 it' Fw); [|exact S | exact E]. apply (built_dir done w p d it it1 Fw B); [|exact E1].
    apply sorted_app_inv in S. destruct S as (S & _ & _). apply sorted_app_inv in S. destruct S as (_ & _ & S). intros v Hv. apply S; [exact Hv | left; reflexivity].
  Qed.
  Lemma built_pos : forall w pd done it it', follow go orig w = Some (fst pd) -> built done it -> StronglySorted before (done ++ longer D w) ->
    bf_step_pos D fset go it pd = Ret it' -> built (done ++ longer D w) it'.
  Proof using.
    intros w [p pd] done it it' Fw B S E. unfold bf_step_pos in E. rewrite dir_iter_dirs in E. cbn [bind fst] in *.
    destruct (foldM (bf_step_dir fset go p) (dirs D) it) as [it1 | | |] eqn:E1; cbn [bind] in E; try discriminate.
    destruct (built_dirs w p (dirs D) done it it1 Fw B S E1) as (ws & B1 & B2 & B3 & B4 & B5). inv E. exists ws. cbn [bf_nextfront bf_visited].
    split; [exact B1 |]. split; [exact B2 |]. split; [exact B3 |]. split; [|exact B5]. intros x q Hx Fx. unfold put. destruct (pos_eqb p q); [reflexivity | apply (B4 x q Hx Fx)].
  Qed.
  Lemma built_front : forall front ws, Forall2 (fun pd w => follow go orig w = Some (fst pd)) front ws -> forall done it it', built done it ->
    StronglySorted before (done ++ flat_map (longer D) ws) -> foldM (bf_step_pos D fset go) front it = Ret it' -> built (done ++ flat_map (longer D) ws) it'.
  Proof using.
    intros front ws H. induction H as [|pd w front ws F H IH]; intros done it it' B S E; cbn [foldM flat_map] in *; [inv E; rewrite app_nil_r; exact B |].
    destruct (bf_step_pos D fset go it pd) as [it1 | | |] eqn:E1; cbn [bind] in E; try discriminate. rewrite app_assoc in S |- *.
    apply (IH (done ++ longer D w) it1 it'); [|exact S | exact E]. apply (built_pos w pd done it it1 F B); [|exact E1]. apply sorted_app_inv in S. apply S.
  Qed.
  (** The vector of level [k], with the first walks to its positions. *)
  Definition level_words (k : nat) (front : list (pos * dir)) (ws : list (list dir)) : Prop :=
    Forall2 carries front ws /\ StronglySorted before ws /\
    forall w, In w ws -> exists q, first_walk D go orig k q w.
  Lemma next_words : forall k (it it' : bstate) ws, (forall q, at_distance D go orig k q -> exists w, In w ws /\ first_walk D go orig k q w) ->
    StronglySorted before ws -> (forall w, In w ws -> length w = k /\ Forall (allowed D) w) ->
    Forall2 (fun pd w => follow go orig w = Some (fst pd)) (bf_nextfront it) ws -> bf_nextfront it <> [] ->
    bf_next D fset go it = Ret (Some (bf_nextfront it), it') -> (forall q, In q (map fst (bf_nextfront it')) -> at_distance D go orig (S k) q) ->
    exists ws', level_words (S k) (bf_nextfront it') ws'.
  Proof using.
    intros k it it' ws A S L F N E Hd. unfold bf_next in E. destruct (bf_nextfront it) as [|x l] eqn:El; [contradiction |]. rewrite <- El in *. clear N.
    destruct (foldM (bf_step_pos D fset go) (bf_nextfront it) (BfIt (bf_visited it) [])) as [it1 | | |] eqn:E1; cbn [bind] in E; try discriminate. inv E.
    assert (B0 : built [] (BfIt (bf_visited it) [])).
    { exists []. split; [constructor |]. split; [intros w [] |]. split; [constructor |]. split; [intros w q [] | intros w w' q []]. }
    assert (Ss : StronglySorted before (flat_map (longer D) ws)) by (apply (longer_all_sorted D k); [exact S | intros w Hw; apply (L w Hw)]).
    destruct (built_front _ ws F [] _ _ B0 Ss E1) as (ws' & B1 & B2 & B3 & B4 & B5). cbn [app] in *. exists ws'. split; [exact B1 |]. split; [exact B3 |].
    intros w Hw. assert (exists q, In q (map fst (bf_nextfront it')) /\ follow go orig w = Some q) as (q & Hq & Fq).
    { clear -B1 Hw. induction B1 as [|x y fr ws C B1 IH]; [destruct Hw |]. destruct Hw as [-> | Hw]; [exists (fst x); split; [left; reflexivity | apply C] |].
      destruct (IH Hw) as (q & Hq & Fq). exists q. split; [right; exact Hq | exact Fq]. }
    assert (Lw : forall v, In v (flat_map (longer D) ws) -> length v = Datatypes.S k /\ Forall (allowed D) v).
    { intros v Hv. apply in_flat_map in Hv. destruct Hv as (u & Hu & Hv). apply in_map_iff in Hv. destruct Hv as (d & <- & Hd'). destruct (L u Hu) as (Lu & Au).
      rewrite app_length. cbn. split; [lia |]. apply Forall_app. split; [exact Au |]. constructor; [apply dirs_allowed; exact Hd' | constructor]. }
    exists q. destruct (Lw w (B2 w Hw)) as (Lw1 & Lw2). split; [exact Lw1 |]. split; [exact Lw2 |]. split; [exact Fq |]. intros v Lv Av Fv.
    assert (v <> []) as Nv by (intros ->; discriminate). destruct (exists_last Nv) as (u & e & ->). clear Nv.
    apply Forall_app in Av. destruct Av as (Au & Ae). inversion Ae; subst. rewrite app_length in Lv. cbn in Lv. assert (Lu : length u = k) by lia.
    rewrite follow_app in Fv. destruct (follow go orig u) as [p|] eqn:Fu; [|discriminate].
    assert (Dp : at_distance D go orig k p).
    { split; [exists u; auto |]. intros j Hj (u' & Lu' & Au' & Fu'). destruct (Hd q Hq) as (_ & M). apply (M (Datatypes.S j)); [lia |].
      exists (u' ++ [e]). split; [rewrite app_length; cbn; lia |]. split; [apply Forall_app; auto |]. rewrite follow_app, Fu'. exact Fv. }
    destruct (A p Dp) as (u0 & Hu0 & (Lu0 & Au0 & Fu0 & Mu0)).
    assert (In (u0 ++ [e]) (flat_map (longer D) ws)) as Hin.
    { apply in_flat_map. exists u0. split; [exact Hu0 |]. apply in_map_iff. exists e. split; [reflexivity |]. apply dirs_allowed. assumption. }
    assert (Fu1 : follow go orig (u0 ++ [e]) = Some q) by (rewrite follow_app, Fu0; exact Fv).
    assert (C1 : u0 ++ [e] = w \/ before w (u0 ++ [e])) by (apply (B5 w (u0 ++ [e]) q Hw Hin Fq Fu1)).
    assert (C2 : u = u0 \/ before u0 u) by (apply Mu0; assumption).
    destruct C2 as [-> | C2]; [exact C1 |]. right. assert (C3 : before (u0 ++ [e]) (u ++ [e])) by (apply before_app; [congruence | exact C2]).
    destruct C1 as [<- | C1]; [exact C3 | eapply before_trans; eassumption].
  Qed.
  Lemma words_complete : forall k front ws, level_words k front ws -> (forall q, In q (map fst front) <-> at_distance D go orig k q) ->
    forall q, at_distance D go orig k q -> exists w, In w ws /\ first_walk D go orig k q w.
  Proof using.
    intros k front ws (W1 & W2 & W3) Hf q Hq. apply Hf in Hq. clear Hf W2.
    induction W1 as [|x w front ws C W1 IH]; [destruct Hq |]. destruct Hq as [<- | Hq].
    - exists w. split; [left; reflexivity |]. destruct (W3 w (or_introl eq_refl)) as (q & K). destruct C as (C & _). pose proof K as (_ & _ & K' & _).
      assert (q = fst x) by congruence. subst q. exact K.
    - destruct IH as (v & Hv & K); [intros v Hv; apply W3; right; exact Hv | exact Hq |]. exists v. split; [right; exact Hv | exact K].
  Qed.
  Lemma front_exact : forall k q, In q (map fst (front_at D go orig (S k))) <-> at_distance D go orig (S k) q.
  Proof using NS.
    intros k q. destruct (front_facts D go orig k) as (_ & H & _). rewrite H. unfold on_level. split; [|auto].
    intros [X | (_ & _ & X)]; [exact X | destruct (NS X)].
  Qed.
  Lemma front_words : forall k, exists ws, level_words (S k) (front_at D go orig (S k)) ws.
  Proof using NS.
    induction k as [|k IH].
    - assert (E0 : bf_new D fset go orig = bind (bf_next D fset go (BfIt (fun _ => false) [(orig, dir_default)])) (fun '(_, it) => Ret it)) by reflexivity.
      rewrite bf_new_at in E0. destruct (bf_next D fset go (BfIt (fun _ => false) [(orig, dir_default)])) as [[o it] | | |] eqn:E; cbn [bind] in E0; try discriminate. inv E0.
      assert (Eo : o = Some [(orig, dir_default)]).
      { unfold bf_next in E. cbn [bf_nextfront bf_visited] in E. destruct (foldM (bf_step_pos D fset go) [(orig, dir_default)] (BfIt (fun _ => false) [])); cbn [bind] in E; try discriminate. inv E. reflexivity. }
      subst o. apply (next_words 0 (BfIt (fun _ => false) [(orig, dir_default)]) _ [[]]).
      + intros q Hq. apply at_distance_0 in Hq. subst q. exists []. split; [left; reflexivity |]. split; [reflexivity |]. split; [constructor |]. split; [reflexivity |].
        intros w' L _ _. destruct w'; [auto | discriminate].
      + repeat constructor.
      + intros w [<- | []]. split; [reflexivity | constructor].
      + repeat constructor.
      + discriminate.
      + exact E.
      + intros q Hq. apply (front_exact 0). exact Hq.
    - destruct IH as (ws & W). pose proof (next_at D go orig k) as E. destruct (front_at D go orig (S k)) as [|x l] eqn:El.
      + exists []. rewrite (front_empty_after D go orig k El). split; [constructor |]. split; [constructor | intros w []].
      + assert (W0 : bf_nextfront (state_at D go orig k) = x :: l) by (unfold front_at in El; replace (S k - 1)%nat with k in El by lia; exact El).
        unfold front_at. replace (S (S k) - 1)%nat with (S k) by lia. apply (next_words (S k) (state_at D go orig k) _ ws).
        * apply (words_complete (S k) (x :: l) ws W). intros q. rewrite <- El. apply (front_exact k).
        * apply W.
        * intros w Hw. destruct W as (_ & _ & W). destruct (W w Hw) as (q & A & B & _). auto.
        * rewrite W0. destruct W as (W1 & _). clear -W1. induction W1 as [|y w fr ws C W1 IH]; constructor; [apply C | exact IH].
        * rewrite W0. discriminate.
        * rewrite W0. exact E.
        * intros q Hq. apply (front_exact (S k)). unfold front_at. replace (S (S k) - 1)%nat with (S k) by lia. exact Hq.
  Qed.
  Lemma first_unique : forall n q v w, first_walk D go orig n q v -> first_walk D go orig n q w -> v = w.
  Proof using.
    intros n q v w (A1 & A2 & A3 & A4) (B1 & B2 & B3 & B4). destruct (A4 w B1 B2 B3) as [E | L]; [auto |]. destruct (B4 v A1 A2 A3) as [E | K]; [exact E |].
    exfalso. apply (before_irrefl v). eapply before_trans; eassumption.
  Qed.
  Lemma first_prefix : forall n q r w e, first_walk D go orig (S n) q (w ++ [e]) -> follow go orig w = Some r -> first_walk D go orig n r w.
  Proof using.
    intros n q r w e (L & A & F & M) Fr. rewrite app_length in L. cbn in L. apply Forall_app in A. destruct A as (A & Ae). split; [lia |]. split; [exact A |]. split; [exact Fr |].
    intros v Lv Av Fv. rewrite follow_app, Fr in F. destruct (M (v ++ [e])) as [E | B].
    - rewrite app_length. cbn. lia.
    - apply Forall_app. auto.
    - rewrite follow_app, Fv. exact F.
    - left. apply app_inj_tail in E. apply E.
    - right. apply before_snoc_inv in B; [|lia]. destruct B as [B | (_ & B)]; [exact B | lia].
  Qed.
  Definition firsts (f : pos -> option dir) : Prop := forall p d, f p = Some d ->
    exists j w e, at_distance D go orig (S j) p /\ first_walk D go orig (S j) p (w ++ [e]) /\ d = opp e.
  Lemma scan_first : forall found k l ws f f' o, Forall2 carries l ws -> StronglySorted before ws -> (forall w, In w ws -> exists q, first_walk D go orig (S k) q w) ->
    (forall q, In q (map fst l) -> at_distance D go orig (S k) q) -> firsts f -> bf_scan fmap found f l = Ret (f', o) ->
    firsts f' /\ forall p, o = Some p -> exists w, In w ws /\ first_walk D go orig (S k) p w /\
      forall q v, In v ws -> follow go orig v = Some q -> found q = true -> v = w \/ before w v.
  Proof using.
    intros found k l ws f f' o H. revert f. induction H as [|[p d] w l ws (C1 & w0 & e & -> & C2) H IH]; intros f S W Hd F E.
    - inv E. split; [exact F | discriminate].
    - cbn [bf_scan fmap mp_set bind] in E. inversion S as [|? ? S1 S2]; subst. cbn [fst snd] in *. destruct (W (w0 ++ [e]) (or_introl eq_refl)) as (q & Fq).
      assert (q = p) by (destruct Fq as (_ & _ & K & _); congruence). subst q.
      assert (F1 : firsts (put f p (Some d))).
      { intros q x Eq. unfold put in Eq. destruct (pos_eqb p q) eqn:Epq; [|apply F; exact Eq]. apply pos_eqb_eq in Epq. subst q. inv Eq.
        exists k, w0, e. split; [apply Hd; left; reflexivity | auto]. }
      destruct (found p) eqn:Ef.
      + inv E. split; [exact F1 |]. intros r Eq. inv Eq. exists (w0 ++ [e]). split; [left; reflexivity |]. split; [exact Fq |].
        intros q v [-> | Hv] _ _; [auto | right; rewrite Forall_forall in S2; apply S2; exact Hv].
      + destruct (IH _ S1 (fun v Hv => W v (or_intror Hv)) (fun q Hq => Hd q (or_intror Hq)) F1 E) as (K1 & K2). split; [exact K1 |].
        intros q Eq. destruct (K2 q Eq) as (v & Hv & A & B). exists v. split; [right; exact Hv |]. split; [exact A |].
        intros r u [<- | Hu] Fu Fr; [exfalso; congruence | apply (B r u Hu Fu Fr)].
  Qed.
  Lemma loop_first : forall found fuel k f p f', firsts f -> bf_search_loop D fset fmap go fuel found f (state_at D go orig k) = Ret (Ok (p, f')) ->
    firsts f' /\ exists n w, at_distance D go orig (S n) p /\ first_walk D go orig (S n) p w /\
      forall q v, at_distance D go orig (S n) q -> found q = true -> first_walk D go orig (S n) q v -> v = w \/ before w v.
  Proof using NS.
    intros found. induction fuel as [|fuel IH]; intros k f p f' F E; [discriminate |]. cbn [bf_search_loop] in E. rewrite next_at in E. cbn [bind] in E.
    destruct (front_words k) as (ws & W). pose proof W as (W1 & W2 & W3). pose proof (front_exact k) as FE.
    destruct (front_at D go orig (S k)) as [|x l] eqn:El; [discriminate |].
    destruct (bf_scan fmap found f (x :: l)) as [[f1 o] | | |] eqn:Es; cbn [bind] in E; try discriminate.
    destruct (scan_first found k (x :: l) ws f f1 o W1 W2 W3 (fun q Hq => proj1 (FE q) Hq) F Es) as (F1 & K).
    destruct o as [q|]; [|apply (IH (S k) f1 p f' F1 E)]. inv E. split; [exact F1 |]. destruct (K p eq_refl) as (w & Hw & Fw & M). exists k, w.
    assert (Hp : at_distance D go orig (S k) p).
    { apply FE. destruct Fw as (_ & _ & Fw & _). clear -W1 Hw Fw. induction W1 as [|y v fr vs C W1 IH]; [destruct Hw |].
      destruct Hw as [-> | Hw]; [left; destruct C as (C & _); congruence | right; apply IH; exact Hw]. }
    split; [exact Hp |]. split; [exact Fw |]. intros q v Hq Fq Fv. destruct (words_complete (S k) (x :: l) ws W FE q Hq) as (u & Hu & Fu).
    assert (u = v) by (eapply first_unique; eassumption). subst u. apply (M q v Hu); [apply Fv | exact Fq].
  Qed.
End Order.

Lemma bp_first : forall P D go orig f, post_wf P -> go_inside P go -> valid P orig -> one_step P go -> firsts D go orig f ->
  forall n j p w ret path, at_distance D go orig j p -> first_walk D go orig j p w -> bp P f orig n p ret = Ok path -> path = w ++ ret.
Proof.
  intros P D go orig f WF HG Vo H1 F. induction n as [|n IH]; intros j p w ret path Hp Fw E; cbn [bp] in E; [discriminate |].
  destruct (pos_eqb p orig) eqn:Ep.
  - apply pos_eqb_eq in Ep. subst p. apply at_distance_orig in Hp. subst j. inv E. destruct Fw as (L & _). destruct w; [reflexivity | discriminate].
  - destruct (f p) as [d|] eqn:Ef; [|discriminate]. destruct (pos_dir_add P p d) as [p' | ?] eqn:Ea; [|discriminate].
    destruct (F p d Ef) as (i & v & e & Hi & Fv & ->). assert (j = S i) by (eapply at_distance_fun; eassumption). subst j.
    assert (w = v ++ [e]) by (eapply first_unique; eassumption). subst w. pose proof Fv as (Lv & Av & Fo & _). rewrite follow_app in Fo.
    destruct (follow go orig v) as [r|] eqn:Fr; [|discriminate]. cbn in Fo. destruct (go r e) as [q|] eqn:Eg; [|discriminate]. inv Fo.
    rewrite app_length in Lv. cbn in Lv. apply Forall_app in Av. destruct Av as (Av & _).
    assert (Hr : at_distance D go orig i r).
    { split; [exists v; split; [lia | auto] |]. intros m Hm (u & Lu & Au & Fu). destruct Hi as (_ & M). apply (M (S m)); [lia |].
      exists (u ++ [e]). split; [rewrite app_length; cbn; lia |]. split; [|rewrite follow_app, Fu; cbn; rewrite Eg; reflexivity].
      apply Forall_app. split; [exact Au |]. destruct Fv as (_ & A & _). apply Forall_app in A. apply A. }
    assert (Vr : valid P r) by (eapply walk_valid; [exact HG | exact Vo | apply Hr]).
    assert (Vp : valid P p) by (eapply HG; eassumption).
    assert (p' = r).
    { pose proof (H1 r e p Vr Eg) as Es. destruct (add_inside P p (opp e) WF Vp) as [(_ & Ea') | (_ & Ea')]; rewrite Ea' in Ea; inv Ea. apply step_opp. }
    subst p'. rewrite opp_opp in E. rewrite (IH i r v (e :: ret) path Hr (first_prefix D go orig i p r v e Fv Fr) E). rewrite <- app_assoc. reflexivity.
Qed.

Lemma C121_bfs_first_path_proof : forall b P D W go orig found dest path,
  usable b P W -> valid P orig -> go_inside P go -> one_step P go ->
  returns (fun fuel => bfs_on b P D W fuel go orig found) (Ok (dest, path)) ->
  forall q other, q <> orig -> found q = true -> length other = length path -> Forall (allowed D) other ->
    follow go orig other = Some q -> other = path \/ before path other.
Proof.
  intros b P D W go orig found dest path U V HG H1 H q other Nq Fq Lo Ao Fo.
  pose proof (C48_bfs_shortest_proof b P D W go orig found dest path U V HG H1 H) as (_ & _ & _ & MIN).
  pose proof (usable_grid_type b P W U) as G. pose proof (no_stays P D go orig V H1) as NS.
  destruct H as (N & H). specialize (H (N + S (maxn P))%nat ltac:(lia)). cbn in H. rewrite bfs_on_f in H by assumption.
  unfold bf_search_path, bf_search_mapmov, bf_iter in H. rewrite bf_new_at in H. cbn [bind] in H.
  change (mp_default fmap None) with (fun _ : pos => @None dir) in H. set (fuel := (N + S (maxn P))%nat) in *.
  destruct (bf_search_loop D fset fmap go fuel found (fun _ => None) (state_at D go orig 0)) as [[[p f] | ?] | | |] eqn:E; cbn [bind] in H; try discriminate.
  destruct (loop_first D go orig NS found fuel 0%nat (fun _ => None) p f) as (F & n & w & Hp & Fw & M); [intros r d X; discriminate | exact E |].
  assert (Vp : valid P p) by (eapply walk_valid; [exact HG | exact V | apply Hp]).
  rewrite (into_path_bp P G f orig fmap f fuel p) in H by (try assumption; try (unfold fuel; lia); reflexivity). cbn [bind] in H.
  destruct (f p); [|discriminate]. destruct (bp P f orig (maxn P) p []) as [path' | ?] eqn:Eb; [|discriminate]. inv H.
  pose proof (bp_first P D go orig f (grid_type_wf P G) HG V H1 F _ _ _ _ _ _ Hp Fw Eb) as X. rewrite app_nil_r in X. subst path.
  pose proof Fw as (Lw & _ & Fw' & _). rewrite Lw in *.
  assert (Hq : at_distance D go orig (S n) q).
  { split; [exists other; auto |]. intros j Hj Hw. specialize (MIN q j Nq Fq Hw). lia. }
  destruct (front_words D go orig NS n) as (ws & Wd). destruct (words_complete D go orig (S n) _ ws Wd (front_exact D go orig NS n) q Hq) as (v & _ & Fv).
  pose proof (M q v Hq Fq Fv) as C1. destruct Fv as (_ & _ & _ & Mv). destruct (Mv other Lo Ao Fo) as [-> | C2]; [exact C1 |].
  destruct C1 as [-> | C1]; [right; exact C2 | right; eapply before_trans; eassumption].
Qed.

Lemma C121_bf_order_proof : forall b P D W go orig,
  usable b P W -> valid P orig -> go_inside P go -> ~ stays D go orig ->
  exists level : nat -> list (pos * dir),
    (forall n, bf_yields b P D W go orig n =
       Ret (map (fun k => match level k with [] => None | l => Some l end) (seq 1 n))) /\
    forall k, (1 <= k)%nat ->
      (forall p, In p (map fst (level k)) <-> at_distance D go orig k p) /\
      exists words, StronglySorted before words /\
        Forall2 (fun x w => first_walk D go orig k (fst x) w /\
                   exists v e, w = v ++ [e] /\ heading (snd x) = (heading e + 4) mod 8) (level k) words.
Proof.
  intros b P D W go orig U V HG NS. exists (front_at D go orig). split.
  - intros n. rewrite (bf_yields_f b P D W go orig n U V HG). f_equal. rewrite <- seq_shift, map_map. reflexivity.
  - intros [|k] Hk; [lia |]. split; [apply (front_exact D go orig NS k) |].
    destruct (front_words D go orig NS k) as (ws & W1 & W2 & W3). exists ws. split; [exact W2 |]. clear W2.
    induction W1 as [|x w l ws (C1 & v & e & -> & C2) W1 IH]; constructor.
    + destruct (W3 (v ++ [e]) (or_introl eq_refl)) as (q & Fq). assert (q = fst x) by (destruct Fq as (_ & _ & K & _); congruence). subst q.
      split; [exact Fq |]. exists v, e. split; [reflexivity |]. rewrite C2. destruct e; reflexivity.
    + apply IH. intros u Hu. apply W3. right. exact Hu.
Qed.
