(** CameFromProofs.v -- lemmas about path reconstruction. *)

From Coq Require Import ZArith List Bool Lia.
From Verif Require Import Rust BoundedInt Dir PosT Pos SetMap CameFrom
  Spec SpecSearch Lib Deque BoundedIntProofs PosTProofs PosTProofs2 PropDirProofs SetMapProofs Sim.
Import ListNotations.
Open Scope Z_scope.

(** The opposite direction. *)
Definition opp (d : dir) : dir :=
  match d with dN => dS | dNE => dSW | dE => dW | dSE => dNW | dS => dN | dSW => dNE | dW => dE | dNW => dSE end.

Lemma dir_neg_opp : forall d, dir_neg d = Ret (opp d).
Proof. intros []; reflexivity. Qed.

Lemma opp_opp : forall d, opp (opp d) = d.
Proof. intros []; reflexivity. Qed.

Lemma step_opp : forall p d, step (step p d) (opp d) = p.
Proof. intros [x y] []; unfold step; cbn; f_equal; lia. Qed.

Lemma step_opp' : forall p d, step (step p (opp d)) d = p.
Proof. intros [x y] []; unfold step; cbn; f_equal; lia. Qed.

Lemma step_neq : forall p d, step p d <> p.
Proof. intros [x y] [] E; unfold step in E; cbn in E; inversion E; lia. Qed.

Lemma allowed_opp : forall D d, allowed D d -> allowed D (opp d).
Proof. intros D [] [H | [H | H]]; unfold allowed in *; cbn in *; lia || auto. Qed.

Lemma add_inside : forall P p d, post_wf P -> valid P p ->
  (valid P (step p d) /\ pos_dir_add P p d = Ok (step p d)) \/
  (~ valid P (step p d) /\ pos_dir_add P p d = Err OutOfBounds).
Proof.
  intros P p d W V. destruct (C25_pos_dir_add_proof P p d W V) as (H1 & H2).
  destruct (valid_dec P (step p d)) as [Vs | Vs]; [left | right]; (split; [exact Vs |]); [apply H1 | apply H2]; exact Vs.
Qed.

Lemma cols_sq : forall P, grid_type P -> 1 <= cols P * cols P <= 4294967296.
Proof. intros P G. pose proof (cols_pos P G). nia. Qed.

Lemma pos_dec : forall p q : pos, {p = q} + {p <> q}.
Proof. intros [a b] [c d]. destruct (Z.eq_dec a c), (Z.eq_dec b d); [left; congruence | right; congruence..]. Qed.

Section BackGen.
  Context (P : post) (W : post_wf P) (f : pos -> option dir) (orig : pos).

  (** The loop, with its counter as a natural number. *)
  Fixpoint bp (n : nat) (p : pos) (ret : list dir) : result (list dir) :=
    match n with
    | O => Err Loop
    | S n' =>
        if pos_eqb p orig then Ok ret
        else match f p with
             | None => Err InvalidMovement
             | Some d => match pos_dir_add P p d with
                         | Err _ => Err InvalidMovement
                         | Ok p' => bp n' p' (opp d :: ret)
                         end
             end
    end.

  Lemma loop_bp : forall {M} (mo : mapops (option dir) M) m,
    (forall p, valid P p -> mp_get mo m p = Ret (f p)) ->
    forall fuel n p ret, valid P p -> (1 <= n <= fuel)%nat -> Z.of_nat n <= 18446744073709551615 ->
    camefrom_loop P mo fuel m orig ret p (Z.of_nat n) = Ret (bp n p ret).
  Proof.
    intros M mo m Hm fuel.
    induction fuel as [|fuel IH]; intros n p ret V Hn Hb; [lia |].
    destruct n as [|n]; [lia |]. cbn [camefrom_loop bp]. destruct (pos_eqb p orig) eqn:Ep; cbn [negb]; [reflexivity |].
    rewrite Hm by exact V. cbn [bind]. destruct (f p) as [d|]; [|reflexivity].
    rewrite dir_neg_opp. cbn [bind]. destruct (add_inside P p d W V) as [(Vs & E) | (_ & E)]; rewrite E; [|reflexivity].
    unfold usub. rewrite usize_arith by lia. cbn [bind].
    replace (Z.of_nat (S n) - 1) with (Z.of_nat n) by lia. destruct n as [|n].
    - reflexivity.
    - replace (Z.of_nat (S n) =? 0) with false by (symmetry; apply Z.eqb_neq; lia).
      apply IH; [exact Vs | lia | lia].
  Qed.

  Lemma bp_ok : forall n p ret path, valid P p -> bp n p ret = Ok path ->
    exists ds, path = ds ++ ret /\ walk_inside P orig ds p /\ leads_back P f orig (length ds) p /\ (length ds < n)%nat.
  Proof.
    assert (APP : forall ds p q d, walk_inside P p ds q -> valid P (step q d) -> walk_inside P p (ds ++ [d]) (step q d)).
    { induction ds as [|e ds IH]; intros p q d H V; cbn in *; [subst; auto |]. destruct H as (H1 & H2). auto. }
    induction n as [|n IH]; intros p ret path V E; cbn [bp] in E; [discriminate |].
    destruct (pos_eqb p orig) eqn:Ep.
    - inv E. apply pos_eqb_eq in Ep. subst p. exists []. cbn. repeat split; lia.
    - apply pos_eqb_neq in Ep. destruct (f p) as [d|] eqn:Ef; [|discriminate].
      destruct (add_inside P p d W V) as [(Vs & Ea) | (_ & Ea)]; rewrite Ea in E; [|discriminate].
      destruct (IH _ _ _ Vs E) as (ds & -> & H1 & H2 & H3).
      exists (ds ++ [opp d]). rewrite <- app_assoc. split; [reflexivity |]. rewrite app_length. cbn [length].
      split; [|split; [|lia]].
      + rewrite <- (step_opp p d). apply APP; [exact H1 |]. rewrite step_opp. exact V.
      + rewrite Nat.add_1_r. cbn. split; [exact Ep |]. exists d. auto.
  Qed.

  Lemma bp_leads : forall k n p ret, valid P p -> leads_back P f orig k p -> (k < n)%nat ->
    exists ds, bp n p ret = Ok (ds ++ ret) /\ length ds = k.
  Proof.
    induction k as [|k IH]; intros n p ret V H Hn; (destruct n as [|n]; [lia |]); cbn [bp leads_back] in *.
    - subst p. rewrite pos_eqb_refl. exists []. auto.
    - destruct H as (Hp & d & Ef & Vs & H). rewrite (proj2 (pos_eqb_neq p orig) Hp), Ef.
      destruct (add_inside P p d W V) as [(_ & Ea) | (N & _)]; [|contradiction]. rewrite Ea.
      destruct (IH n (step p d) (opp d :: ret) Vs H ltac:(lia)) as (ds & E & L).
      exists (ds ++ [opp d]). rewrite E, <- app_assoc, app_length. cbn. split; [reflexivity | lia].
  Qed.

  Lemma bp_loop : forall n p ret, valid P p -> (bp n p ret = Err Loop <-> goes_on P f orig n p).
  Proof.
    induction n as [|n IH]; intros p ret V; cbn [bp goes_on]; [tauto |].
    destruct (pos_eqb p orig) eqn:Ep.
    - apply pos_eqb_eq in Ep. split; [discriminate | tauto].
    - apply pos_eqb_neq in Ep. destruct (f p) as [d|] eqn:Ef.
      + destruct (add_inside P p d W V) as [(Vs & Ea) | (N & Ea)]; rewrite Ea.
        * rewrite IH by exact Vs. split.
          -- intros H. split; [exact Ep |]. exists d. auto.
          -- intros (_ & d' & E & _ & H). inv E. exact H.
        * split; [discriminate |]. intros (_ & d' & E & V' & _). inv E. contradiction.
      + split; [discriminate |]. intros (_ & d' & E & _). discriminate.
  Qed.

  Lemma bp_err : forall n p ret e, bp n p ret = Err e -> e = Loop \/ e = InvalidMovement.
  Proof.
    induction n as [|n IH]; intros p ret e E; cbn [bp] in E; [inv E; auto |].
    destruct (pos_eqb p orig); [discriminate |]. destruct (f p) as [d|]; [|inv E; auto].
    destruct (pos_dir_add P p d); [eapply IH; exact E | inv E; auto].
  Qed.

  (** The reconstructed path uses the moves recorded in the map. *)
  Lemma bp_follow : forall (D : bool) (go : pos -> dir -> option pos) (Q : pos -> Prop),
    (forall p d, Q p -> p <> orig -> f p = Some d ->
       go (step p d) (opp d) = Some p /\ allowed D (opp d) /\ Q (step p d)) ->
    forall n p ret path, Q p -> valid P p -> bp n p ret = Ok path ->
    exists ds, path = ds ++ ret /\ follow go orig ds = Some p /\ Forall (allowed D) ds.
  Proof.
    intros D go Q HQ.
    assert (APP : forall ds p q d r, follow go p ds = Some q -> go q d = Some r -> follow go p (ds ++ [d]) = Some r).
    { induction ds as [|e ds IH]; intros p q d r H E; cbn in *; [inv H; rewrite E; reflexivity |].
      destruct (go p e); [eapply IH; eassumption | discriminate]. }
    induction n as [|n IH]; intros p ret path Hp V E; cbn [bp] in E; [discriminate |].
    destruct (pos_eqb p orig) eqn:Ep.
    - inv E. apply pos_eqb_eq in Ep. subst p. exists []. cbn. auto.
    - apply pos_eqb_neq in Ep. destruct (f p) as [d|] eqn:Ef; [|discriminate].
      destruct (add_inside P p d W V) as [(Vs & Ea) | (_ & Ea)]; rewrite Ea in E; [|discriminate].
      destruct (HQ p d Hp Ep Ef) as (H1 & H2 & H3).
      destruct (IH _ _ _ H3 Vs E) as (ds & -> & H4 & H5).
      exists (ds ++ [opp d]). rewrite <- app_assoc. split; [reflexivity |].
      split; [eapply APP; eassumption | apply Forall_app; auto].
  Qed.

End BackGen.

Section Back.
  Context (P : post) (G : grid_type P) (f : pos -> option dir) (orig : pos).
  Let W : post_wf P := grid_type_wf P G.
  Notation bp := (bp P f orig).
  Notation bp_ok := (bp_ok P W f orig).
  Notation bp_err := (bp_err P f orig).
  Notation bp_loop := (bp_loop P W f orig).

  Definition maxn : nat := Z.to_nat (cols P * cols P + 1).

  Lemma into_path_bp : forall {M} (mo : mapops (option dir) M) m fuel dest,
    (forall p, valid P p -> mp_get mo m p = Ret (f p)) -> valid P orig -> valid P dest -> (maxn <= fuel)%nat ->
    camefrom_into_path P mo fuel m orig dest =
      Ret (match f dest with None => Err DestinationUnreachable | Some _ => bp maxn dest [] end).
  Proof.
    intros M mo m fuel dest Hm Vo V Hf. unfold camefrom_into_path.
    rewrite manhattan_ok by assumption. cbn [bind].
    destruct (grid_type_nums P G) as (_ & _ & HX & HY).
    pose proof Vo as Vo'. pose proof V as V'. apply (proj1 (valid_nums _ _ G)) in Vo', V'.
    assert (B : 0 <= Z.abs (fst orig - fst dest) + Z.abs (snd orig - snd dest) <= 131070).
    { clear -Vo' V' HX HY. revert Vo' V'. generalize orig. intros [a b]. destruct dest as [c d]. cbn [fst snd]. lia. }
    set (dist := Z.abs (fst orig - fst dest) + Z.abs (snd orig - snd dest)) in *. clearbody dist.
    unfold umul at 1. rewrite usize_arith by lia. cbn [bind]. rewrite arith_ok by (unfold isize, i64; cbn [imin imax]; lia). cbn [bind].
    rewrite Hm by exact V. cbn [bind]. destruct (f dest); [|reflexivity].
    rewrite width_ok by exact G. cbn [bind]. pose proof (cols_sq P G).
    unfold umul. rewrite usize_arith by lia. cbn [bind]. unfold uadd. rewrite usize_arith by lia. cbn [bind].
    replace (cols P * cols P + 1) with (Z.of_nat maxn) by (unfold maxn; lia).
    apply (loop_bp P W); [exact Hm | exact V | unfold maxn in *; lia | unfold maxn; lia].
  Qed.

  (** ** Cycles *)

  Lemma leads_goes : forall k n p, leads_back P f orig k p -> goes_on P f orig n p -> (n <= k)%nat.
  Proof.
    induction k as [|k IH]; intros n p H1 H2; (destruct n as [|n]; [lia |]); cbn in *.
    - destruct H2 as (H2 & _). contradiction.
    - destruct H1 as (_ & d & E & _ & H1), H2 as (_ & d' & E' & _ & H2). rewrite E in E'. inv E'.
      specialize (IH _ _ H1 H2). lia.
  Qed.

  Lemma goes_on_le : forall m n p, (n <= m)%nat -> goes_on P f orig m p -> goes_on P f orig n p.
  Proof.
    induction m as [|m IH]; intros n p Hn H; (destruct n as [|n]; [exact I |]); [lia |]. cbn in *.
    destruct H as (Hp & d & E & V & H). split; [exact Hp |]. exists d. split; [exact E |]. split; [exact V |].
    apply IH; [lia | exact H].
  Qed.

  (** The positions met by following [n] entries. *)
  Fixpoint met (n : nat) (p : pos) : list pos :=
    match n with
    | O => []
    | S n' => p :: match f p with Some d => met n' (step p d) | None => [] end
    end.
  Fixpoint after (n : nat) (p : pos) : pos :=
    match n with
    | O => p
    | S n' => match f p with Some d => after n' (step p d) | None => p end
    end.

  Lemma goes_on_split : forall i j p, goes_on P f orig (i + j) p <-> goes_on P f orig i p /\ goes_on P f orig j (after i p).
  Proof.
    induction i as [|i IH]; intros j p; cbn [goes_on after Nat.add]; [tauto |]. split.
    - intros (Hp & d & E & V & H). rewrite E. apply IH in H. destruct H as (H1 & H2). split; [|exact H2].
      split; [exact Hp |]. exists d. auto.
    - intros ((Hp & d & E & V & H1) & H2). rewrite E in H2. split; [exact Hp |]. exists d. split; [exact E |].
      split; [exact V |]. apply IH. auto.
  Qed.

  Lemma after_add : forall i k p, goes_on P f orig i p -> after k (after i p) = after (i + k) p.
  Proof.
    induction i as [|i IH]; intros k p H; [reflexivity |]. cbn [after goes_on Nat.add] in *.
    destruct H as (_ & d & E & _ & H). rewrite E. apply IH. exact H.
  Qed.

  Lemma met_length : forall n p, goes_on P f orig n p -> length (met n p) = n.
  Proof.
    induction n as [|n IH]; intros p H; [reflexivity |]. cbn in *. destruct H as (_ & d & E & _ & H).
    rewrite E, IH by exact H. reflexivity.
  Qed.

  Lemma met_nth : forall n i p, goes_on P f orig n p -> (i < n)%nat -> nth_error (met n p) i = Some (after i p).
  Proof.
    induction n as [|n IH]; intros i p H Hi; [lia |]. cbn [goes_on met] in *. destruct H as (_ & d & E & _ & H). rewrite E.
    destruct i as [|i]; [reflexivity |]. cbn [nth_error after]. rewrite E. apply IH; [exact H | lia].
  Qed.

  Lemma met_valid : forall n p, valid P p -> Forall (valid P) (met n p) \/ ~ goes_on P f orig n p.
  Proof.
    induction n as [|n IH]; intros p V; [left; constructor |]. cbn [met goes_on].
    destruct (f p) as [d|] eqn:E.
    - destruct (valid_dec P (step p d)) as [Vs | Vs].
      + destruct (IH (step p d) Vs) as [H | H]; [left; constructor; assumption | right].
        intros (_ & d' & E' & _ & H'). inv E'. contradiction.
      + right. intros (_ & d' & E' & V' & _). inv E'. contradiction.
    - left. constructor; [exact V | constructor].
  Qed.

  Lemma valid_list_gen : forall l, NoDup l -> Forall (valid P) l -> (length l <= length (all_rows P))%nat.
  Proof using.
    clear. intros l ND F. apply NoDup_incl_length; [exact ND |].
    intros p Hp. apply all_rows_In. rewrite Forall_forall in F. apply F. exact Hp.
  Qed.

  Lemma valid_list_short : forall l, NoDup l -> Forall (valid P) l -> Z.of_nat (length l) <= cells P.
  Proof. intros l ND F. rewrite <- (all_rows_length P G). apply inj_le. apply valid_list_gen; assumption. Qed.

  Lemma dup_or_nodup : forall l : list pos, NoDup l \/ exists i j x, (i < j)%nat /\ nth_error l i = Some x /\ nth_error l j = Some x.
  Proof.
    induction l as [|x l IH]; [left; constructor |].
    destruct IH as [IH | (i & j & y & H1 & H2 & H3)]; [|right; exists (S i), (S j), y; cbn; split; [lia | auto]].
    destruct (In_dec pos_dec x l) as [Hin | Hin].
    - right. apply In_nth_error in Hin. destruct Hin as (j & Hj). exists 0%nat, (S j), x. split; [lia |]. auto.
    - left. constructor; assumption.
  Qed.

  Lemma goes_for_ever : forall n p, valid P p -> cells P < Z.of_nat n -> goes_on P f orig n p -> forall m, goes_on P f orig m p.
  Proof.
    intros n p V Hn H m. destruct (met_valid n p V) as [F | N]; [|contradiction].
    destruct (dup_or_nodup (met n p)) as [ND | (i & j & x & Hij & Ei & Ej)].
    - pose proof (valid_list_short _ ND F). rewrite met_length in H0 by exact H. lia.
    - assert (Hj : (j < n)%nat).
      { rewrite <- (met_length n p H). apply nth_error_Some. congruence. }
      rewrite met_nth in Ei, Ej by (exact H || lia). assert (E : after i p = after j p) by congruence. clear Ei Ej x.
      assert (Hi : goes_on P f orig i p) by (apply goes_on_le with (m := n); [lia | exact H]).
      assert (CYC : goes_on P f orig (j - i) (after i p)).
      { apply goes_on_le with (m := (n - i)%nat); [lia |]. apply (goes_on_split i (n - i) p).
        replace (i + (n - i))%nat with n by lia. exact H. }
      assert (BACK : after (j - i) (after i p) = after i p).
      { rewrite E at 2. rewrite after_add by exact Hi. f_equal. lia. }
      assert (EVER : forall k, goes_on P f orig (k * (j - i)) (after i p)).
      { induction k as [|k IH]; [exact I |]. cbn [Nat.mul]. apply goes_on_split. split; [exact CYC |]. rewrite BACK. exact IH. }
      apply goes_on_le with (m := (i + m * (j - i))%nat); [nia |]. apply goes_on_split. auto.
  Qed.

  (** Every start either arrives, goes on for ever, or gets stuck. *)
  Lemma fate : forall n p, valid P p -> (exists k, (k < n)%nat /\ leads_back P f orig k p) \/ goes_on P f orig n p \/ bp n p [] = Err InvalidMovement.
  Proof.
    intros n p V. destruct (bp n p []) as [path | e] eqn:E.
    - left. destruct (bp_ok _ _ _ _ V E) as (ds & _ & _ & H & L). exists (length ds). auto.
    - destruct (bp_err _ _ _ _ E) as [-> | ->]; [right; left; apply (bp_loop n p [] V); exact E | auto].
  Qed.

  Lemma leads_short_gen : forall k p, valid P p -> leads_back P f orig k p -> (k < length (all_rows P))%nat.
  Proof using.
    intros k p V H. assert (GO : goes_on P f orig k p).
    { clear V. revert p H. induction k as [|k IH]; intros p H; [exact I |]. cbn in *.
      destruct H as (Hp & d & E & Vs & H). split; [exact Hp |]. exists d. auto. }
    destruct (met_valid k p V) as [F | N]; [|contradiction].
    assert (Vo : valid P orig /\ ~ In orig (met k p)).
    { clear GO F. revert p V H. induction k as [|k IH]; intros p V H; cbn in *; [subst; auto |].
      destruct H as (Hp & d & E & Vs & H). rewrite E. destruct (IH _ Vs H) as (H1 & H2). split; [exact H1 |].
      intros [X | X]; [congruence | contradiction]. }
    destruct Vo as (Vo & Nin). destruct (dup_or_nodup (met k p)) as [ND | (i & j & x & Hij & Ei & Ej)].
    - assert (L : (length (orig :: met k p) <= length (all_rows P))%nat).
      { apply valid_list_gen; [constructor; assumption | constructor; assumption]. }
      cbn [length] in L. rewrite met_length in L by exact GO. lia.
    - exfalso. assert (Hj : (j < k)%nat) by (rewrite <- (met_length k p GO); apply nth_error_Some; congruence).
      rewrite met_nth in Ei, Ej by (exact GO || lia). assert (E : after i p = after j p) by congruence.
      assert (UN : forall i p k, leads_back P f orig k p -> (i <= k)%nat -> leads_back P f orig (k - i) (after i p)).
      { clear. induction i as [|i IH]; intros p k H Hi; [cbn; rewrite Nat.sub_0_r; exact H |].
        destruct k as [|k]; [lia |]. cbn in *. destruct H as (_ & d & E & _ & H). rewrite E. apply IH; [exact H | lia]. }
      assert (DET : forall a b q, leads_back P f orig a q -> leads_back P f orig b q -> a = b).
      { clear. induction a as [|a IH]; intros [|b] q H1 H2; cbn in *; [reflexivity | | |].
        - destruct H2 as (H2 & _). contradiction.
        - destruct H1 as (H1 & _). contradiction.
        - destruct H1 as (_ & d & E & _ & H1), H2 as (_ & d' & E' & _ & H2). rewrite E in E'. inv E'. f_equal. eapply IH; eassumption. }
      pose proof (UN i p k H ltac:(lia)) as U1. pose proof (UN j p k H ltac:(lia)) as U2. rewrite E in U1.
      pose proof (DET _ _ _ U1 U2). lia.
  Qed.

  Lemma leads_short : forall k p, valid P p -> leads_back P f orig k p -> Z.of_nat k < cells P.
  Proof. intros k p V H. rewrite <- (all_rows_length P G). pose proof (leads_short_gen k p V H). lia. Qed.
End Back.

(** ** The sizes computed before going back *)

Lemma b_sub_abs_gen : forall b x y, bty_wf b ->
  (if x >? y then unwrap_opt (b_checked_sub b x y) else unwrap_opt (b_checked_sub b y x)) =
  (if (b_min b <=? Z.abs (x - y)) && (Z.abs (x - y) <=? b_max b) then Ret (Z.abs (x - y)) else Panic).
Proof.
  intros b x y Hb. destruct (x >? y) eqn:E; bool2prop; rewrite b_checked_sub_spec by exact Hb.
  - replace (Z.abs (x - y)) with (x - y) by lia. case_if; reflexivity.
  - replace (Z.abs (x - y)) with (y - x) by lia. case_if; reflexivity.
Qed.

Lemma b_into_usize_big : forall v, 18446744073709551615 < v \/ v < 0 -> b_into_usize v = Panic.
Proof.
  intros v H. unfold b_into_usize, b_to_usize, int_try_from.
  rewrite (proj2 (in_ity_false usize v)); [reflexivity | cbn; lia].
Qed.

Lemma usize_panic : forall v, 18446744073709551615 < v \/ v < 0 -> arith usize v = Panic.
Proof. intros v H. apply arith_panic. cbn. lia. Qed.

Lemma manhattan_measurable : forall P p q, post_wf P -> measurable P p q ->
  Z.abs (fst p - fst q) + Z.abs (snd p - snd q) <= 18446744073709551615 ->
  manhattan P p q = Ret (Z.abs (fst p - fst q) + Z.abs (snd p - snd q)).
Proof.
  intros P p q (Wx & Wy) (Mx & My) L. unfold manhattan, in_bty in *. rewrite !b_sub_abs_gen by assumption.
  rewrite (proj2 (andb_true_iff _ _)) by (split; apply Z.leb_le; lia). cbn [bind].
  rewrite (proj2 (andb_true_iff _ _)) by (split; apply Z.leb_le; lia). cbn [bind].
  rewrite !b_into_usize_ok by lia. cbn [bind]. unfold uadd. apply usize_arith. lia.
Qed.

Lemma manhattan_panics : forall P p q, post_wf P ->
  ~ (measurable P p q /\ Z.abs (fst p - fst q) + Z.abs (snd p - snd q) <= 18446744073709551615) -> manhattan P p q = Panic.
Proof.
  intros P p q (Wx & Wy) N. unfold manhattan, measurable, in_bty in *. rewrite !b_sub_abs_gen by assumption.
  generalize dependent (Z.abs (fst p - fst q)). generalize (Z.abs_nonneg (snd p - snd q)).
  generalize (Z.abs (snd p - snd q)). intros dy Hy dx N.
  case_if; [|reflexivity]. cbn [bind]. case_if; [|reflexivity]. cbn [bind]. bool2prop.
  destruct (Z_le_gt_dec dx 18446744073709551615) as [Lx | Lx]; [|rewrite b_into_usize_big by lia; reflexivity].
  destruct (Z_le_gt_dec 0 dx) as [Lx0 | Lx0]; [|rewrite b_into_usize_big by lia; reflexivity].
  rewrite b_into_usize_ok by lia. cbn [bind].
  destruct (Z_le_gt_dec dy 18446744073709551615) as [Ly | Ly]; [|rewrite b_into_usize_big by lia; reflexivity].
  rewrite b_into_usize_ok by lia. cbn [bind]. unfold uadd. apply usize_panic. lia.
Qed.

Lemma into_path_gen : forall P f orig dest fuel, post_wf P -> valid P dest -> retraceable P orig dest ->
  (Z.to_nat (cols P * cols P + 1) <= fuel)%nat -> f dest <> None ->
  camefrom_into_path P fmap fuel f orig dest = Ret (bp P f orig (Z.to_nat (cols P * cols P + 1)) dest []).
Proof.
  intros P f orig dest fuel W V (M & L2 & HX & LW) Hf Nd. unfold camefrom_into_path.
  rewrite manhattan_measurable by (assumption || lia). cbn [bind]. unfold umul at 1. rewrite usize_arith by lia. cbn [bind].
  rewrite arith_ok by (unfold isize, i64; cbn [imin imax]; lia). cbn [bind fmap mp_get]. destruct (f dest) as [d|] eqn:Ed; [|contradiction].
  unfold width. unfold cols in *. rewrite b_into_usize_ok by nia. cbn [bind]. unfold uadd at 1. rewrite usize_arith by nia. cbn [bind].
  unfold uadd at 1. rewrite usize_arith by nia. cbn [bind].
  unfold umul. rewrite usize_arith by nia. cbn [bind]. unfold uadd. rewrite usize_arith by nia. cbn [bind].
  set (m := (XM P + 1) * (XM P + 1) + 1) in *. replace m with (Z.of_nat (Z.to_nat m)) at 1 by (subst m; nia).
  apply (loop_bp P W f orig fmap f); [reflexivity | exact V | subst m; nia | subst m; nia].
Qed.

Lemma into_path_panics : forall P f orig dest fuel, post_wf P -> valid P dest -> ~ retraceable P orig dest -> f dest <> None ->
  camefrom_into_path P fmap fuel f orig dest = Panic.
Proof.
  intros P f orig dest fuel W V N Nd. unfold camefrom_into_path, retraceable in *.
  pose proof (Z.abs_nonneg (fst orig - fst dest)). pose proof (Z.abs_nonneg (snd orig - snd dest)).
  set (dist := Z.abs (fst orig - fst dest) + Z.abs (snd orig - snd dest)) in *.
  destruct (valid_dec P (Z.abs (fst orig - fst dest), Z.abs (snd orig - snd dest))) as [M | M].
  2: { rewrite manhattan_panics; [reflexivity | exact W |]. intros (X & _). apply M. exact X. }
  change (measurable P orig dest) in M.
  destruct (Z_le_gt_dec dist 18446744073709551615) as [L | L].
  2: { rewrite manhattan_panics; [reflexivity | exact W |]. fold dist. lia. }
  rewrite manhattan_measurable by assumption. fold dist. cbn [bind].
  destruct (Z_le_gt_dec (2 * dist) 18446744073709551615) as [L2 | L2].
  2: { unfold umul at 1. rewrite usize_panic by lia. reflexivity. }
  unfold umul at 1. rewrite usize_arith by lia. cbn [bind].
  destruct (Z_le_gt_dec (2 * dist) 9223372036854775807) as [L3 | L3].
  2: { rewrite arith_panic by (unfold isize, i64; cbn [imin imax]; lia). reflexivity. }
  rewrite arith_ok by (unfold isize, i64; cbn [imin imax]; lia). cbn [bind fmap mp_get]. destruct (f dest) as [d|]; [|contradiction].
  unfold width, cols in *. destruct (Z_le_gt_dec 0 (XM P)) as [X0 | X0].
  2: { rewrite b_into_usize_big by lia. reflexivity. }
  destruct (Z_le_gt_dec (XM P) 18446744073709551615) as [X1 | X1].
  2: { rewrite b_into_usize_big by lia. reflexivity. }
  rewrite b_into_usize_ok by lia. cbn [bind].
  destruct (Z_le_gt_dec (XM P + 1) 18446744073709551615) as [X2 | X2].
  2: { unfold uadd at 1. rewrite usize_panic by lia. reflexivity. }
  unfold uadd at 1. rewrite usize_arith by lia. cbn [bind]. unfold uadd at 1. rewrite usize_arith by lia. cbn [bind].
  destruct (Z_le_gt_dec ((XM P + 1) * (XM P + 1)) 18446744073709551615) as [X3 | X3].
  2: { unfold umul. rewrite usize_panic by lia. reflexivity. }
  unfold umul. rewrite usize_arith by nia. cbn [bind]. unfold uadd. rewrite usize_panic; [reflexivity |].
  destruct (Z_le_gt_dec ((XM P + 1) * (XM P + 1) + 1) 18446744073709551615) as [X4 | X4]; [exfalso; apply N; auto | lia].
Qed.
