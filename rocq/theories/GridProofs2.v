(** GridProofs2.v -- collecting, nested vectors, lines and extend. *)

From Coq Require Import ZArith List Bool Lia Permutation.
From Verif Require Import Rust BoundedInt Dir PosT Pos Grid Spec Lib Deque BoundedIntProofs PosTProofs PosTProofs2 GridProofs.
Import ListNotations.
Open Scope Z_scope.

(** ** Collecting *)

Lemma fill_ok : forall {T} (g it : list T),
  from_iter_fill g it =
  if Nat.leb (length g) (length it) then Ret (firstn (length g) it, skipn (length g) it) else Panic.
Proof.
  intros T g. induction g as [|x g IH]; intros it; [destruct it; reflexivity |].
  destruct it as [|y it]; [reflexivity |].
  cbn [from_iter_fill length Nat.leb firstn skipn]. rewrite IH.
  destruct (Nat.leb (length g) (length it)); reflexivity.
Qed.

Lemma default_length : forall {T} SIZE (d : T), length (grid_default SIZE d) = Z.to_nat SIZE.
Proof. intros. unfold grid_default. rewrite map_length, zrange_length. lia. Qed.

Lemma from_iter_ok : forall {T} SIZE (d : T) it, 0 <= SIZE ->
  (Z.of_nat (length it) = SIZE -> grid_from_iter SIZE d it = Ret it) /\
  (Z.of_nat (length it) <> SIZE -> grid_from_iter SIZE d it = Panic).
Proof.
  intros T SIZE d it HS. unfold grid_from_iter. rewrite fill_ok, default_length. split; intros H.
  - replace (Z.to_nat SIZE) with (length it) by lia. rewrite Nat.leb_refl, firstn_all, skipn_all. reflexivity.
  - destruct (Nat.leb_spec (Z.to_nat SIZE) (length it)); [|reflexivity]. cbn [bind].
    destruct (skipn (Z.to_nat SIZE) it) eqn:E; [|reflexivity].
    apply (f_equal (@length T)) in E. rewrite skipn_length in E. cbn in E. lia.
Qed.

Lemma repeat_get : forall {T} P (v : T) p, grid_type P -> valid P p ->
  grid_get P (grid_repeat (cells P) v) p = Ret v /\ grid_get P (grid_default (cells P) v) p = Ret v.
Proof.
  intros T P v p G V. rewrite !get_nth by assumption. pose proof (index_bound P p G V) as B.
  unfold grid_repeat, grid_default. rewrite nth_error_repeat by lia. split; [reflexivity |].
  erewrite map_nth_error; [reflexivity |]. apply zrange_nth_error. lia.
Qed.

Lemma repeat_proper : forall {T} P (v : T), grid_type P ->
  proper P (grid_repeat (cells P) v) /\ proper P (grid_default (cells P) v).
Proof.
  intros T P v G. unfold proper, grid_repeat. rewrite default_length, repeat_length.
  pose proof (cells_pos P G). lia.
Qed.

Lemma iter_pos_ok : forall {T} P (g : list T), grid_type P -> proper P g ->
  exists l, grid_iter_pos P g = Ret l /\ map fst l = all_rows P /\ map snd l = g.
Proof.
  intros T P g G HP. pose proof (grid_type_wf P G) as W. unfold grid_iter_pos.
  rewrite (iter_list_of P true W). cbn [bind]. change (all_of P true) with (all_rows P).
  destruct g as [|d0 g0] eqn:Eg.
  { unfold proper in HP. cbn in HP. pose proof (cells_pos P G). lia. }
  rewrite <- Eg in *. clear Eg g0.
  set (val := fun p => match nth_error g (Z.to_nat (index_of P p)) with Some v => v | None => d0 end).
  rewrite mapM_pure with (g := fun p => (p, val p)).
  - eexists. split; [reflexivity |]. rewrite !map_map. cbn [fst snd]. split; [apply map_id |].
    apply nth_error_ext. intros n.
    destruct (lt_dec n (length g)) as [L | L].
    + unfold proper in HP. destruct (index_bijection P G) as (_ & B & _).
      destruct (B (Z.of_nat n)) as (p & V & _ & E); [lia |].
      rewrite to_usize_ok in E by assumption. injection E as E.
      pose proof (all_rows_nth P p G V) as N. rewrite E, Nat2Z.id in N.
      rewrite (map_nth_error _ n _ N). unfold val. rewrite E, Nat2Z.id.
      destruct (nth_error g n) eqn:En; [reflexivity |]. apply nth_error_None in En. lia.
    + rewrite (proj2 (nth_error_None g n)) by lia. apply nth_error_None. rewrite map_length.
      pose proof (all_of_length P true W) as LA. destruct (grid_type_nums P G) as (Ex & Ey & _ & _).
      change (all_of P true) with (all_rows P) in LA. unfold proper, cells, cols, rows in HP. lia.
  - intros p Hp. apply all_rows_In in Hp. destruct (get_ok P G g p HP Hp) as (v & E & N). rewrite E. cbn [bind].
    unfold val. rewrite N. reflexivity.
Qed.

(** ** Nested vectors *)

Section VecVec.
  Context {T : Type} (P : post) (G : grid_type P) (d : T).

  (** The position of index [i]. *)
  Definition at_index (i : Z) : pos := (i mod cols P, i / cols P).

  Lemma vecvec_cell_ok : forall vec i, 0 <= i < cells P ->
    let p := at_index i in
    try_from_vecvec_cell P d vec i =
    Ret (match cell_at vec p with Some v => v | None => d end,
         match cell_at vec p with Some _ => vecvec_take d vec (fst p) (snd p) | None => vec end).
  Proof.
    intros vec i Hi p. pose proof (cols_pos P G) as HC. pose proof (rows_pos P G) as HR.
    assert (Hx : 0 <= fst p < cols P) by (cbn; lia).
    assert (Hy : 0 <= snd p < rows P) by (cbn; unfold cells in Hi; nia).
    unfold try_from_vecvec_cell.
    assert (V : valid P p).
    { apply valid_nums; [exact G |]. unfold cols, rows in *. lia. }
    assert (E : tryfrom_usize P i = Ret (Ok p)).
    { destruct (index_bijection P G) as (B & _ & _). destruct (B p V) as (_ & _ & E).
      rewrite <- E. f_equal. unfold index_of, p, at_index. cbn [fst snd]. lia. }
    rewrite E. cbn [unwrap_res bind].
    destruct (grid_type_nums P G) as (_ & _ & BX & BY).
    assert (U : forall v, 0 <= v <= 65535 -> b_to_usize v = Ok v).
    { intros v Hv. unfold b_to_usize, int_try_from. rewrite (proj2 (in_ity_true usize v)) by (cbn; lia). reflexivity. }
    unfold cols, rows in Hx, Hy. rewrite (U (fst p)), (U (snd p)) by lia.
    unfold cell_at.
    destruct (Z.ltb_spec (snd p) (Z.of_nat (length vec))) as [L | L].
    - destruct (nth_error_some vec (snd p)) as (row & Er); [lia |]. rewrite Er.
      rewrite (array_get_ok vec (snd p) row) by (lia || exact Er). cbn [bind].
      destruct (Z.ltb_spec (fst p) (Z.of_nat (length row))) as [L2 | L2].
      + destruct (nth_error_some row (fst p)) as (c & Ec); [lia |]. rewrite Ec.
        rewrite (array_get_ok row (fst p) c) by (lia || exact Ec). cbn [bind]. reflexivity.
      + rewrite (proj2 (nth_error_None row (Z.to_nat (fst p)))) by lia. reflexivity.
    - rewrite (proj2 (nth_error_None vec (Z.to_nat (snd p)))) by lia. reflexivity.
  Qed.

  Lemma take_other : forall vec p q, 0 <= fst p -> 0 <= snd p -> 0 <= fst q -> 0 <= snd q -> p <> q ->
    cell_at (vecvec_take d vec (fst p) (snd p)) q = cell_at vec q.
  Proof.
    intros vec p q H1 H2 H3 H4 N. unfold cell_at, vecvec_take.
    destruct (nth_error vec (Z.to_nat (snd p))) as [row|] eqn:E; [|reflexivity].
    destruct (Z.eq_dec (snd p) (snd q)) as [Ey | Ny].
    - rewrite <- Ey, E. rewrite list_set_nth_same.
      + rewrite list_set_nth_other; [reflexivity |]. intros Ex. apply N. destruct p, q; cbn [fst snd] in *. f_equal; lia.
      + apply nth_error_Some. congruence.
    - rewrite list_set_nth_other by lia. reflexivity.
  Qed.

  Lemma vecvec_cells_ok : forall n a vec vec0, 0 <= a -> a + Z.of_nat n <= cells P ->
    (forall i, a <= i < cells P -> cell_at vec (at_index i) = cell_at vec0 (at_index i)) ->
    try_from_vecvec_cells P d vec (zrange a (a + Z.of_nat n)) =
    Ret (map (fun i => match cell_at vec0 (at_index i) with Some v => v | None => d end) (zrange a (a + Z.of_nat n))).
  Proof.
    intros n. induction n as [|n IH]; intros a vec vec0 Ha Hn H.
    - rewrite zrange_nil by lia. reflexivity.
    - rewrite zrange_cons by lia. replace (a + Z.of_nat (S n)) with (a + 1 + Z.of_nat n) by lia.
      cbn [try_from_vecvec_cells map]. rewrite vecvec_cell_ok by lia. cbn [bind].
      rewrite (H a) by lia.
      rewrite (IH (a + 1) _ vec0); [reflexivity | lia | lia |].
      intros i Hi. destruct (cell_at vec0 (at_index a)); [|apply H; lia].
      pose proof (cols_pos P G) as HC.
      rewrite take_other; [apply H; lia | | | | |]; unfold at_index; cbn [fst snd];
        try (apply Z.mod_pos_bound; lia); try (apply Z.div_pos; lia).
      intros E. injection E as E1 E2. pose proof (Z.div_mod a (cols P)). pose proof (Z.div_mod i (cols P)).
      rewrite E1, E2 in *. lia.
  Qed.

  Lemma at_index_of : forall p, valid P p -> at_index (index_of P p) = p.
  Proof.
    intros [x y] V. apply valid_nums in V; [|exact G]. unfold at_index, index_of, cols in *. cbn [fst snd] in *.
    f_equal; [rewrite Z.add_comm, Z.mod_add by lia; apply Z.mod_small; lia |].
    rewrite Z.add_comm, Z.div_add by lia. rewrite Z.div_small; lia.
  Qed.

  Lemma try_from_vecvec_ok : forall vec,
    let fits := Z.of_nat (length vec) <= rows P /\ (forall row, In row vec -> Z.of_nat (length row) <= cols P) in
    (fits -> exists g, grid_try_from_vecvec P (cells P) d vec = Ret (Ok g) /\ proper P g /\
       forall p, valid P p -> grid_get P g p = Ret (match cell_at vec p with Some v => v | None => d end)) /\
    (~ fits -> grid_try_from_vecvec P (cells P) d vec = Ret (Err OutOfBounds)).
  Proof.
    intros vec fits. unfold grid_try_from_vecvec. rewrite height_ok, width_ok by exact G. cbn [bind].
    assert (F : (Z.of_nat (length vec) >? rows P) || existsb (fun v => Z.of_nat (length v) >? cols P) vec = false <-> fits).
    { rewrite orb_false_iff. unfold fits. split.
      - intros (A & B). split; [lia |]. intros row Hr.
        destruct (Z_le_dec (Z.of_nat (length row)) (cols P)) as [| N]; [assumption |].
        rewrite (proj2 (existsb_exists _ vec)) in B; [discriminate |]. exists row. split; [exact Hr | lia].
      - intros (A & B). split; [lia |]. destruct (existsb _ vec) eqn:E; [|reflexivity].
        apply existsb_exists in E. destruct E as (row & Hr & L). specialize (B row Hr). lia. }
    pose proof (cells_pos P G) as HC. split; intros H.
    - rewrite (proj2 F H).
      assert (E : try_from_vecvec_cells P d vec (zrange 0 (cells P)) =
        Ret (map (fun i => match cell_at vec (at_index i) with Some v => v | None => d end) (zrange 0 (cells P)))).
      { replace (cells P) with (0 + Z.of_nat (Z.to_nat (cells P))) by lia.
        apply vecvec_cells_ok; try lia. reflexivity. }
      rewrite E. cbn [bind]. eexists. split; [reflexivity |]. split.
      + unfold proper. rewrite map_length, zrange_length. lia.
      + intros p V. rewrite get_nth by assumption. pose proof (index_bound P p G V) as B.
        erewrite map_nth_error; [|apply zrange_nth_error; lia].
        replace (0 + Z.of_nat (Z.to_nat (index_of P p))) with (index_of P p) by lia.
        rewrite at_index_of by exact V. reflexivity.
    - destruct (_ || _) eqn:E; [reflexivity |]. destruct H. apply F. reflexivity.
  Qed.
End VecVec.

(** ** Extend *)

Section Extend.
  Context {T : Type} (P : post) (G : grid_type P).

  Lemma extend_ok : forall items (g : list T), proper P g -> (forall p v, In (p, v) items -> valid P p) ->
    exists g', grid_extend P g items = Ret g' /\ proper P g' /\
    forall p, valid P p -> grid_get P g' p =
      match last_given items p with Some v => Ret v | None => grid_get P g p end.
  Proof.
    intros items. induction items as [|[q w] items IH]; intros g HP HV.
    - exists g. split; [reflexivity |]. split; [exact HP | reflexivity].
    - assert (Vq : valid P q) by (apply (HV q w); left; reflexivity).
      unfold grid_extend in *. cbn [foldM]. rewrite set_nth by assumption. cbn [bind].
      destruct (IH (list_set g (Z.to_nat (index_of P q)) w)) as (g' & E & HP' & H).
      + apply proper_set. exact HP.
      + intros p v Hin. apply (HV p v). right. exact Hin.
      + exists g'. split; [exact E |]. split; [exact HP' |].
        intros p V. rewrite H by exact V. cbn [last_given]. destruct (last_given items p); [reflexivity |].
        rewrite get_list_set by assumption. destruct (pos_eqb q p); reflexivity.
  Qed.

  (** [extend_from_vecvec] writes the cells, with truncated coordinates, up to
      the first one outside the grid. *)
  Definition wrap (c : pos * T) : pos * T := ((fst (fst c) mod 65536, snd (fst c) mod 65536), snd c).

  Definition inb (c : pos * T) : bool := (fst (fst c) <=? XM P) && (snd (fst c) <=? YM P).

  Fixpoint prefix_in (l : list (pos * T)) : list (pos * T) :=
    match l with [] => [] | c :: l' => if inb c then c :: prefix_in l' else [] end.

  Lemma prefix_in_all : forall l, forallb inb l = true -> prefix_in l = l.
  Proof.
    intros l. induction l as [|c l IH]; intros H; [reflexivity |]. cbn in *. apply andb_true_iff in H.
    destruct H as [H1 H2]. rewrite H1, IH by exact H2. reflexivity.
  Qed.

  Lemma prefix_in_app : forall l1 l2, prefix_in (l1 ++ l2) =
    if forallb inb l1 then l1 ++ prefix_in l2 else prefix_in l1.
  Proof.
    intros l1 l2. induction l1 as [|c l IH]; [reflexivity |]. cbn. destruct (inb c); cbn; [|reflexivity].
    rewrite IH. destruct (forallb inb l); reflexivity.
  Qed.

  Lemma inb_valid : forall c, 0 <= fst (fst c) -> 0 <= snd (fst c) -> (inb c = true <-> valid P (fst c)).
  Proof.
    intros [[x y] v] H1 H2. rewrite valid_nums by exact G. unfold inb. cbn [fst snd] in *. rewrite andb_true_iff, !Z.leb_le. lia.
  Qed.

  Lemma grid_extend_app : forall (g : list T) l1 l2,
    grid_extend P g (l1 ++ l2) = bind (grid_extend P g l1) (fun g' => grid_extend P g' l2).
  Proof. intros. unfold grid_extend. rewrite foldM_app. reflexivity. Qed.

  Lemma mod_nonneg : forall v, 0 <= v mod 65536.
  Proof. intros v. apply Z.mod_pos_bound. reflexivity. Qed.

  Lemma extend_row_ok : forall line (g : list T) x y, proper P g ->
    let cs := map wrap (row_cells x y line) in
    extend_row P g x y line =
      (g' <- grid_extend P g (prefix_in cs) ;;
       Ret (g', if forallb inb cs then Ok tt else Err OutOfBounds)).
  Proof.
    intros line. induction line as [|c line IH]; intros g x y HP cs; [reflexivity |].
    subst cs. cbn [extend_row row_cells map prefix_in forallb].
    set (w := wrap ((x, y), c)). change (pos_new P (FromInt u16) (FromInt u16) (as_u16 x) (as_u16 y))
      with (pos_new P (FromInt u16) (FromInt u16) (fst (fst w)) (snd (fst w))).
    pose proof (inb_valid w (mod_nonneg x) (mod_nonneg y)) as IV.
    pose proof (grid_type_wf P G) as W.
    destruct (inb w) eqn:E.
    - assert (V : valid P (fst w)) by (apply IV; reflexivity).
      rewrite pos_new_ok; [|exact W | rewrite <- surjective_pairing; exact V].
      rewrite <- surjective_pairing.
      replace (w :: prefix_in (map wrap (row_cells (x + 1) y line)))
        with ([w] ++ prefix_in (map wrap (row_cells (x + 1) y line))) by reflexivity.
      rewrite grid_extend_app. unfold grid_extend at 1. cbn [foldM].
      change (let '(p, member) := w in grid_set P g p member) with (grid_set P g (fst w) (snd w)).
      change (snd w) with c. rewrite set_nth by assumption. cbn [bind andb].
      apply IH. apply proper_set. exact HP.
    - rewrite pos_new_err; [reflexivity | exact W |]. rewrite <- surjective_pairing. intros V.
      apply IV in V. discriminate.
  Qed.

  Lemma prefix_valid : forall l, (forall c, In c l -> 0 <= fst (fst c) /\ 0 <= snd (fst c)) ->
    forall p v, In (p, v) (prefix_in l) -> valid P p.
  Proof.
    intros l. induction l as [|c l IH]; intros H p v Hin; [destruct Hin |].
    cbn in Hin. destruct (inb c) eqn:E; [|destruct Hin]. destruct Hin as [-> | Hin].
    - destruct (H (p, v) (or_introl eq_refl)) as (H1 & H2).
      apply (inb_valid (p, v) H1 H2). exact E.
    - apply (IH (fun c' Hc => H c' (or_intror Hc)) p v Hin).
  Qed.

  Lemma wrap_nonneg : forall l c, In c (map wrap l) -> 0 <= fst (fst c) /\ 0 <= snd (fst c).
  Proof.
    intros l c H. apply in_map_iff in H. destruct H as (c' & <- & _). cbn [wrap fst snd].
    split; apply mod_nonneg.
  Qed.

  Lemma extend_rows_ok : forall v (g : list T) y, proper P g ->
    let cs := map wrap (vecvec_cells y v) in
    extend_rows P g y v =
      (g' <- grid_extend P g (prefix_in cs) ;;
       Ret (g', if forallb inb cs then Ok tt else Err OutOfBounds)).
  Proof.
    intros v. induction v as [|line v IH]; intros g y HP cs; [reflexivity |].
    subst cs. cbn [extend_rows vecvec_cells]. rewrite extend_row_ok by exact HP.
    rewrite map_app, prefix_in_app, forallb_app.
    set (c1 := map wrap (row_cells 0 y line)). set (c2 := map wrap (vecvec_cells (y + 1) v)).
    destruct (extend_ok (prefix_in c1) g HP) as (g1 & E1 & HP1 & _).
    { apply prefix_valid. apply wrap_nonneg. }
    destruct (forallb inb c1) eqn:F.
    - rewrite grid_extend_app. rewrite prefix_in_all in E1 by exact F.
      rewrite prefix_in_all by exact F. rewrite E1. cbn [bind andb].
      apply (IH g1 (y + 1) HP1).
    - rewrite E1. reflexivity.
  Qed.
End Extend.

Lemma NoDup_app_disj : forall {A} (l1 l2 : list A), NoDup l1 -> NoDup l2 ->
  (forall x, In x l1 -> In x l2 -> False) -> NoDup (l1 ++ l2).
Proof.
  intros A l1. induction l1 as [|x l1 IH]; intros l2 H1 H2 H; [exact H2 |].
  inversion H1 as [|? ? N1 N2]; subst. cbn. constructor.
  - rewrite in_app_iff. intros [HI | HI]; [tauto |]. apply (H x); [left; reflexivity | exact HI].
  - apply IH; [exact N2 | exact H2 |]. intros y Hy. apply H. right. exact Hy.
Qed.

(** Cells of nested vectors. *)
Lemma row_cells_In : forall {T} (row : list T) x y p c,
  In (p, c) (row_cells x y row) <-> snd p = y /\ x <= fst p /\ nth_error row (Z.to_nat (fst p - x)) = Some c.
Proof.
  intros T row. induction row as [|a row IH]; intros x y [px py] c; cbn [row_cells In fst snd].
  - split; [tauto |]. intros (_ & _ & H). destruct (Z.to_nat (px - x)); discriminate.
  - rewrite IH. cbn [fst snd]. split.
    + intros [E | (-> & L & N)].
      * inv E. rewrite Z.sub_diag. split; [reflexivity |]. split; [lia | reflexivity].
      * split; [reflexivity |]. split; [lia |]. replace (Z.to_nat (px - x)) with (S (Z.to_nat (px - (x + 1)))) by lia. exact N.
    + intros (-> & L & N). destruct (Z.eq_dec px x) as [-> | Nx].
      * rewrite Z.sub_diag in N. cbn in N. inv N. left. reflexivity.
      * right. split; [reflexivity |]. split; [lia |].
        replace (Z.to_nat (px - x)) with (S (Z.to_nat (px - (x + 1)))) in N by lia. exact N.
Qed.

Lemma vecvec_cells_In : forall {T} (v : list (list T)) y p c,
  In (p, c) (vecvec_cells y v) <->
  y <= snd p /\ 0 <= fst p /\ cell_at v (fst p, snd p - y) = Some c.
Proof.
  intros T v. induction v as [|row v IH]; intros y [px py] c; cbn [vecvec_cells].
  - cbn. split; [tauto |]. intros (_ & _ & H). unfold cell_at in H. cbn in H.
    destruct (Z.to_nat (py - y)); discriminate.
  - rewrite in_app_iff, row_cells_In, IH. cbn [fst snd]. unfold cell_at. cbn [fst snd]. split.
    + intros [(-> & L & N) | (L & L2 & N)].
      * rewrite Z.sub_diag. cbn [Z.to_nat nth_error]. rewrite Z.sub_0_r in N. repeat split; auto; lia.
      * replace (Z.to_nat (py - y)) with (S (Z.to_nat (py - (y + 1)))) by lia. repeat split; auto; lia.
    + intros (L & L2 & N). destruct (Z.eq_dec py y) as [-> | Ny].
      * left. rewrite Z.sub_diag in N. cbn [Z.to_nat nth_error] in N. rewrite Z.sub_0_r. auto.
      * right. replace (Z.to_nat (py - y)) with (S (Z.to_nat (py - (y + 1)))) in N by lia. repeat split; auto; lia.
Qed.

Lemma row_cells_keys : forall {T} (row : list T) x y, NoDup (map fst (row_cells x y row)).
Proof.
  intros T row. induction row as [|a row IH]; intros x y; [constructor |].
  cbn [row_cells map fst]. constructor; [|apply IH].
  intros H. apply in_map_iff in H. destruct H as ([p c] & E & H). cbn in E. subst p.
  apply row_cells_In in H. cbn in H. lia.
Qed.

Lemma vecvec_cells_keys : forall {T} (v : list (list T)) y, NoDup (map fst (vecvec_cells y v)).
Proof.
  intros T v. induction v as [|row v IH]; intros y; [constructor |].
  cbn [vecvec_cells]. rewrite map_app.
  apply NoDup_app_disj; [apply row_cells_keys | apply IH |].
  intros p H1 H2. apply in_map_iff in H1, H2.
  destruct H1 as ([p1 c1] & E1 & H1), H2 as ([p2 c2] & E2 & H2). cbn in E1, E2. subst p1 p2.
  apply row_cells_In in H1. apply vecvec_cells_In in H2. lia.
Qed.

Lemma last_given_keys : forall {T} (l : list (pos * T)) p v, NoDup (map fst l) ->
  (last_given l p = Some v <-> In (p, v) l).
Proof.
  intros T l p v. induction l as [|[q w] l IH]; intros ND; cbn [last_given In].
  - split; [discriminate | tauto].
  - inversion ND as [|? ? N1 N2]; subst. specialize (IH N2).
    destruct (last_given l p) as [u|] eqn:E.
    + rewrite IH. split; [tauto |]. intros [E' | H]; [|exact H]. inv E'.
      exfalso. apply N1. assert (In (p, u) l).
      { clear -E. revert E. induction l as [|[a b] l IH]; cbn; [discriminate |].
        destruct (last_given l p) eqn:E; [intros H; inv H; right; apply IH; reflexivity |].
        destruct (pos_eqb a p) eqn:E2; [|discriminate]. intros H. inv H. apply pos_eqb_eq in E2. subst. left. reflexivity. }
      change p with (fst (p, u)). apply in_map. exact H.
    + destruct (pos_eqb q p) eqn:E2.
      * apply pos_eqb_eq in E2. subst q. split; [intros H; inv H; left; reflexivity |].
        intros [H | H]; [congruence |]. apply IH in H. discriminate.
      * apply pos_eqb_neq in E2. split; [discriminate |]. intros [H | H]; [congruence |].
        apply IH in H. discriminate.
Qed.

Lemma last_given_None : forall {T} (l : list (pos * T)) p, last_given l p = None <-> ~ In p (map fst l).
Proof.
  intros T l p. induction l as [|[q w] l IH]; cbn [last_given map fst In]; [tauto |].
  destruct (last_given l p) eqn:E.
  - split; [discriminate |]. intros H. exfalso. destruct (in_dec pos_eq_dec p (map fst l)) as [i | i]; [tauto |].
    apply IH in i. discriminate.
  - destruct (pos_eqb q p) eqn:E2.
    + apply pos_eqb_eq in E2. split; [discriminate | tauto].
    + apply pos_eqb_neq in E2. split; [|reflexivity]. intros _ [H | H]; [congruence |].
      apply IH in H; [exact H | reflexivity].
Qed.

(** ** Lines *)

Lemma nth_error_skipn_ : forall {A} (l : list A) n i, nth_error (skipn n l) i = nth_error l (n + i).
Proof.
  intros A l. induction l as [|x l IH]; intros n i; [destruct n, i; reflexivity |].
  destruct n; [reflexivity |]. cbn. apply IH.
Qed.

Lemma nth_error_firstn_ : forall {A} (l : list A) n i, (i < n)%nat -> nth_error (firstn n l) i = nth_error l i.
Proof.
  intros A l. induction l as [|x l IH]; intros n i H; [destruct n, i; reflexivity |].
  destruct n; [lia |]. destruct i; [reflexivity |]. cbn. apply IH. lia.
Qed.

Section Lines.
  Context {T : Type} (P : post) (G : grid_type P).

  Lemma line_bounds : forall y (g : list T), proper P g -> 0 <= y <= YM P ->
    0 <= y * cols P /\ y * cols P + cols P <= Z.of_nat (length g) /\ 0 < cols P <= 65536 /\ y <= 65535.
  Proof.
    intros y g HP Hy. unfold proper, cells in HP. destruct (grid_type_nums P G) as (_ & _ & HX & HY).
    unfold cols, rows in *. nia.
  Qed.

  Lemma line_ok : forall y (g : list T), proper P g -> 0 <= y <= YM P ->
    exists l, grid_line P g y = Ret l /\ Z.of_nat (length l) = cols P /\
    forall x, 0 <= x <= XM P -> exists v, nth_error l (Z.to_nat x) = Some v /\ grid_get P g (x, y) = Ret v.
  Proof.
    intros y g HP Hy. destruct (line_bounds y g HP Hy) as (B1 & B2 & B3 & B4).
    unfold grid_line. rewrite width_ok by exact G. cbn [bind].
    rewrite b_into_usize_ok by lia. cbn [bind].
    unfold umul, uadd. rewrite usize_arith by nia. cbn [bind]. rewrite usize_arith by nia. cbn [bind].
    replace (y * cols P + cols P <=? Z.of_nat (length g)) with true by lia.
    replace (Z.to_nat (y * cols P + cols P - y * cols P)) with (Z.to_nat (cols P)) by lia.
    eexists. split; [reflexivity |]. split; [rewrite firstn_length, skipn_length; lia |].
    intros x Hx. assert (V : valid P (x, y)) by (apply valid_nums; [exact G | cbn [fst snd]; lia]).
    destruct (get_ok P G g (x, y) HP V) as (v & E & N). exists v. split; [|exact E].
    rewrite nth_error_firstn_ by (unfold cols in *; lia). rewrite nth_error_skipn_.
    rewrite <- N. f_equal. unfold index_of. cbn [fst snd]. lia.
  Qed.

  Lemma line_write_ok : forall y (g l : list T), proper P g -> 0 <= y <= YM P ->
    (Z.of_nat (length l) = cols P ->
      exists g', grid_line_write P g y l = Ret g' /\ proper P g' /\
      (forall x, 0 <= x <= XM P -> exists v, nth_error l (Z.to_nat x) = Some v /\ grid_get P g' (x, y) = Ret v) /\
      (forall p, valid P p -> snd p <> y -> grid_get P g' p = grid_get P g p)).
  Proof.
    intros y g l HP Hy L. destruct (line_bounds y g HP Hy) as (B1 & B2 & B3 & B4).
    unfold grid_line_write. rewrite width_ok by exact G. cbn [bind].
    rewrite b_into_usize_ok by lia. cbn [bind].
    unfold umul, uadd. rewrite usize_arith by nia. cbn [bind]. rewrite usize_arith by nia. cbn [bind].
    replace (y * cols P + cols P <=? Z.of_nat (length g)) with true by lia.
    replace (Z.of_nat (length l) =? y * cols P + cols P - y * cols P) with true by lia.
    eexists. split; [reflexivity |]. split; [|split].
    - unfold proper in *. rewrite !app_length, firstn_length, skipn_length. lia.
    - intros x Hx. assert (V : valid P (x, y)) by (apply valid_nums; [exact G | cbn [fst snd]; lia]).
      destruct (nth_error_some l x) as (v & E); [unfold cols in *; lia |]. exists v. split; [exact E |].
      rewrite get_nth by assumption.
      rewrite nth_error_app2 by (rewrite firstn_length; unfold index_of; cbn [fst snd]; lia).
      rewrite firstn_length. unfold index_of. cbn [fst snd].
      replace (Z.to_nat (y * cols P + x) - Nat.min (Z.to_nat (y * cols P)) (length g))%nat with (Z.to_nat x) by lia.
      rewrite nth_error_app1 by (unfold cols in *; lia). rewrite E. reflexivity.
    - intros [px py] V N. cbn [snd] in N. rewrite !get_nth by assumption.
      apply valid_nums in V; [|exact G]. unfold index_of. cbn [fst snd] in *.
      destruct (Z_lt_dec py y) as [Lt | Ge].
      + rewrite nth_error_app1.
        * rewrite nth_error_firstn_; [reflexivity |]. unfold cols in *. nia.
        * rewrite firstn_length. unfold cols in *. nia.
      + assert (y + 1 <= py) by lia. assert (LB : y * cols P + cols P <= py * cols P + px) by (unfold cols in *; nia).
        rewrite nth_error_app2 by (rewrite firstn_length; lia).
        rewrite nth_error_app2 by (rewrite firstn_length; lia).
        rewrite nth_error_skipn_. rewrite firstn_length.
        do 2 f_equal. replace (Nat.min (Z.to_nat (y * cols P)) (length g)) with (Z.to_nat (y * cols P)) by lia.
        assert (HB : 0 <= py * cols P + px) by lia. clear - B1 B3 L LB HB.
        replace (Z.to_nat (y * cols P + cols P) +
          (Z.to_nat (py * cols P + px) - Z.to_nat (y * cols P) - length l))%nat with (Z.to_nat (py * cols P + px));
          [reflexivity |].
        remember (y * cols P) as a. remember (py * cols P + px) as b. lia.
  Qed.
End Lines.
