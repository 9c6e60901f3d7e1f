(** PropDebugProofs.v -- proofs of the statements of PropDebug.v. *)

From Coq Require Import ZArith List Bool Lia String.
From Verif Require Import Rust BoundedInt Dir PosT Pos Grid Gridbool Display Views Debug Spec SpecDisplay SpecDebug Lib DisplayProofs PropViewsProofs.
Import ListNotations.
Open Scope Z_scope.

Fixpoint doc_ind2 (Q : doc -> Prop) (HT : forall s, Q (Text s)) (HU : forall n l, Forall Q l -> Q (Tuple n l)) (HI : forall l, Forall Q l -> Q (Items l)) (d : doc) : Q d :=
  let all := fix all l : Forall Q l := match l with [] => Forall_nil Q | x :: l' => Forall_cons x (doc_ind2 Q HT HU HI x) (all l') end in
  match d with Text s => HT s | Tuple n l => HU n l (all l) | Items l => HI l (all l) end.

Definition soft (c : Z) : bool := (c =? 10) || (c =? 32).

Definition hard (s : str) : str := filter (fun c => negb (soft c)) s.

(** The text without blanks, with a comma after every field. *)
Fixpoint tok (d : doc) : str :=
  match d with
  | Text s => s
  | Tuple n l => n ++ 40 :: List.concat (map (fun x => tok x ++ [44]) l) ++ [41]
  | Items l => 91 :: List.concat (map (fun x => tok x ++ [44]) l) ++ [93]
  end.

Fixpoint fix_commas (prev : Z) (s : str) : str :=
  match s with
  | [] => []
  | c :: s' => (if ((c =? 41) || (c =? 93)) && negb ((prev =? 44) || (prev =? 91)) then [44] else []) ++ c :: fix_commas c s'
  end.

Lemma readable_all : forall l, fold_right (fun x rest => readable x /\ rest) True l <-> Forall readable l.
Proof.
  induction l as [|x l IH]; cbn; [split; [constructor | auto] |]. rewrite IH. split; [intros (A & B); constructor; assumption | intros F; inversion F; auto].
Qed.

Lemma word_hard : forall s, word s -> hard s = s.
Proof.
  intros s (_ & H). unfold hard. induction s as [|c s IH]; [reflexivity |]. cbn. assert (E : soft c = false). { destruct (soft c) eqn:E; [|reflexivity]. exfalso. apply (H c (or_introl eq_refl)). unfold soft in E. apply orb_prop in E. destruct E as [E | E]; apply Z.eqb_eq in E; subst c; cbn; auto. }
  rewrite E. cbn. f_equal. apply IH. intros d Hd. apply H. right. exact Hd.
Qed.

Lemma hard_app : forall a b, hard (a ++ b) = hard a ++ hard b.
Proof. intros. apply filter_app. Qed.

Lemma hard_indent : forall s nl, hard (indent nl s) = hard s.
Proof.
  induction s as [|c s IH]; intros nl; [reflexivity |]. destruct nl; [change (hard (c :: indent (c =? 10) s) = hard (c :: s)) | change (hard (c :: indent (c =? 10) s) = hard (c :: s))]; unfold hard in *; cbn [filter]; rewrite IH; reflexivity.
Qed.

Lemma hard_concat : forall l, hard (List.concat l) = List.concat (map hard l).
Proof. induction l as [|x l IH]; [reflexivity |]. cbn [List.concat map]. rewrite hard_app, IH. reflexivity. Qed.

Lemma name_hard : forall n, n = [] \/ word n -> hard n = n.
Proof. intros n [-> | H]; [reflexivity | apply word_hard, H]. Qed.

Lemma hard_fields : forall l, Forall (fun d => readable d -> hard (show true d) = tok d) l -> Forall readable l ->
  hard (List.concat (map (fun t => indent true (t ++ lit "," ++ [10])) (map (show true) l))) = List.concat (map (fun x => tok x ++ [44]) l).
Proof.
  intros l F R. rewrite hard_concat, !map_map. f_equal. apply map_ext_in. intros x Hx. rewrite hard_indent, hard_app. rewrite (proj1 (Forall_forall _ _) F x Hx (proj1 (Forall_forall _ _) R x Hx)). reflexivity.
Qed.

Lemma hard_pretty : forall d, readable d -> hard (show true d) = tok d.
Proof.
  induction d as [s | n l IH | l IH] using doc_ind2; intros R; cbn [readable] in R.
  - apply word_hard, R.
  - destruct R as (Hn & Hl & R). apply readable_all in R. cbn [show tok]. destruct l as [|x l]; [congruence |]. rewrite !hard_app, (hard_fields _ IH R), (name_hard n Hn). reflexivity.
  - apply readable_all in R. cbn [show tok]. rewrite !hard_app, (hard_fields _ IH R). destruct l; reflexivity.
Qed.

Lemma fix_word : forall s prev k, word s -> fix_commas prev (s ++ k) = s ++ fix_commas (last s prev) k.
Proof.
  intros s prev k (_ & H). revert prev. induction s as [|c s IH]; intros prev; [reflexivity |]. cbn [app fix_commas].
  assert (E : (c =? 41) || (c =? 93) = false). { destruct ((c =? 41) || (c =? 93)) eqn:E; [|reflexivity]. exfalso. apply (H c (or_introl eq_refl)). apply orb_prop in E. destruct E as [E | E]; apply Z.eqb_eq in E; subst c; cbn; tauto. }
  rewrite E. cbn [andb app]. f_equal. rewrite IH by (intros d Hd; apply H; right; exact Hd). f_equal. f_equal. destruct s as [|e s]; [reflexivity |]. change (last (c :: e :: s) prev) with (last (e :: s) prev). clear. revert e. induction s as [|f s IH]; intros e; [reflexivity |]. cbn. apply IH.
Qed.

(** A character after which the closing bracket of a non-empty list gets a comma. *)
Definition ends (c : Z) : Prop := c <> 44 /\ c <> 91.

Lemma word_ends : forall s prev, word s -> ends (last s prev).
Proof.
  intros s prev (N & H). assert (K : In (last s prev) s). { clear H. induction s as [|c s IH]; [congruence |]. destruct s as [|d s]; [left; reflexivity |]. right. apply IH. discriminate. }
  apply H in K. split; intros E; rewrite E in K; apply K; cbn; tauto.
Qed.

Lemma fix_name : forall n prev k, n = [] \/ word n -> fix_commas prev (n ++ 40 :: k) = n ++ 40 :: fix_commas 40 k.
Proof. intros n prev k [-> | H]; [reflexivity |]. rewrite fix_word by exact H. reflexivity. Qed.

Lemma hard_commas : forall l, hard (commas l) = match l with [] => [] | s :: l' => hard s ++ List.concat (map (fun t => 44 :: hard t) l') end.
Proof.
  intros [|s l]; [reflexivity |]. unfold commas. rewrite hard_app, hard_concat, map_map. reflexivity.
Qed.

Definition fixes (d : doc) : Prop := readable d -> forall prev k, exists e, ends e /\ fix_commas prev (hard (show false d) ++ k) = tok d ++ fix_commas e k.

(** The fields after the first one, up to the closing bracket [c]; the bracket adds
    the last comma. *)
Lemma fix_fields : forall l prev c k, Forall fixes l -> Forall readable l -> ends prev -> c = 41 \/ c = 93 ->
  fix_commas prev (List.concat (map (fun t => 44 :: hard t) (map (show false) l)) ++ c :: k) =
  44 :: List.concat (map (fun x => tok x ++ [44]) l) ++ c :: fix_commas c k.
Proof.
  induction l as [|x l IH]; intros prev c k F R HE HC.
  - cbn [map List.concat app fix_commas]. destruct HE as (E1 & E2). destruct (Z.eqb_spec prev 44); [congruence |]. destruct (Z.eqb_spec prev 91); [congruence |]. destruct HC as [-> | ->]; reflexivity.
  - inversion F as [|? ? F1 F2]; subst. inversion R as [|? ? R1 R2]; subst. cbn [map List.concat app fix_commas]. change ((44 =? 41) || (44 =? 93)) with false. cbn [andb app]. f_equal. rewrite <- !app_assoc. destruct (F1 R1 44 (List.concat (map (fun t => 44 :: hard t) (map (show false) l)) ++ c :: k)) as (e & He & E). rewrite E. rewrite (IH e c k F2 R2 He HC). reflexivity.
Qed.

Lemma fix_compact : forall d, fixes d.
Proof.
  induction d as [s | n l IH | l IH] using doc_ind2; intros R prev k; cbn [readable] in R.
  - cbn [show tok]. rewrite word_hard by exact R. exists (last s prev). split; [apply word_ends, R | apply fix_word, R].
  - destruct R as (Hn & Hl & R). apply readable_all in R. exists 41. split; [split; discriminate |]. cbn [show tok]. destruct l as [|x l]; [congruence |]. inversion IH as [|? ? F1 F2]; subst. inversion R as [|? ? R1 R2]; subst.
    rewrite !hard_app, (name_hard n Hn). change (hard (lit "(")) with [40]. change (hard (lit ")")) with [41]. rewrite <- !app_assoc. cbn [app]. rewrite fix_name by exact Hn. f_equal. f_equal.
    cbn [map]. rewrite hard_commas, <- !app_assoc. match goal with |- fix_commas 40 (hard (show false x) ++ ?K) = _ => destruct (F1 R1 40 K) as (e & He & E); rewrite E; clear E end. cbn [List.concat]. rewrite <- !app_assoc. f_equal.
    destruct n as [|c n]; [destruct l as [|y l] |].
    + cbn [map List.concat app]. change (hard (lit ",")) with [44]. reflexivity.
    + change (hard []) with (@nil Z). cbn [app]. rewrite (fix_fields _ _ _ _ F2 R2 He (or_introl eq_refl)). reflexivity.
    + change (hard []) with (@nil Z). cbn [app]. rewrite (fix_fields _ _ _ _ F2 R2 He (or_introl eq_refl)). reflexivity.
  - apply readable_all in R. exists 93. split; [split; discriminate |]. cbn [show tok]. rewrite !hard_app. change (hard (lit "[")) with [91]. change (hard (lit "]")) with [93]. rewrite <- !app_assoc. cbn [app fix_commas]. cbn [Z.eqb Pos.eqb orb andb app]. f_equal. destruct l as [|x l]; [reflexivity |]. inversion IH as [|? ? F1 F2]; subst. inversion R as [|? ? R1 R2]; subst. cbn [map]. rewrite hard_commas, <- !app_assoc. destruct (F1 R1 91 (List.concat (map (fun t => 44 :: hard t) (map (show false) l)) ++ 93 :: k)) as (e & He & E). rewrite E. cbn [List.concat]. rewrite <- !app_assoc. f_equal. rewrite (fix_fields _ _ _ _ F2 R2 He (or_intror eq_refl)). reflexivity.
Qed.

(** What precedes the first special character is determined. *)
Definition special (c : Z) : Prop := In c [10; 32; 40; 41; 44; 91; 93].

Lemma span_eq : forall s1 s2 c1 c2 r1 r2, (forall c, In c s1 -> ~ special c) -> (forall c, In c s2 -> ~ special c) -> special c1 -> special c2 ->
  s1 ++ c1 :: r1 = s2 ++ c2 :: r2 -> s1 = s2 /\ c1 = c2 /\ r1 = r2.
Proof.
  induction s1 as [|a s1 IH]; intros [|b s2] c1 c2 r1 r2 H1 H2 S1 S2 E; cbn [app] in E; injection E as Ea E.
  - auto.
  - subst c1. destruct (H2 b (or_introl eq_refl) S1).
  - subst a. destruct (H1 c2 (or_introl eq_refl) S2).
  - subst b. destruct (IH s2 c1 c2 r1 r2) as (-> & -> & ->); auto; intros c Hc; [apply H1 | apply H2]; right; exact Hc.
Qed.

Lemma name_span : forall n, n = [] \/ word n -> forall c, In c n -> ~ special c.
Proof. intros n [-> | (_ & H)] c Hc; [destruct Hc | exact (H c Hc)]. Qed.

Definition decodes (d : doc) : Prop := readable d -> forall e k1 k2, readable e -> tok d ++ 44 :: k1 = tok e ++ 44 :: k2 -> d = e /\ k1 = k2.

Lemma tok_head : forall d c k, readable d -> c = 41 \/ c = 93 -> forall r, tok d ++ r <> c :: k.
Proof.
  intros [s | n l | l] c k R HC r E; cbn [readable tok] in *.
  - destruct R as (N & H). destruct s as [|a s]; [congruence |]. cbn [app] in E. injection E as -> _. apply (H c (or_introl eq_refl)). destruct HC as [-> | ->]; cbn; tauto.
  - destruct R as (Hn & _). destruct n as [|a n]; cbn [app] in E; injection E as E _.
    + subst c. destruct HC; discriminate.
    + subst a. apply (name_span _ Hn c (or_introl eq_refl)). destruct HC as [-> | ->]; cbn; tauto.
  - cbn [app] in E. injection E as E _. subst c. destruct HC; discriminate.
Qed.

Lemma decode_fields : forall l1 l2 c k1 k2, Forall decodes l1 -> Forall readable l1 -> Forall readable l2 -> c = 41 \/ c = 93 ->
  List.concat (map (fun x => tok x ++ [44]) l1) ++ c :: k1 = List.concat (map (fun x => tok x ++ [44]) l2) ++ c :: k2 -> l1 = l2 /\ k1 = k2.
Proof.
  induction l1 as [|x l1 IH]; intros [|y l2] c k1 k2 F R1 R2 HC E; cbn [map List.concat] in E.
  - injection E as ->. auto.
  - exfalso. inversion R2; subst. cbn [app] in E. symmetry in E. rewrite <- !app_assoc in E. exact (tok_head y c k1 ltac:(assumption) HC _ E).
  - exfalso. inversion R1; subst. cbn [app] in E. rewrite <- !app_assoc in E. exact (tok_head x c k2 ltac:(assumption) HC _ E).
  - inversion F; subst. inversion R1; subst. inversion R2; subst. rewrite <- !app_assoc in E. cbn [app] in E. match goal with D : decodes x |- _ => destruct (D ltac:(assumption) y _ _ ltac:(assumption) E) as (-> & E') end. destruct (IH l2 c k1 k2) as (-> & ->); auto.
Qed.

Lemma tok_decodes : forall d, decodes d.
Proof.
  induction d as [s | n l IH | l IH] using doc_ind2; intros R [s' | n' l' | l'] k1 k2 R' E; cbn [readable tok] in *.
  - destruct (span_eq s s' 44 44 k1 k2) as (-> & _ & ->); [apply R | apply R' | cbn; tauto | cbn; tauto | exact E | auto].
  - exfalso. rewrite <- app_assoc in E. cbn [app] in E. destruct (span_eq s n' 44 40 _ _ ltac:(apply R) (name_span n' ltac:(apply R')) ltac:(cbn; tauto) ltac:(cbn; tauto) E) as (_ & K & _). discriminate.
  - exfalso. destruct (span_eq s [] 44 91 _ _ ltac:(apply R) ltac:(intros ? []) ltac:(cbn; tauto) ltac:(cbn; tauto) E) as (_ & K & _). discriminate.
  - exfalso. rewrite <- app_assoc in E. cbn [app] in E. destruct (span_eq n s' 40 44 _ _ (name_span n ltac:(apply R)) ltac:(apply R') ltac:(cbn; tauto) ltac:(cbn; tauto) E) as (_ & K & _). discriminate.
  - rewrite <- !app_assoc in E. cbn [app] in E. destruct (span_eq n n' 40 40 _ _ (name_span n ltac:(apply R)) (name_span n' ltac:(apply R')) ltac:(cbn; tauto) ltac:(cbn; tauto) E) as (-> & _ & E'). rewrite <- !app_assoc in E'. cbn [app] in E'. destruct (decode_fields l l' 41 (44 :: k1) (44 :: k2)) as (-> & K); [exact IH | apply readable_all, R | apply readable_all, R' | auto | exact E' |]. injection K as ->. auto.
  - exfalso. rewrite <- app_assoc in E. cbn [app] in E. destruct (span_eq n [] 40 91 _ _ (name_span n ltac:(apply R)) ltac:(intros ? []) ltac:(cbn; tauto) ltac:(cbn; tauto) E) as (_ & K & _). discriminate.
  - exfalso. destruct (span_eq [] s' 91 44 _ _ ltac:(intros ? []) ltac:(apply R') ltac:(cbn; tauto) ltac:(cbn; tauto) E) as (_ & K & _). discriminate.
  - exfalso. rewrite <- (app_assoc n') in E. cbn [app] in E. destruct (span_eq [] n' 91 40 _ _ ltac:(intros ? []) (name_span n' ltac:(apply R')) ltac:(cbn; tauto) ltac:(cbn; tauto) E) as (_ & K & _). discriminate.
  - cbn [app] in E. injection E as E. rewrite <- !app_assoc in E. cbn [app] in E. destruct (decode_fields l l' 93 (44 :: k1) (44 :: k2)) as (-> & K); [exact IH | apply readable_all, R | apply readable_all, R' | auto | exact E |]. injection K as ->. auto.
Qed.

Lemma tok_injective : forall d e, readable d -> readable e -> tok d = tok e -> d = e.
Proof. intros d e R R' E. apply (tok_decodes d R e [] [] R'). rewrite E. reflexivity. Qed.

Lemma hard_tok : forall m d e, readable d -> readable e -> hard (show m d) = hard (show m e) -> d = e.
Proof.
  intros m d e R R' E. apply tok_injective; [exact R | exact R' |]. destruct m.
  - rewrite <- !hard_pretty by assumption. exact E.
  - destruct (fix_compact d R 0 []) as (a & _ & Ea). destruct (fix_compact e R' 0 []) as (b & _ & Eb). cbn [fix_commas] in Ea, Eb. rewrite !app_nil_r in Ea, Eb. rewrite <- Ea, <- Eb, E. reflexivity.
Qed.

Lemma C130_debug_reads_back_proof : forall pretty d e, readable d -> readable e -> show pretty d = show pretty e -> d = e.
Proof.
  intros m d e R R' E. apply (hard_tok m d e R R'). rewrite E. reflexivity.
Qed.

Lemma numeral_word : forall n s, numeral n s -> word s.
Proof.
  intros n s (N & D & _). split; [exact N |]. intros c Hc K. apply D in Hc. cbn in K. lia.
Qed.

Lemma int_word : forall v, word (bounded_display v).
Proof.
  intros v. destruct (C102_bounded_text_proof v) as (A & B & _). destruct (Z_lt_le_dec v 0) as [L | L]; [|exact (numeral_word _ _ (A L))].
  destruct (B L) as (s & Hs & ->). destruct (numeral_word _ _ Hs) as (_ & W). split; [discriminate |]. intros c [<- | Hc]; [cbn; lia | apply W, Hc].
Qed.

Ltac is_word := split; [discriminate | let c := fresh in intros c K; vm_compute in K; cbn; repeat (destruct K as [<- | K]; [lia |]); destruct K].

Lemma dir_readable : forall d, readable (dir_debug d).
Proof. intros d. destruct d; cbn [dir_debug readable]; is_word. Qed.

Lemma error_readable : forall e, readable (error_debug e).
Proof. intros e. destruct e; cbn [error_debug readable]; is_word. Qed.

Lemma pos_readable : forall p, readable (pos_debug p).
Proof.
  intros [x y]. unfold pos_debug. cbn [readable fold_right fst snd]. split; [right; is_word |]. split; [discriminate |]. split; [|exact Logic.I]. split; [left; reflexivity |]. split; [discriminate |]. split; [apply int_word |]. split; [apply int_word | exact Logic.I].
Qed.

Lemma items_readable : forall A (f : A -> doc) l, (forall a, readable (f a)) -> readable (Items (map f l)).
Proof.
  intros A f l H. cbn [readable]. apply readable_all. apply Forall_forall. intros d Hd. apply in_map_iff in Hd. destruct Hd as (a & <- & _). apply H.
Qed.

Lemma found_readable : forall r, readable (found_debug r).
Proof.
  intros [p l]. unfold found_debug. cbn [readable fold_right fst snd]. split; [left; reflexivity |]. split; [discriminate |]. split; [apply pos_readable |]. split; [apply (items_readable _ dir_debug l dir_readable) | exact Logic.I].
Qed.

Lemma result_readable : forall A (f : A -> doc) r, (forall a, readable (f a)) -> readable (result_debug f r).
Proof.
  intros A f [v | e] H; cbn [result_debug readable fold_right]; (split; [right; is_word |]; split; [discriminate |]; split; [|exact Logic.I]); [apply H | apply error_readable].
Qed.

Lemma dir_debug_inj : forall d e, dir_debug d = dir_debug e -> d = e.
Proof. intros d e. destruct d, e; intros E; first [reflexivity | vm_compute in E; discriminate E]. Qed.

Lemma error_debug_inj : forall d e, error_debug d = error_debug e -> d = e.
Proof. intros d e. destruct d, e; intros E; first [reflexivity | vm_compute in E; discriminate E]. Qed.

Lemma pos_debug_inj : forall p q, pos_debug p = pos_debug q -> p = q.
Proof.
  intros [a b] [c d] E. unfold pos_debug in E. cbn [fst snd] in E. injection E as E1 E2. f_equal; [apply (C102_bounded_text_proof a); exact E1 | apply (C102_bounded_text_proof b); exact E2].
Qed.

Lemma map_inj : forall A B (f : A -> B), (forall a b, f a = f b -> a = b) -> forall l m, map f l = map f m -> l = m.
Proof.
  intros A B f H. induction l as [|a l IH]; intros [|b m] E; try discriminate; [reflexivity |]. cbn in E. injection E as E1 E2. f_equal; [apply H, E1 | apply IH, E2].
Qed.

Lemma path_debug_inj : forall l m, path_debug l = path_debug m -> l = m.
Proof. intros l m E. injection E as E. exact (map_inj _ _ _ dir_debug_inj _ _ E). Qed.

Lemma found_debug_inj : forall r s, found_debug r = found_debug s -> r = s.
Proof.
  intros [p l] [q m] E. unfold found_debug in E. cbn [fst snd] in E. apply (f_equal (fun d => match d with Tuple _ [a; b] => (a, b) | _ => (d, d) end)) in E. injection E as E1 E2. f_equal; [apply pos_debug_inj; unfold pos_debug; congruence | apply path_debug_inj; unfold path_debug; congruence].
Qed.

Lemma result_debug_inj : forall A (f : A -> doc), (forall a b, f a = f b -> a = b) -> forall r s, result_debug f r = result_debug f s -> r = s.
Proof.
  intros A f H [a | e] [b | e'] E; cbn [result_debug] in E.
  - injection E as E. f_equal. apply H, E.
  - exfalso. vm_compute in E. discriminate E.
  - exfalso. vm_compute in E. discriminate E.
  - f_equal. apply error_debug_inj. congruence.
Qed.

Lemma value_nonneg : forall s acc, 0 <= acc -> (forall c, In c s -> 48 <= c <= 57) -> 0 <= value_from acc s.
Proof.
  induction s as [|c s IH]; intros acc H D; cbn [value_from]; [exact H |]. pose proof (D c (or_introl eq_refl)). apply IH; [lia |]. intros d Hd. apply D. right. exact Hd.
Qed.

Lemma indent_rest : forall s k, ~ In 10 s -> indent false (s ++ 10 :: k) = s ++ 10 :: indent true k.
Proof.
  induction s as [|c s IH]; intros k N; [reflexivity |]. cbn [app indent]. destruct (Z.eqb_spec c 10) as [-> | _]; [destruct (N (or_introl eq_refl)) |]. f_equal. apply IH. intros K. apply N. right. exact K.
Qed.

Lemma indent_line : forall s k, s <> [] -> ~ In 10 s -> indent true (s ++ 10 :: k) = lit "    " ++ s ++ 10 :: indent true k.
Proof.
  intros [|c s] k NE N; [congruence |]. change (lit "    " ++ indent false ((c :: s) ++ 10 :: k) = lit "    " ++ (c :: s) ++ 10 :: indent true k). f_equal. apply indent_rest, N.
Qed.

Lemma word_line : forall s t, word s -> ~ In 10 t -> ~ In 10 (s ++ t).
Proof. intros s t (_ & W) N K. apply in_app_or in K. destruct K as [K | K]; [apply W in K; apply K; cbn; tauto | exact (N K)]. Qed.

Lemma C130_texts_proof :
  (forall d, show false (dir_debug d) = compass d /\ show true (dir_debug d) = compass d) /\
  (forall x y sx sy, numeral x sx -> numeral y sy ->
     show false (pos_debug (x, y)) = lit "Pos((" ++ sx ++ lit ", " ++ sy ++ lit "))" /\
     show true (pos_debug (x, y)) = lit "Pos(" ++ [10] ++ lit "    (" ++ [10] ++ lit "        " ++ sx ++ lit "," ++ [10] ++ lit "        " ++ sy ++ lit "," ++ [10] ++ lit "    )," ++ [10] ++ lit ")").
Proof.
  split; [intros d; destruct d; vm_compute; auto |]. intros x y sx sy Hx Hy.
  assert (Ex : bounded_debug x = sx). { destruct (C102_bounded_text_proof x) as (A & _ & -> & _). apply (numeral_unique x); [apply A | exact Hx]. destruct Hx as (_ & D & _ & <-). apply value_nonneg; [lia | exact D]. }
  assert (Ey : bounded_debug y = sy). { destruct (C102_bounded_text_proof y) as (A & _ & -> & _). apply (numeral_unique y); [apply A | exact Hy]. destruct Hy as (_ & D & _ & <-). apply value_nonneg; [lia | exact D]. }
  pose proof (numeral_word _ _ Hx) as Wx. pose proof (numeral_word _ _ Hy) as Wy. unfold pos_debug. cbn [fst snd]. rewrite Ex, Ey. split.
  - cbn [show map commas List.concat]. rewrite !app_nil_r. cbn. rewrite <- !app_assoc. reflexivity.
  - cbn [show map List.concat]. rewrite !app_nil_r. 
    assert (N44 : ~ In 10 [44]) by (intros [K | []]; discriminate).
    assert (L : forall s, word s -> indent true (s ++ lit "," ++ [10]) = lit "    " ++ s ++ [44; 10]). { intros s W. change (s ++ lit "," ++ [10]) with (s ++ [44] ++ [10]). rewrite app_assoc. rewrite indent_line; [rewrite <- app_assoc; reflexivity | destruct s; discriminate | apply word_line; assumption]. }
    rewrite (L sx Wx), (L sy Wy).
    assert (Q : indent true (([] ++ lit "(" ++ [10] ++ ((lit "    " ++ sx ++ [44; 10]) ++ lit "    " ++ sy ++ [44; 10]) ++ lit ")") ++ lit "," ++ [10]) = lit "    (" ++ [10] ++ lit "        " ++ sx ++ [44; 10] ++ lit "        " ++ sy ++ [44; 10] ++ lit "    )," ++ [10]).
    { replace (([] ++ lit "(" ++ [10] ++ ((lit "    " ++ sx ++ [44; 10]) ++ lit "    " ++ sy ++ [44; 10]) ++ lit ")") ++ lit "," ++ [10]) with ([40] ++ 10 :: (lit "    " ++ sx ++ [44]) ++ 10 :: (lit "    " ++ sy ++ [44]) ++ 10 :: [41; 44] ++ 10 :: []) by (rewrite <- !app_assoc; reflexivity).
      assert (M : forall s, word s -> lit "    " ++ s ++ [44] <> [] /\ ~ In 10 (lit "    " ++ s ++ [44])). { intros s W. split; [discriminate |]. intros K. apply in_app_or in K. destruct K as [K | K]; [cbn in K; lia |]. exact (word_line s [44] W N44 K). }
      rewrite indent_line by (try discriminate; cbn; lia). rewrite indent_line by apply (M sx Wx). rewrite indent_line by apply (M sy Wy). rewrite indent_line by (try discriminate; cbn; lia). rewrite <- !app_assoc. reflexivity. }
    change (lit "Pos" ++ lit "(" ++ [10] ++ indent true (([] ++ lit "(" ++ [10] ++ ((lit "    " ++ sx ++ [44; 10]) ++ lit "    " ++ sy ++ [44; 10]) ++ lit ")") ++ lit "," ++ [10]) ++ lit ")" = lit "Pos(" ++ [10] ++ lit "    (" ++ [10] ++ lit "        " ++ sx ++ lit "," ++ [10] ++ lit "        " ++ sy ++ lit "," ++ [10] ++ lit "    )," ++ [10] ++ lit ")").
    rewrite Q. rewrite <- !app_assoc. reflexivity.
Qed.

Lemma C130_values_proof : forall pretty,
  (forall d e, show pretty (dir_debug d) = show pretty (dir_debug e) -> d = e) /\
  (forall e f, show pretty (error_debug e) = show pretty (error_debug f) -> e = f) /\
  (forall p q, show pretty (pos_debug p) = show pretty (pos_debug q) -> p = q) /\
  (forall r s, show pretty (result_debug path_debug r) = show pretty (result_debug path_debug s) -> r = s) /\
  (forall r s, show pretty (result_debug found_debug r) = show pretty (result_debug found_debug s) -> r = s).
Proof.
  intros m. assert (PR : forall l, readable (path_debug l)) by (intros l; apply (items_readable _ _ _ dir_readable)). split; [|split; [|split; [|split]]].
  - intros d e E. apply dir_debug_inj, (C130_debug_reads_back_proof m); [apply dir_readable .. | exact E].
  - intros d e E. apply error_debug_inj, (C130_debug_reads_back_proof m); [apply error_readable .. | exact E].
  - intros d e E. apply pos_debug_inj, (C130_debug_reads_back_proof m); [apply pos_readable .. | exact E].
  - intros d e E. apply (result_debug_inj _ _ path_debug_inj), (C130_debug_reads_back_proof m); [apply result_readable, PR .. | exact E].
  - intros d e E. apply (result_debug_inj _ _ found_debug_inj), (C130_debug_reads_back_proof m); [apply result_readable, found_readable .. | exact E].
Qed.

Lemma phantom_same : forall m n a b ph, n <> [] -> show m (Tuple n [a; Text ph]) = show m (Tuple n [b; Text ph]) -> hard (show m a) = hard (show m b).
Proof.
  intros m n a b ph N E. destruct n as [|c n]; [congruence |]. apply (f_equal hard) in E. destruct m; cbn [show map List.concat commas] in E.
  - rewrite !hard_app, !hard_indent, !hard_app in E. apply app_inv_head in E. apply app_inv_head in E. apply app_inv_head in E. apply app_inv_tail in E. apply app_inv_tail in E. apply app_inv_tail in E. exact E.
  - rewrite !hard_app in E. apply app_inv_head in E. apply app_inv_head in E. apply app_inv_tail in E. apply app_inv_tail in E. exact E.
Qed.

Lemma C130_grids_proof : forall pretty ph,
  (forall g h : gridbool, show pretty (gb_debug ph g) = show pretty (gb_debug ph h) -> g = h) /\
  (forall Item (item : Item -> doc), (forall a, readable (item a)) -> (forall a b, item a = item b -> a = b) ->
     forall g h : grid Item, show pretty (grid_debug item ph g) = show pretty (grid_debug item ph h) -> g = h).
Proof.
  intros m ph.
  assert (G : forall A (f : A -> doc) n, n <> [] -> (forall a, readable (f a)) -> (forall a b, f a = f b -> a = b) -> forall g h, show m (Tuple n [Items (map f g); Text ph]) = show m (Tuple n [Items (map f h); Text ph]) -> g = h).
  { intros A f n N R I g h E. apply (phantom_same m n _ _ ph N) in E. apply hard_tok in E; [|apply items_readable, R ..]. injection E as E. exact (map_inj _ _ f I _ _ E). }
  split.
  - intros g h E. apply (G Z (fun w => Text (fmt_int w)) (lit "Gridbool")); [discriminate | intros a; apply (int_word a) | intros a b K; injection K as K; apply (C102_bounded_text_proof a); exact K | exact E].
  - intros Item item R I g h E. apply (G Item item (lit "Grid")); [discriminate | exact R | exact I | exact E].
Qed.
