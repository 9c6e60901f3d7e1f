(** PropDir.v -- properties of directions: C21-C26, C64, C65. *)

From Coq Require Import ZArith List Bool Lia.
From Verif Require Import Rust BoundedInt Dir PosT Pos Spec Lib BoundedIntProofs PosTProofs PosTProofs2.
From Verif Require Import PropDirProofs.
Import ListNotations.
Open Scope Z_scope.

(** C21: addition and rotation add clockwise angles; negation and flip are a half turn. *)
Theorem C21_dir_rotation : forall a b, exists c n,
  dir_add a b = Ret c /\ dir_rotate a b = Ret c /\ heading c = (heading a + heading b) mod 8 /\
  dir_neg a = Ret n /\ dir_flip a = Ret n /\ heading n = (heading a + 4) mod 8 /\
  delta_x n = - delta_x a /\ delta_y n = - delta_y a.
Proof. exact C21_dir_rotation_proof. Qed.
Print Assumptions C21_dir_rotation.

(** The group laws. *)
Theorem C21_dir_group : forall a b c,
  dir_add a b = dir_add b a /\
  dir_add dN a = Ret a /\ dir_default = dN /\
  (bind (dir_add a b) (fun ab => dir_add ab c) = bind (dir_add b c) (fun bc => dir_add a bc)) /\
  (exists i, dir_add a i = Ret dN) /\
  bind (dir_neg a) dir_neg = Ret a /\ dir_neg a = dir_add a dS /\
  (is_diagonal a = true <-> In a [dNE; dSE; dSW; dNW]) /\
  (forall s, dir_add a b = Ret s -> is_diagonal s = xorb (is_diagonal a) (is_diagonal b)).
Proof. exact C21_dir_group_proof. Qed.
Print Assumptions C21_dir_group.

Example C21_example : dir_add dSE dW = Ret dNE /\ dir_neg dSE = Ret dNW.
Proof. split; reflexivity. Qed.

(** C22: direction to displacement and back. *)
Theorem C22_dir_tuple : forall d x y,
  dir_to_tuple d = (delta_x d, delta_y d) /\
  dir_try_from_tuple (dir_to_tuple d) = Ok d /\
  (dir_try_from_tuple (x, y) = Ok d <-> (x, y) = (delta_x d, delta_y d)) /\
  ((-1 <= x <= 1 /\ -1 <= y <= 1 /\ (x, y) <> (0, 0)) -> exists e, dir_try_from_tuple (x, y) = Ok e) /\
  (~ (-1 <= x <= 1 /\ -1 <= y <= 1 /\ (x, y) <> (0, 0)) -> dir_try_from_tuple (x, y) = Err InvalidDirection).
Proof. exact C22_dir_tuple_proof. Qed.
Print Assumptions C22_dir_tuple.

(** The displacement of the opposite direction is the opposite displacement. *)
Theorem C22_dir_tuple_neg : forall d n, dir_neg d = Ret n ->
  dir_to_tuple n = (- fst (dir_to_tuple d), - snd (dir_to_tuple d)).
Proof. exact C22_dir_tuple_neg_proof. Qed.
Print Assumptions C22_dir_tuple_neg.

Example C22_example : dir_try_from_tuple (-1, 1) = Ok dSW /\ dir_try_from_tuple (2, 0) = Err InvalidDirection.
Proof. split; reflexivity. Qed.

(** C23 is false: the Display text of a diagonal has two characters, which
    parsing rejects. *)
Theorem C23_dir_text_refuted : exists d s, dir_display d = Ret s /\ dir_from_str s = Err DirParseError.
Proof. exact C23_dir_text_refuted_proof. Qed.
Print Assumptions C23_dir_text_refuted.

(** C23, the rest.  Missing: Display of the four diagonals. *)
Theorem C23_dir_text_partial : forall d s,
  (dir_from_str s = Ok d <-> exists c, s = [c] /\ In c (spellings d)) /\
  ((forall d c, s = [c] -> ~ In c (spellings d)) -> dir_from_str s = Err DirParseError) /\
  (exists u a uc ac, name_utf8 d = Ret u /\ dir_from_str u = Ok d /\
     name_ascii d = Ret a /\ dir_from_str a = Ok d /\
     name_utf8_char d = Ret uc /\ dir_try_from_char uc = Ok d /\ u = [uc] /\
     name_ascii_char d = Ret ac /\ dir_try_from_char ac = Ok d /\ a = [ac]) /\
  (is_diagonal d = false -> exists t, dir_display d = Ret t /\ dir_from_str t = Ok d).
Proof. exact C23_dir_text_partial_proof. Qed.
Print Assumptions C23_dir_text_partial.

Example C23_example : dir_from_str [92] = Ok dSE /\ dir_from_str [78; 78] = Err DirParseError.
Proof. split; reflexivity. Qed.

(** C64: exact text behaviour: Display prints the compass name; parsing that
    back works exactly for the four cardinal directions; a character parses
    exactly when it is a spelling of a direction. *)
Theorem C64_dir_text_exact : forall d c,
  dir_display d = Ret (compass d) /\ name_cardinal d = Ret (compass d) /\
  (delta_x d = 0 \/ delta_y d = 0 -> dir_from_str (compass d) = Ok d) /\
  (delta_x d <> 0 /\ delta_y d <> 0 -> dir_from_str (compass d) = Err DirParseError) /\
  (dir_try_from_char c = Ok d <-> In c (spellings d)) /\
  ((forall e, ~ In c (spellings e)) -> dir_try_from_char c = Err DirParseError).
Proof. exact C64_dir_text_exact_proof. Qed.
Print Assumptions C64_dir_text_exact.

Example C64_example : compass dSW = [83; 87] /\ dir_try_from_char 119 = Ok dW.
Proof. split; reflexivity. Qed.

(** C24 is false for [next]: asked for the next cardinal after NW it panics. *)
Theorem C24_dir_next_refuted : exists D d, dir_next D d = Panic.
Proof. exact C24_dir_next_refuted_proof. Qed.
Print Assumptions C24_dir_next_refuted.

(** C24, the rest: iteration, and [next] on the directions that iteration
    yields.  Missing: [next::<false>] on diagonals. *)
Theorem C24_dir_iteration_partial :
  (forall D, dir_iter_list D = Ret (if D then [dN; dNE; dE; dSE; dS; dSW; dW; dNW] else [dN; dE; dS; dW])) /\
  (forall D n, next_calls (dir_iter_next D) n dir_iter =
     Ret (items_then_none (if D then [dN; dNE; dE; dSE; dS; dSW; dW; dNW] else [dN; dE; dS; dW]) n)) /\
  (forall D d, allowed D d ->
     let k := if D then 1 else 2 in
     (heading d + k < 8 -> exists e, dir_next D d = Ret (Some e) /\ heading e = heading d + k) /\
     (8 <= heading d + k -> dir_next D d = Ret None)).
Proof. exact C24_dir_iteration_partial_proof. Qed.
Print Assumptions C24_dir_iteration_partial.

Example C24_example : dir_next false dS = Ret (Some dW) /\ dir_next true dS = Ret (Some dSW) /\
  next_calls (dir_iter_next false) 6 dir_iter = Ret [Some dN; Some dE; Some dS; Some dW; None; None].
Proof. repeat split. Qed.

(** C65: exact behaviour of [next] on all directions, and the constant lists. *)
Theorem C65_dir_next_exact : forall d,
  (heading d < 7 -> exists e, dir_next true d = Ret (Some e) /\ heading e = heading d + 1) /\
  (heading d = 7 -> dir_next true d = Ret None /\ dir_next false d = Panic) /\
  (heading d < 6 -> exists e, dir_next false d = Ret (Some e) /\ heading e = heading d + 2) /\
  (heading d = 6 -> dir_next false d = Ret None) /\
  nth_error ALL8 (Z.to_nat (heading d)) = Some d /\ Z.of_nat (length ALL8) = dir_SIZE /\
  (delta_x d = 0 \/ delta_y d = 0 -> nth_error ALL4 (Z.to_nat (heading d / 2)) = Some d) /\
  length ALL4 = 4%nat.
Proof. exact C65_dir_next_exact_proof. Qed.
Print Assumptions C65_dir_next_exact.

Example C65_example : dir_next false dNE = Ret (Some dSE).
Proof. reflexivity. Qed.

(** C25: moving by one step. *)
Theorem C25_pos_dir_add : forall P p d, post_wf P -> valid P p ->
  (valid P (step p d) ->
     pos_dir_add P p d = Ok (step p d) /\ pos_dir_add_ok P p d = Some (step p d) /\
     tuple_dir_add (pt_x P) (pt_y P) p d = Ok (step p d)) /\
  (~ valid P (step p d) ->
     pos_dir_add P p d = Err OutOfBounds /\ pos_dir_add_ok P p d = None /\
     tuple_dir_add (pt_x P) (pt_y P) p d = Err OutOfBounds).
Proof. exact C25_pos_dir_add_proof. Qed.
Print Assumptions C25_pos_dir_add.

(** Moving back. *)
Theorem C25_pos_dir_reversible : forall P p d q, post_wf P -> valid P p -> pos_dir_add P p d = Ok q ->
  valid P q /\ exists n, dir_neg d = Ret n /\ pos_dir_add P q n = Ok p.
Proof. exact C25_pos_dir_reversible_proof. Qed.
Print Assumptions C25_pos_dir_reversible.

Example C25_example : valid (Pos 4 4) (4, 2) /\ pos_dir_add (Pos 4 4) (4, 2) dNW = Ok (3, 1) /\
  pos_dir_add (Pos 4 4) (4, 2) dE = Err OutOfBounds.
Proof. vm_compute. intuition discriminate. Qed.

(** C26: [direction_to] leads to the target, in the stated number of steps. *)
Theorem C26_direction_to : forall P p q, post_wf P -> valid P p -> valid P q ->
  (forall D, direction_to D p q = None <-> p = q) /\
  leads (direction_to false) (pos_dir_add_ok P)
    (Z.to_nat (Z.abs (fst p - fst q) + Z.abs (snd p - snd q))) p q /\
  leads (direction_to true) (pos_dir_add_ok P)
    (Z.to_nat (Z.max (Z.abs (fst p - fst q)) (Z.abs (snd p - snd q)))) p q /\
  (forall d, direction_to false p q = Some d -> is_diagonal d = false).
Proof. exact C26_direction_to_proof. Qed.
Print Assumptions C26_direction_to.

(** No walk is shorter than the one [direction_to] leads along. *)
Theorem C26_no_shorter_walk : forall P p q path, post_wf P -> valid P p -> valid P q ->
  follow (pos_dir_add_ok P) p path = Some q ->
  Z.max (Z.abs (fst p - fst q)) (Z.abs (snd p - snd q)) <= Z.of_nat (length path) /\
  (Forall (allowed false) path -> Z.abs (fst p - fst q) + Z.abs (snd p - snd q) <= Z.of_nat (length path)).
Proof. exact C26_no_shorter_walk_proof. Qed.
Print Assumptions C26_no_shorter_walk.

Example C26_example : valid (Pos 9 9) (2, 7) /\ direction_to false (2, 7) (4, 1) = Some dN /\
  direction_to true (2, 7) (4, 1) = Some dNE.
Proof. vm_compute. intuition discriminate. Qed.
