(** PropDisplay.v -- properties of the Display implementations: C58, C78, C79. *)

From Coq Require Import ZArith List Bool Lia.
From Verif Require Import Rust BoundedInt Dir PosT Pos Grid Gridbool Display Spec SpecDisplay Lib BoundedIntProofs PosTProofs PropGridProofs PropGridboolProofs DisplayProofs.
From Verif Require Import PropDisplayProofs.
Import ListNotations.
Open Scope Z_scope.

(** C58: Grid.  [num] gives the decimal numerals; [pad] is the padding asked for
    by the caller, [fmt] the Display of the elements. *)
Theorem C58_grid_display : forall (T : Type) pad P (fmt : T -> str) (g : list T) (cell : pos -> T), grid_type P -> proper P g ->
  (forall p, valid P p -> grid_get P g p = Ret (cell p)) ->
  exists num : Z -> str, (forall n, 0 <= n -> numeral n (num n)) /\
    (forall x, 0 <= x < cols P -> (length (num x) <= length (num (cols P - 1)%Z))%nat) /\
    (forall y, 0 <= y < rows P -> (length (num y) <= length (num (rows P - 1)%Z))%nat) /\
    grid_display pad P fmt g = Ret (picture pad num (cols P) (rows P) (fun p => fmt (cell p))).
Proof. exact C58_grid_display_proof. Qed.
Print Assumptions C58_grid_display.

Example C58_example : grid_display (fun s => SPACE :: s) (Pos 10 1) (fun c => [c]) [97;98;99;100;101;102;103;104;105;106;107;65;66;67;68;69;70;71;72;73;74;75] =
  Ret ([32;32] ++ concat (repeat [32;32] 10) ++ [32;49;10] ++
       [32;32; 32;48;32;49;32;50;32;51;32;52;32;53;32;54;32;55;32;56;32;57;32;48;10] ++
       [48;32; 32;97;32;98;32;99;32;100;32;101;32;102;32;103;32;104;32;105;32;106;32;107;10] ++
       [49;32; 32;65;32;66;32;67;32;68;32;69;32;70;32;71;32;72;32;73;32;74;32;75;10] ++
       [32;32] ++ concat (repeat [32;32] 10) ++ [32;49;10] ++
       [32;32; 32;48;32;49;32;50;32;51;32;52;32;53;32;54;32;55;32;56;32;57;32;48;10]).
Proof. vm_compute. reflexivity. Qed.

(** C58: Gridbool: '#' (35) for true and '.' (46) for false. *)
Theorem C58_gridbool_display : forall pad P (g : list Z) (cell : pos -> bool), grid_type P -> roomy P g ->
  (forall p, valid P p -> gb_get P g p = Ret (cell p)) ->
  exists num : Z -> str, (forall n, 0 <= n -> numeral n (num n)) /\
    gb_display pad P g = Ret (picture pad num (cols P) (rows P) (fun p => if cell p then [35] else [46])).
Proof. exact C58_gridbool_display_proof. Qed.
Print Assumptions C58_gridbool_display.

Example C58_gridbool_example : bind (gb_set (Pos 2 1) [0] (1, 1) true) (gb_display (fun s => s) (Pos 2 1)) =
  Ret [32;32;48;49;50;10; 48;32;46;46;46;10; 49;32;46;35;46;10; 32;32;48;49;50;10].
Proof. vm_compute. reflexivity. Qed.

(** Numerals are unique, so that C58 determines the text. *)
Theorem C58_numeral_unique : forall n s t, numeral n s -> numeral n t -> s = t.
Proof. exact C58_numeral_unique_proof. Qed.
Print Assumptions C58_numeral_unique.

(** C78: a position is printed as "(x,y)", and different positions differently. *)
Theorem C78_pos_display : forall P p, grid_type P -> valid P p ->
  (exists sx sy, numeral (fst p) sx /\ numeral (snd p) sy /\ pos_display p = [40] ++ sx ++ [44] ++ sy ++ [41]) /\
  forall q, valid P q -> pos_display p = pos_display q -> p = q.
Proof. exact C78_pos_display_proof. Qed.
Print Assumptions C78_pos_display.

Example C78_example : pos_display (65535, 10) = [40;54;53;53;51;53;44;49;48;41].
Proof. reflexivity. Qed.

(** C79: without padding, a Gridbool prints as a rectangle of text: all lines
    have the same length. *)
Theorem C79_gridbool_rectangle : forall P g, grid_type P -> roomy P g ->
  exists text lines ndigits_x ndigits_y, gb_display (fun s => s) P g = Ret text /\
    text = concat (map (fun l => l ++ [10]) lines) /\
    (exists s, numeral (cols P - 1) s /\ length s = ndigits_x) /\ (exists s, numeral (rows P - 1) s /\ length s = ndigits_y) /\
    Z.of_nat (length lines) = Z.of_nat ndigits_x + rows P + Z.of_nat ndigits_x /\
    forall l, In l lines -> Z.of_nat (length l) = Z.of_nat ndigits_y + 1 + cols P /\ ~ In 10 l.
Proof. exact C79_gridbool_rectangle_proof. Qed.
Print Assumptions C79_gridbool_rectangle.

Example C79_example : gb_display (fun s => s) (Pos 1 1) [1073741824] = Ret [32;32;48;49;10; 48;32;46;35;10; 49;32;46;46;10; 32;32;48;49;10].
Proof. vm_compute. reflexivity. Qed.
