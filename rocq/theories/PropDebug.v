(** PropDebug.v -- Debug output: C130. *)

From Coq Require Import ZArith List Bool Lia String.
From Verif Require Import Rust BoundedInt Dir PosT Pos Grid Gridbool Display Views Debug Spec SpecDisplay SpecDebug Lib DisplayProofs PropViewsProofs.
From Verif Require Import PropDebugProofs.
Import ListNotations.
Open Scope Z_scope.

(** C130: the text of a derived Debug, with [{:?}] or [{:#?}], can be read back, if
    the texts of its parts contain no blanks, commas, parentheses and brackets. *)
Theorem C130_debug_reads_back : forall pretty d e, readable d -> readable e -> show pretty d = show pretty e -> d = e.
Proof. exact C130_debug_reads_back_proof. Qed.
Print Assumptions C130_debug_reads_back.

(** C130: Dir prints its compass name, Pos its coordinates in decimal. *)
Theorem C130_texts :
  (forall d, show false (dir_debug d) = compass d /\ show true (dir_debug d) = compass d) /\
  (forall x y sx sy, numeral x sx -> numeral y sy ->
     show false (pos_debug (x, y)) = lit "Pos((" ++ sx ++ lit ", " ++ sy ++ lit "))" /\
     show true (pos_debug (x, y)) = lit "Pos(" ++ [10] ++ lit "    (" ++ [10] ++ lit "        " ++ sx ++ lit "," ++ [10] ++ lit "        " ++ sy ++ lit "," ++ [10] ++ lit "    )," ++ [10] ++ lit ")").
Proof. exact C130_texts_proof. Qed.
Print Assumptions C130_texts.

(** C130: two directions, errors, positions, paths or results of searches print the
    same only if they are equal, with [{:?}] and with [{:#?}]. *)
Theorem C130_values : forall pretty,
  (forall d e, show pretty (dir_debug d) = show pretty (dir_debug e) -> d = e) /\
  (forall e f, show pretty (error_debug e) = show pretty (error_debug f) -> e = f) /\
  (forall p q, show pretty (pos_debug p) = show pretty (pos_debug q) -> p = q) /\
  (forall r s, show pretty (result_debug path_debug r) = show pretty (result_debug path_debug s) -> r = s) /\
  (forall r s, show pretty (result_debug found_debug r) = show pretty (result_debug found_debug s) -> r = s).
Proof. exact C130_values_proof. Qed.
Print Assumptions C130_values.

(** C130: Gridbools of one type print the same only if they are equal; so do Grids, if
    their items do and have texts that can be read back.  [ph] is the name of the
    position type, any text. *)
Theorem C130_grids : forall pretty ph,
  (forall g h : gridbool, show pretty (gb_debug ph g) = show pretty (gb_debug ph h) -> g = h) /\
  (forall Item (item : Item -> doc), (forall a, readable (item a)) -> (forall a b, item a = item b -> a = b) ->
     forall g h : grid Item, show pretty (grid_debug item ph g) = show pretty (grid_debug item ph h) -> g = h).
Proof. exact C130_grids_proof. Qed.
Print Assumptions C130_grids.

(** As printed by [dbg!] or a failed [assert_eq!]. *)
Example C130_example :
  readable (pos_debug (3, 12)) /\ readable (dir_debug dSE) /\
  show false (result_debug found_debug (Ok ((3, 12), [dN; dSE]))) = lit "Ok((Pos((3, 12)), [N, SE]))" /\
  show false (result_debug path_debug (Err Loop)) = lit "Err(Loop)" /\
  show true (result_debug path_debug (Ok [dN; dSE])) = lit "Ok(" ++ [10] ++ lit "    [" ++ [10] ++ lit "        N," ++ [10] ++ lit "        SE," ++ [10] ++ lit "    ]," ++ [10] ++ lit ")" /\
  show false (gb_debug (lit "PhantomData<Pos<3, 4>>") [7; 9]) = lit "Gridbool([7, 9], PhantomData<Pos<3, 4>>)" /\
  show false (grid_debug dir_debug (lit "PhantomData<Pos<1, 0>>") [dN; dW]) = lit "Grid([N, W], PhantomData<Pos<1, 0>>)".
Proof. split; [apply pos_readable |]. split; [apply dir_readable |]. vm_compute. auto 10. Qed.
