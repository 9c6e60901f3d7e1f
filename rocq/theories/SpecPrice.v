(** SpecPrice.v -- costs that depend on the direction. *)

From Coq Require Import ZArith List Bool.
From Verif Require Import Rust BoundedInt Dir PosT Pos Spec SpecSearch.
Import ListNotations.
Open Scope Z_scope.

(** Of two moves into the same position, one costs at most [hi / lo] times what
    the other costs. *)
Definition entering_within (D : bool) (P : post) (go : pos -> dir -> option (pos * Z)) (lo hi : Z) : Prop :=
  forall p d w p' d' w' q, valid P p -> valid P p' -> allowed D d -> allowed D d' ->
    go p d = Some (q, w) -> go p' d' = Some (q, w') -> lo * w <= hi * w'.

(** Moves over a grid with walls; 10 for a straight move and 14 for a diagonal
    one. *)
Definition octile (P : post) (walls : pos -> bool) (p : pos) (d : dir) : option (pos * Z) :=
  match pos_dir_add_ok P p d with
  | Some q => if walls q then None else Some (q, if (delta_x d =? 0) || (delta_y d =? 0) then 10 else 14)
  | None => None
  end.
