(** SpecDisplay.v -- what the printed forms should look like. *)

From Coq Require Import ZArith List Bool.
From Verif Require Import Rust BoundedInt Dir PosT Spec.
Import ListNotations.
Open Scope Z_scope.

(** The number written by a string of decimal digits ('0' = 48). *)
Fixpoint value_from (acc : Z) (s : str) : Z :=
  match s with [] => acc | c :: s' => value_from (10 * acc + (c - 48)) s' end.

(** [s] is the usual decimal numeral of [n]: digits only, at least one, and no
    leading zeros. *)
Definition numeral (n : Z) (s : str) : Prop :=
  s <> [] /\ (forall c, In c s -> 48 <= c <= 57) /\ ((1 < length s)%nat -> hd 48 s <> 48) /\ value_from 0 s = n.

(** Right-aligned in [w] characters (' ' = 32). *)
Definition aligned (w : nat) (s : str) : str := repeat 32 (w - length s) ++ s.

(** Column numbers, printed downwards, one line per digit; [pad] is the padding
    the caller asked for, [num] the numerals used ('\n' = 10). *)
Definition label_block (pad : str -> str) (num : Z -> str) (w h : Z) : str :=
  let nx := length (num (w - 1)) in
  let ny := length (num (h - 1)) in
  concat (map (fun k => repeat 32 ny ++ [32] ++
                        concat (map (fun x => pad [nth k (aligned nx (num x)) 0]) (interval 0 (w - 1))) ++ [10])
              (seq 0 nx)).

(** The whole picture: [cell p] is the text of the cell at [p]. *)
Definition picture (pad : str -> str) (num : Z -> str) (w h : Z) (cell : pos -> str) : str :=
  let ny := length (num (h - 1)) in
  label_block pad num w h ++
  concat (map (fun y => aligned ny (num y) ++ [32] ++
                        concat (map (fun x => pad (cell (x, y))) (interval 0 (w - 1))) ++ [10])
              (interval 0 (h - 1))) ++
  label_block pad num w h.
