(** SpecDebug.v -- which trees of Debug calls can be read back. *)

From Coq Require Import ZArith List Bool.
From Verif Require Import Rust BoundedInt Dir PosT Pos Grid Gridbool Debug.
Import ListNotations.
Open Scope Z_scope.

(** A text without newlines, spaces, commas, parentheses and brackets. *)
Definition word (s : str) : Prop := s <> [] /\ forall c, In c s -> ~ In c [10; 32; 40; 41; 44; 91; 93].

(** All texts are words; tuples have fields (their names can be missing). *)
Fixpoint readable (d : doc) : Prop :=
  match d with
  | Text s => word s
  | Tuple name l => (name = [] \/ word name) /\ l <> [] /\ fold_right (fun x rest => readable x /\ rest) True l
  | Items l => fold_right (fun x rest => readable x /\ rest) True l
  end.
