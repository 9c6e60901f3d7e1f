(** SpecMaze.v -- mazes: a program that keeps its walls in a Gridbool, and what it
    means to get from one place to another. *)

From Coq Require Import ZArith List Bool.
From Verif Require Import Rust BoundedInt Dir PosT Pos Grid Gridbool Spec.
Import ListNotations.
Open Scope Z_scope.

(** The closure [|p, d| (p + d).ok().filter(|q| !walls.get(q))] of such a program. *)
Definition maze_go (P : post) (walls : gridbool) (p : pos) (d : dir) : option pos :=
  match pos_dir_add_ok P p d with
  | Some q => match gb_get P walls q with Ret false => Some q | _ => None end
  | None => None
  end.

(** Neighbours; with [D], also diagonal ones. *)
Definition next_to (D : bool) (p q : pos) : Prop :=
  let dx := fst p - fst q in
  let dy := snd p - snd q in
  p <> q /\ -1 <= dx <= 1 /\ -1 <= dy <= 1 /\ (D = true \/ dx = 0 \/ dy = 0).

(** From [p], the places [l], each next to the one before, inside the grid and free
    of walls, lead to [q]. *)
Fixpoint route (D : bool) (P : post) (walls : gridbool) (p : pos) (l : list pos) (q : pos) : Prop :=
  match l with
  | [] => p = q
  | r :: l' => next_to D p r /\ valid P r /\ gb_get P walls r = Ret false /\ route D P walls r l' q
  end.

(** The places a path visits. *)
Fixpoint places (p : pos) (path : list dir) : list pos :=
  match path with
  | [] => []
  | d :: ds => step p d :: places (step p d) ds
  end.

(** The items of a loop
    [for (i, v) in bf_iter(..).enumerate() { for (p, _) in v { .. (p, i + 1) .. } }]. *)
Fixpoint numbered (i : Z) (vectors : list (list (pos * dir))) : list (pos * Z) :=
  match vectors with
  | [] => []
  | v :: vs => map (fun pd => (fst pd, i + 1)) v ++ numbered (i + 1) vs
  end.
