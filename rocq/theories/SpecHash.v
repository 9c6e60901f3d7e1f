(** SpecHash.v -- searches on hash tables with any hasher. *)

From Coq Require Import ZArith List Bool Permutation.
From Verif Require Import Rust BoundedInt Dir PosT Pos Grid Gridbool SetMap CameFrom Bf Astar Ucs Hash.
Import ListNotations.
Open Scope Z_scope.

(** The slots are all examined, none twice. *)
Definition fair (probe : nat -> Z -> list nat) : Prop := forall n h, Permutation (probe n h) (seq 0 n).

(** [bfs_path_hash], [ucs_path_hash] and [astar_path_hash] with a hasher. *)
Definition bfs_hashed (H : hasher) (probe : nat -> Z -> list nat) (P : post) (D : bool) (fuel : nat)
    (go : pos -> dir -> option pos) (orig : pos) (found : pos -> bool) :=
  let hash p := hash_of H (pos_feed P p) in
  bf_search_path P D (set_table hash probe) (map_table hash probe) go fuel orig found.
Definition ucs_hashed (H : hasher) (probe : nat -> Z -> list nat) (P : post) (D : bool) (fuel : nat)
    (go : pos -> dir -> option (pos * Z)) (orig dest : pos) :=
  let hash p := hash_of H (pos_feed P p) in
  ucs_search_path P D (map_table hash probe) (map_table hash probe) go fuel orig dest.
Definition astar_hashed (H : hasher) (probe : nat -> Z -> list nat) (P : post) (D : bool) (fuel : nat)
    (go : pos -> dir -> option pos) (orig dest : pos) :=
  let hash p := hash_of H (pos_feed P p) in
  astar_search_path P D (map_table hash probe) (map_table hash probe) go fuel orig dest.

(** Two hashers for the examples: one whose hashes are all equal, and FNV-1a on the
    words it is given. *)
Definition clash : hasher := {| h_state := unit; h_new := tt; h_write := fun s _ => s; h_finish := fun _ => 0 |}.
Definition fnv : hasher := {|
  h_state := Z; h_new := 14695981039346656037;
  h_write := fun s c => match c with HInt _ v => (Z.lxor s (v mod 2 ^ 64) * 1099511628211) mod 2 ^ 64 end;
  h_finish := fun s => s
|}.

(** Linear probing: from the slot the hash names, to the right, around the end. *)
Definition linear (n : nat) (h : Z) : list nat :=
  let k := Z.to_nat (h mod Z.max 1 (Z.of_nat n)) in skipn k (seq 0 n) ++ firstn k (seq 0 n).

(** A history of insertions and removals on an empty table. *)
Inductive table_op (V : Type) := TInsert (p : pos) (v : V) | TRemove (p : pos).
Arguments TInsert {V}.
Arguments TRemove {V}.
Definition run_table {V} (hash : pos -> Z) (probe : nat -> Z -> list nat) (ops : list (table_op V)) : list (slot V) :=
  fold_left (fun s o => match o with TInsert p v => table_insert hash probe s p v | TRemove p => table_remove hash probe s p end) ops [].
Definition is_empty {V} (x : slot V) : bool := match x with Empty => true | _ => false end.
