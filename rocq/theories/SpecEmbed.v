(** SpecEmbed.v -- a map placed somewhere in another grid. *)

From Coq Require Import ZArith List Bool.
From Verif Require Import Rust BoundedInt Dir PosT Spec.
Import ListNotations.
Open Scope Z_scope.

(** [v] columns to the right and rows down; either can be negative. *)
Definition shift (v p : pos) : pos := (fst p + fst v, snd p + snd v).

(** The grid [P], placed there, lies in the grid [P']. *)
Definition placed (P P' : post) (v : pos) : Prop := forall p, valid P p -> valid P' (shift v p).

(** On the placed map, [go'] moves as [go] does on the original one. *)
Definition placed_go (P : post) (v : pos) (go go' : pos -> dir -> option pos) : Prop :=
  forall p d, valid P p -> go' (shift v p) d =
    match go p d with Some q => Some (shift v q) | None => None end.
Definition placed_costs (P : post) (v : pos) (go go' : pos -> dir -> option (pos * Z)) : Prop :=
  forall p d, valid P p -> go' (shift v p) d =
    match go p d with Some (q, c) => Some (shift v q, c) | None => None end.
