(** SpecFirst.v -- the order of paths. *)

From Coq Require Import ZArith List Bool.
From Verif Require Import Rust Dir PosT Spec SpecSearch.
Import ListNotations.
Open Scope Z_scope.

(** Paths compare by the first directions in which they differ, clockwise from
    north. *)
Fixpoint before (v w : list dir) : Prop :=
  match v, w with
  | d :: v', e :: w' => heading d < heading e \/ (d = e /\ before v' w')
  | _, _ => False
  end.

(** [w] is the first of the walks of [n] moves from [p] to [q]. *)
Definition first_walk (D : bool) (go : pos -> dir -> option pos) (p : pos) (n : nat) (q : pos) (w : list dir) : Prop :=
  length w = n /\ Forall (allowed D) w /\ follow go p w = Some q /\
  forall w', length w' = n -> Forall (allowed D) w' -> follow go p w' = Some q -> w' = w \/ before w w'.
