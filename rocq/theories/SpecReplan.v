(** SpecReplan.v -- going to a place by planning again before every move. *)

From Coq Require Import ZArith List Bool.
From Verif Require Import Rust BoundedInt Dir PosT Pos Spec SpecSearch SpecFirst.
Import ListNotations.
Open Scope Z_scope.

(** [path] leads from [orig] to the goal [dest], which is another position; every
    other walk to a goal (except to [orig] itself) is longer or, at the same
    length, comes later. *)
Definition first_shortest (D : bool) (go : pos -> dir -> option pos) (orig : pos) (found : pos -> bool) (dest : pos) (path : list dir) : Prop :=
  Forall (allowed D) path /\ follow go orig path = Some dest /\ dest <> orig /\ found dest = true /\
  forall q other, q <> orig -> found q = true -> Forall (allowed D) other -> follow go orig other = Some q ->
    (length path < length other)%nat \/ length path = length other /\ (other = path \/ before path other).

(** [plan p path]: when asked at [p], the planner answers [path].  The moves [w]
    lead from a position to [dest]: before each of them the planner is asked, and
    its answer begins with that move. *)
Inductive replanned (plan : pos -> list dir -> Prop) (go : pos -> dir -> option pos) (dest : pos) : pos -> list dir -> Prop :=
| Arrived : replanned plan go dest dest []
| Onward : forall p d rest q w, p <> dest -> plan p (d :: rest) -> go p d = Some q ->
    replanned plan go dest q w -> replanned plan go dest p (d :: w).
