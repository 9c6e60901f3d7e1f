(** SpecSymmetry.v -- mirror images and quarter turns of a map. *)

From Coq Require Import ZArith List Bool.
From Verif Require Import Rust BoundedInt Dir PosT Spec.
Import ListNotations.
Open Scope Z_scope.

(** Mirroring left-right or top-bottom, or turning a square clockwise. *)
Inductive motion := MirrorX | MirrorY | QuarterTurn.

Definition fits (P : post) (m : motion) : Prop := m = QuarterTurn -> cols P = rows P.

(** Where a position goes. *)
Definition moved (P : post) (m : motion) (p : pos) : pos :=
  match m with
  | MirrorX => (XM P - fst p, snd p)
  | MirrorY => (fst p, YM P - snd p)
  | QuarterTurn => (YM P - snd p, fst p)
  end.

(** Where a direction points afterwards. *)
Definition moved_dir (m : motion) (d : dir) : dir :=
  match m, d with
  | MirrorX, dE => dW | MirrorX, dW => dE
  | MirrorX, dNE => dNW | MirrorX, dNW => dNE | MirrorX, dSE => dSW | MirrorX, dSW => dSE
  | MirrorX, d => d
  | MirrorY, dN => dS | MirrorY, dS => dN
  | MirrorY, dNE => dSE | MirrorY, dSE => dNE | MirrorY, dNW => dSW | MirrorY, dSW => dNW
  | MirrorY, d => d
  | QuarterTurn, dN => dE | QuarterTurn, dNE => dSE | QuarterTurn, dE => dS | QuarterTurn, dSE => dSW
  | QuarterTurn, dS => dW | QuarterTurn, dSW => dNW | QuarterTurn, dW => dN | QuarterTurn, dNW => dNE
  end.

(** [go'] moves on the moved map as [go] does on the original one. *)
Definition moved_go (P : post) (m : motion) (go go' : pos -> dir -> option pos) : Prop :=
  forall p d, valid P p -> go' (moved P m p) (moved_dir m d) =
    match go p d with Some q => Some (moved P m q) | None => None end.
Definition moved_costs (P : post) (m : motion) (go go' : pos -> dir -> option (pos * Z)) : Prop :=
  forall p d, valid P p -> go' (moved P m p) (moved_dir m d) =
    match go p d with Some (q, c) => Some (moved P m q, c) | None => None end.
