(** Views.v -- model of the remaining small operations on values: access to the
    inner arrays, derived orderings, texts of bounded integers and errors. *)

From Coq Require Import ZArith List Bool String Ascii.
From Verif Require Import Rust BoundedInt Dir PosT Pos Grid Gridbool Display.
Import ListNotations.
Open Scope Z_scope.

Section Views.
  Context {T : Type}.

  (** grid.rs:86-101, 324-336: [into_inner], [as_array] / [as_ref]. *)
  Definition grid_into_inner (g : grid T) : list T := g.
  Definition grid_as_array (g : grid T) : list T := g.

  (** grid.rs:98-101, 331-336: [g.as_array_mut()[i] = v] (also [as_mut]); array
      indexing is bounds-checked. *)
  Definition grid_write_slot (g : grid T) (i : Z) (v : T) : exec (grid T) := array_set g i v.

  (** grid.rs:155-157, 349-356: replacing every value [v] that [iter_mut] yields by [f v]. *)
  Fixpoint grid_iter_mut (f : T -> T) (g : grid T) : grid T :=
    match g with
    | [] => []
    | v :: g' => f v :: grid_iter_mut f g'
    end.

  (** std: the ordering of arrays; [cmp] is the ordering of the elements. *)
  Fixpoint array_cmp (cmp : T -> T -> comparison) (a b : list T) : comparison :=
    match a, b with
    | [], [] => Eq
    | [], _ :: _ => Lt
    | _ :: _, [] => Gt
    | x :: a', y :: b' =>
        match cmp x y with
        | Eq => array_cmp cmp a' b'
        | c => c
        end
    end.

  (** grid.rs:61: derived [Ord] ([PhantomData] values are all equal). *)
  Definition grid_cmp (cmp : T -> T -> comparison) (a b : grid T) : comparison := array_cmp cmp a b.
End Views.

(** gridbool.rs:132-147: [into_inner], [as_inner], and
    [g.as_inner_mut()[i] = w]. *)
Definition gb_into_inner (g : gridbool) : list Z := g.
Definition gb_as_inner (g : gridbool) : list Z := g.
Definition gb_write_word (g : gridbool) (i : Z) (w : Z) : exec gridbool := array_set g i w.

(** gridbool.rs:57: derived [Ord] on [[u32; WORDS]]. *)
Definition gb_cmp (a b : gridbool) : comparison := array_cmp Z.compare a b.

(** std's [Display] of builtin integers. *)
Definition fmt_int (i : Z) : str := if i <? 0 then [45] ++ fmt_dec (- i) else fmt_dec i.

(** boundedint.rs:262-272: [Debug] and [Display]; the caller's formatting
    options are not passed on. *)
Definition bounded_debug (v : Z) : str := fmt_int (b_into_inner v).
Definition bounded_display (v : Z) : str := fmt_int (b_into_inner v).

(** A string literal as code points. *)
Definition lit (s : string) : str := map (fun c => Z.of_nat (nat_of_ascii c)) (list_ascii_of_string s).

(** error.rs:38-50. *)
Definition error_display (e : error) : str :=
  match e with
  | OutOfBounds => lit "value is out-of-bounds"
  | InvalidDirection => lit "invalid direction for Dir"
  | DirParseError => lit "character doesn't represent a valid Dir"
  | InvalidMovement => lit "invalid movement (Pos+Dir)"
  | Loop => lit "unexpected loop detected"
  | DestinationUnreachable => lit "destination unreachable"
  | Empty => lit "empty list of iterator"
  end.
