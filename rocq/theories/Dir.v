(** Dir.v -- model of src/sqrid/dir.rs. *)

From Coq Require Import ZArith List Bool.
From Verif Require Import Rust BoundedInt.
Import ListNotations.
Open Scope Z_scope.

(** dir.rs:27-45: the enum; declaration order is the derived [Ord] order. *)
Inductive dir := dN | dNE | dE | dSE | dS | dSW | dW | dNW.

(** dir.rs:27-45: [self as usize], discriminants starting at [N = 0]. *)
Definition dir_index (d : dir) : Z :=
  match d with dN => 0 | dNE => 1 | dE => 2 | dSE => 3 | dS => 4 | dSW => 5 | dW => 6 | dNW => 7 end.

(** dir.rs:29: [#[default] N]. *)
Definition dir_default : dir := dN.

(** dir.rs:49: [SIZE]; 54-63: [ALL8]; 66: [ALL4]. *)
Definition dir_SIZE : Z := 8.
Definition ALL8 : list dir := [dN; dNE; dE; dSE; dS; dSW; dW; dNW].
Definition ALL4 : list dir := [dN; dE; dS; dW].

(** Strings are lists of Unicode scalar values. *)
Definition str := list Z.

(** dir.rs:71: [NAMES_CARDINAL] ('N' = 78, 'E' = 69, 'S' = 83, 'W' = 87). *)
Definition NAMES_CARDINAL : list str :=
  [[78]; [78; 69]; [69]; [83; 69]; [83]; [83; 87]; [87]; [78; 87]].
(** dir.rs:76-85: [NAMES_UTF8] (U+2191 = 8593, U+2197 = 8599, U+2192 = 8594,
    U+2198 = 8600, U+2193 = 8595, U+2199 = 8601, U+2190 = 8592, U+2196 = 8598). *)
Definition NAMES_UTF8 : list str :=
  [[8593]; [8599]; [8594]; [8600]; [8595]; [8601]; [8592]; [8598]].
(** dir.rs:90-99: [NAMES_UTF8_CHAR]. *)
Definition NAMES_UTF8_CHAR : list Z := [8593; 8599; 8594; 8600; 8595; 8601; 8592; 8598].
(** dir.rs:104: [NAMES_ASCII] ('^' 94, '7' 55, '>' 62, '\' 92, 'v' 118, 'L' 76,
    '<' 60, '`' 96). *)
Definition NAMES_ASCII : list str := [[94]; [55]; [62]; [92]; [118]; [76]; [60]; [96]].
(** dir.rs:109: [NAMES_ASCII_CHAR]. *)
Definition NAMES_ASCII_CHAR : list Z := [94; 55; 62; 92; 118; 76; 60; 96].

(** dir.rs:112-114: [is_diagonal]. *)
Definition is_diagonal (d : dir) : bool := (dir_index d) mod 2 =? 1.

(** dir.rs:118-144: the name functions (array indexing, hence [exec]). *)
Definition name_cardinal (d : dir) : exec str := array_get NAMES_CARDINAL (dir_index d).
Definition name_utf8 (d : dir) : exec str := array_get NAMES_UTF8 (dir_index d).
Definition name_utf8_char (d : dir) : exec Z := array_get NAMES_UTF8_CHAR (dir_index d).
Definition name_ascii (d : dir) : exec str := array_get NAMES_ASCII (dir_index d).
Definition name_ascii_char (d : dir) : exec Z := array_get NAMES_ASCII_CHAR (dir_index d).

(** dir.rs:148-150: [flip]. *)
Definition dir_flip (d : dir) : exec dir := array_get ALL8 ((dir_index d + 4) mod dir_SIZE).

(** dir.rs:154-156: [rotate]. *)
Definition dir_rotate (d o : dir) : exec dir :=
  array_get ALL8 ((dir_index d + dir_index o) mod dir_SIZE).

(** dir.rs:166-176: [next::<D>]. *)
Definition dir_next (D : bool) (d : dir) : exec (option dir) :=
  let index := dir_index d in
  if (D && (index =? 7)) || (negb D && (index =? 6)) then Ret None
  else if D then r <- array_get ALL8 (dir_index d + 1) ;; Ret (Some r)
  else r <- array_get ALL8 (dir_index d + 2) ;; Ret (Some r).

(** dir.rs:191-196: [Neg]; 198-209: [Add], [AddAssign]. *)
Definition dir_neg (d : dir) : exec dir := dir_flip d.
Definition dir_add (d o : dir) : exec dir := dir_rotate d o.

(** dir.rs:213-229: [From<Dir> for (T, T)], T signed. *)
Definition dir_to_tuple (d : dir) : Z * Z :=
  match d with
  | dN => (0, -1) | dNE => (1, -1) | dE => (1, 0) | dSE => (1, 1)
  | dS => (0, 1) | dSW => (-1, 1) | dW => (-1, 0) | dNW => (-1, -1)
  end.

(** dir.rs:230-245 (and 300-308): [TryFrom<(T, T)> for Dir]. *)
Definition dir_try_from_tuple (xy : Z * Z) : result dir :=
  match xy with
  | (0, -1) => Ok dN
  | (1, -1) => Ok dNE
  | (1, 0) => Ok dE
  | (1, 1) => Ok dSE
  | (0, 1) => Ok dS
  | (-1, 1) => Ok dSW
  | (-1, 0) => Ok dW
  | (-1, -1) => Ok dNW
  | _ => Err InvalidDirection
  end.

(** dir.rs:255-286: [TryFrom<char>]; match arms in source order. *)
Definition dir_try_from_char (c : Z) : result dir :=
  match c with
  | 78 => Ok dN      (* 'N' *)
  | 69 => Ok dE      (* 'E' *)
  | 83 => Ok dS      (* 'S' *)
  | 87 => Ok dW      (* 'W' *)
  | 110 => Ok dN     (* 'n' *)
  | 101 => Ok dE     (* 'e' *)
  | 115 => Ok dS     (* 's' *)
  | 119 => Ok dW     (* 'w' *)
  | 8593 => Ok dN    (* U+2191 *)
  | 8599 => Ok dNE   (* U+2197 *)
  | 8594 => Ok dE    (* U+2192 *)
  | 8600 => Ok dSE   (* U+2198 *)
  | 8595 => Ok dS    (* U+2193 *)
  | 8601 => Ok dSW   (* U+2199 *)
  | 8592 => Ok dW    (* U+2190 *)
  | 8598 => Ok dNW   (* U+2196 *)
  | 94 => Ok dN      (* '^' *)
  | 55 => Ok dNE     (* '7' *)
  | 62 => Ok dE      (* '>' *)
  | 92 => Ok dSE     (* '\\' *)
  | 118 => Ok dS     (* 'v' *)
  | 76 => Ok dSW     (* 'L' *)
  | 60 => Ok dW      (* '<' *)
  | 96 => Ok dNW     (* '`' *)
  | _ => Err DirParseError
  end.

(** dir.rs:288-298: [FromStr]. *)
Definition dir_from_str (s : str) : result dir :=
  match s with
  | [] => Err DirParseError
  | c :: rest =>
      match rest with
      | _ :: _ => Err DirParseError
      | [] => dir_try_from_char c
      end
  end.

(** dir.rs:310-314: [Display]. *)
Definition dir_display (d : dir) : exec str := name_cardinal d.

(** ** DirIter, dir.rs:339-365 *)

(** dir.rs:341-345 and 184-186: fresh iterator. *)
Definition dir_iter : option dir := Some dir_default.

(** dir.rs:350-357: [next]. *)
Definition dir_iter_next (D : bool) (st : option dir) : exec (option dir * option dir) :=
  match st with
  | Some i => n <- dir_next D i ;; Ret (Some i, n)
  | None => Ret (None, None)
  end.

(** dir.rs:358-364: [size_hint]. *)
Definition dir_iter_size_hint (D : bool) (st : option dir) : Z * option Z :=
  if D then (8, Some 8) else (4, Some 4).

(** [for dir in Dir::iter::<D>()]: drive the iterator; nine calls suffice. *)
Definition dir_iter_list (D : bool) : exec (list dir) :=
  drain (dir_iter_next D) 9 dir_iter.

(** ** Tuple + Dir, dir.rs:369-396

    [T] and [U] are the two coordinate types. *)
Definition tuple_dir_add (T U : bty) (p : Z * Z) (d : dir) : result (Z * Z) :=
  let '(p0, p1) := p in
  let '(x_opt, y_opt) :=
    match d with
    | dN => (Some p0, b_dec U p1)
    | dNE => (b_inc T p0, b_dec U p1)
    | dE => (b_inc T p0, Some p1)
    | dSE => (b_inc T p0, b_inc U p1)
    | dS => (Some p0, b_inc U p1)
    | dSW => (b_dec T p0, b_inc U p1)
    | dW => (b_dec T p0, Some p1)
    | dNW => (b_dec T p0, b_dec U p1)
    end in
  res_bind (ok_or x_opt OutOfBounds) (fun x =>
  res_bind (ok_or y_opt OutOfBounds) (fun y => Ok (x, y))).
