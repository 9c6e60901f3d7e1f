(** Rust.v -- the fragment of Rust the model is written in.

    Rust expressions become terms of type [exec A]: a value, a panic,
    undefined behaviour (only [get_unchecked] can cause it), or "the model ran
    out of fuel" (only for loops that Gallina cannot express directly). *)

From Coq Require Import ZArith List Bool.
Import ListNotations.
Open Scope Z_scope.

(** error.rs:17-34: the [Error] enum. *)
Inductive error :=
| OutOfBounds | InvalidDirection | DirParseError | InvalidMovement
| Loop | DestinationUnreachable | Empty.

(** Rust's [Result<A, Error>]. *)
Inductive result (A : Type) :=
| Ok (a : A)
| Err (e : error).
Arguments Ok {A} a.
Arguments Err {A} e.

(** Outcome of running a Rust expression. *)
Inductive exec (A : Type) :=
| Ret (a : A)
| Panic
| UB
| Fuel.
Arguments Ret {A} a.
Arguments Panic {A}.
Arguments UB {A}.
Arguments Fuel {A}.

Definition bind {A B} (m : exec A) (k : A -> exec B) : exec B :=
  match m with
  | Ret a => k a
  | Panic => Panic
  | UB => UB
  | Fuel => Fuel
  end.

Declare Scope exec_scope.
Delimit Scope exec_scope with exec.
Notation "x <- m ;; k" := (bind m (fun x => k))
  (at level 61, m at next level, right associativity) : exec_scope.
Notation "' p <- m ;; k" := (bind m (fun p => k))
  (at level 61, p pattern, m at next level, right associativity) : exec_scope.
Open Scope exec_scope.

(** [Option::unwrap] and [Result::unwrap]. *)
Definition unwrap_opt {A} (o : option A) : exec A :=
  match o with Some a => Ret a | None => Panic end.
Definition unwrap_res {A} (r : result A) : exec A :=
  match r with Ok a => Ret a | Err _ => Panic end.
(** [Result::ok] and [Option::ok_or]. *)
Definition res_ok {A} (r : result A) : option A :=
  match r with Ok a => Some a | Err _ => None end.
Definition ok_or {A} (o : option A) (e : error) : result A :=
  match o with Some a => Ok a | None => Err e end.
(** The [?] operator on [Result]. *)
Definition res_bind {A B} (r : result A) (k : A -> result B) : result B :=
  match r with Ok a => k a | Err e => Err e end.

(** ** Machine integers

    Values are [Z]; a machine integer type is its pair of bounds. *)
Record ity := Ity { imin : Z; imax : Z }.

Definition u8 := Ity 0 255.
Definition u16 := Ity 0 65535.
Definition u32 := Ity 0 4294967295.
Definition u64 := Ity 0 18446744073709551615.
Definition u128 := Ity 0 340282366920938463463374607431768211455.
Definition usize := u64. (* 64-bit target *)
Definition i8 := Ity (-128) 127.
Definition i16 := Ity (-32768) 32767.
Definition i32 := Ity (-2147483648) 2147483647.
Definition i64 := Ity (-9223372036854775808) 9223372036854775807.
Definition i128 :=
  Ity (-170141183460469231731687303715884105728) 170141183460469231731687303715884105727.
Definition isize := i64. (* 64-bit target *)

(** The twelve builtin integer types (boundedint.rs:123-134). *)
Definition all_ity := [usize; u8; u16; u32; u64; u128; isize; i8; i16; i32; i64; i128].

Definition in_ity (t : ity) (v : Z) : bool := (imin t <=? v) && (v <=? imax t).

(** std's [checked_add] / [checked_sub] on a builtin integer type. *)
Definition int_checked_add (t : ity) (a b : Z) : option Z :=
  if in_ity t (a + b) then Some (a + b) else None.
Definition int_checked_sub (t : ity) (a b : Z) : option Z :=
  if in_ity t (a - b) then Some (a - b) else None.

(** std's [TryFrom] between builtin integer types; the error is mapped to
    [OutOfBounds] at every use in the crate. *)
Definition int_try_from (t : ity) (v : Z) : result Z :=
  if in_ity t v then Ok v else Err OutOfBounds.

(** Plain [+ - *] on a machine integer: panics on overflow (debug build). *)
Definition arith (t : ity) (v : Z) : exec Z :=
  if in_ity t v then Ret v else Panic.
Definition uadd (a b : Z) : exec Z := arith usize (a + b).
Definition usub (a b : Z) : exec Z := arith usize (a - b).
Definition umul (a b : Z) : exec Z := arith usize (a * b).

(** [v as u16]: truncation. *)
Definition as_u16 (v : Z) : Z := v mod 65536.

(** ** Loops and iterators *)

(** The half-open range [a..b]. *)
Definition zrange (a b : Z) : list Z :=
  map (fun i => a + Z.of_nat i) (seq 0 (Z.to_nat (b - a))).

(** [for x in l { s = f(s, x) }]. *)
Fixpoint foldM {A S} (f : S -> A -> exec S) (l : list A) (s : S) : exec S :=
  match l with
  | [] => Ret s
  | x :: l' => s' <- f s x ;; foldM f l' s'
  end.

(** [l.map(f).collect()] for an effectful [f]. *)
Fixpoint mapM {A B} (f : A -> exec B) (l : list A) : exec (list B) :=
  match l with
  | [] => Ret []
  | x :: l' => y <- f x ;; ys <- mapM f l' ;; Ret (y :: ys)
  end.

(** Drive an iterator until it returns [None]; at most [fuel] calls. *)
Fixpoint drain {A S} (next : S -> exec (option A * S)) (fuel : nat) (s : S) : exec (list A) :=
  match fuel with
  | O => Fuel
  | Datatypes.S fuel' =>
      '(o, s') <- next s ;;
      match o with
      | None => Ret []
      | Some a => l <- drain next fuel' s' ;; Ret (a :: l)
      end
  end.

(** Checked array indexing [a[i]] and [a[i] = v]: panics out of bounds. *)
Definition array_get {A} (l : list A) (i : Z) : exec A :=
  if (0 <=? i) then
    match nth_error l (Z.to_nat i) with Some a => Ret a | None => Panic end
  else Panic.

Fixpoint list_set {A} (l : list A) (n : nat) (v : A) : list A :=
  match l, n with
  | [], _ => []
  | _ :: t, O => v :: t
  | x :: t, Datatypes.S n' => x :: list_set t n' v
  end.

Definition array_set {A} (l : list A) (i : Z) (v : A) : exec (list A) :=
  if (0 <=? i) && (i <? Z.of_nat (length l)) then Ret (list_set l (Z.to_nat i) v)
  else Panic.

(** [slice.swap(i, j)]: panics out of bounds. *)
Definition array_swap {A} (l : list A) (i j : Z) : exec (list A) :=
  a <- array_get l i ;;
  b <- array_get l j ;;
  l1 <- array_set l i b ;;
  array_set l1 j a.

(** [get_unchecked] and writing through [get_unchecked_mut]: undefined
    behaviour out of bounds. *)
Definition array_get_unchecked {A} (l : list A) (i : Z) : exec A :=
  if (0 <=? i) then
    match nth_error l (Z.to_nat i) with Some a => Ret a | None => UB end
  else UB.
Definition array_set_unchecked {A} (l : list A) (i : Z) (v : A) : exec (list A) :=
  if (0 <=? i) && (i <? Z.of_nat (length l)) then Ret (list_set l (Z.to_nat i) v)
  else UB.
