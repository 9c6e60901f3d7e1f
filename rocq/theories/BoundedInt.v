(** BoundedInt.v -- model of src/sqrid/boundedint.rs. *)

From Coq Require Import ZArith List Bool.
From Verif Require Import Rust.
Import ListNotations.
Open Scope Z_scope.

(** A type implementing the trait [BoundedInt]: a builtin integer type
    (boundedint.rs:99-134) or [BoundedXX<MIN, MAX>] over an inner builtin type
    (boundedint.rs:199-306 and the instantiations 308-361). *)
Inductive bty :=
| Builtin (t : ity)
| Bounded (t : ity) (mn mx : Z).

(** boundedint.rs:64,104,240: [type Inner]. *)
Definition b_inner (b : bty) : ity :=
  match b with Builtin t => t | Bounded t _ _ => t end.

(** boundedint.rs:59,102,237: [const MIN] ([new_static::<MIN>()] cannot fail
    when MIN <= MAX; a type with MIN > MAX does not compile, see [bty_wf] in
    Spec.v). *)
Definition b_min (b : bty) : Z :=
  match b with Builtin t => imin t | Bounded _ mn _ => mn end.

(** boundedint.rs:61,103,238: [const MAX]. *)
Definition b_max (b : bty) : Z :=
  match b with Builtin t => imax t | Bounded _ _ mx => mx end.

(** boundedint.rs:203-209: [BoundedXX::new]. *)
Definition bounded_new (mn mx v : Z) : result Z :=
  if (v <? mn) || (v >? mx) then Err OutOfBounds else Ok v.

(** boundedint.rs:213-216: [new_unwrap]; 225-228: [new_static] (same test,
    performed at compile time). *)
Definition bounded_new_unwrap (mn mx v : Z) : exec Z :=
  if (v >=? mn) && (v <=? mx) then Ret v else Panic.
Definition bounded_new_static (mn mx v : Z) : exec Z :=
  if (v >=? mn) && (v <=? mx) then Ret v else Panic.

(** boundedint.rs:67,105,231,241: [into_inner]. *)
Definition b_into_inner (v : Z) : Z := v.

(** boundedint.rs:111-116 and 248-259: [checked_add], [checked_sub]. *)
Definition b_checked_add (b : bty) (x y : Z) : option Z :=
  match b with
  | Builtin t => int_checked_add t x y
  | Bounded t mn mx =>
      match int_checked_add t x y with
      | Some v => if (mn <=? v) && (v <=? mx) then Some v else None
      | None => None
      end
  end.
Definition b_checked_sub (b : bty) (x y : Z) : option Z :=
  match b with
  | Builtin t => int_checked_sub t x y
  | Bounded t mn mx =>
      match int_checked_sub t x y with
      | Some v => if (mn <=? v) && (v <=? mx) then Some v else None
      | None => None
      end
  end.

(** boundedint.rs:280-284 (and std for the builtin types): [From<bool>]; note
    that the bounded version does not check the bounds. *)
Definition b_from_bool (b : bty) (v : bool) : Z := if v then 1 else 0.

(** Derived [Default] (boundedint.rs:309 etc.): the inner default, 0. *)
Definition b_default (b : bty) : Z := 0.

(** boundedint.rs:79-91: [one], [inc], [dec]. *)
Definition b_one (b : bty) : Z := b_from_bool b true.
Definition b_inc (b : bty) (v : Z) : option Z := b_checked_add b v (b_one b).
Definition b_dec (b : bty) (v : Z) : option Z := b_checked_sub b v (b_one b).

(** The source of a [TryFrom] conversion into a bounded integer type: a builtin
    integer type, or the same type (std's blanket infallible conversion). *)
Inductive conv := FromInt (s : ity) | FromSelf.

(** boundedint.rs:187-196 ([boundedint_impl_tryfrom]) for the bounded types,
    std's [TryFrom] for builtin ones, std's reflexive [TryFrom] for
    [FromSelf].  All errors are mapped to [OutOfBounds] (macro [into_or_oob],
    boundedint.rs:23-27). *)
Definition b_try_from (b : bty) (c : conv) (v : Z) : result Z :=
  match c with
  | FromSelf => Ok v
  | FromInt _ =>
      match b with
      | Builtin t => int_try_from t v
      | Bounded t mn mx =>
          res_bind (int_try_from t v) (fun v' => bounded_new mn mx v')
      end
  end.

(** boundedint.rs:286-291 (and std): [TryFrom<Self> for usize]. *)
Definition b_to_usize (v : Z) : result Z := int_try_from usize v.

(** postrait.rs: macro [into_or_panic]. *)
Definition b_into_usize (v : Z) : exec Z := unwrap_res (b_to_usize v).

(** ** Iterator, boundedint.rs:140-182 *)

(** boundedint.rs:140-145: the iterator's fields [start] and [end]. *)
Definition biter := (option Z * option Z)%type.

(** Derived equality of [Option<T>]. *)
Definition opt_eqb (a b : option Z) : bool :=
  match a, b with
  | Some x, Some y => x =? y
  | None, None => true
  | _, _ => false
  end.

(** boundedint.rs:149-154: [BoundedIntIterator::new]; 94-96: [iter]. *)
Definition biter_new (start last : Z) : biter := (Some start, Some last).
Definition b_iter (b : bty) : biter := biter_new (b_min b) (b_max b).

(** boundedint.rs:159-168: [next]. *)
Definition biter_next (b : bty) (it : biter) : option Z * biter :=
  let '(st, en) := it in
  let it' :=
    if opt_eqb st en then (None, None)
    else match st with
         | Some s => (b_inc b s, en)
         | None => (st, en)
         end in
  (st, it').

(** boundedint.rs:172-181: [next_back]. *)
Definition biter_next_back (b : bty) (it : biter) : option Z * biter :=
  let '(st, en) := it in
  let it' :=
    if opt_eqb st en then (None, None)
    else match en with
         | Some e => (st, b_dec b e)
         | None => (st, en)
         end in
  (en, it').

(** [for v in T::iter()]: drive the iterator to the end.  The fuel is the number
    of values plus one. *)
Definition b_iter_list (b : bty) : exec (list Z) :=
  drain (fun it => Ret (biter_next b it))
        (Z.to_nat (b_max b - b_min b + 2)) (b_iter b).
