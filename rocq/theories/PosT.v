(** PosT.v -- model of src/sqrid/postrait.rs (trait [PosT], its provided methods,
    its iterators and the integer tuple implementations). *)

From Coq Require Import ZArith List Bool.
From Verif Require Import Rust BoundedInt Dir.
Import ListNotations.
Open Scope Z_scope.

(** A position is its pair of coordinates; [Pos] and the integer tuples both
    are exactly that (pos.rs:75, postrait.rs:587). *)
Definition pos := (Z * Z)%type.

(** postrait.rs:17-32: an implementation of [PosT]: the associated types and the
    constants WIDTH and HEIGHT.  [new_] is pairing in every implementation. *)
Record post := Post { pt_x : bty; pt_y : bty; pt_WIDTH : Z; pt_HEIGHT : Z }.

(** Derived [PartialEq] and [Ord] (lexicographic) of positions: pos.rs:74 and
    std for tuples. *)
Definition pos_eqb (p q : pos) : bool := (fst p =? fst q) && (snd p =? snd q).
Definition pos_ltb (p q : pos) : bool :=
  (fst p <? fst q) || ((fst p =? fst q) && (snd p <? snd q)).

(** postrait.rs:36-47: [new] with arguments of the given source types. *)
Definition pos_new (P : post) (cx cy : conv) (x y : Z) : result pos :=
  res_bind (b_try_from (pt_x P) cx x) (fun x' =>
  res_bind (b_try_from (pt_y P) cy y) (fun y' => Ok (x', y'))).

(** postrait.rs:102-112: [tryfrom_pos]; the source is another [PosT] type. *)
Definition tryfrom_pos (P Q : post) (p : pos) : result pos :=
  pos_new P (FromInt (b_inner (pt_x Q))) (FromInt (b_inner (pt_y Q)))
    (b_into_inner (fst p)) (b_into_inner (snd p)).

(** postrait.rs:116-130: [width], [height], [dimensions]. *)
Definition width (P : post) : exec Z := m <- b_into_usize (b_max (pt_x P)) ;; uadd m 1.
Definition height (P : post) : exec Z := m <- b_into_usize (b_max (pt_y P)) ;; uadd m 1.
Definition dimensions (P : post) : exec Z :=
  w <- width P ;; h <- height P ;; umul w h.

(** postrait.rs:134-148: [first], [last]. *)
Definition pos_first (P : post) : pos := (b_min (pt_x P), b_min (pt_y P)).
Definition pos_last (P : post) : pos := (b_max (pt_x P), b_max (pt_y P)).

(** postrait.rs:152-164: [is_corner], [is_side]. *)
Definition is_corner (P : post) (p : pos) : bool :=
  ((fst p =? b_min (pt_x P)) || (fst p =? b_max (pt_x P))) &&
  ((snd p =? b_min (pt_y P)) || (snd p =? b_max (pt_y P))).
Definition is_side (P : post) (p : pos) : bool :=
  (fst p =? b_min (pt_x P)) || (fst p =? b_max (pt_x P)) ||
  (snd p =? b_min (pt_y P)) || (snd p =? b_max (pt_y P)).

(** postrait.rs:168-182: [flip_h], [flip_v]. *)
Definition pos_flip_h (P : post) (p : pos) : exec pos :=
  x <- unwrap_opt (b_checked_sub (pt_x P) (b_max (pt_x P)) (fst p)) ;;
  unwrap_res (pos_new P FromSelf FromSelf x (snd p)).
Definition pos_flip_v (P : post) (p : pos) : exec pos :=
  y <- unwrap_opt (b_checked_sub (pt_y P) (b_max (pt_y P)) (snd p)) ;;
  unwrap_res (pos_new P FromSelf FromSelf (fst p) y).

(** postrait.rs:185-197: [manhattan]. *)
Definition manhattan (P : post) (p q : pos) : exec Z :=
  dx <- (if fst p >? fst q
         then unwrap_opt (b_checked_sub (pt_x P) (fst p) (fst q))
         else unwrap_opt (b_checked_sub (pt_x P) (fst q) (fst p))) ;;
  dy <- (if snd p >? snd q
         then unwrap_opt (b_checked_sub (pt_y P) (snd p) (snd q))
         else unwrap_opt (b_checked_sub (pt_y P) (snd q) (snd p))) ;;
  ux <- b_into_usize dx ;;
  uy <- b_into_usize dy ;;
  uadd ux uy.

(** postrait.rs:200-212: [inside]. *)
Definition inside (p p1 p2 : pos) : bool :=
  let '(xmin, xmax) := if fst p1 <? fst p2 then (fst p1, fst p2) else (fst p2, fst p1) in
  let '(ymin, ymax) := if snd p1 <? snd p2 then (snd p1, snd p2) else (snd p2, snd p1) in
  (xmin <=? fst p) && (fst p <=? xmax) && (ymin <=? snd p) && (snd p <=? ymax).

(** postrait.rs:216-220: [to_usize]. *)
Definition to_usize (P : post) (p : pos) : exec Z :=
  y <- b_into_usize (snd p) ;;
  x <- b_into_usize (fst p) ;;
  w <- width P ;;
  yw <- umul y w ;;
  uadd yw x.

(** postrait.rs:225-231: [tryfrom_usize]; [width()] is never 0, so [%] and [/]
    do not panic. *)
Definition tryfrom_usize (P : post) (i : Z) : exec (result pos) :=
  w <- width P ;;
  Ret (pos_new P (FromInt usize) (FromInt usize) (i mod w) (i / w)).

(** postrait.rs:236-283: [next], [next_y], [prev], [prev_y]. *)
Definition pos_next (P : post) (p : pos) : option pos :=
  match b_inc (pt_x P) (fst p) with
  | Some x => Some (x, snd p)
  | None => option_map (fun y => (b_min (pt_x P), y)) (b_inc (pt_y P) (snd p))
  end.
Definition pos_next_y (P : post) (p : pos) : option pos :=
  match b_inc (pt_y P) (snd p) with
  | Some y => Some (fst p, y)
  | None => option_map (fun x => (x, b_min (pt_y P))) (b_inc (pt_x P) (fst p))
  end.
Definition pos_prev (P : post) (p : pos) : option pos :=
  match b_dec (pt_x P) (fst p) with
  | Some x => Some (x, snd p)
  | None => option_map (fun y => (b_max (pt_x P), y)) (b_dec (pt_y P) (snd p))
  end.
Definition pos_prev_y (P : post) (p : pos) : option pos :=
  match b_dec (pt_y P) (snd p) with
  | Some y => Some (fst p, y)
  | None => option_map (fun x => (x, b_max (pt_y P))) (b_dec (pt_x P) (fst p))
  end.

(** postrait.rs:286-293: [iter_x], [iter_y], driven to the end. *)
Definition iter_x (P : post) : exec (list Z) := b_iter_list (pt_x P).
Definition iter_y (P : post) : exec (list Z) := b_iter_list (pt_y P).

(** postrait.rs:358-381: [tlbr_of], on the list of items of the iterator. *)
Definition tlbr_step (acc : pos * pos) (t : pos) : pos * pos :=
  let '(tl, br) := acc in
  ((if fst t <? fst tl then fst t else fst tl,
    if snd t <? snd tl then snd t else snd tl),
   (if fst t >? fst br then fst t else fst br,
    if snd t >? snd br then snd t else snd br)).
Definition tlbr_of (l : list pos) : result (pos * pos) :=
  match l with
  | firstpos :: rest => Ok (fold_left tlbr_step rest (firstpos, firstpos))
  | [] => Err Empty
  end.

(** postrait.rs:384-401: [rotate_cw]; the subtraction is on the inner type of
    Ytype. *)
Definition pos_rotate_cw (P : post) (p : pos) : exec pos :=
  x0 <- arith (b_inner (pt_y P)) (b_into_inner (b_max (pt_y P)) - b_into_inner (snd p)) ;;
  x <- unwrap_res (b_try_from (pt_x P) (FromInt (b_inner (pt_y P))) x0) ;;
  y <- unwrap_res (b_try_from (pt_y P) (FromInt (b_inner (pt_x P))) (b_into_inner (fst p))) ;;
  Ret (x, y).

(** postrait.rs:404-421: [rotate_cc]. *)
Definition pos_rotate_cc (P : post) (p : pos) : exec pos :=
  x <- unwrap_res (b_try_from (pt_x P) (FromInt (b_inner (pt_y P))) (b_into_inner (snd p))) ;;
  y0 <- arith (b_inner (pt_x P)) (b_into_inner (b_max (pt_x P)) - b_into_inner (fst p)) ;;
  y <- unwrap_res (b_try_from (pt_y P) (FromInt (b_inner (pt_x P))) y0) ;;
  Ret (x, y).

(** ** PosTIter, postrait.rs:430-485 *)

(** postrait.rs:430-434: the fields [cur] and [end]. *)
Definition piter := (option pos * option pos)%type.

Definition opt_pos_eqb (a b : option pos) : bool :=
  match a, b with
  | Some p, Some q => pos_eqb p q
  | None, None => true
  | _, _ => false
  end.

(** postrait.rs:436-444, 298-330: fresh iterator. *)
Definition piter_new (P : post) : piter := (Some (pos_first P), Some (pos_last P)).

(** postrait.rs:449-462: [next]; [XFIRST] selects the orientation. *)
Definition piter_next (P : post) (XFIRST : bool) (it : piter) : option pos * piter :=
  let '(cur, en) := it in
  let it' :=
    if opt_pos_eqb cur en then (None, None)
    else match cur with
         | Some c => ((if XFIRST then pos_next P c else pos_next_y P c), en)
         | None => (cur, en)
         end in
  (cur, it').

(** postrait.rs:471-484: [next_back]. *)
Definition piter_next_back (P : post) (XFIRST : bool) (it : piter) : option pos * piter :=
  let '(cur, en) := it in
  let it' :=
    if opt_pos_eqb cur en then (None, None)
    else match en with
         | Some e => (cur, (if XFIRST then pos_prev P e else pos_prev_y P e))
         | None => (cur, en)
         end in
  (en, it').

(** postrait.rs:463-466: [size_hint]. *)
Definition piter_size_hint (P : post) (it : piter) : exec (Z * option Z) :=
  size <- dimensions P ;; Ret (size, Some size).

(** [for p in P::iter_orientation()]: drive the iterator; the fuel is the number
    of positions plus one. *)
Definition piter_fuel (P : post) : nat :=
  Z.to_nat ((b_max (pt_x P) - b_min (pt_x P) + 1) * (b_max (pt_y P) - b_min (pt_y P) + 1) + 1).
Definition iter_list (P : post) (XFIRST : bool) : exec (list pos) :=
  drain (fun it => Ret (piter_next P XFIRST it)) (piter_fuel P) (piter_new P).
(** The same driven from the back ([.rev()]). *)
Definition iter_list_rev (P : post) (XFIRST : bool) : exec (list pos) :=
  drain (fun it => Ret (piter_next_back P XFIRST it)) (piter_fuel P) (piter_new P).

(** ** PosTIterRange, postrait.rs:493-534 *)

(** postrait.rs:493-508: fields and [new]; 334-339: [iter_range]. *)
Record prange := PRange { pr_tl : pos; pr_br : pos; pr_value : option pos }.
Definition prange_new (tl br : pos) : prange := PRange tl br (Some tl).

(** postrait.rs:513-529: [next].  The [?] on line 520 returns [None] from
    [next] after [self.value] was taken. *)
Definition prange_next (P : post) (it : prange) : option pos * prange :=
  let '(PRange tl br value) := it in
  match value with
  | Some pos0 =>
      let pos1 := pos_next P pos0 in
      let set (po : option pos) :=
        (Some pos0,
         PRange tl br (match po with
                       | Some p => if snd p <=? snd br then Some p else None
                       | None => None
                       end)) in
      match pos1 with
      | Some p =>
          if fst p <? fst tl then
            set (res_ok (pos_new P FromSelf FromSelf (fst tl) (snd p)))
          else if fst p >? fst br then
            match b_inc (pt_y P) (snd p) with
            | None => (None, PRange tl br None)
            | Some y => set (res_ok (pos_new P FromSelf FromSelf (fst tl) y))
            end
          else set pos1
      | None => set pos1
      end
  | None => (None, it)
  end.

(** postrait.rs:530-533: [size_hint]. *)
Definition prange_size_hint (P : post) (it : prange) : exec (Z * option Z) :=
  w <- width P ;; h <- height P ;; size <- umul w h ;; Ret (size, Some size).

Definition prange_list (P : post) (tl br : pos) : exec (list pos) :=
  drain (fun it => Ret (prange_next P it)) (piter_fuel P) (prange_new tl br).

(** ** PosTIterInX / PosTIterInY, postrait.rs:542-581 *)

(** postrait.rs:342-355: [iter_in_x], [iter_in_y] start at the default value. *)
Definition in_x_new (P : post) (x : Z) : option pos := Some (x, b_default (pt_y P)).
Definition in_y_new (P : post) (y : Z) : option pos := Some (b_default (pt_x P), y).

(** postrait.rs:546-553. *)
Definition in_x_next (P : post) (st : option pos) : option pos * option pos :=
  match st with
  | Some pos0 =>
      (Some pos0,
       match b_inc (pt_y P) (snd pos0) with
       | Some y => res_ok (pos_new P FromSelf FromSelf (fst pos0) y)
       | None => None
       end)
  | None => (None, None)
  end.

(** postrait.rs:569-576. *)
Definition in_y_next (P : post) (st : option pos) : option pos * option pos :=
  match st with
  | Some pos0 =>
      (Some pos0,
       match b_inc (pt_x P) (fst pos0) with
       | Some x => res_ok (pos_new P FromSelf FromSelf x (snd pos0))
       | None => None
       end)
  | None => (None, None)
  end.

(** postrait.rs:554-557, 577-580: [size_hint]. *)
Definition in_x_size_hint (P : post) (st : option pos) : exec (Z * option Z) :=
  size <- height P ;; Ret (size, Some size).
Definition in_y_size_hint (P : post) (st : option pos) : exec (Z * option Z) :=
  size <- width P ;; Ret (size, Some size).

Definition in_x_list (P : post) (x : Z) : exec (list pos) :=
  drain (fun it => Ret (in_x_next P it)) (piter_fuel P) (in_x_new P x).
Definition in_y_list (P : post) (y : Z) : exec (list pos) :=
  drain (fun it => Ret (in_y_next P it)) (piter_fuel P) (in_y_new P y).

(** ** Integer tuples, postrait.rs:585-619 *)

(** [v as isize]: wrapping conversion to 64-bit signed. *)
Definition as_isize (v : Z) : Z :=
  (v + 9223372036854775808) mod 18446744073709551616 - 9223372036854775808.
(** [v as usize]. *)
Definition as_usize (v : Z) : Z := v mod 18446744073709551616.

(** postrait.rs:590-591: the WIDTH / HEIGHT expression.  The subtraction is in
    isize; for the listed types it does not overflow. *)
Definition int_dim (t : ity) : Z := as_usize (as_isize (imax t) - as_isize (imin t)).

(** postrait.rs:587-607. *)
Definition IntTuple (t : ity) : post := Post (Builtin t) (Builtin t) (int_dim t) (int_dim t).

(** postrait.rs:611-619: the tuple types with an implementation. *)
Definition int_tuple_types : list ity := [u8; u16; u32; u64; u128; i8; i16; i32].
