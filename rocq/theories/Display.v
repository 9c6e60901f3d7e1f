(** Display.v -- model of the Display implementations: grid.rs:465-534,
    gridbool.rs:337-346, pos.rs:192-196.

    A [Formatter] is modelled by the text written so far plus the effect [pad]
    of [Formatter::pad] (padding requested by the caller's format string);
    writing never fails ([fmt::Result] is [Ok]). *)

From Coq Require Import ZArith List Bool.
From Verif Require Import Rust BoundedInt Dir PosT Pos Grid Gridbool.
Import ListNotations.
Open Scope Z_scope.

Definition SPACE : Z := 32.
Definition NEWLINE : Z := 10.

(** Decimal representation of a non-negative integer ([format!("{}", i)]);
    [fuel] digits suffice. *)
Fixpoint dec_digits (fuel : nat) (i : Z) : str :=
  match fuel with
  | O => []
  | Datatypes.S fuel' =>
      if i <? 10 then [48 + i] else dec_digits fuel' (i / 10) ++ [48 + i mod 10]
  end.
Definition fmt_dec (i : Z) : str := dec_digits (Z.to_nat (Z.log2 i + 1)) i.

(** [format!("{:width$}", i)] for numbers: right-aligned with spaces. *)
Definition fmt_dec_width (i : Z) (w : nat) : str :=
  let s := fmt_dec i in repeat SPACE (w - length s) ++ s.

(** pos.rs:192-196. *)
Definition pos_display (p : pos) : str :=
  [40] ++ fmt_dec (Pos_x p) ++ [44] ++ fmt_dec (Pos_y p) ++ [41].

Section Display.
  (** [Formatter::pad]. *)
  Context (pad : str -> str).

  (** grid.rs:486-495: the [headerfooter] closure. *)
  Definition headerfooter (ndigits_x ndigits_y : nat) (str_x : list str) : exec str :=
    lines <- mapM (fun digit =>
      cells <- mapM (fun cell => c <- array_get cell digit ;; Ret (pad [c])) str_x ;;
      Ret (repeat SPACE ndigits_y ++ [SPACE] ++ concat cells ++ [NEWLINE]))
      (zrange 0 (Z.of_nat ndigits_x)) ;;
    Ret (concat lines).

  (** grid.rs:499-514: the cell loop; [last_y] and the remaining items are the
      loop state. *)
  Definition display_cell (ndigits_y : nat) (y : Z) (st : str * Z * list str) (x : Z)
    : exec (str * Z * list str) :=
    let '(out, last_y, it) := st in
    let '(out, last_y) :=
      if negb (y =? last_y) then
        (out ++ (if y >? 0 then [NEWLINE] else []) ++ fmt_dec_width y ndigits_y ++ [SPACE], y)
      else (out, last_y) in
    match it with
    | [] => Panic
    | s :: it' => Ret (out ++ pad s, last_y, it')
    end.

  (** grid.rs:465-517. *)
  Definition display_fmt_helper (w h : Z) (it : list str) : exec str :=
    w1 <- usub w 1 ;;
    let ndigits_x := length (fmt_dec w1) in
    h1 <- usub h 1 ;;
    let ndigits_y := length (fmt_dec h1) in
    let str_x := map (fun i => fmt_dec_width i ndigits_x) (zrange 0 w) in
    head <- headerfooter ndigits_x ndigits_y str_x ;;
    '(out, _, _) <- foldM (fun st y => foldM (display_cell ndigits_y y) (zrange 0 w) st)
             (zrange 0 h) (head, h, it) ;;
    foot <- headerfooter ndigits_x ndigits_y str_x ;;
    Ret (out ++ [NEWLINE] ++ foot).

  (** grid.rs:525-534: [Display for Grid]; [fmt] is the element's Display. *)
  Definition grid_display {T} (P : post) (fmt : T -> str) (g : grid T) : exec str :=
    w <- width P ;; h <- height P ;;
    display_fmt_helper w h (map fmt (grid_iter g)).

  (** gridbool.rs:337-346 ('#' = 35, '.' = 46). *)
  Definition gb_display (P : post) (g : gridbool) : exec str :=
    w <- width P ;; h <- height P ;;
    bs <- gb_iter P g ;;
    display_fmt_helper w h (map (fun b : bool => if b then [35] else [46]) bs).
End Display.
