(** Spec.v -- vocabulary used to state the properties.  Nothing here refers to
    the model's helper functions; only to the shape of types and values. *)

From Coq Require Import ZArith List Bool.
From Verif Require Import Rust BoundedInt Dir PosT.
Import ListNotations.
Open Scope Z_scope.

(** ** Types that exist in Rust *)

(** A bounded integer type that compiles: its inner type is one of the builtin
    integer types and MIN <= MAX are values of that type. *)
Definition bty_wf (b : bty) : Prop :=
  In (b_inner b) all_ity /\
  imin (b_inner b) <= b_min b /\ b_min b <= b_max b /\ b_max b <= imax (b_inner b).

(** A value of that type that respects its bounds. *)
Definition in_bty (b : bty) (v : Z) : Prop := b_min b <= v <= b_max b.

(** A position type whose coordinate types exist. *)
Definition post_wf (P : post) : Prop := bty_wf (pt_x P) /\ bty_wf (pt_y P).

(** Largest coordinates of a position type. *)
Notation XM P := (b_max (pt_x P)).
Notation YM P := (b_max (pt_y P)).

(** A position of that type. *)
Definition valid (P : post) (p : pos) : Prop :=
  in_bty (pt_x P) (fst p) /\ in_bty (pt_y P) (snd p).

(** Grid-like position types: coordinates start at 0 and go up to at most 65535.
    Every [Pos<XMAX, YMAX>] is one, and so are [(u8, u8)] and [(u16, u16)]. *)
Definition grid_type (P : post) : Prop :=
  post_wf P /\ b_min (pt_x P) = 0 /\ b_min (pt_y P) = 0 /\ XM P <= 65535 /\ YM P <= 65535.

(** The dimensions [Pos<XMAX, YMAX>] can have. *)
Definition u16_dims (XMAX YMAX : Z) : Prop := 0 <= XMAX <= 65535 /\ 0 <= YMAX <= 65535.

(** Number of columns, rows and positions. *)
Definition cols (P : post) : Z := XM P + 1.
Definition rows (P : post) : Z := YM P + 1.
Definition cells (P : post) : Z := cols P * rows P.

(** Row-major index of a position. *)
Definition index_of (P : post) (p : pos) : Z := snd p * cols P + fst p.

(** ** Enumerations *)

(** The integers from [a] to [b], both included. *)
Definition interval (a b : Z) : list Z := zrange a (b + 1).

(** All positions of a rectangle, row by row, and column by column. *)
Definition rect_rows (x0 y0 x1 y1 : Z) : list pos :=
  flat_map (fun y => map (fun x => (x, y)) (interval x0 x1)) (interval y0 y1).
Definition rect_cols (x0 y0 x1 y1 : Z) : list pos :=
  flat_map (fun x => map (fun y => (x, y)) (interval y0 y1)) (interval x0 x1).

(** All positions of a type. *)
Definition all_rows (P : post) : list pos :=
  rect_rows (b_min (pt_x P)) (b_min (pt_y P)) (XM P) (YM P).
Definition all_cols (P : post) : list pos :=
  rect_cols (b_min (pt_x P)) (b_min (pt_y P)) (XM P) (YM P).

(** ** Double-ended iteration: a call to [next] ([Front]) or [next_back] ([Back]). *)
Inductive call := Front | Back.

(** Results of a sequence of calls on an abstract iterator. *)
Fixpoint run_calls {A St} (next next_back : St -> option A * St) (cs : list call) (s : St)
  : list (option A) :=
  match cs with
  | [] => []
  | Front :: cs' => let '(o, s') := next s in o :: run_calls next next_back cs' s'
  | Back :: cs' => let '(o, s') := next_back s in o :: run_calls next next_back cs' s'
  end.

(** The reference behaviour: pop the front or the back of a list. *)
Definition pop_front {A} (l : list A) : option A * list A :=
  match l with [] => (None, []) | x :: l' => (Some x, l') end.
Definition pop_back {A} (l : list A) : option A * list A :=
  match rev l with [] => (None, []) | x :: l' => (Some x, rev l') end.

(** Results of [n] calls to [next] on an iterator; the reference behaviour is to
    deliver the items of a list and then [None] for ever. *)
Fixpoint next_calls {A St} (next : St -> exec (option A * St)) (n : nat) (s : St)
  : exec (list (option A)) :=
  match n with
  | O => Ret []
  | S n' => '(o, s') <- next s ;; l <- next_calls next n' s' ;; Ret (o :: l)
  end.
(** The state after [n] calls. *)
Fixpoint calls_state {A St} (next : St -> exec (option A * St)) (n : nat) (s : St) : exec St :=
  match n with
  | O => Ret s
  | S n' => '(_, s') <- next s ;; calls_state next n' s'
  end.
Definition items_then_none {A} (l : list A) (n : nat) : list (option A) :=
  map Some (firstn n l) ++ repeat None (n - length l).

(** The iterator state after a sequence of calls. *)
Fixpoint state_after {A St} (next next_back : St -> option A * St) (cs : list call) (s : St) : St :=
  match cs with
  | [] => s
  | Front :: cs' => state_after next next_back cs' (snd (next s))
  | Back :: cs' => state_after next next_back cs' (snd (next_back s))
  end.

(** Column-major index of a position. *)
Definition index_col (P : post) (p : pos) : Z := fst p * rows P + snd p.

(** ** Directions *)

(** Clockwise angle of a direction from north, in eighths of a turn. *)
Definition heading (d : dir) : Z :=
  match d with dN => 0 | dNE => 1 | dE => 2 | dSE => 3 | dS => 4 | dSW => 5 | dW => 6 | dNW => 7 end.

(** One step in a direction: x grows to the east, y grows to the south. *)
Definition delta_x (d : dir) : Z :=
  match d with dNE | dE | dSE => 1 | dN | dS => 0 | dNW | dW | dSW => -1 end.
Definition delta_y (d : dir) : Z :=
  match d with dSE | dS | dSW => 1 | dE | dW => 0 | dNE | dN | dNW => -1 end.
Definition step (p : pos) (d : dir) : pos := (fst p + delta_x d, snd p + delta_y d).

(** The directions a search with parameter [D] may use. *)
Definition allowed (D : bool) (d : dir) : Prop := D = true \/ delta_x d = 0 \/ delta_y d = 0.

(** The documented one-character spellings of a direction, as Unicode code
    points: upper-case initial, lower-case initial, arrow, ASCII art. *)
Definition spellings (d : dir) : list Z :=
  match d with
  | dN => [78; 110; 8593; 94]
  | dNE => [8599; 55]
  | dE => [69; 101; 8594; 62]
  | dSE => [8600; 92]
  | dS => [83; 115; 8595; 118]
  | dSW => [8601; 76]
  | dW => [87; 119; 8592; 60]
  | dNW => [8598; 96]
  end.

(** The compass name of a direction: "N", "NE", ... *)
Definition compass (d : dir) : list Z :=
  (if delta_y d =? -1 then [78] else if delta_y d =? 1 then [83] else []) ++
  (if delta_x d =? 1 then [69] else if delta_x d =? -1 then [87] else []).

(** Walking along a list of directions with a movement function. *)
Fixpoint follow (go : pos -> dir -> option pos) (p : pos) (path : list dir) : option pos :=
  match path with
  | [] => Some p
  | d :: ds => match go p d with Some q => follow go q ds | None => None end
  end.

(** Repeatedly asking [toward] for a direction and moving that way reaches [q]
    from [p] after exactly [k] moves, when the answer becomes [None]. *)
Fixpoint leads (toward : pos -> pos -> option dir) (move : pos -> dir -> option pos)
    (k : nat) (p q : pos) : Prop :=
  match k with
  | O => p = q /\ toward p q = None
  | S k' => exists d r, toward p q = Some d /\ move p d = Some r /\ leads toward move k' r q
  end.

(** ** Grids *)

(** A [Grid] whose SIZE parameter is the number of positions. *)
Definition proper {T} (P : post) (g : list T) : Prop := Z.of_nat (length g) = cells P.

(** The cell of a vector of rows at column x of row y. *)
Definition cell_at {T} (v : list (list T)) (p : pos) : option T :=
  match nth_error v (Z.to_nat (snd p)) with
  | Some row => nth_error row (Z.to_nat (fst p))
  | None => None
  end.

(** The cells of a vector of rows with their coordinates, row by row. *)
Fixpoint row_cells {T} (x y : Z) (row : list T) : list (pos * T) :=
  match row with [] => [] | c :: rest => ((x, y), c) :: row_cells (x + 1) y rest end.
Fixpoint vecvec_cells {T} (y : Z) (v : list (list T)) : list (pos * T) :=
  match v with [] => [] | row :: rest => row_cells 0 y row ++ vecvec_cells (y + 1) rest end.

(** The last value given for a position in a list of pairs, if any. *)
Fixpoint last_given {T} (items : list (pos * T)) (p : pos) : option T :=
  match items with
  | [] => None
  | (q, v) :: rest =>
      match last_given rest p with
      | Some w => Some w
      | None => if pos_eqb q p then Some v else None
      end
  end.

(** ** Gridbools *)

(** A [Gridbool] is an array of u32 words. *)
Definition u32_words (g : list Z) : Prop := Forall (fun w => 0 <= w < 4294967296) g.

(** It has at least as many bits as there are positions. *)
Definition roomy (P : post) (g : list Z) : Prop := u32_words g /\ cells P <= 32 * Z.of_nat (length g).

(** The i-th bit of the array; each word is filled from its most significant bit. *)
Definition bit_at (g : list Z) (i : Z) : bool :=
  Z.testbit (nth (Z.to_nat (i / 32)) g 0) (31 - i mod 32).

(** ** Histories of set and map operations, and their reference results *)

Inductive set_op := OpInsert (p : pos) | OpRemove (p : pos) | OpSet (p : pos) (add : bool) | OpContains (p : pos).

Definition set_op_pos (o : set_op) : pos :=
  match o with OpInsert p | OpRemove p | OpSet p _ | OpContains p => p end.

(** A mathematical set of positions, and the answers to the [contains] calls. *)
Fixpoint set_answers (member : pos -> bool) (ops : list set_op) : list bool :=
  let put p b q := if pos_eqb p q then b else member q in
  match ops with
  | [] => []
  | OpInsert p :: ops' => set_answers (put p true) ops'
  | OpRemove p :: ops' => set_answers (put p false) ops'
  | OpSet p b :: ops' => set_answers (put p b) ops'
  | OpContains p :: ops' => member p :: set_answers member ops'
  end.

Inductive map_op (Item : Type) := OpPut (p : pos) (v : Item) | OpGet (p : pos).
Arguments OpPut {Item}.
Arguments OpGet {Item}.

Definition map_op_pos {Item} (o : map_op Item) : pos :=
  match o with OpPut p _ | OpGet p => p end.

(** A function from positions, and the answers to the [get] calls. *)
Fixpoint map_answers {Item} (f : pos -> Item) (ops : list (map_op Item)) : list Item :=
  match ops with
  | [] => []
  | OpPut p v :: ops' => map_answers (fun q => if pos_eqb p q then v else f q) ops'
  | OpGet p :: ops' => f p :: map_answers f ops'
  end.
