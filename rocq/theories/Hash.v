(** Hash.v -- the derived [Hash] of the crate's types, and std's HashSet and
    HashMap as hash tables with any hasher.

    SetMap.v takes HashSet and HashMap to be association lists.  Here they are
    tables of slots with open addressing, as in the hashbrown crate that std uses:
    a key is looked for along a sequence of slots given by its hash until an empty
    slot; a removed key leaves a tombstone; the table is rebuilt when it is full to
    7/8.  Simplified: slots are examined one by one instead of in groups, and a
    removal always leaves a tombstone.  The source of hashbrown was not at hand: this
    follows it in outline, from knowledge of it. *)

From Coq Require Import ZArith List Bool.
From Verif Require Import Rust BoundedInt Dir PosT Pos Grid Gridbool SetMap CameFrom Bf Astar Ucs.
Import ListNotations.
Open Scope Z_scope.

(** What a value hands to the hasher: integers, each with its type
    ([write_u16] etc.). *)
Inductive hcall := HInt (t : ity) (v : Z).

(** boundedint.rs:309-361: derived [Hash] of the bounded integers, and std's of the
    integers. *)
Definition b_feed (b : bty) (v : Z) : list hcall := [HInt (b_inner b) v].
(** pos.rs:74 (a struct with one pair), and std's of pairs. *)
Definition pos_feed (P : post) (p : pos) : list hcall := b_feed (pt_x P) (fst p) ++ b_feed (pt_y P) (snd p).
(** dir.rs:26: the discriminant, an [isize]. *)
Definition dir_feed (d : dir) : list hcall := [HInt isize (dir_index d)].
(** grid.rs:61: the array, i.e. its length and the items; [PhantomData] adds nothing. *)
Definition grid_feed {Item} (feed : Item -> list hcall) (g : grid Item) : list hcall :=
  HInt usize (Z.of_nat (length g)) :: flat_map feed g.
(** gridbool.rs:57: the array of words (std hands integers of an array over as one
    run of bytes; here one by one, which tells the same values apart). *)
Definition gb_feed (g : gridbool) : list hcall :=
  HInt usize (Z.of_nat (length g)) :: flat_map (fun w => [HInt u32 w]) g.

(** A hasher: its state, what it does with an integer, its result. *)
Record hasher := Hasher { h_state : Type; h_new : h_state; h_write : h_state -> hcall -> h_state; h_finish : h_state -> Z }.
Definition hash_of (H : hasher) (l : list hcall) : Z := h_finish H (fold_left (h_write H) l (h_new H)).

Inductive slot (V : Type) := Empty | Deleted | Full (tag : Z) (key : pos) (val : V).
Arguments Empty {V}.
Arguments Deleted {V}.
Arguments Full {V}.

Section Table.
  Context {V : Type}.
  (** The hash of a key and the order in which the slots are examined: any
      function of the number of slots and the hash. *)
  Context (hash : pos -> Z) (probe : nat -> Z -> list nat).

  Definition tag_of (h : Z) : Z := h / 144115188075855872 mod 128.

  (** The slot that holds the key. *)
  Fixpoint find_in (s : list (slot V)) (tag : Z) (p : pos) (l : list nat) : option (nat * V) :=
    match l with
    | [] => None
    | i :: l' =>
        match nth i s Empty with
        | Empty => None
        | Deleted => find_in s tag p l'
        | Full t q v => if (t =? tag) && pos_eqb q p then Some (i, v) else find_in s tag p l'
        end
    end.
  Definition find (s : list (slot V)) (p : pos) : option (nat * V) :=
    find_in s (tag_of (hash p)) p (probe (length s) (hash p)).

  (** The first slot that can be filled. *)
  Fixpoint free_in (s : list (slot V)) (l : list nat) : option nat :=
    match l with
    | [] => None
    | i :: l' => match nth i s Empty with Full _ _ _ => free_in s l' | _ => Some i end
    end.
  Definition free (s : list (slot V)) (p : pos) : option nat := free_in s (probe (length s) (hash p)).

  Fixpoint fill (s : list (slot V)) (i : nat) (x : slot V) : list (slot V) :=
    match s, i with
    | [], _ => []
    | _ :: s', O => x :: s'
    | y :: s', S i' => y :: fill s' i' x
    end.

  Definition items (s : list (slot V)) : list (pos * V) :=
    flat_map (fun x => match x with Full _ p v => [(p, v)] | _ => [] end) s.
  Definition in_use (s : list (slot V)) : nat :=
    length (filter (fun x => match x with Empty => false | _ => true end) s).

  (** How many slots of [n] may be in use. *)
  Definition room (n : nat) : nat := if Nat.ltb n 8 then Nat.pred n else Nat.mul (Nat.div n 8) 7.

  Definition place (s : list (slot V)) (pv : pos * V) : list (slot V) :=
    match free s (fst pv) with
    | Some i => fill s i (Full (tag_of (hash (fst pv))) (fst pv) (snd pv))
    | None => s
    end.
  (** All keys moved to a new table, twice as large unless at least half of the old
      one was tombstones. *)
  Definition rebuild (s : list (slot V)) : list (slot V) :=
    let k := length (items s) in
    let n := length s in
    let n' := if Nat.ltb n 4 then 4%nat else if Nat.leb (S k) (Nat.div (room n) 2) then n else Nat.mul 2 n in
    fold_left place (items s) (repeat Empty n').

  Definition table_get (s : list (slot V)) (p : pos) : option V := option_map snd (find s p).
  Definition table_insert (s : list (slot V)) (p : pos) (v : V) : list (slot V) :=
    match find s p with
    | Some (i, _) => fill s i (Full (tag_of (hash p)) p v)
    | None =>
        match free s p with
        | Some i =>
            match nth i s Empty with
            | Empty => if Nat.ltb (in_use s) (room (length s)) then place s (p, v) else place (rebuild s) (p, v)
            | _ => place s (p, v)
            end
        | None => place (rebuild s) (p, v)
        end
    end.
  Definition table_remove (s : list (slot V)) (p : pos) : list (slot V) :=
    match find s p with Some (i, _) => fill s i Deleted | None => s end.
End Table.

(** setpos.rs:47-61 and mappos.rs:56-70 on these tables. *)
Definition set_table (hash : pos -> Z) (probe : nat -> Z -> list nat) : setops (list (slot unit)) :=
  SetOps (Ret [])
    (fun s p => Ret (match table_get hash probe s p with Some _ => true | None => false end))
    (fun s p => Ret (table_insert hash probe s p tt))
    (fun s p => Ret (table_remove hash probe s p)).
Definition map_table {Item} (hash : pos -> Z) (probe : nat -> Z -> list nat) : mapops Item (list (slot Item) * Item) :=
  MapOps (fun d => ([], d)) (fun item => ([], item))
    (fun m p => Ret (unwrap_or (table_get hash probe (fst m) p) (snd m)))
    (fun m p v => Ret (table_insert hash probe (fst m) p v, snd m)).
