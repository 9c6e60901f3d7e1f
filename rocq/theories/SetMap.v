(** SetMap.v -- model of src/sqrid/setpos.rs and of the [MapPos] trait in
    src/sqrid/mappos.rs, with their three implementations each.

    std's HashSet/HashMap are modelled as association lists keyed by equality,
    BTreeSet/BTreeMap as association lists sorted by the position order. *)

From Coq Require Import ZArith List Bool.
From Verif Require Import Rust BoundedInt Dir PosT Pos Grid Gridbool.
Import ListNotations.
Open Scope Z_scope.

(** setpos.rs:18-33: the trait, plus [Default], which the algorithms require. *)
Record setops (S : Type) := SetOps {
  sp_default : exec S;
  sp_contains : S -> pos -> exec bool;
  sp_insert : S -> pos -> exec S;
  sp_remove : S -> pos -> exec S
}.
Arguments SetOps {S}.
Arguments sp_default {S} s.
Arguments sp_contains {S} s.
Arguments sp_insert {S} s.
Arguments sp_remove {S} s.

(** setpos.rs:26-32: the provided method [set]. *)
Definition sp_set {S} (ops : setops S) (s : S) (p : pos) (add : bool) : exec S :=
  if add then sp_insert ops s p else sp_remove ops s p.

(** setpos.rs:35-45: Gridbool. *)
Definition set_gridbool (P : post) (WORDS : Z) : setops gridbool :=
  SetOps (gb_default P WORDS) (gb_get P) (gb_set_t P) (gb_set_f P).

(** setpos.rs:47-61: HashSet. *)
Definition set_hash : setops (list pos) :=
  SetOps (Ret [])
    (fun s p => Ret (existsb (pos_eqb p) s))
    (fun s p => Ret (if existsb (pos_eqb p) s then s else p :: s))
    (fun s p => Ret (filter (fun q => negb (pos_eqb p q)) s)).

(** setpos.rs:63-77: BTreeSet, a sorted list. *)
Fixpoint btset_insert (s : list pos) (p : pos) : list pos :=
  match s with
  | [] => [p]
  | q :: s' =>
      if pos_ltb p q then p :: s
      else if pos_eqb p q then s
      else q :: btset_insert s' p
  end.
Fixpoint btset_contains (s : list pos) (p : pos) : bool :=
  match s with
  | [] => false
  | q :: s' =>
      if pos_ltb p q then false
      else if pos_eqb p q then true
      else btset_contains s' p
  end.
Fixpoint btset_remove (s : list pos) (p : pos) : list pos :=
  match s with
  | [] => []
  | q :: s' =>
      if pos_ltb p q then s
      else if pos_eqb p q then s'
      else q :: btset_remove s' p
  end.
Definition set_btree : setops (list pos) :=
  SetOps (Ret [])
    (fun s p => Ret (btset_contains s p))
    (fun s p => Ret (btset_insert s p))
    (fun s p => Ret (btset_remove s p)).

(** mappos.rs:31-38: the trait, plus [Default] ([mp_default d], where [d] is the
    item type's default). *)
Record mapops (Item M : Type) := MapOps {
  mp_default : Item -> M;
  mp_new : Item -> M;
  mp_get : M -> pos -> exec Item;
  mp_set : M -> pos -> Item -> exec M
}.
Arguments MapOps {Item M}.
Arguments mp_default {Item M} m.
Arguments mp_new {Item M} m.
Arguments mp_get {Item M} m.
Arguments mp_set {Item M} m.

(** mappos.rs:40-54: Grid. *)
Definition map_grid {Item} (P : post) (SIZE : Z) : mapops Item (grid Item) :=
  MapOps (grid_default SIZE) (grid_repeat SIZE) (grid_get P) (grid_set P).

(** mappos.rs:56-70: (HashMap, Item). *)
Fixpoint assoc_get {Item} (m : list (pos * Item)) (p : pos) : option Item :=
  match m with
  | [] => None
  | (q, v) :: m' => if pos_eqb p q then Some v else assoc_get m' p
  end.
Fixpoint assoc_set {Item} (m : list (pos * Item)) (p : pos) (v : Item) : list (pos * Item) :=
  match m with
  | [] => [(p, v)]
  | (q, u) :: m' => if pos_eqb p q then (p, v) :: m' else (q, u) :: assoc_set m' p v
  end.
Definition unwrap_or {A} (o : option A) (d : A) : A :=
  match o with Some a => a | None => d end.
Definition map_hash {Item} : mapops Item (list (pos * Item) * Item) :=
  MapOps (fun d => ([], d)) (fun item => ([], item))
    (fun m p => Ret (unwrap_or (assoc_get (fst m) p) (snd m)))
    (fun m p v => Ret (assoc_set (fst m) p v, snd m)).

(** mappos.rs:72-86: (BTreeMap, Item). *)
Fixpoint btmap_get {Item} (m : list (pos * Item)) (p : pos) : option Item :=
  match m with
  | [] => None
  | (q, v) :: m' =>
      if pos_ltb p q then None
      else if pos_eqb p q then Some v
      else btmap_get m' p
  end.
Fixpoint btmap_set {Item} (m : list (pos * Item)) (p : pos) (v : Item) : list (pos * Item) :=
  match m with
  | [] => [(p, v)]
  | (q, u) :: m' =>
      if pos_ltb p q then (p, v) :: m
      else if pos_eqb p q then (p, v) :: m'
      else (q, u) :: btmap_set m' p v
  end.
Definition map_btree {Item} : mapops Item (list (pos * Item) * Item) :=
  MapOps (fun d => ([], d)) (fun item => ([], item))
    (fun m p => Ret (unwrap_or (btmap_get (fst m) p) (snd m)))
    (fun m p v => Ret (btmap_set (fst m) p v, snd m)).
