(** Btree.v -- BTreeSet and BTreeMap of std, which setpos.rs:63-77 and mappos.rs:72-86
    use, as B-trees.

    SetMap.v has sorted lists instead.  Here they are trees of nodes with arrays of up
    to 11 entries, after liballoc's btree module (search.rs, node.rs, map/entry.rs,
    remove.rs, fix.rs): nodes split when they are full, and are merged with a
    neighbour or take entries from it when they have less than 5.  Reading or writing
    outside the entries of a node, and "unreachable", is a panic here.  liballoc's
    source was not at hand: this follows its algorithms and names from knowledge of
    them, not line by line.

    The order of the keys is a parameter: a position type of the user's may implement
    [Ord] in its own way.

    Simplified: the code holds handles and walks up through parent pointers where the
    model returns from a recursion; a map without a root is a leaf without entries;
    the entry that takes the place of a removed inner one is put there before the
    nodes below are rebalanced, not after. *)

From Coq Require Import ZArith List Bool Arith.
From Verif Require Import Rust BoundedInt Dir PosT Pos Grid Gridbool SetMap.
Import ListNotations.
Open Scope nat_scope.

(** node.rs: B = 6, CAPACITY = 2 * B - 1, MIN_LEN_AFTER_SPLIT = B - 1 (MIN_LEN). *)
Definition CAPACITY : nat := 11.
Definition MIN_LEN : nat := 5.

(** A node has entries and, unless it is a leaf, one more children (edges). *)
Inductive node (V : Type) := Node (kvs : list (pos * V)) (edges : list (node V)).
Arguments Node {V}.

Definition kvs {V} (t : node V) : list (pos * V) := match t with Node ks _ => ks end.
Definition edges {V} (t : node V) : list (node V) := match t with Node _ cs => cs end.
Definition len {V} (t : node V) : nat := length (kvs t).

(** The element with an index, and what is before and after it. *)
Definition cut {A} (i : nat) (l : list A) : exec (list A * A * list A) :=
  match skipn i l with
  | x :: after => Ret (firstn i l, x, after)
  | [] => Panic
  end.

(** A node whose arrays have room for these entries. *)
Definition fit_node {V} (ks : list (pos * V)) (cs : list (node V)) : exec (node V) :=
  if length ks <=? CAPACITY then Ret (Node ks cs) else Panic.

(** search.rs: [find_key_index]: linear search in a node; the index of the key
    ([true]), or of the edge to go down.  [cmp] is [Ord::cmp] of the positions. *)
Fixpoint find_key {V} (cmp : pos -> pos -> comparison) (p : pos) (ks : list (pos * V)) : nat * bool :=
  match ks with
  | [] => (0, false)
  | (k, _) :: ks' =>
      match cmp p k with
      | Gt => let '(i, found) := find_key cmp p ks' in (S i, found)
      | Eq => (0, true)
      | Lt => (0, false)
      end
  end.

(** search.rs: [search_tree], and map.rs: [get].  [h] is the height of the node. *)
Fixpoint node_get {V} (cmp : pos -> pos -> comparison) (h : nat) (t : node V) (p : pos) : exec (option V) :=
  let '(i, found) := find_key cmp p (kvs t) in
  if found then
    '(_, kv, _) <- cut i (kvs t) ;;
    Ret (Some (snd kv))
  else
    match h with
    | O => Ret None
    | S h' =>
        '(_, c, _) <- cut i (edges t) ;;
        node_get cmp h' c p
    end.

(** node.rs: [splitpoint]: where to split a full node for an insertion at an edge:
    the index of the middle entry, whether to insert to the right of it, and at which
    edge there. *)
Definition splitpoint (i : nat) : nat * bool * nat :=
  if i <? 5 then (4, false, i)
  else if i =? 5 then (5, false, i)
  else if i =? 6 then (5, true, 0)
  else (6, true, i - 7).

(** node.rs: [insert_fit]: an entry, and (in inner nodes) the edge to its right. *)
Definition insert_fit {V} (ks : list (pos * V)) (cs : list (node V)) (i : nat) (kv : pos * V) (edge : list (node V)) : exec (node V) :=
  fit_node (firstn i ks ++ kv :: skipn i ks) (firstn (S i) cs ++ edge ++ skipn (S i) cs).

(** What became of a node: it, or two nodes and the entry between them. *)
Inductive grown (V : Type) := Fit (t : node V) | Split (l : node V) (kv : pos * V) (r : node V).
Arguments Fit {V}.
Arguments Split {V}.

(** node.rs: [insert]: into a node that may be full. *)
Definition insert_node {V} (ks : list (pos * V)) (cs : list (node V)) (i : nat) (kv : pos * V) (edge : list (node V)) : exec (grown V) :=
  if length ks <? CAPACITY then
    t <- insert_fit ks cs i kv edge ;;
    Ret (Fit t)
  else
    let '(m, to_right, j) := splitpoint i in
    '(k1, mid, k2) <- cut m ks ;;
    let c1 := firstn (S m) cs in
    let c2 := skipn (S m) cs in
    if to_right then
      r <- insert_fit k2 c2 j kv edge ;;
      Ret (Split (Node k1 c1) mid r)
    else
      l <- insert_fit k1 c1 j kv edge ;;
      Ret (Split l mid (Node k2 c2)).

(** map.rs: [insert] (the key of an occupied entry is kept), node.rs:
    [insert_recursing]. *)
Fixpoint node_insert {V} (cmp : pos -> pos -> comparison) (h : nat) (t : node V) (p : pos) (v : V) : exec (grown V) :=
  let '(i, found) := find_key cmp p (kvs t) in
  if found then
    '(a, kv, b) <- cut i (kvs t) ;;
    Ret (Fit (Node (a ++ (fst kv, v) :: b) (edges t)))
  else
    match h with
    | O => insert_node (kvs t) (edges t) i (p, v) []
    | S h' =>
        '(a, c, b) <- cut i (edges t) ;;
        g <- node_insert cmp h' c p v ;;
        match g with
        | Fit c' => Ret (Fit (Node (kvs t) (a ++ c' :: b)))
        | Split l kv r => insert_node (kvs t) (a ++ l :: b) i kv [r]
        end
    end.

(** node.rs: [can_merge], [merge_tracking_parent], [bulk_steal_left] and
    [bulk_steal_right]: balances the children to both sides of entry [j]; one of them
    has less than [MIN_LEN] entries, the right one if [from_left]. *)
Definition rebalance {V} (ks : list (pos * V)) (cs : list (node V)) (j : nat) (from_left : bool) : exec (node V) :=
  '(ka, pk, kb) <- cut j ks ;;
  '(ca, l, rest) <- cut j cs ;;
  '(_, r, cb) <- cut 0 rest ;;
  if len l + 1 + len r <=? CAPACITY then
    m <- fit_node (kvs l ++ pk :: kvs r) (edges l ++ edges r) ;;
    Ret (Node (ka ++ kb) (ca ++ m :: cb))
  else if from_left then
    let count := MIN_LEN - len r in
    '(k1, k, k2) <- cut (len l - count) (kvs l) ;;
    r' <- fit_node (k2 ++ pk :: kvs r) (skipn (S (length k1)) (edges l) ++ edges r) ;;
    Ret (Node (ka ++ k :: kb) (ca ++ Node k1 (firstn (S (length k1)) (edges l)) :: r' :: cb))
  else
    let count := MIN_LEN - len l in
    '(k1, k, k2) <- cut (count - 1) (kvs r) ;;
    l' <- fit_node (kvs l ++ pk :: k1) (edges l ++ firstn count (edges r)) ;;
    Ret (Node (ka ++ k :: kb) (ca ++ l' :: Node k2 (skipn count (edges r)) :: cb)).

(** fix.rs: [fix_node_through_parent] for child [i] of a node; node.rs:
    [choose_parent_kv]: the left neighbour if there is one. *)
Definition fix_child {V} (ks : list (pos * V)) (cs : list (node V)) (i : nat) : exec (node V) :=
  '(_, c, _) <- cut i cs ;;
  if MIN_LEN <=? len c then Ret (Node ks cs)
  else match i with
       | S j => rebalance ks cs j true
       | O => rebalance ks cs 0 false
       end.

(** remove.rs: the last entry below a node is taken out. *)
Fixpoint pop_last {V} (h : nat) (t : node V) : exec (node V * (pos * V)) :=
  match h with
  | O =>
      '(a, kv, _) <- cut (len t - 1) (kvs t) ;;
      Ret (Node a (edges t), kv)
  | S h' =>
      '(a, c, b) <- cut (len t) (edges t) ;;
      '(c', kv) <- pop_last h' c ;;
      t' <- fix_child (kvs t) (a ++ c' :: b) (len t) ;;
      Ret (t', kv)
  end.

(** remove.rs: [remove_kv_tracking]: [remove_leaf_kv], [remove_internal_kv]. *)
Fixpoint node_remove {V} (cmp : pos -> pos -> comparison) (h : nat) (t : node V) (p : pos) : exec (node V) :=
  let '(i, found) := find_key cmp p (kvs t) in
  match h with
  | O =>
      if found then
        '(a, _, b) <- cut i (kvs t) ;;
        Ret (Node (a ++ b) (edges t))
      else Ret t
  | S h' =>
      '(a, c, b) <- cut i (edges t) ;;
      if found then
        '(ka, _, kb) <- cut i (kvs t) ;;
        '(c', kv) <- pop_last h' c ;;
        fix_child (ka ++ kv :: kb) (a ++ c' :: b) i
      else
        c' <- node_remove cmp h' c p ;;
        fix_child (kvs t) (a ++ c' :: b) i
  end.

(** A tree: the root and its height. *)
Definition tree (V : Type) : Type := nat * node V.
Definition tree_empty {V} : tree V := (O, Node [] []).
Definition tree_get {V} (cmp : pos -> pos -> comparison) (t : tree V) (p : pos) : exec (option V) := node_get cmp (fst t) (snd t) p.

(** map/entry.rs: [VacantEntry::insert]: a split root becomes a level more. *)
Definition tree_insert {V} (cmp : pos -> pos -> comparison) (t : tree V) (p : pos) (v : V) : exec (tree V) :=
  g <- node_insert cmp (fst t) (snd t) p v ;;
  Ret match g with
      | Fit n => (fst t, n)
      | Split l kv r => (S (fst t), Node [kv] [l; r])
      end.

(** map/entry.rs: [OccupiedEntry::remove_kv]: an empty inner root is taken off. *)
Definition tree_remove {V} (cmp : pos -> pos -> comparison) (t : tree V) (p : pos) : exec (tree V) :=
  n <- node_remove cmp (fst t) (snd t) p ;;
  match fst t with
  | S h' =>
      if len n =? 0 then
        '(_, c, _) <- cut 0 (edges n) ;;
        Ret (h', c)
      else Ret (fst t, n)
  | O => Ret (fst t, n)
  end.

(** setpos.rs:63-77: BTreeSet is a BTreeMap with items of size zero. *)
Definition set_tree_by (cmp : pos -> pos -> comparison) : setops (tree unit) :=
  SetOps (Ret tree_empty)
    (fun s p => o <- tree_get cmp s p ;; Ret match o with Some _ => true | None => false end)
    (fun s p => tree_insert cmp s p tt)
    (tree_remove cmp).

(** mappos.rs:72-86: (BTreeMap, Item). *)
Definition map_tree_by {Item} (cmp : pos -> pos -> comparison) : mapops Item (tree Item * Item) :=
  MapOps (fun d => (tree_empty, d)) (fun item => (tree_empty, item))
    (fun m p => o <- tree_get cmp (fst m) p ;; Ret (unwrap_or o (snd m)))
    (fun m p v => t <- tree_insert cmp (fst m) p v ;; Ret (t, snd m)).

(** pos.rs:74: the derived [Ord::cmp] of [Pos], and std's of tuples. *)
Definition pos_cmp (p q : pos) : comparison :=
  match (fst p ?= fst q)%Z with
  | Eq => (snd p ?= snd q)%Z
  | c => c
  end.
Definition set_tree : setops (tree unit) := set_tree_by pos_cmp.
Definition map_tree {Item} : mapops Item (tree Item * Item) := map_tree_by pos_cmp.
