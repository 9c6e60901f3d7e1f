# Formal model of sqrid: design

Code under study: `/repo/src/sqrid/*.rs` (read as text; never built or run here).
Model and proofs: `/verif/rocq/theories` (Coq 8.16.1, standard library only).

## 1. Approach

The Rust code is transcribed function by function into small total Gallina
functions.  Everything Rust can do besides returning a value is explicit:

* `exec A := Ret a | Panic | UB | Fuel` -- a Rust expression either returns,
  panics (index out of bounds, `unwrap` on `None`, arithmetic overflow,
  `assert!`), performs undefined behaviour (`get_unchecked` out of bounds), or
  (only for `while`/`loop`/user driven iteration, which Gallina cannot express
  directly) ran out of the fuel given to the model.
* machine integers are `Z` with the bounds of their type carried explicitly;
  `+ - *` on `usize` go through checked helpers which give `Panic` outside
  `[0, 2^64)` (debug-build semantics; the theorems show that no panic occurs,
  in which case release builds behave identically).
* `as u16` casts are `mod 65536`.
* const-generic types become records: `bint` (a bounded integer type with its
  inner machine type) and `post` (an implementation of the `PosT` trait with
  its two coordinate types and its WIDTH/HEIGHT constants).  Values are pairs
  of `Z`; "is a value of that type" is a validity predicate.
* `Result`/`Option` are inductive types; error values are the crate's enum.
* traits `SetPos`/`MapPos` are records of operations; the generic search code
  is written against these records and instantiated with the three back-ends.

Fuel: a theorem about a loop is stated as "there is an n such that for every
fuel m >= n the run returns `Ret r`", so it includes termination.  Fuel is
never a bound on the claim.

Files: `*.v` model files contain only definitions, each citing file and lines.
`Spec*.v` hold the independent specification vocabulary, see section 3.
`*Proofs.v`, `Fair*.v`, `BestFirst.v`, `Ordered*.v`, `Sim.v`, `Deque.v`, `Lib.v` hold lemmas.  `Prop*.v`
hold only the property theorems (`exact lemma`), their `Print Assumptions` and
concrete examples.  MANIFEST.json maps properties to theorems.

Naming: `Cnn_..._refuted` proves that the property as stated is false of the
model, with a witness; `Cnn_..._partial` proves the part that holds, its comment
says what is missing; `Cnn_..._exact` describes all cases.

## 2. Properties

| id | modelled | how proved |
|----|----------|-----------|
| C01-C04 | all of boundedint.rs: trait default methods, macro-generated types for the twelve integer types, iterator | case analysis + `lia`; iterator by simulation with a list deque, induction on the call sequence. C04 is false for `From<bool>`/`Default`: refuted, exact condition proved |
| C05, C06, C19, C20 | Pos constructors and conversions | arithmetic; C06 refuted by (65536,0), exact characterisation proved |
| C07-C10 | to_usize/try_from/next/prev/PosTIter | `Z` division lemmas, induction on the remaining range; deque simulation |
| C11 | size_hint | refuted after the first `next`; fresh full iterators proved |
| C12-C14 | PosTIterRange, PosTIterInX/Y, tlbr_of | invariant over the iteration; C12 refuted, exact result proved |
| C15-C18 | geometry functions | arithmetic, overflow-freeness included |
| C21-C26 | dir.rs, posdir.rs | finite case analysis for Dir laws, arithmetic and induction on distance for direction_to; C23/C24 refuted in part |
| C27 | integer tuple PosT | refuted with witnesses; correct part proved |
| C28 | derived Ord on Pos | arithmetic on column-major index |
| C29-C36 | Grid as a list of SIZE elements, in-place loops as folds of swaps | fold of disjoint swaps/4-cycles; C30 refuted (the associated const is never evaluated), C35 refuted (`as u16`) |
| C37-C42 | Gridbool as list of u32 words | bit lemmas (`Z.testbit`), same fold lemmas; C41 refuted on even sides, C42 refuted by padding bits; exact positive parts proved |
| C43 | three SetPos and three MapPos back-ends | abstraction functions, induction on operation histories |
| C44, C45 | camefrom_into_path | induction on fuel; C45 refuted (maxiter uses width twice), exact condition proved |
| C46-C49 | bf.rs | level invariant by induction on the number of `next` calls |
| C50-C53 | ucs.rs | invariants over the iterator (discovered/settled/frontier), termination measure; C51 refuted, positive part for cell-determined costs |
| C54-C56 | astar.rs | the same generic machine with a heuristic; C55, C56 refuted, positive parts |
| C57 | all back-end entry points | simulation between lawful back-ends |
| C58, C78, C79, C102 | Display of Grid, Gridbool, Pos, bounded integers, Dir, Error; the Formatter is its padding function | list induction, decimal numerals |
| C59-C73 | the exact behaviour behind the refuted C04, C06, C11, C12, C27, C23, C24, C30, C35, C68, C41, C42, C45, C46, C49 | as there |
| C74, C75, C83, C84 | ucs_path and astar_path: exact outcome, on grid types and on any position type | the best-first machine of BestFirst.v |
| C76, C77, C85, C86 | A* and UCS iterators, A* with diagonals along open straight lines | invariants of the machine |
| C80 | grid-backed storage: exact condition for memory safety (refuted in general) | simulation |
| C81, C82 | breadth-first search on any position type | level invariant |
| C87-C90 | agreement of the searches, metric laws, open grid, monotonicity | from the exact outcomes |
| C91-C93 | the maps returned by search_mapmov | invariants of the loops |
| C94-C96, C112, C113 | histories of modifications of Grid and Gridbool | induction on the history |
| C97, C104-C107 | extreme, scaled, nearly uniform and octile costs; frame property | simulation; counterexamples |
| C98-C101 | array views, bitmap layout, derived order | list induction |
| C103 | searches commute with mirroring and turning | simulation with permuted directions |
| C108, C109 | searches with any lawful priority queue; std's BinaryHeap | simulation; heap invariant |
| C110, C111 | bounds on items yielded and turns taken by UCS and A* | counting argument on runs of the machine |
| C114-C117 | programs that combine the parts: mazes kept in a Gridbool, flood fill, distance maps, reversing a Grid | from the theorems on the parts |
| C118-C119 | the shape of returned paths: no position twice; how far A* strays | the stored direction is a function of the position, so a repeated position would repeat for ever; A*'s queue is popped in order of estimate |
| C120 | uniform-cost search and A* in mazes kept in a Gridbool | from the theorems on the parts |
| C121 | exactly which shortest path breadth-first search returns | order of the words carried along by the fronts |
| C122 | the calls made of closures with effects | each function of Closures.v performs a list of calls, composed along the code |
| C123 | searches survive any closures | invariants over any sequence of answers; the sum of stored costs (or the number of unvisited positions) decreases |
| C124 | uniform-cost search in release builds | the same; stored costs are costs of walks modulo 2^64 |
| C125 | how far A* strays with diagonals | on every walk to a position not yet popped some position waits in the queue with a cost not above that of the walk; the Manhattan distance is at most twice the number of moves |
| C126 | exactly which path uniform-cost search returns; the moves of A* | invariants over the queue and the popped entries: entries for one position are pushed with decreasing priorities from positions popped ever later, and popped in order of priority, so that the last one popped before the destination is the first one found |
| C127 | searches on targets with 16, 32 or 64 bits, with and without overflow checks | simulation of the 64-bit searches, recorded costs agreeing up to usize::MAX for "none"; the loop that reads off the path with a wrapped limit |
| C128 | searches on a map placed in another grid | simulation of two runs; the order of queue entries is invariant under shifts |
| C129 | hash storage with any hasher | invariant of open addressing: no empty slot before a key on its probe sequence, no key twice; then the simulation of C43 |
| C130 | Debug texts are different for different values | reading back: dropping blanks and adding commas gives a prefix-free form, decoded by induction on the tree |
| C131 | searches with any storage that acts as a set and maps | the state is related to a set by its answers to all later calls; simulation needs no removal |
| C132 | BTreeSet and BTreeMap as B-trees: same answers, balanced, same search results | every operation acts on the entries in order like on a sorted list; induction on the height |
| C133 | exact bfs path; the same when planned again, up to a position of it, without unused moves | parts of the first shortest walk are first shortest walks |
| C134 | planning again with ucs_path and astar_path | refuted by maps on which it goes back and forth for ever; holds for paths of lowest cost and, for A-star, without detours |
| C135 | searches without overflow checks on any position type and target | each operation without checks refines the one with checks; the map is that of the 64-bit search, and going back takes as many steps as the path has moves |
| C136 | positions, grids and their text on targets with another usize | each loop is rewritten step by step: every position on the way is inside the type, so all sums and products fit |
| C137 | sizes, indices and size hints of wide position types, with and without checks | arithmetic modulo 2^bits; division with remainder |
| C138 | integer ranges with bounds in either order | deque for bounds in order; two independent counters otherwise |
| C139 | ranges of positions with corners in the wrong order | case analysis on the borders; induction on the column |
| C140 | rows and columns on any position type | induction on the remaining calls |
| C141 | iterators that have ended stay ended | every state in which `next` gives None is unchanged by it |
| C142 | flips, rotations, distances, indices, steps and borders on any position type | arithmetic with the bounds of any integer type |
| C143 | Grid and Gridbool of any position type and length | indices of different positions differ; exact length for memory safety |
| C144 | Paths of uniform-cost search do not depend on moves they do not use | the move recorded at each position of the path is the same in both searches |
| C145 | Costs of uniform-cost search behave like distances | returned costs are lowest costs; walks joined, kept and reversed |
| C146 | Searches look no further than they need to | what leaves the queue before the destination is near; a step consults the closure only there |
| C147 | Shortest paths of A* search stay | two runs compared along the path: what the smaller one pops before a position of the path, the larger one does too; entries tell who offered the lowest cost so far |
| C148 | Searches on position types with an order of their own | the best-first machine may pop any entry of the lowest priority (Fair.v); iterators over any fair queue follow it; the invariant of the binary heap speaks of costs only |
| C149 | Iterators of searches on position types with an order of their own | repeated calls follow the runs of the best-first machine until the frontier is empty; its invariants tell the order of first yields |
| C150 | BTreeSet and BTreeMap storage on position types with an order of their own | Btree.v takes the comparison as a parameter; the proofs of C132 use only that it is a total order, the shape of the trees not even that; an order of the values of the type is extended to all pairs, on which the trees cannot tell the difference |
| C151 | Work and paths of searches on position types with an order of their own | the proofs of C76, C110, C111, C125 and C146 on the runs of Fair.v, which assume of the queue only that it pops an element of the lowest cost |
| C152 | The order of a position type decides which path is returned | runs of Ordered.v, in which ties are broken by an order; two such runs of the same length pop the same elements, as elements with the same position never have the same cost; the heap invariant of PropOrderProofs.v for any order; the proofs of C126 |
| C153 | Exactly what the iterator of UCS yields, and in which order | the invariant of C126 on runs (where each element comes from, and what settled positions have told), at the end of a run; no two elements, queued or popped, have the same position and cost; runs with an empty queue cannot continue, so two of them are the same |
| C154 | Paths of UCS on position types with an order of their own stay when planned again | the exact description of the path of C152: each position is entered from the first settled one among those with the lowest cost; parts of a path of lowest cost have the lowest cost, and closing moves or moving the origin along the path keeps which of two positions is settled first |
| C155 | Shortest paths of A* on position types with an order of their own | the argument of C147 (`Chrono.v`, `Spine.v`) on runs that break ties by any order (`ChronoBy.v`, `SpineBy.v`, `KeepBy.v`) |

## 3. Specification vocabulary

* `Spec.v`: validity of positions, `grid_type` (a position type with u16
  dimensions), `cols`/`rows`/`cells`, row-major and column-major indices and
  enumerations, double-ended queues, displacement of directions (`step`),
  `follow`ing a path, spellings of directions, `proper` grids, `roomy`
  Gridbools (enough words) and `bit_at`, answers of abstract sets and maps.
* `SpecSearch.v`: `walk`, `reachable`, `at_distance`, `nearest_goal`,
  `cost_walk`, `lowest_cost`, `beeline`; the conditions on closures `go_inside`,
  `one_step` (both only constrain valid positions) and `reversible`; conditions
  on costs `small_costs`, `affordable` (no sum of costs along a walk without
  repetition overflows usize), `cost_of_entering`; `retraceable` (the path
  reconstruction computes no overflowing number); `returns` and `settles` (what
  a run gives with enough fuel); the three back-ends `OnGrid`, `OnHash`,
  `OnBTree` and the entry points on them.
* `SpecDisplay.v`: decimal numerals, padding, the picture of a grid.
* `SpecHistory.v`: modifications of grids and what they do to pictures.
* `SpecMaze.v`: mazes, routes as sequences of neighbouring free cells.
* `SpecFirst.v`: the order of paths, the first of the walks of a given length.
* `SpecClosures.v`: lists of calls of closures, their effect, the calls around a
  position; `gives` (what every run ends with), paths in the grid.
* `SpecRelease.v`: uniform-cost search without overflow checks on the storage
  types.
* `SpecSettle.v`: the order in which uniform-cost search settles positions, and
  the path made of the moves found first.
* `SpecSymmetry.v`: mirror images and quarter turns of positions, directions
  and closures.
* `SpecPrice.v`: nearly uniform and octile costs.
* `SpecTarget.v`: the searches on a target, `usize_MAX`, `fits_target` (the
  numbers computed from the dimensions fit), `affordable_on`.
* `SpecWrap.v`: the `wrapped_limit` on the length of paths, `wrapped_retraceable`.
* `SpecEmbed.v`: `shift`, and what it means that a map is placed in another grid.
* `SpecDebug.v`: `word`s, and trees of Debug calls that are `readable`.
* `SpecStorage.v`: storage types of a user that `acts_as_set`, `acts_as_map`: judged only by answers to calls.
* `SpecBtree.v`: the `entries` of a B-tree in order, `balanced` trees, the state after a history, and
  what a `total_order` is; `SpecTreeOrder.v`: what an order of the values of a type is (`order_of`), and the
  searches that use it; `SpecOrderPath.v`: queues that pop by such an order (`ordered_queue`); `SpecYield.v`: what
  the iterator of UCS yields (`improving`); `SpecKeepBy.v`: which shortest path A* returns
  (`foremost_by`).
* `SpecReplan.v`: the `first_shortest` walk to a goal; walks `replanned` before every move.
* `SpecKeep.v`: the `foremost` of the shortest paths, in the order in which A* search
  looks at positions.
* `SpecHash.v`: `fair` probing orders, searches on hash tables.
* `SpecQueue.v`: the order of queue entries, the contract of a queue.
* `SpecOrder.v`: the contract of a queue that chooses among entries of the same cost.

## 4. Trusted base

* Coq 8.16.1 kernel (and `vm_compute` for concrete witnesses and examples).
* The transcription from Rust to Gallina: each definition cites the lines it
  transcribes.
* The models of parts of std: the contracts used throughout (Heap.v, SetMap.v),
  the formatting helpers (Display.v, Debug.v) and the data structures (Queue.v, Order.v,
  Hash.v, Btree.v).  std's source was not available in the sandbox.  These were
  written from knowledge of std and could not be compared with its text.  The
  theorems about the crate use the contracts; C109, C129, C132, C148 and C150 relate the data
  structures, as modelled, to the contracts.
* `Print Assumptions` is run under every property theorem, and prints "Closed
  under the global context" for every one of them: no axioms are used.
  (The checker's list of axioms in loaded libraries names seven constants of
  `Coq.ssr.ssrunder.Under_rel`; the standard library's `List` and `Lia` load
  this module.  No theorem depends on them.)

## 5. Modelled parts of the code

| Rust file | model file | parts |
|-----------|-----------|-------|
| boundedint.rs | BoundedInt.v, Views.v | everything, for all integer types, incl. Display/Debug |
| postrait.rs, pos.rs | PosT.v, Pos.v, Display.v, Debug.v, Target.v, TargetGrid.v | all trait methods with their defaults, iterators, conversions, integer tuples, Display, Debug of Pos |
| dir.rs, posdir.rs | Dir.v, Pos.v, Debug.v | everything |
| grid.rs | Grid.v, Views.v, Display.v, Debug.v, TargetGrid.v | everything; references are values or write slots |
| gridbool.rs | Gridbool.v, Views.v, Display.v, Debug.v, TargetGrid.v | everything |
| setpos.rs, mappos.rs | SetMap.v, CameFrom.v, Hash.v, Btree.v | the three back-ends of each trait, camefrom_into_path |
| bf.rs | Bf.v, Closures.v | iterator, search_mapmov, search_path and the entry points |
| ucs.rs, astar.rs | Ucs.v, Astar.v, Heap.v, Queue.v, Order.v, Closures.v, Release.v, Target.v | iterators, search_mapmov, search_path and the entry points |
| error.rs | Rust.v, Views.v, Debug.v | the enum, its Display and Debug |
| base.rs | SpecSearch.v (back-ends) | the methods only forward to the above |

Simplifications, each also noted at its definition:

* Arithmetic overflow is a panic, as in debug builds.  Theorems that a function
  returns include that nothing overflows, so they hold in release builds too;
  theorems that something panics (C82, C83, C84, C97) are about builds with overflow
  checks.  Release.v is uniform-cost search with sums of costs that wrap around;
  Target.v is all three searches and TargetGrid.v positions and grids, with or
  without overflow checks.
* `BinaryHeap` is a list from which `pop` removes the greatest element; its
  order is total, so the contents determine what is popped.  C108 shows that
  any queue with this contract gives the same results; C109 that a model of the
  heap of std (sift up, sink to the bottom and sift up) has this contract.
* HashMap and HashSet are association lists, BTreeMap and BTreeSet are sorted
  ones.  Hash.v has hash tables with any hasher (slots examined one by one, a
  tombstone for every removal); C129 shows that they give the same results.
  Btree.v has B-trees with nodes of 5 to 11 entries, for any comparison of positions; C132 shows the same of them
  with the order of sqrid's types, C150 with any other.
* `Formatter` is modelled by what `pad` does with a string.
* A user's closures are pure total functions of their arguments, except in
  Closures.v: there a closure can change a state, panic or fail to return (but
  not call back into the same search).
* `usize` has 64 bits, except in Target.v (searches, positions to indices, Grid
  and Gridbool access with 16, 32 or 64 bits) and TargetGrid.v (all other functions
  of positions, Grid and Gridbool that compute with usize).

## 6. Not modelled

Rust's type checker, trait resolution, ownership and borrowing, memory layout
and allocation failure, code generation; `Debug` output of iterators, and with width or
flags; documentation macros; wrappers that only forward
to a function that is modelled (`Sqrid::camefrom_into_path`, the variants of
conversions that take a reference); the panicking messages.

## 7. Testing the model and the theorems

`TestSuite.v` runs the crate's own unit tests (/repo/tests) and the examples of its
documentation on the model; each
`Example` is one test function.  The maze tests of search_tests.rs are kept from
the start position only; the whole loops (every position of the found path, all
nine searches) and the start positions of the three mirror images were run once
and passed, but take minutes.

`seeded/LOG.jsonl` lists wrong programs: each line is an edit of one definition
of the model, the claim it breaks and the theorems that then failed to prove.
The edits were made in copies of the model; every theorem whose proof no longer
passed was removed together with what used it, until the rest compiled.  So a
theorem listed as failed is one whose proof no longer passes, often because of a
lemma it shares with others; that it became false was not shown for each.
`claims_surviving` is not empty in six lines, and their `note` says why: three
were logged against a claim that does not speak of what was edited
(`is_diagonal`, `grid_neg`, `pos_width_height_swapped`), and three were run again
after the theorems had grown and then detected (`gridbool_asserts_up`,
`gridbool_asserts_lo`, `target_loop_error`; the lines ending in `_again`).

`coqchk -o` on all modules, run on the sources of commit e801388, accepted them and
listed no axioms.
