(** SpecStorage.v -- storage of a user: types that implement SetPos and MapPos. *)

From Coq Require Import ZArith List Bool.
From Verif Require Import Rust BoundedInt Dir PosT Pos Grid Gridbool SetMap CameFrom Bf Astar Ucs Spec SpecSearch.
Import ListNotations.
Open Scope Z_scope.

(** The calls the searches make of a set. *)
Definition grows (o : set_op) : Prop := match o with OpInsert _ | OpContains _ => True | _ => False end.

(** No sequence of [insert] and [contains] calls with positions of [P] on a new value
    tells the type from a set of positions.  ([remove] and [set] can do anything.) *)
Definition acts_as_set {S} (P : post) (so : setops S) : Prop :=
  exists s, sp_default so = Ret s /\
    forall ops, Forall (fun o => grows o /\ valid P (set_op_pos o)) ops -> run_set_ops so s ops = Ret (set_answers (fun _ => false) ops).

(** The same for maps, whose positions all have the given item at first. *)
Definition acts_as_map {Item M} (P : post) (mo : mapops Item M) : Prop :=
  forall d ops, Forall (fun o => valid P (map_op_pos o)) ops ->
    run_map_ops mo (mp_new mo d) ops = Ret (map_answers (fun _ => d) ops) /\
    run_map_ops mo (mp_default mo d) ops = Ret (map_answers (fun _ => d) ops).

(** A map filled by calls of [set]. *)
Definition filled {Item M} (mo : mapops Item M) (d : Item) (l : list (pos * Item)) : exec M :=
  foldM (fun m pv => mp_set mo m (fst pv) (snd pv)) l (mp_new mo d).

(** Types for the examples: a set that is the list of the positions inserted, from which
    nothing can be removed, and a map that is a closure. *)
Definition set_list : setops (list pos) :=
  SetOps (Ret []) (fun s p => Ret (existsb (pos_eqb p) s)) (fun s p => Ret (p :: s)) (fun _ _ => Panic).
Definition map_closure {Item} : mapops Item (pos -> Item) :=
  MapOps (fun d _ => d) (fun item _ => item) (fun m p => Ret (m p)) (fun m p v => Ret (fun q => if pos_eqb p q then v else m q)).
