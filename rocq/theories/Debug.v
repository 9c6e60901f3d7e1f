(** Debug.v -- derived [Debug]: the texts of [{:?}] and [{:#?}].

    A derived [fmt] calls [debug_tuple] (tuple structs and variants; a name and the
    fields), arrays and vectors call [debug_list]; [doc] is the tree of these calls. *)

From Coq Require Import ZArith List Bool String.
From Verif Require Import Rust BoundedInt Dir PosT Pos Grid Gridbool Display Views.
Import ListNotations.
Open Scope Z_scope.

Inductive doc := Text (s : str) | Tuple (name : str) (fields : list doc) | Items (l : list doc).

(** std's [PadAdapter]: four spaces at the start of each line; [nl] tells if the
    next character starts one. *)
Fixpoint indent (nl : bool) (s : str) : str :=
  match s with
  | [] => []
  | c :: s' => (if nl then lit "    " else []) ++ c :: indent (c =? 10) s'
  end.

(** The elements after the first one follow a comma and a space. *)
Definition commas (l : list str) : str :=
  match l with
  | [] => []
  | s :: l' => s ++ List.concat (map (fun t => lit ", " ++ t) l')
  end.

(** std's [DebugTuple] and [DebugList]; [pretty] is [{:#?}]. *)
Fixpoint show (pretty : bool) (d : doc) : str :=
  match d with
  | Text s => s
  | Tuple name l =>
      let fields := map (show pretty) l in
      match l with
      | [] => name
      | x :: l' =>
          if pretty then name ++ lit "(" ++ [10] ++ List.concat (map (fun t => indent true (t ++ lit "," ++ [10])) fields) ++ lit ")"
          else name ++ lit "(" ++ commas fields ++
               (match name, l' with [], [] => lit "," | _, _ => [] end) ++ lit ")"
      end
  | Items l =>
      let items := map (show pretty) l in
      if pretty then
        lit "[" ++ (match l with [] => [] | _ => [10] end) ++ List.concat (map (fun t => indent true (t ++ lit "," ++ [10])) items) ++ lit "]"
      else lit "[" ++ commas items ++ lit "]"
  end.

(** dir.rs:26-48 *)
Definition dir_debug (d : dir) : doc :=
  Text (match d with
        | dN => lit "N" | dNE => lit "NE" | dE => lit "E" | dSE => lit "SE"
        | dS => lit "S" | dSW => lit "SW" | dW => lit "W" | dNW => lit "NW"
        end).

(** error.rs:16-34 *)
Definition error_debug (e : error) : doc :=
  Text (match e with
        | OutOfBounds => lit "OutOfBounds"
        | InvalidDirection => lit "InvalidDirection"
        | DirParseError => lit "DirParseError"
        | InvalidMovement => lit "InvalidMovement"
        | Loop => lit "Loop"
        | DestinationUnreachable => lit "DestinationUnreachable"
        | Empty => lit "Empty"
        end).

(** pos.rs:74-75: a struct with one unnamed field, a pair. *)
Definition pos_debug (p : pos) : doc :=
  Tuple (lit "Pos") [Tuple [] [Text (bounded_debug (fst p)); Text (bounded_debug (snd p))]].

(** grid.rs:61-62; [ph] is what [PhantomData<P>] prints, the name of the type. *)
Definition grid_debug {Item} (item : Item -> doc) (ph : str) (g : grid Item) : doc :=
  Tuple (lit "Grid") [Items (map item g); Text ph].

(** gridbool.rs:57-58 *)
Definition gb_debug (ph : str) (g : gridbool) : doc :=
  Tuple (lit "Gridbool") [Items (map (fun w => Text (fmt_int w)) g); Text ph].

(** std's of [Result], [Option], pairs and vectors, as in the results of searches. *)
Definition result_debug {A} (ok : A -> doc) (r : result A) : doc :=
  match r with
  | Ok v => Tuple (lit "Ok") [ok v]
  | Err e => Tuple (lit "Err") [error_debug e]
  end.
Definition path_debug (l : list dir) : doc := Items (map dir_debug l).
Definition found_debug (r : pos * list dir) : doc := Tuple [] [pos_debug (fst r); path_debug (snd r)].
