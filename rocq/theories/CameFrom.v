(** CameFrom.v -- model of [camefrom_into_path], src/sqrid/mappos.rs:96-128. *)

From Coq Require Import ZArith List Bool.
From Verif Require Import Rust BoundedInt Dir PosT Pos SetMap.
Import ListNotations.
Open Scope Z_scope.

Section CameFrom.
  Context {M : Type} (P : post) (mo : mapops (option dir) M).

  (** mappos.rs:116-126: the [while] loop.  [ret] is the VecDeque; [push_front]
      is consing. *)
  Fixpoint camefrom_loop (fuel : nat) (map : M) (orig : pos)
      (ret : list dir) (p : pos) (maxiter : Z) : exec (result (list dir)) :=
    match fuel with
    | O => Fuel
    | S fuel' =>
        if negb (pos_eqb p orig) then
          o <- mp_get mo map p ;;
          match o with
          | None => Ret (Err InvalidMovement)
          | Some d =>
              nd <- dir_neg d ;;
              let ret' := nd :: ret in
              match pos_dir_add P p d with
              | Err _ => Ret (Err InvalidMovement)
              | Ok p' =>
                  maxiter' <- usub maxiter 1 ;;
                  if maxiter' =? 0 then Ret (Err Loop)
                  else camefrom_loop fuel' map orig ret' p' maxiter'
              end
          end
        else Ret (Ok ret)
    end.

  (** mappos.rs:96-128; [VecDeque::with_capacity] panics when the capacity
      exceeds isize::MAX bytes ([Dir] is one byte). *)
  Definition camefrom_into_path (fuel : nat) (map : M) (orig dest : pos)
    : exec (result (list dir)) :=
    distance <- manhattan P orig dest ;;
    cap <- umul 2 distance ;;
    _ <- arith isize cap ;;
    o <- mp_get mo map dest ;;
    match o with
    | None => Ret (Err DestinationUnreachable)
    | Some _ =>
        w <- width P ;;
        w' <- width P ;;
        ww <- umul w w' ;;
        maxiter <- uadd ww 1 ;;
        camefrom_loop fuel map orig [] dest maxiter
    end.
End CameFrom.
