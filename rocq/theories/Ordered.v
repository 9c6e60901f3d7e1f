(** Ordered.v -- runs of the best-first machine of Fair.v in which ties are broken by
    an order of priorities with positions. *)

From Coq Require Import ZArith List Bool Lia Permutation.
From Verif Require Import Rust BoundedInt Dir PosT Pos SetMap CameFrom Heap Astar
  Spec SpecSearch Lib Deque BoundedIntProofs PosTProofs PosTProofs2 PropDirProofs SetMapProofs Sim CameFromProofs BfProofs Fair FairSearch BestFirst.
Import ListNotations.
Open Scope Z_scope.

Section Ordered.
  Context (D : bool) (succ : pos -> dir -> option (pos * Z)) (h : pos -> Z) (orig : pos).
  Context (le : Z * pos -> Z * pos -> Prop).

  Definition ek (e : entry) : Z * pos := (e_prio e, e_pos e).

  (** [e] is an entry of lowest priority and comes before the others. *)
  Definition opops (hp : heap) (e : entry) (rest : heap) : Prop :=
    pops hp e rest /\ forall x, In x rest -> le (ek e) (ek x).

  Inductive ORun : (pos -> Z) -> heap -> list entry -> Prop :=
  | ORun0 : ORun (put (fun _ => COST_MAX) orig 0) [e0 orig] []
  | ORun1 : forall c hp tr e rest c' hp', ORun c hp tr -> opops hp e rest ->
      expand D succ h (e_pos e) (c, rest) = (c', hp') -> ORun c' hp' (e :: tr).

  Lemma orun_frun : forall c hp tr, ORun c hp tr -> FRun D succ h orig c hp tr.
  Proof. intros c hp tr R. induction R as [|c hp tr e rest c' hp' R IH (Ep & _) Ee]; [constructor | econstructor; eassumption]. Qed.

  Lemma orun_pop : forall c hp e tr, ORun c hp (e :: tr) ->
    exists c1 hp1 rest, ORun c1 hp1 tr /\ opops hp1 e rest /\ expand D succ h (e_pos e) (c1, rest) = (c, hp).
  Proof. intros c hp e tr R. inversion R; subst. eauto 8. Qed.

  Lemma run_orun : (forall hp e rest x, heap_pop hp = Some (e, rest) -> In x rest -> le (ek e) (ek x)) ->
    forall c hp tr, Run D succ h orig c hp tr -> ORun c hp tr.
  Proof.
    intros HL c hp tr R. induction R as [|c hp tr e rest c' hp' R IH Ep Ee]; [constructor |].
    econstructor; [exact IH | split; [apply heap_pops; exact Ep | intros x; apply (HL _ _ _ _ Ep)] | exact Ee].
  Qed.

  Lemma frun_orun : (forall e x, e_prio e <= e_prio x -> le (ek e) (ek x)) ->
    forall c hp tr, FRun D succ h orig c hp tr -> ORun c hp tr.
  Proof.
    intros HL c hp tr R. induction R as [|c hp tr e rest c' hp' R IH Ep Ee]; [constructor |].
    econstructor; [exact IH | split; [exact Ep | intros x Hx; apply HL; apply (pops_min _ _ _ Ep); apply (pops_In _ _ _ Ep); auto] | exact Ee].
  Qed.

  (** The outcome of a search, as in FairSearch.v. *)
  Definition ooutcome (P : post) (dest : pos) (r : result (list dir)) : Prop :=
    (r = Err DestinationUnreachable /\ ~ reachable D (move_of succ) orig dest) \/
    (exists c hp e tr, ORun c hp (e :: tr) /\ e_pos e = dest /\ ~ popped tr dest /\
       reachable D (move_of succ) orig dest /\ r = bp P (lastdir (e :: tr)) orig (maxn P) dest []).

  Lemma ooutcome_foutcome : forall P dest r, ooutcome P dest r -> foutcome P D succ h orig dest r.
  Proof.
    intros P dest r [K | (c & hp & e & tr & R & K)]; [left; exact K |]. right. exists c, hp, e, tr. split; [apply orun_frun; exact R | exact K].
  Qed.
End Ordered.
