(** PropClosuresProofs.v -- proofs of the statements of PropClosures.v. *)

From Coq Require Import ZArith List Bool Lia.
From Verif Require Import Rust BoundedInt Dir PosT Pos Grid Gridbool SetMap CameFrom Heap Bf Astar Ucs Closures Spec SpecSearch SpecClosures Lib PosTProofs GridProofs2 BfProofs PropBfProofs.
Import ListNotations.
Open Scope Z_scope.

(** [m] makes the calls [cs] and then yields [a]. *)
Definition plays {St A B C} (go : pos -> dir -> act St A) (found : pos -> act St B) (m : act St C) (cs : list ask) (a : C) : Prop :=
  forall s, m s = effect go found cs a s.

Section Plays.
  Context {St A B : Type} (go : pos -> dir -> act St A) (found : pos -> act St B).
  Lemma perform_app : forall cs cs' s, perform go found (cs ++ cs') s = bind (perform go found cs s) (perform go found cs').
  Proof using.
    induction cs as [|[p d | p] cs IH]; intros cs' s; [reflexivity | |]; cbn [app perform].
    - destruct (go p d s) as [[s1 a] | | |]; cbn [bind]; [apply IH | reflexivity | reflexivity | reflexivity].
    - destruct (found p s) as [[s1 a] | | |]; cbn [bind]; [apply IH | reflexivity | reflexivity | reflexivity].
  Qed.
  Lemma plays_done : forall C (a : C), plays go found (done a) [] a.
  Proof using. intros C a s. reflexivity. Qed.
  Lemma plays_apart : forall C (m : exec C) a, m = Ret a -> plays go found (apart m) [] a.
  Proof using. intros C m a -> s. reflexivity. Qed.
  Lemma plays_bind : forall C E (m : act St C) (k : C -> act St E) cs cs' a e,
    plays go found m cs a -> plays go found (k a) cs' e -> plays go found (andthen m k) (cs ++ cs') e.
  Proof using.
    intros C E m k cs cs' a e H K s. unfold andthen. rewrite H. unfold effect. rewrite perform_app.
    destruct (perform go found cs s) as [s1 | | |]; cbn [bind]; [apply K | reflexivity | reflexivity | reflexivity].
  Qed.
  Lemma plays_then : forall C E (m : act St C) (k : C -> act St E) cs a e,
    plays go found m [] a -> plays go found (k a) cs e -> plays go found (andthen m k) cs e.
  Proof using. intros C E m k cs a e H K. apply (plays_bind _ _ m k [] cs a e H K). Qed.
  Lemma plays_last : forall C E (m : act St C) (k : C -> act St E) cs a e,
    plays go found m cs a -> plays go found (k a) [] e -> plays go found (andthen m k) cs e.
  Proof using. intros C E m k cs a e H K. rewrite <- (app_nil_r cs). apply (plays_bind _ _ m k cs [] a e H K). Qed.
  Lemma plays_go : forall f, answers go f -> forall p d, plays go found (go p d) [AskGo p d] (f p d).
  Proof using.
    intros f H p d s. unfold effect. cbn [perform]. destruct (go p d s) as [[s1 a] | | |] eqn:E; cbn [bind]; try reflexivity. rewrite (H s p d s1 a E). reflexivity.
  Qed.
  Lemma plays_fold : forall X I (f : X -> I -> act St X) (f' : X -> I -> exec X) (g : I -> list ask),
    (forall x i x', f' x i = Ret x' -> plays go found (f x i) (g i) x') ->
    forall l x x', foldM f' l x = Ret x' -> plays go found (foldA f l x) (flat_map g l) x'.
  Proof using.
    intros X I f f' g H. induction l as [|i l IH]; intros x x' E; cbn [foldM foldA flat_map] in *; [inv E; apply plays_done |].
    destruct (f' x i) as [x1 | | |] eqn:E1; cbn [bind] in E; try discriminate. eapply plays_bind; [apply H; exact E1 | apply IH; exact E].
  Qed.
End Plays.

Lemma plays_goal : forall {St A} (go : pos -> dir -> act St A) (found : pos -> act St bool) f, answers_goal found f ->
  forall p, plays go found (found p) [AskGoal p] (f p).
Proof.
  intros St A go found f H p s. unfold effect. cbn [perform]. destruct (found p s) as [[s1 a] | | |] eqn:E; cbn [bind]; try reflexivity. rewrite (H s p s1 a E). reflexivity.
Qed.

Lemma around_dirs : forall D p, around D p = flat_map (fun d => [AskGo p d]) (dirs D).
Proof. intros [] p; reflexivity. Qed.

Ltac bindE E := match type of E with bind ?m _ = _ => let x := fresh "x" in let Ex := fresh "Ex" in destruct m as [x | | |] eqn:Ex; cbn [bind] in E; try discriminate E end.
Ltac pure_step := eapply plays_then; [apply plays_apart; first [eassumption | reflexivity] |].

Section BfPlays.
  Context {St S M B : Type} (P : post) (D : bool) (so : setops S) (mo : mapops (option dir) M).
  Context (goa : pos -> dir -> act St (option pos)) (go : pos -> dir -> option pos) (HA : answers goa go).
  Lemma bf_step_dir_plays : forall (fd : pos -> act St B) p it d it', bf_step_dir so go p it d = Ret it' -> plays goa fd (bfa_step_dir so goa p it d) [AskGo p d] it'.
  Proof using HA.
    intros fd p it d it' E. unfold bfa_step_dir, bf_step_dir in *. eapply plays_last; [apply plays_go; exact HA |]. destruct (go p d) as [q|]; [|inv E; apply plays_done].
    bindE E. pure_step. destruct x; [inv E; apply plays_done |]. bindE E. pure_step. bindE E. pure_step. inv E. apply plays_done.
  Qed.
  Lemma bf_step_pos_plays : forall (fd : pos -> act St B) it x it', bf_step_pos D so go it x = Ret it' -> plays goa fd (bfa_step_pos D so goa it x) (around D (fst x)) it'.
  Proof using HA.
    intros fd it [p d] it' E. unfold bfa_step_pos, bf_step_pos in *. rewrite dir_iter_dirs in *. cbn [bind fst] in *. bindE E. bindE E. inv E.
    eapply plays_then; [apply plays_apart; reflexivity |]. rewrite around_dirs. eapply plays_last.
    - eapply plays_fold; [|exact Ex]. intros; apply bf_step_dir_plays; assumption.
    - pure_step. apply plays_done.
  Qed.
  Lemma bf_next_plays : forall (fd : pos -> act St B) it r, bf_next D so go it = Ret r ->
    plays goa fd (bfa_next D so goa it) (around_all D (bf_nextfront it)) r /\ fst r = match bf_nextfront it with [] => None | l => Some l end.
  Proof using HA.
    intros fd it r E. unfold bfa_next, bf_next in *. destruct (bf_nextfront it) as [|x l]; [inv E; split; [apply plays_done | reflexivity] |].
    bindE E. inv E. split; [|reflexivity]. eapply plays_last; [|apply plays_done]. eapply plays_fold; [|exact Ex]. intros; apply bf_step_pos_plays; assumption.
  Qed.
  Lemma bf_new_plays : forall (fd : pos -> act St B) orig it, bf_new D so go orig = Ret it -> plays goa fd (bfa_new D so goa orig) (around D orig) it.
  Proof using HA.
    intros fd orig it E. unfold bf_new, bfa_new in *. bindE E. pure_step. bindE E. destruct x0 as [o it']. inv E. destruct (bf_next_plays fd _ _ Ex0) as (H & _).
    cbn [bf_nextfront around_all flat_map fst] in H. rewrite app_nil_r in H. eapply plays_last; [exact H | apply plays_done].
  Qed.
  Lemma bf_nexts_plays : forall (fd : pos -> act St B) n it l, next_calls (bf_next D so go) n it = Ret l ->
    plays goa fd (next_acts (bfa_next D so goa) n it) (around_all D (vectors l)) l.
  Proof using HA.
    intros fd. induction n as [|n IH]; intros it l E; cbn [next_calls next_acts] in *; [inv E; apply plays_done |].
    bindE E. destruct x as [o it']. bindE E. inv E. destruct (bf_next_plays fd _ _ Ex) as (H & Ho). cbn [fst] in Ho.
    assert (V : around_all D (vectors (o :: x)) = around_all D (bf_nextfront it) ++ around_all D (vectors x)).
    { unfold vectors. cbn [flat_map]. unfold around_all. rewrite flat_map_app. rewrite Ho. destruct (bf_nextfront it); reflexivity. }
    rewrite V. eapply plays_bind; [exact H |]. cbn beta iota. eapply plays_last; [apply IH; exact Ex0 | apply plays_done].
  Qed.
End BfPlays.

Section BfSearchPlays.
  Context {St S M : Type} (P : post) (D : bool) (so : setops S) (mo : mapops (option dir) M).
  Context (goa : pos -> dir -> act St (option pos)) (go : pos -> dir -> option pos) (HA : answers goa go).
  Context (fda : pos -> act St bool) (found : pos -> bool) (HF : answers_goal fda found).
  (** How the scan of a vector ends, and the calls it makes. *)
  Definition scanned (l : list (pos * dir)) (hit : option pos) (cs : list ask) : Prop :=
    match hit with
    | None => cs = goals l /\ forall x, In x l -> found (fst x) = false
    | Some p => exists l1 d l2, l = l1 ++ (p, d) :: l2 /\ found p = true /\ (forall x, In x l1 -> found (fst x) = false) /\ cs = goals l1 ++ [AskGoal p]
    end.
  Lemma bf_scan_plays : forall l m m' hit, bf_scan mo found m l = Ret (m', hit) ->
    exists cs, scanned l hit cs /\ plays goa fda (bfa_scan mo fda m l) cs (m', hit).
  Proof using HF.
    induction l as [|[p d] l IH]; intros m m' hit E; cbn [bf_scan bfa_scan] in *.
    - inv E. exists []. split; [split; [reflexivity | intros ? []] | apply plays_done].
    - bindE E. destruct (found p) eqn:Ef.
      + inv E. exists [AskGoal p]. split; [exists [], d, l; repeat split; [exact Ef | intros ? []] |]. pure_step.
        eapply plays_last; [apply plays_goal; exact HF |]. rewrite Ef. apply plays_done.
      + destruct (IH _ _ _ E) as (cs & Sc & Pl). exists (AskGoal p :: cs). split.
        * destruct hit as [q|].
          -- destruct Sc as (l1 & e & l2 & -> & Fq & N & ->). exists ((p, d) :: l1), e, l2. split; [reflexivity |]. split; [exact Fq |]. split; [|reflexivity].
             intros y [<- | Hx]; [exact Ef | apply N; exact Hx].
          -- destruct Sc as (-> & N). split; [reflexivity |]. intros y [<- | Hx]; [exact Ef | apply N; exact Hx].
        * pure_step. change (AskGoal p :: cs) with ([AskGoal p] ++ cs). eapply plays_bind; [apply plays_goal; exact HF |]. rewrite Ef. exact Pl.
  Qed.
  (** The calls of the search loop: [levels] are the vectors without a goal,
      [last] is the result of the last call to [next]. *)
  Definition searched (levels : list (list (pos * dir))) (last : option (list (pos * dir))) (hit : option pos) (cs : list ask) : Prop :=
    (forall l x, In l levels -> In x l -> found (fst x) = false) /\
    exists cs', cs = flat_map (fun l => around_all D l ++ goals l) levels ++ cs' /\
    match last with
    | None => hit = None /\ cs' = []
    | Some l => exists p cs'', hit = Some p /\ scanned l hit cs'' /\ cs' = around_all D l ++ cs''
    end.
  Lemma bf_loop_plays : forall fuel m it r, bf_search_loop D so mo go fuel found m it = Ret r ->
    exists levels last cs, next_calls (bf_next D so go) (length levels + 1) it = Ret (map Some levels ++ [last]) /\
      searched levels last (match r with Ok (p, _) => Some p | Err _ => None end) cs /\
      (last = None -> r = Err DestinationUnreachable) /\
      plays goa fda (bfa_search_loop D so mo goa fda fuel m it) cs r.
  Proof using HA HF.
    induction fuel as [|fuel IH]; intros m it r E; cbn [bf_search_loop bfa_search_loop] in *; [discriminate |].
    bindE E. destruct x as [o it']. destruct (bf_next_plays D so goa go HA fda _ _ Ex) as (H & Ho). cbn [fst] in Ho. destruct o as [l|].
    - assert (Hl : bf_nextfront it = l) by (destruct (bf_nextfront it); [discriminate | inv Ho; reflexivity]). rewrite Hl in H.
      bindE E. destruct x as [m' hit]. destruct (bf_scan_plays _ _ _ _ Ex0) as (cs & Sc & Pl). destruct hit as [p|].
      + inv E. exists [], (Some (bf_nextfront it)), (around_all D (bf_nextfront it) ++ cs). cbn [length Nat.add map app]. split; [cbn [next_calls]; rewrite Ex; reflexivity |].
        split; [split; [intros ? ? [] |] |].
        * exists (around_all D (bf_nextfront it) ++ cs). split; [reflexivity |]. exists p, cs. auto.
        * split; [discriminate |]. eapply plays_bind; [exact H |]. cbn beta iota. eapply plays_last; [exact Pl | apply plays_done].
      + destruct (IH _ _ _ E) as (levels & last & cs' & N & Se & Hn & Pl'). exists (l :: levels), last, (around_all D l ++ cs ++ cs').
        destruct Sc as (-> & Nf). split; [cbn [length Nat.add next_calls map app]; rewrite Ex; cbn [bind]; rewrite N; reflexivity |]. split; [|split; [exact Hn |]].
        * destruct Se as (S1 & cs0 & -> & S2). split; [intros l' y [<- | Hl'] Hx; [apply Nf; exact Hx | eapply S1; eassumption] |].
          exists cs0. split; [|exact S2]. cbn [flat_map]. rewrite <- !app_assoc. reflexivity.
        * eapply plays_bind; [exact H |]. cbn beta iota. eapply plays_bind; [exact Pl | exact Pl'].
    - inv E. exists [], None, []. assert (Hl : bf_nextfront it = []) by (destruct (bf_nextfront it); [reflexivity | discriminate]). rewrite Hl in H.
      split; [cbn [length Nat.add next_calls]; rewrite Ex; reflexivity |]. split; [split; [intros ? ? [] | exists []; auto] |]. split; [auto |].
      eapply plays_then; [exact H | apply plays_done].
  Qed.
  Lemma bf_path_plays : forall fuel orig r, bf_search_path P D so mo go fuel orig found = Ret r ->
    exists levels last cs hit, bind (bf_iter D so go orig) (next_calls (bf_next D so go) (length levels + 1)) = Ret (map Some levels ++ [last]) /\
      searched levels last hit cs /\ (last = None -> r = Err DestinationUnreachable) /\ (forall q path, r = Ok (q, path) -> hit = Some q) /\
      plays goa fda (bfa_search_path P D so mo goa fda fuel orig) (around D orig ++ cs) r.
  Proof using HA HF.
    intros fuel orig r E. unfold bf_search_path, bf_search_mapmov, bf_iter in *. bindE E. bindE Ex.
    destruct (bf_loop_plays _ _ _ _ Ex) as (levels & last & cs & N & Se & Hn & Pl). exists levels, last, cs, (match x with Ok (p, _) => Some p | Err _ => None end).
    split; [cbn [bind]; exact N |]. split; [exact Se |].
    assert (PL : plays goa fda (bfa_search_mapmov D so mo goa fda fuel orig) (around D orig ++ cs) x).
    { unfold bfa_search_mapmov. eapply plays_bind; [apply (bf_new_plays D so goa go HA fda); exact Ex0 | exact Pl]. }
    unfold bfa_search_path. destruct x as [[p m] | e].
    - bindE E. split; [intros X; specialize (Hn X); discriminate |]. split.
      + intros q path ->. destruct x; inv E. reflexivity.
      + eapply plays_last; [exact PL |]. cbn beta iota. eapply plays_then; [apply plays_apart; first [exact Ex1 | reflexivity] |]. destruct x; inv E; apply plays_done.
    - inv E. split; [intros X; specialize (Hn X); congruence |]. split; [discriminate |]. eapply plays_last; [exact PL | apply plays_done].
  Qed.
End BfSearchPlays.

Section UcsPlays.
  Context {St MC M B : Type} (P : post) (D : bool) (co : mapops Z MC) (mo : mapops (option dir) M).
  Context (goa : pos -> dir -> act St (option (pos * Z))) (go : pos -> dir -> option (pos * Z)) (HA : answers goa go) (fd : pos -> act St B).
  Lemma ucs_step_plays : forall p it d it', ucs_step_dir co go p it d = Ret it' -> plays goa fd (ucsa_step_dir co goa p it d) [AskGo p d] it'.
  Proof using HA.
    intros p it d it' E. unfold ucsa_step_dir, ucs_step_dir in *. eapply plays_last; [apply plays_go; exact HA |]. destruct (go p d) as [[q c]|]; [|inv E; apply plays_done].
    bindE E. pure_step. bindE E. pure_step. bindE E. pure_step. destruct (x0 <? x1); [|inv E; apply plays_done].
    bindE E. pure_step. bindE E. pure_step. inv E. apply plays_done.
  Qed.
  Lemma ucs_next_plays : forall it r, ucs_next D co go it = Ret r ->
    plays goa fd (ucsa_next D co goa it) (around_all D (match fst r with Some x => [x] | None => [] end)) r.
  Proof using HA.
    intros it r E. unfold ucsa_next, ucs_next in *. destruct (heap_pop (u_frontier it)) as [[[c mov] rest]|]; [|inv E; apply plays_done].
    rewrite dir_iter_dirs in *. cbn [bind] in *. bindE E. inv E. unfold around_all. cbn [fst flat_map]. rewrite app_nil_r, around_dirs.
    eapply plays_then; [apply plays_apart; reflexivity |]. eapply plays_last; [|apply plays_done]. eapply plays_fold; [|exact Ex]. intros; apply ucs_step_plays; assumption.
  Qed.
  Lemma ucs_loop_plays : forall fuel dest m it r, ucs_search_loop D co mo go fuel dest m it = Ret r ->
    exists items last, next_calls (ucs_next D co go) (length items + 1) it = Ret (map Some items ++ [last]) /\
      (forall x, In x items -> fst x <> dest) /\ match last with None => r = Err DestinationUnreachable | Some x => fst x = dest /\ exists m', r = Ok m' end /\
      plays goa fd (ucsa_search_loop D co mo goa fuel dest m it) (around_all D (items ++ match last with Some x => [x] | None => [] end)) r.
  Proof using HA.
    induction fuel as [|fuel IH]; intros dest m it r E; cbn [ucs_search_loop ucsa_search_loop] in *; [discriminate |].
    bindE E. destruct x as [o it']. pose proof (ucs_next_plays _ _ Ex) as H. cbn [fst] in H. destruct o as [[p d]|].
    - bindE E. destruct (pos_eqb p dest) eqn:Ep.
      + inv E. pose proof (proj1 (pos_eqb_eq _ _) Ep) as Eq. exists [], (Some (p, d)). cbn [length Nat.add next_calls map app]. rewrite Ex. split; [reflexivity |]. split; [intros ? [] |]. split; [split; [exact Eq | eauto] |].
        eapply plays_last; [exact H |]. cbn beta iota. pure_step. rewrite Ep. apply plays_done.
      + pose proof (proj1 (pos_eqb_neq _ _) Ep) as Eq. destruct (IH _ _ _ _ E) as (items & last & N & N1 & N2 & Pl). exists ((p, d) :: items), last.
        split; [cbn [length Nat.add next_calls map app]; rewrite Ex; cbn [bind]; rewrite N; reflexivity |]. split; [intros y [<- | Hy]; [exact Eq | apply N1; exact Hy] |]. split; [exact N2 |].
        change (((p, d) :: items) ++ match last with Some x => [x] | None => [] end) with ([(p, d)] ++ (items ++ match last with Some x => [x] | None => [] end)).
        unfold around_all at 1. rewrite flat_map_app. eapply plays_bind; [exact H |]. cbn beta iota. pure_step. rewrite Ep. exact Pl.
    - inv E. exists [], None. cbn [length Nat.add next_calls map app]. rewrite Ex. split; [reflexivity |]. split; [intros ? [] |]. split; [reflexivity |].
      eapply plays_then; [exact H | apply plays_done].
  Qed.
  Lemma ucs_path_plays : forall fuel orig dest r, ucs_search_path P D co mo go fuel orig dest = Ret r ->
    exists items last, ucs_yields_with co D go orig (length items + 1) = Ret (map Some items ++ [last]) /\
      (forall x, In x items -> fst x <> dest) /\ match last with None => r = Err DestinationUnreachable | Some x => fst x = dest end /\
      plays goa fd (ucsa_search_path P D co mo goa fuel orig dest) (around_all D (items ++ match last with Some x => [x] | None => [] end)) r.
  Proof using HA.
    intros fuel orig dest r E. unfold ucs_search_path, ucs_search_mapmov, ucs_yields_with in *. bindE E. bindE Ex.
    destruct (ucs_loop_plays _ _ _ _ _ Ex) as (items & last & N & N1 & N2 & Pl). exists items, last. split; [exact N |]. split; [exact N1 |].
    assert (PL : plays goa fd (ucsa_search_mapmov D co mo goa fuel orig dest) (around_all D (items ++ match last with Some x => [x] | None => [] end)) x).
    { unfold ucsa_search_mapmov. pure_step. exact Pl. }
    unfold ucsa_search_path. split.
    - destruct last as [y|]; [apply N2 |]. subst x. inv E. reflexivity.
    - destruct x as [m' | e]; (eapply plays_last; [exact PL |]); [apply plays_apart; exact E | inv E; apply plays_done].
  Qed.
End UcsPlays.

Section AstarPlays.
  Context {St MC M B : Type} (P : post) (D : bool) (co : mapops Z MC) (mo : mapops (option dir) M).
  Context (goa : pos -> dir -> act St (option pos)) (go : pos -> dir -> option pos) (HA : answers goa go) (fd : pos -> act St B).
  Lemma astar_step_plays : forall dest p it d it', astar_step_dir P co go dest p it d = Ret it' -> plays goa fd (astara_step_dir P co goa dest p it d) [AskGo p d] it'.
  Proof using HA.
    intros dest p it d it' E. unfold astara_step_dir, astar_step_dir in *. bindE E. pure_step. bindE E. pure_step.
    eapply plays_last; [apply plays_go; exact HA |]. destruct (go p d) as [q|]; [|inv E; apply plays_done].
    bindE E. pure_step. destruct (x0 <? x1); [|inv E; apply plays_done].
    bindE E. pure_step. bindE E. pure_step. bindE E. pure_step. bindE E. pure_step. inv E. apply plays_done.
  Qed.
  Lemma astar_next_plays : forall dest it r, astar_next P D co go dest it = Ret r ->
    plays goa fd (astara_next P D co goa dest it) (around_all D (match fst r with Some x => [x] | None => [] end)) r.
  Proof using HA.
    intros dest it r E. unfold astara_next, astar_next in *. destruct (heap_pop (a_frontier it)) as [[[c mov] rest]|]; [|inv E; apply plays_done].
    rewrite dir_iter_dirs in *. cbn [bind] in *. bindE E. inv E. unfold around_all. cbn [fst flat_map]. rewrite app_nil_r, around_dirs.
    eapply plays_then; [apply plays_apart; reflexivity |]. eapply plays_last; [|apply plays_done]. eapply plays_fold; [|exact Ex]. intros; apply astar_step_plays; assumption.
  Qed.
  Lemma astar_loop_plays : forall fuel dest m it r, astar_search_loop P D co mo go fuel dest m it = Ret r ->
    exists items last, next_calls (astar_next P D co go dest) (length items + 1) it = Ret (map Some items ++ [last]) /\
      (forall x, In x items -> fst x <> dest) /\ match last with None => r = Err DestinationUnreachable | Some x => fst x = dest /\ exists m', r = Ok m' end /\
      plays goa fd (astara_search_loop P D co mo goa fuel dest m it) (around_all D (items ++ match last with Some x => [x] | None => [] end)) r.
  Proof using HA.
    induction fuel as [|fuel IH]; intros dest m it r E; cbn [astar_search_loop astara_search_loop] in *; [discriminate |].
    bindE E. destruct x as [o it']. pose proof (astar_next_plays _ _ _ Ex) as H. cbn [fst] in H. destruct o as [[p d]|].
    - bindE E. destruct (pos_eqb p dest) eqn:Ep.
      + inv E. pose proof (proj1 (pos_eqb_eq _ _) Ep) as Eq. exists [], (Some (p, d)). cbn [length Nat.add next_calls map app]. rewrite Ex. split; [reflexivity |]. split; [intros ? [] |]. split; [split; [exact Eq | eauto] |].
        eapply plays_last; [exact H |]. cbn beta iota. pure_step. rewrite Ep. apply plays_done.
      + pose proof (proj1 (pos_eqb_neq _ _) Ep) as Eq. destruct (IH _ _ _ _ E) as (items & last & N & N1 & N2 & Pl). exists ((p, d) :: items), last.
        split; [cbn [length Nat.add next_calls map app]; rewrite Ex; cbn [bind]; rewrite N; reflexivity |]. split; [intros y [<- | Hy]; [exact Eq | apply N1; exact Hy] |]. split; [exact N2 |].
        change (((p, d) :: items) ++ match last with Some x => [x] | None => [] end) with ([(p, d)] ++ (items ++ match last with Some x => [x] | None => [] end)).
        unfold around_all at 1. rewrite flat_map_app. eapply plays_bind; [exact H |]. cbn beta iota. pure_step. rewrite Ep. exact Pl.
    - inv E. exists [], None. cbn [length Nat.add next_calls map app]. rewrite Ex. split; [reflexivity |]. split; [intros ? [] |]. split; [reflexivity |].
      eapply plays_then; [exact H | apply plays_done].
  Qed.
  Lemma astar_path_plays : forall fuel orig dest r, astar_search_path P D co mo go fuel orig dest = Ret r ->
    exists items last, astar_yields_with co P D go orig dest (length items + 1) = Ret (map Some items ++ [last]) /\
      (forall x, In x items -> fst x <> dest) /\ match last with None => r = Err DestinationUnreachable | Some x => fst x = dest end /\
      plays goa fd (astara_search_path P D co mo goa fuel orig dest) (around_all D (items ++ match last with Some x => [x] | None => [] end)) r.
  Proof using HA.
    intros fuel orig dest r E. unfold astar_search_path, astar_search_mapmov, astar_yields_with in *. bindE E. bindE Ex.
    destruct (astar_loop_plays _ _ _ _ _ Ex) as (items & last & N & N1 & N2 & Pl). exists items, last. split; [exact N |]. split; [exact N1 |].
    assert (PL : plays goa fd (astara_search_mapmov P D co mo goa fuel orig dest) (around_all D (items ++ match last with Some x => [x] | None => [] end)) x).
    { unfold astara_search_mapmov. pure_step. exact Pl. }
    unfold astara_search_path. split.
    - destruct last as [y|]; [apply N2 |]. subst x. inv E. reflexivity.
    - destruct x as [m' | e]; (eapply plays_last; [exact PL |]); [apply plays_apart; exact E | inv E; apply plays_done].
  Qed.
End AstarPlays.

Lemma C122_bf_iter_effects_proof : forall St b P D W (goa : pos -> dir -> act St (option pos)) go orig n l,
  answers goa go -> bf_yields b P D W go orig n = Ret l ->
  forall s, bf_yields_acts b P D W goa orig n s = effect goa no_goal (around D orig ++ around_all D (vectors l)) l s.
Proof.
  intros St b P D W goa go orig n l HA E.
  assert (GEN : forall S (so : setops S), bind (bf_iter D so go orig) (next_calls (bf_next D so go) n) = Ret l ->
    plays goa no_goal (andthen (bfa_new D so goa orig) (next_acts (bfa_next D so goa) n)) (around D orig ++ around_all D (vectors l)) l).
  { intros S so X. unfold bf_iter in X. bindE X. eapply plays_bind; [apply (bf_new_plays D so goa go HA); exact Ex | apply (bf_nexts_plays D so goa go HA); exact X]. }
  destruct b; exact (GEN _ _ E).
Qed.

Lemma C122_bfs_effects_proof : forall St b P D W fuel (goa : pos -> dir -> act St (option pos)) (fda : pos -> act St bool) go found orig r,
  answers goa go -> answers_goal fda found -> bfs_on b P D W fuel go orig found = Ret r ->
  exists levels last tail,
    bf_yields b P D W go orig (length levels + 1) = Ret (map Some levels ++ [last]) /\
    (forall l x, In l levels -> In x l -> found (fst x) = false) /\
    match last with
    | None => r = Err DestinationUnreachable /\ tail = []
    | Some l => exists l1 p d l2, l = l1 ++ (p, d) :: l2 /\ found p = true /\ (forall x, In x l1 -> found (fst x) = false) /\
        (forall q path, r = Ok (q, path) -> q = p) /\ tail = around_all D l ++ goals l1 ++ [AskGoal p]
    end /\
    forall s, bfs_acts b P D W fuel goa orig fda s =
      effect goa fda (around D orig ++ flat_map (fun l => around_all D l ++ goals l) levels ++ tail) r s.
Proof.
  intros St b P D W fuel goa fda go found orig r HA HF E.
  assert (GEN : forall S M (so : setops S) (mo : mapops (option dir) M), bf_search_path P D so mo go fuel orig found = Ret r ->
    exists levels last tail, bind (bf_iter D so go orig) (next_calls (bf_next D so go) (length levels + 1)) = Ret (map Some levels ++ [last]) /\
      (forall l x, In l levels -> In x l -> found (fst x) = false) /\
      match last with
      | None => r = Err DestinationUnreachable /\ tail = []
      | Some l => exists l1 p d l2, l = l1 ++ (p, d) :: l2 /\ found p = true /\ (forall x, In x l1 -> found (fst x) = false) /\
          (forall q path, r = Ok (q, path) -> q = p) /\ tail = around_all D l ++ goals l1 ++ [AskGoal p]
      end /\
      plays goa fda (bfa_search_path P D so mo goa fda fuel orig) (around D orig ++ flat_map (fun l => around_all D l ++ goals l) levels ++ tail) r).
  { intros S M so mo X. destruct (bf_path_plays P D so mo goa go HA fda found HF fuel orig r X) as (levels & last & cs & hit & N & (N1 & cs' & -> & N2) & N3 & N4 & Pl).
    exists levels, last, cs'. split; [exact N |]. split; [exact N1 |]. split; [|exact Pl]. destruct last as [l|]; [|split; [apply N3; reflexivity | apply N2]].
    destruct N2 as (p & cs'' & -> & (l1 & d & l2 & -> & Fp & Fn & ->) & ->). exists l1, p, d, l2. split; [reflexivity |]. split; [exact Fp |]. split; [exact Fn |].
    split; [|reflexivity]. intros q path Er. specialize (N4 q path Er). congruence. }
  destruct b; exact (GEN _ _ _ _ E).
Qed.

Lemma C122_ucs_effects_proof : forall St b P D fuel (goa : pos -> dir -> act St (option (pos * Z))) go orig dest r,
  answers goa go -> ucs_on b P D fuel go orig dest = Ret r ->
  exists items last,
    ucs_yields b P D go orig (length items + 1) = Ret (map Some items ++ [last]) /\
    (forall x, In x items -> fst x <> dest) /\
    match last with None => r = Err DestinationUnreachable | Some x => fst x = dest end /\
    forall s, ucs_acts b P D fuel goa orig dest s =
      effect goa no_goal (around_all D (items ++ match last with Some x => [x] | None => [] end)) r s.
Proof. intros St b P D fuel goa go orig dest r HA E. destruct b; exact (ucs_path_plays P D _ _ goa go HA no_goal fuel orig dest r E). Qed.

Lemma C122_astar_effects_proof : forall St b P D fuel (goa : pos -> dir -> act St (option pos)) go orig dest r,
  answers goa go -> astar_on b P D fuel go orig dest = Ret r ->
  exists items last,
    astar_yields b P D go orig dest (length items + 1) = Ret (map Some items ++ [last]) /\
    (forall x, In x items -> fst x <> dest) /\
    match last with None => r = Err DestinationUnreachable | Some x => fst x = dest end /\
    forall s, astar_acts b P D fuel goa orig dest s =
      effect goa no_goal (around_all D (items ++ match last with Some x => [x] | None => [] end)) r s.
Proof. intros St b P D fuel goa go orig dest r HA E. destruct b; exact (astar_path_plays P D _ _ goa go HA no_goal fuel orig dest r E). Qed.

Definition of_pos (p : pos) (a : ask) : Prop := match a with AskGo q _ => q = p | AskGoal q => q = p end.

Lemma around_of : forall D p a, In a (around D p) -> of_pos p a.
Proof. intros D p a H. apply in_map_iff in H. destruct H as (d & <- & _). reflexivity. Qed.

Lemma around_once : forall D p, NoDup (around D p).
Proof. intros [] p; unfold around; cbn; repeat (constructor; [cbn; intuition congruence |]); constructor. Qed.

Lemma of_pos_fun : forall p q a, of_pos p a -> of_pos q a -> p = q.
Proof. intros p q [r d | r] H K; cbn in *; congruence. Qed.

Lemma around_all_once : forall D l, NoDup (map fst l) -> NoDup (around_all D l) /\ forall a, In a (around_all D l) -> exists p, In p (map fst l) /\ of_pos p a.
Proof.
  intros D. induction l as [|[p d] l IH]; intros H; cbn [around_all flat_map map fst] in *; [split; [constructor | intros a []] |]. inversion H as [|? ? H1 H2]; subst.
  destruct (IH H2) as (N & K). split.
  - apply NoDup_app_disj; [apply around_once | exact N |]. intros a Ha Hb. destruct (K a Hb) as (q & Hq & Oq). apply around_of in Ha. rewrite (of_pos_fun p q a Ha Oq) in H1. contradiction.
  - intros a Ha. apply in_app_or in Ha. destruct Ha as [Ha | Ha]; [exists p; split; [left; reflexivity | eapply around_of; exact Ha] |].
    destruct (K a Ha) as (q & Hq & Oq). exists q. split; [right; exact Hq | exact Oq].
Qed.

Lemma goals_once : forall l, NoDup (map fst l) -> NoDup (goals l) /\ forall a, In a (goals l) -> exists p, In p (map fst l) /\ a = AskGoal p.
Proof.
  intros l H. unfold goals. split.
  - rewrite <- (map_map fst AskGoal). induction H as [|p l' N H IH]; cbn; constructor; [|exact IH]. intros X. apply in_map_iff in X. destruct X as (q & E & Hq). inv E. contradiction.
  - intros a Ha. apply in_map_iff in Ha. destruct Ha as (x & <- & Hx). exists (fst x). split; [apply in_map; exact Hx | reflexivity].
Qed.

Lemma around_all_go : forall D l a, In a (around_all D l) -> exists p d, a = AskGo p d.
Proof. intros D l a H. apply in_flat_map in H. destruct H as (x & _ & H). apply in_map_iff in H. destruct H as (d & <- & _). eauto. Qed.

Lemma NoDup_app_split : forall {A} (l1 l2 : list A), NoDup (l1 ++ l2) -> NoDup l1 /\ NoDup l2 /\ forall x, In x l1 -> In x l2 -> False.
Proof.
  induction l1 as [|a l1 IH]; intros l2 H; cbn in *; [split; [constructor | split; [exact H | intros x []]] |]. inversion H as [|? ? H1 H2]; subst.
  destruct (IH l2 H2) as (A1 & A2 & A3). split; [constructor; [intros X; apply H1; apply in_or_app; auto | exact A1] |]. split; [exact A2 |].
  intros x [<- | Hx] Hy; [apply H1; apply in_or_app; auto | eapply A3; eassumption].
Qed.

Lemma levels_once : forall D ls, NoDup (map fst (concat ls)) -> NoDup (flat_map (fun l => around_all D l ++ goals l) ls) /\
  forall a, In a (flat_map (fun l => around_all D l ++ goals l) ls) -> exists p, In p (map fst (concat ls)) /\ of_pos p a.
Proof.
  intros D. induction ls as [|l ls IH]; intros H; cbn [flat_map concat map] in *; [split; [constructor | intros a []] |]. rewrite map_app in *.
  destruct (NoDup_app_split _ _ H) as (H1 & H2 & H3). destruct (IH H2) as (N & K). destruct (around_all_once D l H1) as (N1 & K1). destruct (goals_once l H1) as (N2 & K2).
  assert (K12 : forall a, In a (around_all D l ++ goals l) -> exists p, In p (map fst l) /\ of_pos p a).
  { intros a Ha. apply in_app_or in Ha. destruct Ha as [Ha | Ha]; [apply K1; exact Ha |]. destruct (K2 a Ha) as (p & Hp & ->). exists p. split; [exact Hp | reflexivity]. }
  split.
  - apply NoDup_app_disj; [apply NoDup_app_disj; [exact N1 | exact N2 |] | exact N |].
    + intros a Ha Hb. apply around_all_go in Ha. destruct Ha as (p & d & ->). apply K2 in Hb. destruct Hb as (q & _ & E). discriminate.
    + intros a Ha Hb. destruct (K12 a Ha) as (p & Hp & Op). destruct (K a Hb) as (q & Hq & Oq). rewrite (of_pos_fun p q a Op Oq) in Hp. eapply H3; eassumption.
  - intros a Ha. apply in_app_or in Ha. destruct Ha as [Ha | Ha]; [destruct (K12 a Ha) as (p & Hp & Op) | destruct (K a Ha) as (p & Hp & Op)]; exists p; split; auto; apply in_or_app; auto.
Qed.

Lemma fronts_once : forall D go orig n k, ~ stays D go orig -> NoDup (map fst (concat (map (front_at D go orig) (seq (S k) n)))) /\
  forall p, In p (map fst (concat (map (front_at D go orig) (seq (S k) n)))) -> exists j, (k < j)%nat /\ at_distance D go orig j p.
Proof.
  intros D go orig n. induction n as [|n IH]; intros k NS; cbn [seq map concat]; [split; [constructor | intros p []] |]. rewrite map_app. destruct (IH (S k) NS) as (N & K).
  destruct (front_facts D go orig k) as (F1 & F2 & _).
  assert (F3 : forall p, In p (map fst (front_at D go orig (S k))) -> at_distance D go orig (S k) p).
  { intros p Hp. apply F2 in Hp. destruct Hp as [Hp | (_ & _ & Hp)]; [exact Hp | contradiction]. }
  split.
  - apply NoDup_app_disj; [exact F1 | exact N |]. intros p Hp Hq. apply F3 in Hp. destruct (K p Hq) as (j & Hj & Hd). pose proof (at_distance_fun D go _ _ _ _ Hp Hd). lia.
  - intros p Hp. apply in_app_or in Hp. destruct Hp as [Hp | Hp]; [exists (S k); split; [lia | apply F3; exact Hp] |]. destruct (K p Hp) as (j & Hj & Hd). exists j. split; [lia | exact Hd].
Qed.

Lemma C122_bfs_asks_once_proof : forall b P D W go orig levels last,
  usable b P W -> valid P orig -> go_inside P go -> ~ stays D go orig ->
  bf_yields b P D W go orig (length levels + 1) = Ret (map Some levels ++ [last]) ->
  NoDup (around D orig ++ flat_map (fun l => around_all D l ++ goals l) (levels ++ match last with Some l => [l] | None => [] end)).
Proof.
  intros b P D W go orig levels last U V HG NS E. rewrite (bf_yields_f b P D W go orig _ U V HG) in E. injection E as E.
  destruct (fronts_once D go orig (length levels + 1) 0 NS) as (N & K). rewrite <- seq_shift, map_map in N, K.
  assert (C : concat (levels ++ match last with Some l => [l] | None => [] end) = concat (map (fun j => front_at D go orig (S j)) (seq 0 (length levels + 1)))).
  { assert (G : forall xs (ys : list (option (list (pos * dir)))), map (fun j => match front_at D go orig (S j) with [] => None | l => Some l end) xs = ys ->
      concat (map (fun j => front_at D go orig (S j)) xs) = vectors ys).
    { induction xs as [|x xs IH]; intros ys <-; [reflexivity |]. cbn [map concat vectors flat_map]. rewrite (IH _ eq_refl). destruct (front_at D go orig (S x)); reflexivity. }
    rewrite (G _ _ E). unfold vectors. rewrite flat_map_app. rewrite concat_app. f_equal; [|destruct last; cbn; rewrite ?app_nil_r; reflexivity].
    clear. induction levels as [|l levels IH]; [reflexivity |]. cbn. rewrite IH. reflexivity. }
  rewrite <- C in N, K. destruct (levels_once D _ N) as (N1 & K1). apply NoDup_app_disj; [apply around_once | exact N1 |].
  intros a Ha Hb. apply around_of in Ha. destruct (K1 a Hb) as (p & Hp & Op). rewrite (of_pos_fun _ _ _ Op Ha) in Hp. destruct (K _ Hp) as (j & Hj & Hd). apply at_distance_orig in Hd. lia.
Qed.
