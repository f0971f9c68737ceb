(** C06-C08: the interruptible solving API (IDESolverAPIMixin.h) on top of the
    IDE solver model.

    [session s cs st0]: the client makes the starting call [s] and then the
    continuing calls [cs]; callbacks and clocks are arbitrary functions.
    [after k st0 = Some st]: st is the state after exactly k solver steps. *)
From Coq Require Import List Bool NArith.
From Verif Require Import Assoc TableModel JumpFunctionsModel IDESolverModel IDEInstances IFDSModel
  SolverAPIModel SolverAPIProofs.
Import ListNotations.

(** C06.  However a session that ends with results was cut into calls and
    cancelled in between, its jump functions, tables and final values are those
    of solve(); solve() has no other outcome. *)
Theorem C06_interrupted_run_equals_solve :
  forall (N F D L EF : Type) (HN : EqDec N) (HF : EqDec F) (HD : EqDec D)
    (G : icfg N F) (P : problem N F D L EF) (follow : bool) s cs S st fuel T,
    session (doNext G P follow) idePending s cs (initState P S) = Done st ->
    computeValues G P fuel (addZeroSeeds P S) (st_unb st) (st_jf st) = Some T ->
    (exists f, solve G P follow f S = Some (st, T)) /\
    (forall f r, solve G P follow f S = Some r -> r = (st, T)).
Proof. exact (fun N F D L EF HN HF HD G P follow => ide_session_equals_solve G P follow). Qed.
Print Assumptions C06_interrupted_run_equals_solve.

(** A cancelled session leaves exactly the state after some number of steps ... *)
Theorem C06_cancelled_state_is_prefix :
  forall (N F D L EF : Type) (HN : EqDec N) (HF : EqDec F) (HD : EqDec D)
    (G : icfg N F) (P : problem N F D L EF) (follow : bool) s cs S st,
    session (doNext G P follow) idePending s cs (initState P S) = More st ->
    exists k, after (doNext G P follow) k (initState P S) = Some st.
Proof. exact (fun N F D L EF HN HF HD G P follow => ide_session_prefix G P follow). Qed.
Print Assumptions C06_cancelled_state_is_prefix.

(** ... from which continueSolving reaches the state of the uninterrupted run. *)
Theorem C06_cancelled_run_can_be_completed :
  forall (N F D L EF : Type) (HN : EqDec N) (HF : EqDec F) (HD : EqDec D)
    (G : icfg N F) (P : problem N F D L EF) (follow : bool) s cs S st f fin T,
    session (doNext G P follow) idePending s cs (initState P S) = More st -> st_wl st <> [] ->
    solve G P follow f S = Some (fin, T) ->
    exists f', continueImpl (doNext G P follow) idePending f' st = Done fin.
Proof. exact (fun N F D L EF HN HF HD G P follow => ide_session_resumes G P follow). Qed.
Print Assumptions C06_cancelled_run_can_be_completed.

(** A session on the recursive example program: solveUntil cancelled by its
    second callback after 500 scheduled steps is too late for this small
    program, so: async cancellation after 3 steps, then next, nextN(2),
    continueUntil without cancellation. *)
Definition exSession : res (@state pn pd cef) :=
  session (doNext exG exP false) idePending
    (SSolveAsync 100 (fun k => Nat.eqb k 3))
    [CNext; CNextN 2; CContinueAsync 100 (fun k => Nat.eqb k 1);
     CContinueUntil 10 (fun _ => false) 1 (fun _ => 1000)%N]
    (initState exP exSeeds).
Example C06_instance :
  exists st, exSession = Done st /\
    computeValues exG exP 200 (addZeroSeeds exP exSeeds) (st_unb st) (st_jf st) = Some exT.
Proof.
  exists exSt. split; vm_compute; reflexivity.
Qed.

(** C07.  False: solveUntil reports cancellation although the worklist is
    empty (the callback first answers yes after the last step), and the
    documented continueSolving() then steps on an empty worklist. *)
Theorem C07_cancelled_solve_can_be_continued_refuted :
  exists (c : nat -> bool) (st : @state pn pd cef),
    solveUntilImpl (doNext exG exP false) idePending 10 c 1 (fun _ => 1000)%N
      (initState exP exSeeds) = More st /\
    solveImpl (doNext exG exP false) idePending 200 (initState exP exSeeds) = Done st /\
    (forall f, continueImpl (doNext exG exP false) idePending (S f) st = UB).
Proof.
  exists (fun k => Nat.eqb k 1), exSt.
  split; [vm_compute; reflexivity|].
  try (split; [vm_compute; reflexivity|]).
  intros f. cbn [continueImpl].
  replace (next (doNext exG exP false) idePending exSt) with (@UB (@state pn pd cef)); [reflexivity|].
  vm_compute. reflexivity.
Qed.
Print Assumptions C07_cancelled_solve_can_be_continued_refuted.

(** The same for solveWithAsyncCancellation. *)
Theorem C07_async_cancelled_solve_can_be_continued_refuted :
  exists (c : nat -> bool) (st : @state pn pd cef),
    solveWithAsyncCancellationImpl (doNext exG exP false) idePending 200 c
      (initState exP exSeeds) = More st /\
    (forall f, continueImpl (doNext exG exP false) idePending (S f) st = UB).
Proof.
  exists (fun k => Nat.eqb k 37), exSt.
  split; [vm_compute; reflexivity|].
  try (split; [vm_compute; reflexivity|]).
  intros f. cbn [continueImpl].
  replace (next (doNext exG exP false) idePending exSt) with (@UB (@state pn pd cef)); [reflexivity|].
  vm_compute. reflexivity.
Qed.
Print Assumptions C07_async_cancelled_solve_can_be_continued_refuted.

(** What holds: continuing is well defined whenever work is left.  Missing:
    the API does not tell the client whether work is left. *)
Theorem C07_continue_with_work_left_partial :
  forall (N F D L EF : Type) (HN : EqDec N) (HF : EqDec F) (HD : EqDec D)
    (G : icfg N F) (P : problem N F D L EF) (follow : bool) f st,
    idePending st = true -> continueImpl (doNext G P follow) idePending f st <> UB.
Proof.
  exact (fun N F D L EF HN HF HD G P follow f =>
    continueImpl_safe (doNext G P follow) idePending (ide_next_defined G P follow) f).
Qed.
Print Assumptions C07_continue_with_work_left_partial.

(** C08.  False: a straight-line program of 800 statements, interval 1 ms,
    4 ms per step for the first rounds (then arbitrary positive durations): the
    adaptive number of iterations drops 500, 166, 55, 18, 6, 2, 0 and stays 0,
    so the call never returns, although nobody cancels and solve() finishes. *)
Global Instance N_eqdec : EqDec N := N.eq_dec.
Global Instance unit_eqdec : EqDec unit.
Proof. intros [] []. now left. Defined.

Definition chainG : icfg N unit :=
  mkICFG (fun n => if (n <? 800)%N then [(n + 1)%N] else [])
    (fun _ => false) (fun _ => false) (fun n => (n =? 0)%N) (fun _ => [0%N])
    (fun _ => []) (fun _ => []) (fun _ => []) (fun _ => tt) (fun _ => [])
    (map N.of_nat (seq 1 800)).
Definition chainP : problem N unit unit bdom bef :=
  ifdsProblem (mkFlows (fun _ _ d => [d]) (fun _ _ d => [d]) (fun _ _ _ _ d => [d])
                 (fun _ _ d => [d]) (fun _ _ => None) tt).
Definition chainS : @seeds N unit bdom := [(0%N, [(tt, BOTTOM)])].
Definition slow (tail : nat -> N) (k : nat) : N :=
  match k with
  | 0 => 2000000000%N | 1 => 664000000%N | 2 => 220000000%N | 3 => 72000000%N
  | 4 => 24000000%N | 5 => 8000000%N | _ => tail k
  end.

Lemma chain_steps :
  match after (doNext chainG chainP false) 747 (initState chainP chainS) with
  | Some s => idePending s | None => false
  end = true.
Proof. vm_compute. reflexivity. Qed.

Lemma chain_pending : exists s,
  after (doNext chainG chainP false) 747 (initState chainP chainS) = Some s /\ idePending s = true.
Proof.
  pose proof chain_steps as E.
  destruct (after (doNext chainG chainP false) 747 (initState chainP chainS)) as [s|];
    [exists s; auto|discriminate].
Qed.

Lemma chain_solves :
  match solveImpl (doNext chainG chainP false) idePending 900 (initState chainP chainS) with
  | Done _ => true | _ => false
  end = true.
Proof. vm_compute. reflexivity. Qed.

Lemma slow_run tail f :
  (forall k, tail k <> 0%N) ->
  solveUntilImpl (doNext chainG chainP false) idePending f (fun _ => false) 1 (slow tail)
    (initState chainP chainS) = NoFuel.
Proof.
  intros Ht. unfold solveUntilImpl. cbn [initialize].
  change (initialize idePending (initState chainP chainS)) with (More (initState chainP chainS)).
  cbv iota beta. unfold continueUntilImpl.
  eapply (untilLoop_slow (doNext chainG chainP false) idePending (ide_next_defined chainG chainP false))
    with (sched := [500; 166; 55; 18; 6; 2]%N) (total := 747).
  - reflexivity.
  - intros q. do 6 (destruct q; [discriminate|]). apply Ht.
  - vm_compute. tauto.
  - vm_compute. reflexivity.
  - exact chain_pending.
Qed.

Theorem C08_time_limited_solving_progresses_refuted :
  exists (G : icfg N unit) (P : problem N unit unit bdom bef) (S : @seeds N unit bdom)
         (interval : N) (dur : nat -> N),
    (0 < interval)%N /\ (forall k, dur k <> 0%N) /\
    (exists f st, solveImpl (doNext G P false) idePending f (initState P S) = Done st) /\
    (forall f, solveUntilImpl (doNext G P false) idePending f (fun _ => false) interval dur
                 (initState P S) = NoFuel).
Proof.
  exists chainG, chainP, chainS, 1%N, (slow (fun _ => 1000)%N).
  split; [reflexivity|]. split.
  { intros k. do 6 (destruct k; [discriminate|]). discriminate. }
  split.
  - pose proof chain_solves as E. exists 900.
    destruct (solveImpl (doNext chainG chainP false) idePending 900 (initState chainP chainS)) as [s| | |];
      try discriminate. now exists s.
  - intros f. apply slow_run. discriminate.
Qed.
Print Assumptions C08_time_limited_solving_progresses_refuted.

(** What holds: if the interval is positive and every round of num iterations
    takes at most num * interval (at least one step per interval), the call
    returns the result of solve() after finitely many rounds.  Missing: slower
    steps, interval 0. *)
Theorem C08_fast_enough_rounds_finish_partial :
  forall (N F D L EF : Type) (HN : EqDec N) (HF : EqDec F) (HD : EqDec D)
    (G : icfg N F) (P : problem N F D L EF) (follow : bool) i d c f0 S fin T,
    (forall q, c q = false) -> (0 < i)%N ->
    solve G P follow f0 S = Some (fin, T) ->
    exists n, forall f, n <= f -> fastRounds f i d 0 (i * 500) ->
    solveUntilImpl (doNext G P follow) idePending f c i d (initState P S) = Done fin.
Proof. exact (fun N F D L EF HN HF HD G P follow => ide_solveUntil_finishes G P follow). Qed.
Print Assumptions C08_fast_enough_rounds_finish_partial.

(** 1 ms interval, the 800-statement program, every round takes 1 ms *)
Example C08_instance :
  fastRounds 5 1 (fun _ => 1000000)%N 0 500 /\
  match solveUntilImpl (doNext chainG chainP false) idePending 5 (fun _ => false) 1 (fun _ => 1000000)%N
    (initState chainP chainS) with Done _ => true | _ => false end = true.
Proof.
  split; [|vm_compute; reflexivity].
  cbn [fastRounds].
  repeat match goal with
  | |- _ /\ _ => split
  | |- (_ < _)%N => reflexivity
  | |- (_ <= _)%N => vm_compute; discriminate
  | |- match ?a with Some _ => _ | None => _ end => 
     let v := eval vm_compute in a in change a with v; cbv iota beta
  end; exact I.
Qed.
