(** Model of psr::IDESolverAPIMixin,
    /repo/include/phasar/DataFlow/IfdsIde/Solver/IDESolverAPIMixin.h ("APIMixin.h").

    The mixin is parameterised by the derived solver; here by the state type,
    [doNext] ([None] = assertion failure / undefined behaviour on an empty
    worklist, IDESolver.h:1758-1768) and [pending] (worklist not empty).

    The environment is an oracle: [c k] is the answer of the (k+1)-st evaluation
    of the cancellation callback resp. of IsCancelled.load() within one call,
    [dur k] the duration of the (k+1)-st round in nanoseconds.  The overloads on
    the value category of *this differ only in how results are returned. *)
From Coq Require Import List Bool NArith.
Import ListNotations.

(** Outcome of an API call: results available / more work or cancelled
    (next() = true, std::nullopt) / undefined behaviour / model out of fuel *)
Inductive res (St : Type) :=
| Done (st : St)
| More (st : St)
| UB
| NoFuel.
Arguments Done {St}. Arguments More {St}. Arguments UB {St}. Arguments NoFuel {St}.

Section API.
  Context {St : Type}.
  Variable doNext : St -> option St.
  Variable pending : St -> bool.

  (** next, APIMixin.h:44, and the returned flag, IDESolver.h:1767 *)
  Definition next (st : St) : res St :=
    match doNext st with
    | None => UB
    | Some st' => if pending st' then More st' else Done st'
    end.

  (** nextN, APIMixin.h:54-66 *)
  Fixpoint nextN (k : nat) (st : St) : res St :=
    match k with
    | 0 => More st
    | S k' => match next st with
              | More st' => nextN k' st'
              | r => r
              end
    end.

  (** continueImpl, APIMixin.h:433-437 (continueSolving = continueImpl + finalize) *)
  Fixpoint continueImpl (fuel : nat) (st : St) : res St :=
    match fuel with
    | 0 => NoFuel
    | S k => match next st with
             | More st' => continueImpl k st'
             | r => r
             end
    end.

  (** initialize, APIMixin.h:34; [st0] is the state after submitting the seeds *)
  Definition initialize (st0 : St) : res St := if pending st0 then More st0 else Done st0.

  (** solveImpl, APIMixin.h:439-443 *)
  Definition solveImpl (fuel : nat) (st0 : St) : res St :=
    match initialize st0 with
    | More st => continueImpl fuel st
    | r => r
    end.

  (** "Adjust NumIterations", APIMixin.h:479-482.  Simplifications: exact
      rational arithmetic instead of double; the conversion to size_t of
      x/0 (infinite or NaN, undefined behaviour) is [None]. *)
  Definition adapt (num interval dur : N) : option N :=
    if (dur =? 0)%N then None
    else Some ((num + 2 * (num * interval * 1000000 / dur)) / 3)%N.

  (** loop of continueUntilImpl, APIMixin.h:465-485.  [k]: evaluations of the
      callback so far, [j]: rounds so far. *)
  Fixpoint untilLoop (fuel : nat) (c : nat -> bool) (interval : N) (dur : nat -> N)
      (k j : nat) (num : N) (st : St) : res St :=
    match fuel with
    | 0 => NoFuel
    | S f =>
        match nextN (N.to_nat num) st with
        | More st' =>
            if c k then More st'
            else match adapt num interval (dur j) with
                 | None => UB
                 | Some num' => untilLoop f c interval dur (S k) (S j) num' st'
                 end
        | Done st' => if c k then More st' else Done st'
        | r => r
        end
    end.

  (** continueUntilImpl, APIMixin.h:445-486 *)
  Definition continueUntilImpl (fuel : nat) (c : nat -> bool) (interval : N) (dur : nat -> N)
      (k : nat) (st : St) : res St :=
    untilLoop fuel c interval dur k 0 (interval * 500)%N st.

  (** solveUntilImpl, APIMixin.h:488-512 *)
  Definition solveUntilImpl (fuel : nat) (c : nat -> bool) (interval : N) (dur : nat -> N)
      (st0 : St) : res St :=
    if c 0 then More st0
    else match initialize st0 with
         | More st => continueUntilImpl fuel c interval dur 1 st
         | r => r
         end.

  (** The callback of solveWithTimeout/continueWithTimeout, APIMixin.h:267-346;
      [now k]: the clock at the k-th evaluation. *)
  Definition timeoutCallback (start timeout : N) (now : nat -> N) : nat -> bool :=
    fun k => (timeout <=? now k - start)%N.

  (** continueWithAsyncCancellationImpl, APIMixin.h:514-522 *)
  Fixpoint asyncLoop (fuel : nat) (c : nat -> bool) (k : nat) (st : St) : res St :=
    match fuel with
    | 0 => NoFuel
    | S f =>
        match next st with
        | More st' => if c k then More st' else asyncLoop f c (S k) st'
        | Done st' => if c k then More st' else Done st'
        | r => r
        end
    end.

  (** solveWithAsyncCancellationImpl, APIMixin.h:524-532 *)
  Definition solveWithAsyncCancellationImpl (fuel : nat) (c : nat -> bool) (st0 : St) : res St :=
    if c 0 then More st0
    else match initialize st0 with
         | More st => asyncLoop fuel c 1 st
         | r => r
         end.

  (** The calls by which a client may start, resp. go on with, solving *)
  Inductive start :=
  | SInitialize
  | SSolve (fuel : nat)
  | SSolveUntil (fuel : nat) (c : nat -> bool) (interval : N) (dur : nat -> N)
  | SSolveAsync (fuel : nat) (c : nat -> bool).

  Inductive cont :=
  | CNext
  | CNextN (k : nat)
  | CContinue (fuel : nat)
  | CContinueUntil (fuel : nat) (c : nat -> bool) (interval : N) (dur : nat -> N)
  | CContinueAsync (fuel : nat) (c : nat -> bool).

  Definition doStart (s : start) (st0 : St) : res St :=
    match s with
    | SInitialize => initialize st0
    | SSolve fuel => solveImpl fuel st0
    | SSolveUntil fuel c i d => solveUntilImpl fuel c i d st0
    | SSolveAsync fuel c => solveWithAsyncCancellationImpl fuel c st0
    end.

  Definition doCont (s : cont) (st : St) : res St :=
    match s with
    | CNext => next st
    | CNextN k => nextN k st
    | CContinue fuel => continueImpl fuel st
    | CContinueUntil fuel c i d => continueUntilImpl fuel c i d 0 st
    | CContinueAsync fuel c => asyncLoop fuel c 0 st
    end.

  (** A client session: one starting call, then continuing calls as long as the
      previous call left the solver interrupted.  A continuing call after the
      results are available violates the documented contract: [UB]. *)
  Fixpoint conts (cs : list cont) (r : res St) : res St :=
    match cs with
    | [] => r
    | c :: cs' => match r with
                  | More st => conts cs' (doCont c st)
                  | Done _ => UB
                  | _ => r
                  end
    end.

  Definition session (s : start) (cs : list cont) (st0 : St) : res St :=
    conts cs (doStart s st0).
End API.
