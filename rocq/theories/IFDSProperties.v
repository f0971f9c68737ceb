(** C11: the IFDS solver computes exactly the facts reachable along
    interprocedurally valid paths. *)
From Coq Require Import List Bool.
From Verif Require Import Assoc TableModel IDESolverModel IDESpec IFDSModel IFDSSpec IFDSProofs
  IDEInstances IDETermination.
Import ListNotations.

Theorem C11_ifds_results_are_valid_path_facts :
  forall (N F D : Type) (HN : EqDec N) (HF : EqDec F) (HD : EqDec D)
    (G : icfg N F) (W : flows N F D) (S : list (N * list D)) st T,
    icfg_wf G -> single_start G -> summaries_for_declarations G (ifdsProblem W) ->
    (forall n ds, In (n, ds) S -> isStartPoint G n = true) ->
    solved G (ifdsProblem W) false (bottomSeeds S) st T ->
    forall n d, In d (ifdsResultsAt T n) <-> exists stk, valid G W S stk n d.
Proof. exact (fun N F D HN HF HD G W => ifds_exact_results G W). Qed.
Print Assumptions C11_ifds_results_are_valid_path_facts.

Theorem C11_ifds_terminates :
  forall (N F D : Type) (HN : EqDec N) (HF : EqDec F) (HD : EqDec D)
    (G : icfg N F) (W : flows N F D) (S : list (N * list D)) (Ns : list N) (Ds : list D) follow,
    icfg_wf G -> (forall n, In n Ns) -> facts_closed (ifdsProblem W) (bottomSeeds S) Ds ->
    exists fuel st T, solve G (ifdsProblem W) follow fuel (bottomSeeds S) = Some (st, T).
Proof. exact (fun N F D HN HF HD G W => ifds_terminates G W). Qed.
Print Assumptions C11_ifds_terminates.

(** taint flowing through a recursive callee: x tainted in main, copied to y
    after the call *)
Definition exFlows : flows pn pf pd :=
  mkFlows
    (fun n _ d => match n, d with
                  | M0, Z => [Z; X] | M2, X => [X; Y] | F1, Wv => [] | _, _ => [d] end)
    (fun _ _ d => match d with Y => [] | _ => [d] end)
    (fun _ _ _ _ d => [d]) (fun _ _ d => match d with Y => [Y] | _ => [] end)
    (fun _ _ => None) Z.
Example C11_instance :
  icfg_wf exG /\ single_start exG /\ summaries_for_declarations exG (ifdsProblem exFlows) /\
  exists st T, solved exG (ifdsProblem exFlows) false (bottomSeeds [(M0, [Wv])]) st T /\
    ifdsResultsAt T M3 = [Y; X; Z] /\ ifdsResultsAt T F1 = [X; Z; Wv].
Proof.
  split; [exact exG_wf|]. split; [exact exG_one|]. split; [intros c callee sf; simpl; discriminate|].
  destruct (solve exG (ifdsProblem exFlows) false 200 (bottomSeeds [(M0, [Wv])])) as [[st T]|] eqn:E;
    [|vm_compute in E; discriminate].
  exists st, T. split; [eapply (solve_solved exG (ifdsProblem exFlows) false); eauto|].
  vm_compute in E. injection E; intros <- _. vm_compute. auto.
Qed.
