(** C01-C05, C09, C10: the IDE solver.

    [solved G P follow S st T] (IDESolverModel.v): some complete run of the
    solver on seeds S, with an arbitrary choice of the work item in every step
    and an arbitrary order of newly pushed items, ends with jump functions
    [st_jf st] and value table T.  [solve] is the LIFO run of the code.
    [vpath Q Init (stk, n, d, v)] (IDESpec.v): an interprocedurally valid path
    from an initial fact reaches statement n with fact d, pending calls stk,
    and carries value v, all values on the way satisfying Q.
    [holds_initially P S]: the client's seeds and the zero fact. *)
From Coq Require Import List Bool.
From Verif Require Import Assoc TableModel JumpFunctionsModel JumpFunctionsProofs IDESolverModel IDESpec
  IDESound IDEPrecision IDESchedule IDETermination IDEResults IDEInstances.
Import ListNotations.

(** C01.  For every program, problem with edge functions that are monotone on
    non-top values ([ef_sound_nt], implied by [ef_sound]) and
    over-approximating compose/join, all seeds at start points, every schedule
    and both settings of followReturnsPastSeeds: the value reported for (n, d)
    is an upper bound of the value of every valid path to (n, d). *)
Theorem C01_results_cover_every_valid_path :
  forall (N F D L EF : Type) (HN : EqDec N) (HF : EqDec F) (HD : EqDec D)
    (G : icfg N F) (P : problem N F D L EF) (follow : bool),
    icfg_wf G -> lattice_laws P -> ef_sound_nt P ->
    forall S st T, seeds_at_starts G S -> solved G P follow S st T ->
    forall stk n d v,
      vpath G P (nontop P) (holds_initially P S) (stk, n, d, v) -> lle P v (valueAt P T n d).
Proof.
  exact (fun N F D L EF HN HF HD G P follow => vp_sound G P follow).
Qed.
Print Assumptions C01_results_cover_every_valid_path.

(** The restriction of C01 to values that do not pass through top disappears
    if no edge turns a non-top value into top. *)
Theorem C01_results_cover_every_valid_path_no_top :
  forall (N F D L EF : Type) (HN : EqDec N) (HF : EqDec F) (HD : EqDec D)
    (G : icfg N F) (P : problem N F D L EF) (follow : bool),
    icfg_wf G -> lattice_laws P -> ef_sound_nt P -> nontop_preserving G P ->
    bottomElement P <> topElement P ->
    forall S st T,
    (forall n facts d v, In (n, facts) S -> In (d, v) facts -> nontop P v) ->
    seeds_at_starts G S -> solved G P follow S st T ->
    forall stk n d v,
      vpath G P (@anyval L) (holds_initially P S) (stk, n, d, v) -> lle P v (valueAt P T n d).
Proof.
  exact (fun N F D L EF HN HF HD G P follow => vp_sound_nt G P follow).
Qed.
Print Assumptions C01_results_cover_every_valid_path_no_top.

(** C02.  With distributive edge functions and exact compose/join the reported
    value is the least upper bound over all valid paths, and an entry exists
    exactly if there is a valid path. *)
Theorem C02_results_are_join_over_valid_paths :
  forall (N F D L EF : Type) (HN : EqDec N) (HF : EqDec F) (HD : EqDec D)
    (G : icfg N F) (P : problem N F D L EF),
    icfg_wf G -> lattice_laws P -> ef_sound P -> ef_precise P -> single_start G ->
    summaries_for_declarations G P -> nontop_preserving G P -> bottomElement P <> topElement P ->
    forall S st T,
    (forall n facts d v, In (n, facts) S -> In (d, v) facts -> nontop P v) ->
    seeds_at_starts G S -> solved G P false S st T ->
    forall n d,
      let R := fun v => exists stk, vpath G P (@anyval L) (holds_initially P S) (stk, n, d, v) in
      (forall v, R v -> lle P v (valueAt P T n d)) /\
      (forall u, (forall v, R v -> lle P v u) -> lle P (valueAt P T n d) u) /\
      (t_lookup T n d <> None <-> exists v, R v).
Proof. exact (fun N F D L EF HN HF HD G P => vp_lub G P). Qed.
Print Assumptions C02_results_are_join_over_valid_paths.

(** It is enough that joins are exact on the jump functions that occur (used for
    IDESecureHeapPropagation, C65, whose edge functions do not satisfy [ef_precise]). *)
Theorem C02_results_are_join_if_joins_are_exact_where_they_occur :
  forall (N F D L EF : Type) (HN : EqDec N) (HF : EqDec F) (HD : EqDec D)
    (G : icfg N F) (P : problem N F D L EF) Sh,
    icfg_wf G -> lattice_laws P -> ef_sound P -> ef_precise_on G P Sh -> single_start G ->
    summaries_for_declarations G P -> nontop_preserving G P -> bottomElement P <> topElement P ->
    forall S st T,
    (forall n facts d v, In (n, facts) S -> In (d, v) facts -> nontop P v) ->
    seeds_at_starts G S -> solved G P false S st T ->
    forall n d,
      let R := fun v => exists stk, vpath G P (@anyval L) (holds_initially P S) (stk, n, d, v) in
      (forall v, R v -> lle P v (valueAt P T n d)) /\
      (forall u, (forall v, R v -> lle P v u) -> lle P (valueAt P T n d) u) /\
      (t_lookup T n d <> None <-> exists v, R v).
Proof. exact (fun N F D L EF HN HF HD G P => vp_lub_on G P). Qed.
Print Assumptions C02_results_are_join_if_joins_are_exact_where_they_occur.

(** Without the no-top assumption: every reported value is below the join of
    finitely many values of valid paths. *)
Theorem C02_results_not_above_join_of_valid_paths :
  forall (N F D L EF : Type) (HN : EqDec N) (HF : EqDec F) (HD : EqDec D)
    (G : icfg N F) (P : problem N F D L EF),
    icfg_wf G -> lattice_laws P -> ef_sound P -> ef_precise P -> single_start G ->
    summaries_for_declarations G P ->
    forall S st T n d x, seeds_at_starts G S -> solved G P false S st T ->
    t_lookup T n d = Some x ->
    below_join P (fun v => exists stk, vpath G P (@anyval L) (holds_initially P S) (stk, n, d, v)) x.
Proof. exact (fun N F D L EF HN HF HD G P => vp_precise G P). Qed.
Print Assumptions C02_results_not_above_join_of_valid_paths.

(** C03.  A stored jump function from the entry (sp, d1) of a procedure to
    (n, d2) over-approximates every same-level path from sp to n, for every
    entry value x ... *)
Theorem C03_jump_functions_cover_same_level_paths :
  forall (N F D L EF : Type) (HN : EqDec N) (HF : EqDec F) (HD : EqDec D)
    (G : icfg N F) (P : problem N F D L EF) (follow : bool),
    icfg_wf G -> lattice_laws P -> ef_sound_nt P ->
    forall S st T stk sp d1 v0 x n d2 v,
    seeds_at_starts G S -> solved G P follow S st T -> isStartPoint G sp = true ->
    vpath G P (nontop P) (holds_initially P S) (stk, sp, d1, v0) ->
    vpath G P (nontop P) (fun n d v => n = sp /\ d = d1 /\ v = x) ([], n, d2, v) ->
    lle P v (jfAt P (st_jf st) d1 n d2 x).
Proof. exact (fun N F D L EF HN HF HD G P follow => vp_jf_sound G P follow). Qed.
Print Assumptions C03_jump_functions_cover_same_level_paths.

(** ... and, for exact distributive problems, is only stored for entries that
    a valid path reaches and is a finite join of same-level path functions. *)
Theorem C03_jump_functions_are_joins_of_same_level_paths :
  forall (N F D L EF : Type) (HN : EqDec N) (HF : EqDec F) (HD : EqDec D)
    (G : icfg N F) (P : problem N F D L EF),
    icfg_wf G -> lattice_laws P -> ef_sound P -> ef_precise P -> single_start G ->
    forall S st T d1 n d2 f,
    seeds_at_starts G S -> solved G P false S st T -> jf_get (st_jf st) d1 n d2 = Some f ->
    exists sp, In sp (getStartPointsOf G (getFunctionOf G n)) /\
      (exists stk v, vpath G P (@anyval L) (holds_initially P S) (stk, sp, d1, v)) /\
      forall x, below_join P (fun v => vpath G P (@anyval L) (fun n d v => n = sp /\ d = d1 /\ v = x) ([], n, d2, v)) (apply P f x).
Proof. exact (fun N F D L EF HN HF HD G P => vp_jf_precise G P). Qed.
Print Assumptions C03_jump_functions_are_joins_of_same_level_paths.

(** C04.  Two complete runs with any schedules and any seed orders give the
    same value table and pointwise equal jump functions; distributivity is not
    needed. *)
Theorem C04_results_do_not_depend_on_schedule :
  forall (N F D L EF : Type) (HN : EqDec N) (HF : EqDec F) (HD : EqDec D)
    (G : icfg N F) (P : problem N F D L EF),
    icfg_wf G -> lattice_laws P -> ef_sound P -> ef_exact P ->
    forall S1 S2 st1 st2 T1 T2,
    seeds_equiv S1 S2 -> solved G P false S1 st1 T1 -> solved G P false S2 st2 T2 ->
    (forall n d, t_lookup T1 n d = t_lookup T2 n d) /\
    (forall d1 n d2, match jf_get (st_jf st1) d1 n d2, jf_get (st_jf st2) d1 n d2 with
                     | Some f, Some g => forall x, apply P f x = apply P g x
                     | None, None => True
                     | _, _ => False
                     end).
Proof. exact (fun N F D L EF HN HF HD G P => solver_deterministic G P). Qed.
Print Assumptions C04_results_do_not_depend_on_schedule.

(** The code's own order is one of the schedules. *)
Theorem C04_solve_is_a_schedule :
  forall (N F D L EF : Type) (HN : EqDec N) (HF : EqDec F) (HD : EqDec D)
    (G : icfg N F) (P : problem N F D L EF) follow fuel S st T,
    solve G P follow fuel S = Some (st, T) -> solved G P follow S st T.
Proof. exact (fun N F D L EF HN HF HD G P follow => solve_solved G P follow). Qed.
Print Assumptions C04_solve_is_a_schedule.

(** C05.  On finite programs and fact sets with finite-height edge functions
    and values the solver terminates, for both settings of
    followReturnsPastSeeds, and no schedule is infinite. *)
Theorem C05_solver_terminates :
  forall (N F D L EF : Type) (HN : EqDec N) (HF : EqDec F) (HD : EqDec D)
    (G : icfg N F) (P : problem N F D L EF) (follow : bool),
    icfg_wf G -> lattice_laws P ->
    forall S (Ns : list N) (Ds : list D) frank lrank,
    (forall n, In n Ns) -> facts_closed P S Ds -> finite_height P frank lrank ->
    exists fuel st T, solve G P follow fuel S = Some (st, T).
Proof. exact (fun N F D L EF HN HF HD G P follow => solver_terminates G P follow). Qed.
Print Assumptions C05_solver_terminates.

Theorem C05_no_infinite_jump_function_phase :
  forall (N F D L EF : Type) (HN : EqDec N) (HF : EqDec F) (HD : EqDec D)
    (G : icfg N F) (P : problem N F D L EF) (follow : bool),
    icfg_wf G ->
    forall S (Ns : list N) (Ds : list D) frank lrank,
    (forall n, In n Ns) -> facts_closed P S Ds -> finite_height P frank lrank ->
    forall st, pinit P S st ->
    ~ exists run : nat -> state, run 0 = st /\ forall i, pstep G P follow (run i) (run (Datatypes.S i)).
Proof. exact (fun N F D L EF HN HF HD G P follow => no_infinite_phase1 G P follow). Qed.
Print Assumptions C05_no_infinite_jump_function_phase.

Theorem C05_no_infinite_value_phase :
  forall (N F D L EF : Type) (HN : EqDec N) (HF : EqDec F) (HD : EqDec D)
    (G : icfg N F) (P : problem N F D L EF) (follow : bool),
    icfg_wf G -> lattice_laws P ->
    forall S (Ns : list N) (Ds : list D) frank lrank,
    (forall n, In n Ns) -> facts_closed P S Ds -> finite_height P frank lrank ->
    forall st0 st, pinit P S st0 -> psteps G P follow st0 st ->
    ~ exists run : nat -> vstate,
        run 0 = submitInitialValues G P (addZeroSeeds P S) (st_unb st) (st_jf st) (mkV [] []) /\
        forall i, vstep G P (addZeroSeeds P S) (st_unb st) (st_jf st) (run i) (run (Datatypes.S i)).
Proof. exact (fun N F D L EF HN HF HD G P follow => no_infinite_phase2 G P follow). Qed.
Print Assumptions C05_no_infinite_value_phase.

(** C09 is false: for a seed at an instruction that is not a start point the
    result does not cover a valid path, although all other hypotheses of C01
    hold (the seed value 7 is lost and the reported value is the constant 1). *)
Theorem C09_seeds_at_any_instruction_refuted :
  exists (G : icfg pn pf) (P : problem pn pf pd cval cef) S st T stk n d v,
    icfg_wf G /\ lattice_laws P /\ ef_sound P /\ ef_precise P /\ single_start G /\
    nontop_preserving G P /\ solved G P false S st T /\
    vpath G P (nontop P) (holds_initially P S) (stk, n, d, v) /\ ~ lle P v (valueAt P T n d).
Proof.
  destruct mid_lost as (st & T & Hs & Hr & Hv).
  exists exG, exP, midSeeds, st, T, [], F4, X, (cVal 7).
  split; [exact exG_wf|]. split; [exact exP_lattice|]. split; [exact exP_sound|].
  split; [exact exP_precise|]. split; [exact exG_one|]. split; [exact exP_nt|].
  split; [exact Hs|]. split; [apply vpath_reach; exact Hr|]. unfold valueAt. rewrite Hv. discriminate.
Qed.
Print Assumptions C09_seeds_at_any_instruction_refuted.

(** C10 is false: with followReturnsPastSeeds two schedules of the same problem
    give different tables (a function that no seed reaches gets a constant in
    one of them). *)
Theorem C10_unbalanced_returns_schedule_independent_refuted :
  exists (G : icfg qn qf) (P : problem qn qf pd cval cef) S st1 T1 st2 T2 n d,
    icfg_wf G /\ lattice_laws P /\ ef_sound P /\ ef_exact P /\ seeds_at_starts G S /\
    solved G P true S st1 T1 /\ solved G P true S st2 T2 /\
    t_lookup T1 n d <> t_lookup T2 n d.
Proof.
  destruct unbalanced_schedules as (st1 & T1 & st2 & T2 & H1 & H2 & E1 & E2).
  exists quG, quP, quSeeds, st1, T1, st2, T2, B2, X.
  split; [exact quG_wf|]. split; [apply cc_lattice|]. split; [apply cc_sound|].
  split; [apply cc_exact; auto|].
  split; [intros n facts [E|[E|[]]]; injection E; intros; subst; auto|].
  split; [exact H1|]. split; [exact H2|]. rewrite E1, E2. discriminate.
Qed.
Print Assumptions C10_unbalanced_returns_schedule_independent_refuted.

(** *** The hypotheses are satisfiable: copy-constant propagation on a
    recursive program (IDEInstances.v). *)
Example C01_instance :
  icfg_wf exG /\ lattice_laws exP /\ ef_sound exP /\ ef_sound_nt exP /\ ef_precise exP /\ ef_exact exP /\
  single_start exG /\ summaries_for_declarations exG exP /\ nontop_preserving exG exP /\
  seeds_at_starts exG exSeeds /\ facts_closed exP exSeeds allD /\
  finite_height exP cef_rank cval_rank /\ solved exG exP false exSeeds exSt exT /\
  vpath exG exP (nontop exP) (holds_initially exP exSeeds) ([], M3, Y, cVal 1) /\
  t_lookup exT M3 Y = Some (cVal 1).
Proof.
  repeat (split; [first [exact exG_wf|exact exP_lattice|exact exP_sound|exact (ef_sound_weaken exP exP_sound)|exact exP_precise|exact exP_exact
    |exact exG_one|exact exP_decl|exact exP_nt|exact exSeeds_starts|exact exP_closed|apply cc_height
    |exact ex_solved|apply vpath_reach; exact ex_reach]|]).
  apply ex_values.
Qed.
