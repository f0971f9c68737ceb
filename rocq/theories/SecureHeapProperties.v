(** C65: IDESecureHeapPropagation from program to reported state of the heap.

    [solved G P follow S st T] (IDESolverModel.v): a complete run of the IDE
    solver, in any order of work items, with value table T.  [path p name main K n tr]
    (SecureHeapSpec.v): the program may reach n having made the calls tr.
    [exec]: executions. *)
From Coq Require Import String List Bool Arith Lia.
From Verif Require Import Assoc TableModel IDESolverModel IDESpec IDETermination IDEResults IDEProperties IRProgramModel IRProgramSpec IRProgramExamples EdgeFunctionModel
  SecureHeapModel SecureHeapSpec SecureHeapProofs.
Import ListNotations.

(** The report is exactly what the histories say: the fact is there iff the heap may
    have been initialised on the way, with value BOT iff it may have been shut down after
    that, and INITIALIZED otherwise. *)
Theorem C65_reports_exactly_what_the_histories_say :
  forall (N F : Type) (EN : EqDec N) (EF : EqDec F) (soo : bool) (p : prog N F) (name : F -> string) (main : F) st T,
  prog_wf p -> solved (irICFG p) (shpProblem soo p name) false (shpSeeds p main) st T ->
  forall n,
  (t_lookup T n ZERO <> None <-> exists K tr, path p name main K n tr) /\
  (t_lookup T n INITIALIZED <> None <-> exists K tr, path p name main K n tr /\ In Init tr) /\
  (t_lookup T n INITIALIZED = Some BOT <-> exists K tr, path p name main K n tr /\ shut tr) /\
  (t_lookup T n INITIALIZED = Some INIT <->
     (exists K tr, path p name main K n tr /\ In Init tr) /\ forall K tr, path p name main K n tr -> ~ shut tr).
Proof.
  intros N F EN EF soo p name main st T WF SO n.
  set (P := shpProblem soo p name). set (G := irICFG p).
  assert (LU := C02_results_are_join_if_joins_are_exact_where_they_occur N F _ _ _ EN EF _ G P shape
    (ir_wf p (pw_nodes p WF) (pw_succ p WF) (pw_entry p WF) (pw_noentry p WF))
    (shp_lattice soo p name) (shp_ef_sound' soo p name) (shp_precise soo p name)).
  assert (ONE : single_start G).
  { intros f a b. cbn. destruct (entry p f); cbn; intuition congruence. }
  assert (NT : nontop_preserving G P).
  { intros c stk m d v ST NV. inversion ST; subst; cbn in NV |- *; auto; try discriminate.
    unfold ctrEdge. destruct (_ && _); [discriminate|]. destruct (_ && _); [discriminate|exact NV]. }
  specialize (LU ONE ltac:(discriminate) NT ltac:(discriminate) (shpSeeds p main) st T).
  assert (SN : forall m facts d v, In (m, facts) (shpSeeds p main) -> In (d, v) facts -> nontop P v).
  { intros m facts d v H1 H2. unfold shpSeeds in H1. destruct (entry p main); [|destruct H1]. destruct H1 as [[= <- <-]|[]].
    destruct H2 as [[= <- <-]|[]]. discriminate. }
  specialize (LU SN (shp_starts p (pw_entry p WF) main) SO n). cbn zeta in LU.
  assert (VP : forall K tr d v, path p name main K n tr ->
             d = ZERO /\ v = BOT \/ d = INITIALIZED /\ v = INIT /\ (exists b c, tr = b ++ Init :: c /\ ~ In Done b) \/
             d = INITIALIZED /\ v = BOT /\ shut tr -> exists stk, vpath G P (@anyval heapValue) (holds_initially P (shpSeeds p main)) (stk, n, d, v)).
  { intros K tr d v PA M. exists K. exact (vpath_any G P _ _ _ (path_vpath soo p name main K n tr PA d v M)). }
  assert (HI : forall K tr, path p name main K n tr -> In Init tr -> exists v stk, (v = INIT \/ v = BOT /\ shut tr) /\
             vpath G P (@anyval heapValue) (holds_initially P (shpSeeds p main)) (stk, n, INITIALIZED, v)).
  { intros K tr PA IN. apply in_split in IN as (b & c & E). destruct (in_dec (fun x y : event => ltac:(decide equality)) Done b) as [D|D].
    - assert (SH : shut tr) by (apply in_split in D as (b1 & b2 & ->); exists b1, b2, c; subst tr; now rewrite <- app_assoc).
      exists BOT. destruct (VP K tr INITIALIZED BOT PA) as [stk V]; auto 6. exists stk. auto.
    - exists INIT. destruct (VP K tr INITIALIZED INIT PA) as [stk V]; [right; left; repeat split; eauto|]. exists stk. auto. }
  destruct (LU ZERO) as (_ & _ & LZ). destruct (LU INITIALIZED) as (UB & LB & LI). clear LU.
  assert (BJ := vp_precise_on G P shape (ir_wf p (pw_nodes p WF) (pw_succ p WF) (pw_entry p WF) (pw_noentry p WF))
    (shp_lattice soo p name) (shp_ef_sound' soo p name) (shp_precise soo p name) ONE ltac:(discriminate)
    (shpSeeds p main) st T n INITIALIZED BOT (shp_starts p (pw_entry p WF) main) SO).
  assert (ME : forall K d v, vpath G P (@anyval heapValue) (holds_initially P (shpSeeds p main)) (K, n, d, v) ->
             exists tr, path p name main K n tr /\ meets d v tr) by (intros K d v; apply vpath_path).
  assert (B3 : t_lookup T n INITIALIZED = Some BOT <-> exists K tr, path p name main K n tr /\ shut tr).
  { split.
    - intros E. destruct (BJ E) as (v & vs & [stk V] & VS & LE).
      assert (X : forall w, (exists stk, vpath G P (@anyval heapValue) (holds_initially P (shpSeeds p main)) (stk, n, INITIALIZED, w)) ->
                w = INIT \/ exists K tr, path p name main K n tr /\ shut tr).
      { intros w [stk' V']. destruct (ME _ _ _ V') as (tr & PA & M). destruct w; [destruct M|auto|right; eauto]. }
      destruct (X v (ex_intro _ stk V)) as [->|Y]; auto. clear V.
      induction VS as [|w ws Hw _ IH]; [discriminate LE|]. destruct (X w Hw) as [->|Y]; auto.
    - intros (K & tr & PA & SH). destruct (VP K tr INITIALIZED BOT PA) as [stk V]; [auto|].
      pose proof (UB BOT (ex_intro _ stk V)) as L1. unfold lle, valueAt in L1. cbn in L1.
      destruct (t_lookup T n INITIALIZED) as [[]|]; cbn in L1; congruence. }
  assert (B2 : t_lookup T n INITIALIZED <> None <-> exists K tr, path p name main K n tr /\ In Init tr).
  { rewrite LI. split.
    - intros (v & K & V). destruct (ME _ _ _ V) as (tr & PA & M). exists K, tr. split; auto.
      destruct v; cbn in M; auto; [destruct M|]. destruct M as (a & b & c & ->). rewrite app_comm_cons, app_assoc. apply in_elt.
    - intros (K & tr & PA & IN). destruct (HI K tr PA IN) as (v & stk & _ & V). eauto. }
  assert (NTOP : t_lookup T n INITIALIZED <> Some TOP).
  { intros E. destruct (proj1 B2 ltac:(congruence)) as (K & tr & PA & IN). destruct (HI K tr PA IN) as (v & stk & X & V).
    pose proof (UB v (ex_intro _ stk V)) as L1. unfold lle, valueAt in L1. rewrite E in L1. destruct X as [->|[-> _]]; discriminate L1. }
  split; [|split; [exact B2|split; [exact B3|]]].
  - rewrite LZ. split.
    + intros (v & K & V). destruct (ME _ _ _ V) as (tr & PA & _). eauto.
    + intros (K & tr & PA). destruct (VP K tr ZERO BOT PA) as [stk V]; eauto.
  - rewrite <- B2. split.
    + intros E. split; [congruence|]. intros K tr PA SH. assert (X : t_lookup T n INITIALIZED = Some BOT) by (apply B3; eauto). congruence.
    + intros [NN NS]. destruct (t_lookup T n INITIALIZED) as [[]|]; try congruence.
      destruct (proj1 B3 eq_refl) as (K & tr & PA & SH). elim (NS K tr PA SH).
Qed.
Print Assumptions C65_reports_exactly_what_the_histories_say.

(** For executions: where the heap can be on, the fact is reported; where it can be off
    after having been on, it is reported with BOT.  ([follow]: with either setting of
    followReturnsPastSeeds.) *)
Theorem C65_covers_executions :
  forall (N F : Type) (EN : EqDec N) (EF : EqDec F) (soo : bool) (p : prog N F) (name : F -> string) (main : F) (follow : bool) st T,
  prog_wf p -> called_by_name p name -> solved (irICFG p) (shpProblem soo p name) follow (shpSeeds p main) st T ->
  forall K n h, SecureHeapSpec.exec p name main (K, n, h) ->
  match h with
  | Never => t_lookup T n ZERO = Some BOT
  | On => t_lookup T n INITIALIZED = Some INIT \/ t_lookup T n INITIALIZED = Some BOT
  | Off => t_lookup T n INITIALIZED = Some BOT
  end.
Proof.
  intros N F EN EF soo p name main follow st T WF BN SO K n h EX.
  destruct (exec_path p name main BN K n h EX) as (tr & PA & M).
  assert (SND : forall d v, vpath (irICFG p) (shpProblem soo p name) (nontop (shpProblem soo p name)) (holds_initially (shpProblem soo p name) (shpSeeds p main)) (K, n, d, v) ->
            lle (shpProblem soo p name) v (valueAt (shpProblem soo p name) T n d)).
  { intros d v V. eapply (C01_results_cover_every_valid_path N F _ _ _ EN EF _ (irICFG p) (shpProblem soo p name) follow
      (ir_wf p (pw_nodes p WF) (pw_succ p WF) (pw_entry p WF) (pw_noentry p WF))
      (shp_lattice soo p name) (shp_ef_sound soo p name) (shpSeeds p main) st T (shp_starts p (pw_entry p WF) main) SO). exact V. }
  assert (SB : forall d, vpath (irICFG p) (shpProblem soo p name) (nontop (shpProblem soo p name)) (holds_initially (shpProblem soo p name) (shpSeeds p main)) (K, n, d, BOT) -> t_lookup T n d = Some BOT).
  { intros d V. specialize (SND d BOT V). unfold lle, valueAt in SND. cbn in SND. destruct (t_lookup T n d) as [[]|]; cbn in SND; congruence. }
  destruct h.
  - apply SB. apply (path_vpath soo p name main K n tr PA). auto.
  - apply in_split in M as (b & c & E). destruct (in_dec (fun x y : event => ltac:(decide equality)) Done b) as [D|D].
    + right. apply SB. apply (path_vpath soo p name main K n tr PA). right; right. repeat split.
      apply in_split in D as (b1 & b2 & ->). exists b1, b2, c. subst tr. now rewrite <- app_assoc.
    + assert (V := path_vpath soo p name main K n tr PA INITIALIZED INIT ltac:(right; left; repeat split; eauto)).
      specialize (SND _ _ V). unfold lle, valueAt in SND. cbn in SND. destruct (t_lookup T n INITIALIZED) as [[]|]; cbn in SND; auto; discriminate.
  - apply SB. apply (path_vpath soo p name main K n tr PA). right; right. auto.
Qed.
Print Assumptions C65_covers_executions.

Theorem C65_terminates :
  forall (N F : Type) (EN : EqDec N) (EF : EqDec F) (soo : bool) (p : prog N F) (name : F -> string) (main : F) (follow : bool),
  prog_wf p -> exists fuel st T, solve (irICFG p) (shpProblem soo p name) follow fuel (shpSeeds p main) = Some (st, T).
Proof.
  intros N F EN EF soo p name main follow WF.
  exact (C05_solver_terminates N F _ _ _ EN EF _ (irICFG p) (shpProblem soo p name) follow
    (ir_wf p (pw_nodes p WF) (pw_succ p WF) (pw_entry p WF) (pw_noentry p WF)) (shp_lattice soo p name)
    (shpSeeds p main) (nodes p) [ZERO; INITIALIZED] frank vrank (pw_nodes p WF) (shp_facts soo p name main) (shp_height soo p name)).
Qed.
Print Assumptions C65_terminates.

(** ** Examples and refutations *)
Definition fname (f : fd) : string :=
  match f with Main => "main" | Fun => "f" | Ext => "g" | Src => "CRYPTO_secure_malloc_init" | Snk => "CRYPTO_secure_malloc_done" end%string.
(** the values reported at n for the two facts *)
Definition report (p : prog nd fd) (n : nd) (z i : option heapValue) : Prop :=
  exists st T, solved (irICFG p) (shpProblem false p fname) false (shpSeeds p Main) st T /\
    t_lookup T n ZERO = z /\ t_lookup T n INITIALIZED = i.
Lemma report_run p n z i :
  match solve (irICFG p) (shpProblem false p fname) false 500 (shpSeeds p Main) with
  | Some (_, T) => t_lookup T n ZERO = z /\ t_lookup T n INITIALIZED = i
  | None => False
  end -> report p n z i.
Proof.
  destruct (solve _ _ _ _ _) as [[st T]|] eqn:E; [|intros []]. intros [A B]. exists st, T.
  split; [eapply solve_solved; exact E|auto].
Qed.
Definition np0 (_ : fd) : nat := 0.
Definition noPtr (_ : value nd fd) : bool := false.

(** main: init(); f(); done(); with f calling g *)
Definition useProg := straight (fun n => match n with I0 => IOp [] | I1 => ICall true [Src] [] | I2 => ICall true [Fun] []
  | I3 => ICall true [Snk] [] | I4 => IRet None | I13 => ICall true [Ext] [] | I15 => IRet None | _ => IOp [] end) np0 noPtr.
Example C65_use :
  prog_wf useProg /\ called_by_name useProg fname /\
  report useProg I1 (Some BOT) None /\ report useProg I13 (Some BOT) (Some INIT) /\ report useProg I3 (Some BOT) (Some INIT) /\
  report useProg I4 (Some BOT) (Some BOT) /\
  SecureHeapSpec.exec useProg fname Main ([], I4, Off) /\ SecureHeapSpec.exec useProg fname Main ([(I2, Fun)], I14, On).
Proof.
  assert (X : SecureHeapSpec.exec useProg fname Main ([(I2, Fun)], I14, On)).
  { assert (H : SecureHeapSpec.exec useProg fname Main ([], I0, Never)) by (apply SecureHeapSpec.ex_start; reflexivity).
    eapply SecureHeapSpec.ex_step in H; [|apply (st_next _ _ _ I0 I1); [reflexivity|discriminate|cbn; auto]].
    eapply SecureHeapSpec.ex_step in H; [|apply (SecureHeapSpec.st_extern _ _ _ I1 I2 Src); [cbn; auto|reflexivity|cbn; auto]].
    eapply SecureHeapSpec.ex_step in H; [|apply (SecureHeapSpec.st_call _ _ _ I2 Fun I12); [cbn; auto|reflexivity]].
    eapply SecureHeapSpec.ex_step in H; [|apply (st_next _ _ _ I12 I13); [reflexivity|discriminate|cbn; auto]].
    eapply SecureHeapSpec.ex_step in H; [|apply (SecureHeapSpec.st_extern _ _ _ I13 I14 Ext); [cbn; auto|reflexivity|cbn; auto]].
    exact H. }
  split; [wf|]. split; [intros n f; destruct n; cbn; intros []; try contradiction; subst; cbn; eauto; intros [Y|Y]; discriminate|].
  do 4 (split; [apply report_run; vm_compute; split; reflexivity|]). split; [|exact X].
  eapply SecureHeapSpec.ex_step in X; [|apply (st_next _ _ _ I14 I15); [reflexivity|discriminate|cbn; auto]].
  eapply SecureHeapSpec.ex_step in X; [|eapply (SecureHeapSpec.st_ret _ _ _ I2 Fun I15 I3); [reflexivity|cbn; auto]].
  eapply SecureHeapSpec.ex_step in X; [|apply (SecureHeapSpec.st_extern _ _ _ I3 I4 Snk); [cbn; auto|reflexivity|cbn; auto]].
  exact X.
Qed.

(** INITIALIZED does not mean that the heap is initialised: if (c) init(); use(); *)
Definition branchProg := program (fun n => match n with I1 => ICall true [Src] [] | _ => IOp [] end)
  (fun n => match n with I0 => [I1; I2] | I1 => [I2] | _ => [] end) straightLater np0 noPtr.
Theorem C65_initialised_on_all_paths_refuted :
  exists p n, prog_wf p /\ called_by_name p fname /\ report p n (Some BOT) (Some INIT) /\ SecureHeapSpec.exec p fname Main ([], n, Never).
Proof.
  exists branchProg, I2. split; [wf|]. split; [intros n f; destruct n; cbn; intros []; try contradiction; subst; cbn; eauto|].
  split; [apply report_run; vm_compute; split; reflexivity|].
  assert (H : SecureHeapSpec.exec branchProg fname Main ([], I0, Never)) by (apply SecureHeapSpec.ex_start; reflexivity).
  eapply SecureHeapSpec.ex_step in H; [|apply (st_next _ _ _ I0 I2); [reflexivity|discriminate|cbn; auto]]. exact H.
Qed.
Print Assumptions C65_initialised_on_all_paths_refuted.

(** init(); done(); init(); use(): BOT although the heap is on whenever use is reached *)
Definition againProg := straight (fun n => match n with I0 | I2 => ICall true [Src] [] | I1 => ICall true [Snk] [] | I15 => IRet None | _ => IOp [] end) np0 noPtr.
Theorem C65_initialised_again_refuted :
  exists p n, prog_wf p /\ called_by_name p fname /\ report p n (Some BOT) (Some BOT) /\
    SecureHeapSpec.exec p fname Main ([], n, On) /\ forall K h, SecureHeapSpec.exec p fname Main (K, n, h) -> h = On.
Proof.
  exists againProg, I3. split; [wf|]. split; [intros n f; destruct n; cbn; intros []; try contradiction; subst; cbn; eauto|].
  split; [apply report_run; vm_compute; split; reflexivity|]. split.
  - assert (H : SecureHeapSpec.exec againProg fname Main ([], I0, Never)) by (apply SecureHeapSpec.ex_start; reflexivity).
    eapply SecureHeapSpec.ex_step in H; [|apply (SecureHeapSpec.st_extern _ _ _ I0 I1 Src); [cbn; auto|reflexivity|cbn; auto]].
    eapply SecureHeapSpec.ex_step in H; [|apply (SecureHeapSpec.st_extern _ _ _ I1 I2 Snk); [cbn; auto|reflexivity|cbn; auto]].
    eapply SecureHeapSpec.ex_step in H; [|apply (SecureHeapSpec.st_extern _ _ _ I2 I3 Src); [cbn; auto|reflexivity|cbn; auto]].
    exact H.
  - assert (X : forall c, SecureHeapSpec.exec againProg fname Main c -> match snd (fst c) with I0 | I1 | I2 => True | _ => snd c = On end /\ fst (fst c) = []).
    { induction 1 as [sp E|c c' _ IH ST]; [injection E as <-; cbn; auto|].
      destruct ST as [K n n' h E NC I'|K n n' f h If E I'|K n f sp h If E|K c f n n' v h C I']; cbn in *; destruct IH as [IH EK]; try subst K.
      - split; auto. destruct n; cbn in *; destruct I' as [<-|[]] || destruct I'; auto; discriminate E.
      - split; auto. destruct n; cbn in *; destruct If as [<-|[]] || destruct If; destruct I' as [<-|[]] || destruct I'; cbn; auto.
      - destruct n; cbn in *; destruct If as [<-|[]] || destruct If; discriminate E.
      - discriminate EK. }
    intros K h H. exact (proj1 (X _ H)).
Qed.
Print Assumptions C65_initialised_again_refuted.

(** A call through a pointer: the heap is on, nothing is reported. *)
Definition pointerProg := straight (fun n => match n with I0 => ICall false [Src] [] | _ => IOp [] end) np0 noPtr.
Theorem C65_indirect_calls_refuted :
  exists p n, prog_wf p /\ report p n (Some BOT) None /\ SecureHeapSpec.exec p fname Main ([], n, On).
Proof.
  exists pointerProg, I1. split; [wf|]. split; [apply report_run; vm_compute; split; reflexivity|].
  assert (H : SecureHeapSpec.exec pointerProg fname Main ([], I0, Never)) by (apply SecureHeapSpec.ex_start; reflexivity).
  eapply SecureHeapSpec.ex_step in H; [|apply (SecureHeapSpec.st_extern _ _ _ I0 I1 Src); [cbn; auto|reflexivity|cbn; auto]]. exact H.
Qed.
Print Assumptions C65_indirect_calls_refuted.

(** Calls are stepped over even if they never return: init(); f(); done(); rest with f
    an endless loop is reported with BOT at rest, which nothing reaches. *)
Definition loopProg := program (fun n => match n with I0 => ICall true [Src] [] | I1 => ICall true [Fun] [] | I2 => ICall true [Snk] [] | _ => IOp [] end)
  (fun n => match n with I0 => [I1] | I1 => [I2] | I2 => [I3] | I12 => [I13] | I13 => [I13] | _ => [] end) straightLater np0 noPtr.
Theorem C65_calls_that_do_not_return_refuted :
  exists p n, prog_wf p /\ called_by_name p fname /\ report p n (Some BOT) (Some BOT) /\ forall K h, ~ SecureHeapSpec.exec p fname Main (K, n, h).
Proof.
  exists loopProg, I3. split; [wf|].
  split; [intros n f; destruct n; cbn; intros []; try contradiction; subst; cbn; eauto; intros [Y|Y]; discriminate|].
  split; [apply report_run; vm_compute; split; reflexivity|].
  assert (X : forall c, SecureHeapSpec.exec loopProg fname Main c -> match snd (fst c) with I0 | I1 | I12 | I13 => True | _ => False end).
  { induction 1 as [sp E|c c' _ IH ST]; [injection E as <-; exact Logic.I|].
    destruct ST as [K n n' h E NC I'|K n n' f h If E I'|K n f sp h If E|K c f n n' v h C I']; cbn in *.
    - destruct n; cbn in *; try contradiction; try discriminate E; destruct I' as [<-|[]]; exact Logic.I.
    - destruct n; cbn in *; try contradiction; destruct If as [<-|[]]; try discriminate E; destruct I' as [<-|[]]; exact Logic.I.
    - destruct n; cbn in *; try contradiction; destruct If as [<-|[]]; try discriminate E. injection E as <-. exact Logic.I.
    - destruct n; discriminate. }
  intros K h H. exact (X _ H).
Qed.
Print Assumptions C65_calls_that_do_not_return_refuted.

(** The edge functions do not satisfy [ef_precise] of C02: a constant joined with
    the identity is bottom. *)
Example C65_joins_are_not_exact : forall (p : prog nd fd), ~ ef_precise (shpProblem false p fname).
Proof. intros p H. pose proof (ep_combine _ H (constH INIT) idH INIT) as X. discriminate X. Qed.
