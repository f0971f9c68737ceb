(** C46, C47: the control-flow graphs of LLVM functions. *)
From Coq Require Import List Bool Arith Lia.
From Verif Require Import Assoc LLVMCFGModel LLVMCFGSpec LLVMCFGProofs.
From Verif Require IntraMonoModel IntraMonoSpec IntraMonoProperties.
Import ListNotations.

(** ** A function with a loop, debug instructions and a switch

    0: a; dbg.declare; br 1      1: b; br 2 | 3
    2: c; dbg.value; switch 1, 3 3: d; ret *)
Definition loopF : func :=
  [mkBlock [Plain; DbgDeclare; Plain] (Br [1] false);
   mkBlock [Plain; Plain] (Br [2; 3] false);
   mkBlock [Plain; DbgValue; Plain] (Other [1; 3]);
   mkBlock [Plain; Plain] Ret].
Example loopF_wf : wf loopF /\ noLazy loopF /\ noDbgFront loopF.
Proof.
  split; [split|split].
  - intros b Hb. do 4 (destruct b as [|b]; [cbn; split; [discriminate|reflexivity]|]). cbn in Hb. lia.
  - intros b t Hb Ht. do 4 (destruct b as [|b]; [cbn in *; intuition lia|]). cbn in Hb. lia.
  - intros b ts. do 4 (destruct b as [|b]; [discriminate|]). destruct b; discriminate.
  - intros b. do 4 (destruct b as [|b]; [reflexivity|]). destruct b; reflexivity.
Qed.
(** blocks whose first instruction is a debug instruction, as after inlining *)
Definition dbgFrontF : func :=
  [mkBlock [Plain] (Br [1; 2] false);
   mkBlock [Plain] (Br [2] false);
   mkBlock [DbgValue; Plain; Plain] Ret].
Example dbgFrontF_wf : wf dbgFrontF /\ noLazy dbgFrontF.
Proof.
  split; [split|].
  - intros b Hb. do 3 (destruct b as [|b]; [cbn; split; [discriminate|reflexivity]|]). cbn in Hb. lia.
  - intros b t Hb Ht. do 3 (destruct b as [|b]; [cbn in *; intuition lia|]). cbn in Hb. lia.
  - intros b ts. do 3 (destruct b as [|b]; [discriminate|]). destruct b; discriminate.
Qed.
(** if (!guard) init; use *)
Definition lazyF : func :=
  [mkBlock [Plain] (Br [1; 2] true);
   mkBlock [Plain] (Br [2] false);
   mkBlock [Plain] Ret].
Example lazyF_wf : wf lazyF.
Proof.
  split.
  - intros b Hb. do 3 (destruct b as [|b]; [cbn; split; [discriminate|reflexivity]|]). cbn in Hb. lia.
  - intros b t Hb Ht. do 3 (destruct b as [|b]; [cbn in *; intuition lia|]). cbn in Hb. lia.
Qed.

(** ** C46: the forward CFG *)

(** The successors are the instructions that can execute next, debug
    instructions left out when they are ignored. *)
Theorem C46_successors_are_what_executes_next : forall ign f n m, wf f -> noLazy f -> valid f n -> skipped ign f n = false ->
  (In m (getSuccsOf ign f n) <-> executesNext f (skipped ign f) n m).
Proof. intros ign f n m Wf Nl V Hs. split; [now apply succs_execute|]. intros E. now apply execute_succs. Qed.
Print Assumptions C46_successors_are_what_executes_next.
Theorem C46_successors_execute_next : forall ign f n m, wf f -> valid f n -> skipped ign f n = false ->
  In m (getSuccsOf ign f n) -> executesNext f (skipped ign f) n m.
Proof. intros. now apply succs_execute. Qed.
Print Assumptions C46_successors_execute_next.
Example successors_nontrivial : getSuccsOf true loopF (2, 0) = [(2, 2)] /\ getSuccsOf true loopF (2, 2) = [(1, 0); (3, 0)] /\
  getSuccsOf true dbgFrontF (0, 0) = [(1, 0); (2, 1)] /\ getSuccsOf false dbgFrontF (0, 0) = [(1, 0); (2, 0)].
Proof. repeat split. Qed.

(** At a branch around the initialisation of a static variable the second
    successor is left out, although it executes when the variable is already
    initialised. *)
Theorem C46_lazy_initialisation_successor_refuted : exists f n m, wf f /\ valid f n /\ executes f n m /\ ~ In m (getSuccsOf true f n).
Proof.
  exists lazyF, (0, 0), (2, 0). split; [apply lazyF_wf|]. split; [cbv; lia|]. split; [|cbn; intuition congruence].
  apply ex_branch; cbn; auto.
Qed.
Print Assumptions C46_lazy_initialisation_successor_refuted.

(** Predecessors are the converse of successors. *)
Theorem C46_predecessors_are_the_converse : forall ign f n m, wf f -> noLazy f ->
  valid f n -> skipped ign f n = false -> valid f m -> skipped ign f m = false ->
  (In n (getPredsOf ign f m) <-> In m (getSuccsOf ign f n)).
Proof. intros ign f n m Wf Nl V1 S1 V2 S2. split; [apply pred_succ; auto; split; auto|apply succ_pred; auto; split; auto]. Qed.
Print Assumptions C46_predecessors_are_the_converse.
Theorem C46_successors_know_their_predecessor : forall ign f n m, wf f -> valid f n -> skipped ign f n = false ->
  In m (getSuccsOf ign f n) -> In n (getPredsOf ign f m).
Proof. intros. apply succ_pred; auto. split; auto. Qed.
Print Assumptions C46_successors_know_their_predecessor.
Example predecessors_nontrivial : getPredsOf true loopF (1, 0) = [(0, 2); (2, 2)] /\ getPredsOf true loopF (0, 2) = [(0, 0)].
Proof. split; reflexivity. Qed.
(** The two disagree at the left out branch: not only is the edge missing, one
    direction has it. *)
Theorem C46_lazy_initialisation_converse_refuted : exists f n m, wf f /\ valid f n /\ valid f m /\
  In n (getPredsOf true f m) /\ ~ In m (getSuccsOf true f n).
Proof.
  exists lazyF, (0, 0), (2, 0). split; [apply lazyF_wf|]. split; [cbv; lia|]. split; [cbv; lia|].
  split; cbn; [auto|intuition congruence].
Qed.
Print Assumptions C46_lazy_initialisation_converse_refuted.

(** Edges stay within the control-flow nodes, and getAllControlFlowEdges lists
    exactly them. *)
Theorem C46_edges_stay_in_the_graph : forall ign f n m, wf f -> valid f n -> skipped ign f n = false ->
  In m (getSuccsOf ign f n) \/ In m (getPredsOf ign f n) -> valid f m /\ skipped ign f m = false.
Proof. intros ign f n m Wf V Hs [Hm|Hm]; [apply (succs_valid ign f Wf n m)|apply (pred_valid ign f Wf m n)]; auto; split; auto. Qed.
Print Assumptions C46_edges_stay_in_the_graph.
Theorem C46_all_edges : forall ign f n m, wf f ->
  (In (n, m) (getAllControlFlowEdges ign f) <-> valid f n /\ skipped ign f n = false /\ In m (getSuccsOf ign f n)).
Proof.
  intros ign f n m Wf. unfold getAllControlFlowEdges. rewrite in_flat_map. split.
  - intros (x & Hx & Hin). apply in_map_iff in Hin as (y & Heq & Hy). injection Heq as -> ->.
    apply flowNodes_in in Hx as [V Hs]; auto.
  - intros (V & Hs & Hm). exists n. split; [apply flowNodes_in; split; auto|]. now apply in_map.
Qed.
Print Assumptions C46_all_edges.
Example all_edges_nontrivial : length (getAllControlFlowEdges true loopF) = 9 /\ length (getAllControlFlowEdges false loopF) = 11.
Proof. split; reflexivity. Qed.

(** The start point is the first instruction that is not skipped; nothing
    precedes it. *)
Theorem C46_start_point : forall ign f, wf f -> f <> [] ->
  exists i, getStartPointsOf ign f = [(0, i)] /\ valid f (0, i) /\ skipped ign f (0, i) = false /\
    (forall k, k < i -> skipped ign f (0, k) = true) /\ getPredsOf ign f (0, i) = [].
Proof.
  intros ign f Wf Hf. assert (H0 : 0 < length f) by (destruct f; cbn; [now elim Hf|lia]).
  destruct (first_ok ign f Wf 0 H0) as (i & E & A & B & C). exists i.
  split; [unfold getStartPointsOf; rewrite E; destruct f; [now elim Hf|reflexivity]|]. split; [split; auto|]. split; auto. split; auto.
  rewrite <- E. now apply start_no_preds.
Qed.
Print Assumptions C46_start_point.
(** Without ignoring debug instructions isStartPoint also holds of an
    instruction that is no start point. *)
Theorem C46_is_start_point_refuted : exists f n, wf f /\ valid f n /\ isStartPoint f n = true /\ ~ In n (getStartPointsOf false f) /\
  isStartPoint f (0, 0) = true /\ ~ In (0, 0) (getStartPointsOf true f).
Proof.
  exists [mkBlock [DbgValue; Plain] Ret], (0, 1). split.
  { split; [intros b Hb; destruct b; [cbn; split; [discriminate|reflexivity]|cbn in Hb; lia]|].
    intros b t Hb Ht. destruct b; [destruct Ht|cbn in Hb; lia]. }
  split; [cbv; lia|]. split; [reflexivity|]. split; [cbn; intuition congruence|]. split; [reflexivity|]. cbn. intuition congruence.
Qed.
Print Assumptions C46_is_start_point_refuted.

(** The exit points are the returns: their blocks have no successors. *)
Theorem C46_exit_points : forall ign f n, wf f ->
  (In n (getExitPointsOf f) <-> valid f n /\ isTerminator f n = true /\ term (getBlock f (fst n)) = Ret) /\
  (In n (getExitPointsOf f) -> getSuccsOf ign f n = []).
Proof.
  intros ign f n Wf.
  assert (A : In n (getExitPointsOf f) <-> valid f n /\ isTerminator f n = true /\ term (getBlock f (fst n)) = Ret).
  { unfold getExitPointsOf. rewrite in_flat_map. split.
    - intros (b & Hb & Hin). apply in_seq in Hb. assert (Hb' : b < length f) by lia.
      destruct (term (getBlock f b)) eqn:E; try contradiction. destruct Hin as [<-|[]]. unfold terminatorOf, isTerminator.
      pose proof (len_pos f Wf b Hb') as L. cbn [fst snd]. split; [split; cbn; lia|]. split; auto. apply Nat.eqb_eq. lia.
    - destruct n as [b i]. intros ([Hb Hi] & T & E). cbn [fst snd] in *. exists b. split; [apply in_seq; lia|]. rewrite E.
      left. unfold terminatorOf. unfold isTerminator in T. cbn [fst snd] in T. apply Nat.eqb_eq in T. f_equal. lia. }
  split; auto. intros Hn. apply A in Hn as (V & T & E). destruct n as [b i]. unfold isTerminator in T. cbn [fst snd] in *.
  apply Nat.eqb_eq in T. destruct V as [Hb _]. cbn in Hb. unfold getSuccsOf.
  replace i with (length (insts (getBlock f b)) - 1) by lia. rewrite next_term by auto. cbn [fst]. unfold targets. now rewrite E.
Qed.
Print Assumptions C46_exit_points.

(** A successor that is no branch target has no other predecessor... *)
Theorem C46_branch_targets : forall ign f s d p, wf f -> noDbgFront f \/ ign = false -> valid f s -> skipped ign f s = false ->
  In d (getSuccsOf ign f s) -> isBranchTarget f s d = false -> In p (getPredsOf ign f d) -> p = s.
Proof. intros ign f s d p Wf Nf V Hs. apply single_pred; auto. split; auto. Qed.
Print Assumptions C46_branch_targets.
(** ... unless its block begins with an ignored debug instruction.  (This is
    what the missed merge in C25_missed_branch_target_refuted needs.) *)
Theorem C46_branch_target_behind_debug_instruction_refuted : exists f s d p, wf f /\ noLazy f /\ valid f s /\ skipped true f s = false /\
  In d (getSuccsOf true f s) /\ isBranchTarget f s d = false /\ In p (getPredsOf true f d) /\ p <> s.
Proof.
  exists dbgFrontF, (0, 0), (2, 1), (1, 0). destruct dbgFrontF_wf as [A B]. split; auto. split; auto. split; [cbv; lia|].
  split; [reflexivity|]. split; [cbn; auto|]. split; [reflexivity|]. split; [cbn; auto|congruence].
Qed.
Print Assumptions C46_branch_target_behind_debug_instruction_refuted.

(** ** The monotone solver on LLVM functions *)
(** one function, the entry point *)
Definition cfgOf (ign : bool) (f : func) : IntraMonoModel.cfg inst unit :=
  IntraMonoModel.mkCfg (fun _ => allInstructions f) (fun _ => flowNodes ign f) (getSuccsOf ign f) (getPredsOf ign f) (isBranchTarget f).
Theorem C46_the_cfg_is_a_graph : forall {M} ign f (P : IntraMonoModel.problem inst M unit),
  wf f -> noDbgFront f \/ ign = false ->
  IntraMonoSpec.graph (cfgOf ign f) P /\ (noLazy f -> IntraMonoSpec.predsExact (cfgOf ign f) P).
Proof.
  intros M ign f P Wf Nf.
  assert (V : forall n, IntraMonoSpec.inV (cfgOf ign f) P n -> flowNode ign f n) by (intros n (x & _ & Hn); now apply flowNodes_in).
  assert (V' : forall n m, IntraMonoSpec.inV (cfgOf ign f) P n -> flowNode ign f m -> IntraMonoSpec.inV (cfgOf ign f) P m).
  { intros n m (x & Hx & _) Hm. exists x. split; auto. now apply flowNodes_in. }
  split; [split|].
  - intros x n _ Hn. apply allInstructions_in; auto. now apply flowNodes_in in Hn as [].
  - intros n m Hn Hm. apply (V' n m); auto. apply (succs_valid ign f Wf n m); auto.
  - intros n m Hn Hm. apply (V' n m); auto. apply (pred_valid ign f Wf m n); auto.
  - intros n m Hn Hm. apply succ_pred; auto.
  - intros s d p Hs Hd Hb Hp. apply (single_pred ign f Wf s d p); auto.
  - intros Nl n m Hm Hn. apply pred_succ; auto.
Qed.
Print Assumptions C46_the_cfg_is_a_graph.
(** So on such functions the solver computes the join over all paths, with
    seeds at the start point. *)
Theorem C46_monotone_solver_on_llvm_functions : forall {M} ign f (P : IntraMonoModel.problem inst M unit) le facts fuel R,
  wf f -> noLazy f -> noDbgFront f \/ ign = false -> f <> [] ->
  IntraMonoSpec.monotone P le -> IntraMonoSpec.distributive P le -> IntraMonoModel.entryPoints P = [tt] ->
  IntraMonoModel.initialSeeds P = map (fun n => (n, facts)) (getStartPointsOf ign f) ->
  IntraMonoModel.solve (cfgOf ign f) P fuel = Some R -> forall n, valid f n -> skipped ign f n = false ->
  IntraMonoSpec.isLub le (fun y => exists x, IntraMonoSpec.flows (cfgOf ign f) P n x /\ y = IntraMonoModel.normalFlow P n x)
    (IntraMonoModel.getResultsAt P n R).
Proof.
  intros M ign f P le facts fuel R Wf Nl Nf Hf Mo D Ep Sd Hs n V Sk. destruct (C46_the_cfg_is_a_graph ign f P Wf Nf) as [G Pe].
  assert (Hv : forall n, valid f n -> skipped ign f n = false -> IntraMonoSpec.inV (cfgOf ign f) P n).
  { intros m Vm Sm. exists tt. rewrite Ep. split; [cbn; auto|]. apply flowNodes_in; auto. split; auto. }
  apply (IntraMonoProperties.C25_distributive_result_is_the_join_over_paths (cfgOf ign f) P le fuel R); auto.
  destruct (C46_start_point ign f Wf Hf) as (i & E & Vi & Si & _ & Pi). rewrite E in Sd. split; rewrite Sd; cbn.
  - repeat constructor. intros [].
  - intros m x [Hm|[]]. injection Hm as <- <-. split; auto.
Qed.
Print Assumptions C46_monotone_solver_on_llvm_functions.

(** gen/kill problems on them *)
Definition genkillI (gen : inst -> list nat) (kill : inst -> nat -> bool) (seeds : list (inst * list nat)) : IntraMonoModel.problem inst (list nat) unit :=
  IntraMonoModel.mkProblem (fun n x => gen n ++ filter (fun a => negb (kill n a)) x) (@app nat)
    (fun x y => IntraMonoProperties.subset x y && IntraMonoProperties.subset y x) [] [] (@app nat) seeds [tt].
Lemma genkillI_monotone gen kill seeds : IntraMonoSpec.monotone (genkillI gen kill seeds) (@incl nat) /\ IntraMonoSpec.distributive (genkillI gen kill seeds) (@incl nat).
Proof.
  split; [constructor; cbn|].
  - apply incl_refl.
  - intros x y z. apply incl_tran.
  - intros x y. apply incl_appl, incl_refl.
  - intros x y. apply incl_appr, incl_refl.
  - intros x y u. apply incl_app.
  - intros x y. rewrite andb_true_iff, !IntraMonoProperties.subset_ok. tauto.
  - intros x a [].
  - intros n x y Hxy a Ha. apply in_app_iff in Ha as [Ha|Ha]; apply in_or_app; auto. right.
    apply filter_In in Ha as [A B]. apply filter_In. auto.
  - intros n x y a. cbn. rewrite filter_app. intros Ha. rewrite !in_app_iff in *. tauto.
Qed.
Definition loopP := genkillI (fun n => if eqb n (2, 0) then [7] else []) (fun n a => eqb n (2, 0) && (a =? 5)) (map (fun n => (n, [5])) (getStartPointsOf true loopF)).
Example solver_on_llvm_nontrivial : exists R, IntraMonoModel.solve (cfgOf true loopF) loopP 60 = Some R /\
  IntraMonoProperties.subset (IntraMonoModel.getResultsAt loopP (3, 1) R) [5; 7] = true /\
  IntraMonoProperties.subset [5; 7] (IntraMonoModel.getResultsAt loopP (3, 1) R) = true /\
  IntraMonoProperties.subset (IntraMonoModel.getResultsAt loopP (2, 2) R) [7] = true.
Proof. eexists. split; [vm_compute; reflexivity|]. repeat split; vm_compute; reflexivity. Qed.
(** With debug instructions ignored, which is the default, the solver loses a
    fact where the join point's block begins with a debug instruction. *)
Theorem C46_monotone_solver_behind_debug_instruction_refuted : exists f (P : IntraMonoModel.problem inst (list nat) unit) R n x,
  wf f /\ noLazy f /\ IntraMonoSpec.monotone P (@incl nat) /\ IntraMonoSpec.distributive P (@incl nat) /\
  IntraMonoModel.initialSeeds P = map (fun n => (n, [])) (getStartPointsOf true f) /\
  IntraMonoModel.solve (cfgOf true f) P 60 = Some R /\ IntraMonoSpec.flows (cfgOf true f) P n x /\
  ~ incl (IntraMonoModel.normalFlow P n x) (IntraMonoModel.getResultsAt P n R).
Proof.
  set (f := [mkBlock [Plain] (Br [1; 2] false); mkBlock [Plain] (Br [3] false); mkBlock [Plain] (Br [3] false);
             mkBlock [DbgValue; Plain; Plain] Ret]).
  set (P := genkillI (fun n => if eqb n (1, 0) then [1] else []) (fun _ _ => false) [((0, 0), [])]).
  exists f, P. eexists. exists (3, 1), [1]. destruct (genkillI_monotone (fun n => if eqb n (1, 0) then [1] else []) (fun _ _ => false) [((0, 0), [])]) as [Mo D].
  split.
  { split.
    - intros b Hb. do 4 (destruct b as [|b]; [cbn; split; [discriminate|reflexivity]|]). cbn in Hb. lia.
    - intros b t Hb Ht. do 4 (destruct b as [|b]; [cbn in *; intuition lia|]). cbn in Hb. lia. }
  split. { intros b ts. do 4 (destruct b as [|b]; [discriminate|]). destruct b; discriminate. }
  split; auto. split; auto. split; [reflexivity|]. split; [vm_compute; reflexivity|]. split.
  - change [1] with (IntraMonoModel.normalFlow P (1, 0) (IntraMonoModel.normalFlow P (0, 0) [])).
    do 2 (apply IntraMonoSpec.flows_step; [|cbn; auto]). apply IntraMonoSpec.flows_start. left. exists []. cbn. auto.
  - intros Hi. specialize (Hi 1). cbn in Hi. auto.
Qed.
Print Assumptions C46_monotone_solver_behind_debug_instruction_refuted.

(** ** C47: the backward CFG *)

(** On instructions the backward successors are the forward predecessors and
    the other way round. *)
Theorem C47_backward_is_the_converse : forall ign f rets n m, wf f -> noLazy f ->
  valid f n -> skipped ign f n = false -> valid f m -> skipped ign f m = false ->
  (In (I m) (bSuccs ign f rets (I n)) <-> In n (getSuccsOf ign f m)) /\
  (exists ps, bPreds ign f (I n) = Some ps /\ (In (I m) ps <-> In m (getSuccsOf ign f n))) /\
  (In (I m) (bSuccs ign f rets (I n)) <-> exists ps, bPreds ign f (I m) = Some ps /\ In (I n) ps).
Proof.
  intros ign f rets n m Wf Nl Vn Sn Vm Sm.
  assert (MI : forall l x, In (I x) (map I l) <-> In x l).
  { intros l x. rewrite in_map_iff. split; [intros (y & E & Hy); now injection E as ->|eauto]. }
  assert (A : In (I m) (bSuccs ign f rets (I n)) <-> In n (getSuccsOf ign f m)).
  { rewrite <- (C46_predecessors_are_the_converse ign f m n Wf Nl Vm Sm Vn Sn). cbn [bSuccs].
    destruct (getPredsOf ign f n) as [|p ps] eqn:E; [|apply MI]. destruct rets; cbn; intuition discriminate. }
  split; auto. split; [exists (map I (getSuccsOf ign f n)); split; auto|]. rewrite A. cbn [bPreds]. split.
  - intros Hin. exists (map I (getSuccsOf ign f m)). split; auto. now apply MI.
  - intros (ps & Hp & Hin). injection Hp as <-. now apply MI in Hin.
Qed.
Print Assumptions C47_backward_is_the_converse.
Example backward_nontrivial : bSuccs true loopF true (I (1, 0)) = [I (0, 2); I (2, 2)] /\ bSuccs true loopF true (I (0, 0)) = [BRet].
Proof. split; reflexivity. Qed.

(** The artificial return is reached exactly from the nodes without
    predecessors, so from the start point. *)
Theorem C47_artificial_return : forall ign f n, wf f -> f <> [] -> valid f n -> skipped ign f n = false ->
  (In BRet (bSuccs ign f true (I n)) <-> getPredsOf ign f n = []) /\
  (forall s, In s (getStartPointsOf ign f) -> bSuccs ign f true (I s) = [BRet]) /\ bSuccs ign f true BRet = [].
Proof.
  intros ign f n Wf Hf V Sk. split; [|split; auto].
  - cbn [bSuccs]. destruct (getPredsOf ign f n) as [|p ps] eqn:E; [cbn; intuition|]. split; [|discriminate].
    intros Hin. apply in_map_iff in Hin as (x & Hx & _). discriminate.
  - destruct (C46_start_point ign f Wf Hf) as (i & E & _ & _ & _ & Pi). rewrite E. intros s [<-|[]]. cbn [bSuccs]. now rewrite Pi.
Qed.
Print Assumptions C47_artificial_return.
(** Start and exit points swap. *)
Theorem C47_start_and_exit_points : forall ign f n, wf f ->
  (In (I n) (bStartPoints f) <-> valid f n /\ isTerminator f n = true /\ term (getBlock f (fst n)) = Ret) /\
  (In (I n) (bStartPoints f) -> bPreds ign f (I n) = Some []) /\
  bExitPoints ign f true = [BRet] /\ bExitPoints ign f false = map I (getStartPointsOf ign f).
Proof.
  intros ign f n Wf. destruct (C46_exit_points ign f n Wf) as [A B].
  assert (MI : In (I n) (bStartPoints f) <-> In n (getExitPointsOf f)).
  { unfold bStartPoints. rewrite in_map_iff. split; [intros (y & E & Hy); now injection E as ->|eauto]. }
  rewrite MI. split; auto. split; auto. intros Hn. cbn [bPreds]. now rewrite (B Hn).
Qed.
Print Assumptions C47_start_and_exit_points.

(** The list of all edges is not that relation: it has every edge the other way
    round, that is, forwards. *)
Theorem C47_all_edges_point_forwards : forall f rets n m, wf f -> valid f n -> valid f m ->
  (In (I n, I m) (bEdges false f rets) <-> In (I n) (bSuccs false f rets (I m))).
Proof.
  intros f rets n m Wf Vn Vm. unfold bEdges. rewrite in_flat_map. split.
  - intros (x & _ & Hin). apply in_map_iff in Hin as (y & Heq & Hy). injection Heq as -> ->. exact Hy.
  - intros Hin. exists m. split; [|apply in_map_iff; eauto]. apply filter_In. split; auto. now apply allInstructions_in.
Qed.
Print Assumptions C47_all_edges_point_forwards.
Theorem C47_all_edges_refuted : exists f n m, wf f /\ valid f n /\ valid f m /\
  In (I n, I m) (bEdges true f true) /\ ~ In (I m) (bSuccs true f true (I n)) /\
  In (I n) (bSuccs true f true (I m)) /\ ~ In (I m, I n) (bEdges true f true).
Proof.
  exists [mkBlock [Plain; Plain] Ret], (0, 0), (0, 1). split.
  { split; [intros b Hb; destruct b; [cbn; split; [discriminate|reflexivity]|cbn in Hb; lia]|].
    intros b t Hb Ht. destruct b; [destruct Ht|cbn in Hb; lia]. }
  split; [cbv; lia|]. split; [cbv; lia|]. cbn. intuition congruence.
Qed.
Print Assumptions C47_all_edges_refuted.
(** Debug instructions other than llvm.dbg.declare get edges although they are
    ignored. *)
Theorem C47_ignored_debug_edges_refuted : exists f n m, wf f /\ skipped true f n = true /\ In (m, I n) (bEdges true f true).
Proof.
  exists loopF, (2, 1), (I (2, 0)). destruct loopF_wf as [W _]. split; auto. split; [reflexivity|]. cbn. tauto.
Qed.
Print Assumptions C47_ignored_debug_edges_refuted.
(** The predecessors of the artificial return cannot be asked for, although it
    is an exit point. *)
Theorem C47_predecessors_of_the_return_refuted : forall ign f, In BRet (bExitPoints ign f true) /\ bPreds ign f BRet = None.
Proof. intros ign f. split; cbn; auto. Qed.
Print Assumptions C47_predecessors_of_the_return_refuted.
(** Backward branch targets are only those of BranchInst; after a switch a node
    with several backward predecessors is not recognised. *)
Theorem C47_branch_targets_refuted : exists f s d p ps, wf f /\ noLazy f /\ noDbgFront f /\ valid f s /\
  In (I d) (bSuccs false f true (I s)) /\ bIsBranchTarget f (I s) (I d) = false /\
  bPreds false f (I d) = Some ps /\ In (I p) ps /\ p <> s.
Proof.
  exists loopF, (1, 0), (2, 2), (3, 0). destruct loopF_wf as (A & B & C). exists [I (1, 0); I (3, 0)].
  split; auto. split; auto. split; auto. split; [cbv; lia|]. split; [cbn; auto|]. split; [reflexivity|]. split; [reflexivity|].
  split; [cbn; auto|congruence].
Qed.
Print Assumptions C47_branch_targets_refuted.
