(** Model of psr::IDESolver,
    /repo/include/phasar/DataFlow/IfdsIde/Solver/IDESolver.h  ("IDESolver.h").

    Simplifications common to all definitions: logging, PAMM statistics,
    ESG/edge recording (saveEdges, IntermediateEdgeFunctions) and
    printIncomingTab/printEndSummaryTab are dropped; the flow/edge function
    cache is transparent (proved separately in FlowCacheProperties.v), so the problem's
    functions are called directly; flow functions return lists instead of sets
    (any order, duplicates allowed). *)
From Coq Require Import List Bool.
From Verif Require Import Assoc TableModel JumpFunctionsModel.
Import ListNotations.

(** The inter-procedural CFG interface used by the solver (ICFGBase.h,
    CFGBase.h): every query is a pure function. *)
Record icfg (N F : Type) := mkICFG {
  getSuccsOf : N -> list N;
  isCallSite : N -> bool;
  isExitInst : N -> bool;
  isStartPoint : N -> bool;
  getStartPointsOf : F -> list N;
  getCalleesOfCallAt : N -> list F;
  getReturnSitesOfCallAt : N -> list N;
  getCallersOf : F -> list N;
  getFunctionOf : N -> F;
  getCallsFromWithin : F -> list N;
  allNonCallStartNodes : list N
}.
Arguments mkICFG {N F}.
Arguments getSuccsOf {N F}. Arguments isCallSite {N F}. Arguments isExitInst {N F}.
Arguments isStartPoint {N F}. Arguments getStartPointsOf {N F}.
Arguments getCalleesOfCallAt {N F}. Arguments getReturnSitesOfCallAt {N F}.
Arguments getCallersOf {N F}. Arguments getFunctionOf {N F}.
Arguments getCallsFromWithin {N F}. Arguments allNonCallStartNodes {N F}.

(** IDETabulationProblem.h:40-186: flow functions, edge functions, semi-ring
    (SemiRing.h: extend = composeWith, combine = joinWith), join lattice. *)
Record problem (N F D L EF : Type) := mkProblem {
  normalFF : N -> N -> D -> list D;              (* getNormalFlowFunction *)
  callFF : N -> F -> D -> list D;                (* getCallFlowFunction *)
  retFF : N -> F -> N -> N -> D -> list D;       (* getRetFlowFunction(CallSite,Callee,Exit,RetSite) *)
  ctrFF : N -> N -> D -> list D;                 (* getCallToRetFlowFunction(CallSite,RetSite,_) *)
  sumFF : N -> F -> option (D -> list D);        (* getSummaryFlowFunction, may be null *)
  normalEF : N -> D -> N -> D -> EF;
  callEF : N -> D -> F -> D -> EF;
  retEF : N -> F -> N -> D -> N -> D -> EF;      (* CallSite,Callee,Exit,ExitNode,RetSite,RetNode *)
  ctrEF : N -> D -> N -> D -> EF;
  sumEF : N -> D -> N -> D -> EF;
  zeroValue : D;
  apply : EF -> L -> L;                          (* EdgeFunction::computeTarget *)
  extend : EF -> EF -> EF;
  combine : EF -> EF -> EF;
  efEqb : EF -> EF -> bool;                      (* EdgeFunction::operator== *)
  allTop : EF;
  edgeIdentity : EF;
  topElement : L;
  bottomElement : L;
  joinL : L -> L -> L;
  lEqb : L -> L -> bool                          (* l_t::operator== *)
}.
Arguments mkProblem {N F D L EF}.
Arguments normalFF {N F D L EF}. Arguments callFF {N F D L EF}.
Arguments retFF {N F D L EF}. Arguments ctrFF {N F D L EF}.
Arguments sumFF {N F D L EF}. Arguments normalEF {N F D L EF}.
Arguments callEF {N F D L EF}. Arguments retEF {N F D L EF}.
Arguments ctrEF {N F D L EF}. Arguments sumEF {N F D L EF}.
Arguments zeroValue {N F D L EF}. Arguments apply {N F D L EF}.
Arguments extend {N F D L EF}. Arguments combine {N F D L EF}.
Arguments efEqb {N F D L EF}. Arguments allTop {N F D L EF}.
Arguments edgeIdentity {N F D L EF}. Arguments topElement {N F D L EF}.
Arguments bottomElement {N F D L EF}. Arguments joinL {N F D L EF}.
Arguments lEqb {N F D L EF}.

Section IDE.
  Context {N F D L EF : Type} `{EqDec N} `{EqDec F} `{EqDec D}.
  Variable G : icfg N F.
  Variable P : problem N F D L EF.
  (** SolverConfig.followReturnsPastSeeds() *)
  Variable followReturnsPastSeeds : bool.

  (** PathEdge.h:21-55 together with the pending edge function,
      IDESolver.h:1810 [WorkList] *)
  Definition item := (D * N * D * EF)%type.
  (** std::map<N, std::map<D, L>>, InitialSeeds.h:25 *)
  Definition seeds := list (N * list (D * L)).

  (** llvm::isa<AllTop>, JumpFunctions.h:85: the code tests the dynamic type;
      equality with the solver's AllTop object compares the type as well. *)
  Definition isAllTop (f : EF) : bool := efEqb P f (allTop P).

  (** The members of the solver that phase I modifies, IDESolver.h:1810-1841.
      [st_wl]: head = back of the C++ vector. *)
  Record state := mkState {
    st_jf : jumpfns N D EF;                      (* JumpFn *)
    st_es : table N D (table N D EF);            (* EndsummaryTab *)
    st_inc : table N D (list (N * list D));      (* IncomingTab *)
    st_wl : list item;                           (* WorkList *)
    st_unb : list N                              (* UnbalancedRetSites *)
  }.

  (** WorkList.emplace_back for a list of items, in order *)
  Definition push (ps : list item) (wl : list item) : list item := rev_append ps wl.

  (** jumpFunction, IDESolver.h:670-696 *)
  Definition jumpFunction (J : jumpfns N D EF) (d1 : D) (n : N) (d2 : D) : EF :=
    match jf_forward J d1 n with
    | Some l => match afind d2 l with Some f => f | None => allTop P end
    | None => allTop P
    end.

  (** endSummary, IDESolver.h:1195-1207 *)
  Definition endSummary (ES : table N D (table N D EF)) (sp : N) (d : D) : list (N * D * EF) :=
    t_cells (t_get [] ES sp d).

  (** addEndSummary, IDESolver.h:698-703 *)
  Definition addEndSummary (ES : table N D (table N D EF)) sp d1 eP d2 f :=
    t_insert ES sp d1 (t_insert (t_get [] ES sp d1) eP d2 f).

  (** incoming, IDESolver.h:1209-1211 *)
  Definition incoming (I : table N D (list (N * list D))) (d : D) (sp : N) : list (N * list D) :=
    t_get [] I sp d.

  (** addIncoming, IDESolver.h:1213-1215 *)
  Definition addIncoming (I : table N D (list (N * list D))) sp d3 n d2 :=
    t_insert I sp d3 (aset n (sinsert d2 (afindd [] n (incoming I d3 sp))) (incoming I d3 sp)).

  (** processNormalFlow, IDESolver.h:554-585: items pushed *)
  Definition normalPushes (f : EF) (d1 : D) (n : N) (d2 : D) : list item :=
    flat_map (fun n' =>
      map (fun d3 => (d1, n', d3, extend P f (normalEF P n d2 n' d3)))
          (normalFF P n n' d2))
      (getSuccsOf G n).

  (** processCall, special summary branch, IDESolver.h:393-411 *)
  Definition summaryPushes (sf : D -> list D) (f : EF) (d1 : D) (n : N) (d2 : D) : list item :=
    flat_map (fun r =>
      map (fun d3 => (d1, r, d3, extend P f (sumEF P n d2 r d3))) (sf d2))
      (getReturnSitesOfCallAt G n).

  (** processCall, application of existing end summaries, IDESolver.h:455-512 *)
  Definition endSummaryPushes ES (f : EF) (d1 : D) (n : N) (d2 : D) (callee : F) (sp : N) (d3 : D) : list item :=
    flat_map (fun '(eP, d4, fs) =>
      flat_map (fun r =>
        map (fun d5 =>
          (d1, r, d5,
           extend P f (extend P (extend P (callEF P n d2 callee d3) fs)
                                (retEF P n callee eP d4 r d5))))
          (retFF P n callee eP r d4))
        (getReturnSitesOfCallAt G n))
      (endSummary ES sp d3).

  (** processCall, ordinary callee, IDESolver.h:413-515 *)
  Definition calleePushes ES (f : EF) (d1 : D) (n : N) (d2 : D) (callee : F) : list item :=
    flat_map (fun sp =>
      flat_map (fun d3 =>
        (d3, sp, d3, edgeIdentity P) :: endSummaryPushes ES f d1 n d2 callee sp d3)
        (callFF P n callee d2))
      (getStartPointsOf G callee).

  (** processCall, call-to-return flows, IDESolver.h:519-547 *)
  Definition ctrPushes (f : EF) (d1 : D) (n : N) (d2 : D) : list item :=
    flat_map (fun r =>
      map (fun d3 => (d1, r, d3, extend P f (ctrEF P n d2 r d3))) (ctrFF P n r d2))
      (getReturnSitesOfCallAt G n).

  Definition callPushes ES (f : EF) (d1 : D) (n : N) (d2 : D) : list item :=
    flat_map (fun callee =>
      match sumFF P n callee with
      | Some sf => summaryPushes sf f d1 n d2
      | None => calleePushes ES f d1 n d2 callee
      end) (getCalleesOfCallAt G n)
    ++ ctrPushes f d1 n d2.

  (** processCall, the addIncoming calls in loop order, IDESolver.h:440 *)
  Definition callIncoming (n : N) (d2 : D) : list (N * D) :=
    flat_map (fun callee =>
      match sumFF P n callee with
      | Some _ => []
      | None =>
          flat_map (fun sp => map (fun d3 => (sp, d3)) (callFF P n callee d2))
                   (getStartPointsOf G callee)
      end) (getCalleesOfCallAt G n).

  (** processCall, IDESolver.h:355-548.  The end-summary table is only read and
      the incoming table only written, so the interleaving of the C++ loops is
      equivalent to computing the pushes and the registrations separately. *)
  Definition processCall (st : state) (d1 : D) (n : N) (d2 : D) : state :=
    let f := jumpFunction (st_jf st) d1 n d2 in
    mkState (st_jf st) (st_es st)
      (fold_left (fun I '(sp, d3) => addIncoming I sp d3 n d2) (callIncoming n d2) (st_inc st))
      (push (callPushes (st_es st) f d1 n d2) (st_wl st))
      (st_unb st).

  (** processExit, computation of [Inc], IDESolver.h:898-908 *)
  Definition exitInc I (d1 : D) (sps : list N) : list (N * list D) :=
    fold_left (fun Inc sp =>
      fold_left (fun Inc '(c, ds) => aset c ds Inc) (incoming I d1 sp) Inc) sps [].

  (** processExit, IDESolver.h:912-975: return flows into the known callers *)
  Definition returnPushes J (Inc : list (N * list D)) (f : EF) (d1 : D) (n : N) (d2 : D) : list item :=
    let callee := getFunctionOf G n in
    flat_map (fun '(c, d4s) =>
      flat_map (fun r =>
        flat_map (fun d4 =>
          flat_map (fun d5 =>
            let f' := extend P (extend P (callEF P c d4 callee d1) f)
                               (retEF P c callee n d2 r d5) in
            match jf_reverse J c d4 with
            | None => []
            | Some l =>
                flat_map (fun '(d3, f3) =>
                  if efEqb P f3 (allTop P) then [] else [(d3, r, d5, extend P f3 f')]) l
            end)
            (retFF P c callee n r d2))
          d4s)
        (getReturnSitesOfCallAt G c))
      Inc.

  (** processExit, unbalanced returns, IDESolver.h:984-1013 and
      propagteUnbalancedReturnFlow 1026-1032
      (applyUnbalancedRetFlowFunctionSideEffects, a client callback without
      effect on the solver, is not modelled) *)
  Definition unbalancedPushes (f : EF) (n : N) (d2 : D) : list item :=
    let callee := getFunctionOf G n in
    flat_map (fun c =>
      flat_map (fun r =>
        map (fun d5 => (zeroValue P, r, d5, extend P f (retEF P c callee n d2 r d5)))
            (retFF P c callee n r d2))
        (getReturnSitesOfCallAt G c))
      (getCallersOf G callee).

  (** processExit, IDESolver.h:886-1024 *)
  Definition processExit (st : state) (d1 : D) (n : N) (d2 : D) : state :=
    let f := jumpFunction (st_jf st) d1 n d2 in
    let sps := getStartPointsOf G (getFunctionOf G n) in
    let ES := fold_left (fun ES sp => addEndSummary ES sp d1 n d2 f) sps (st_es st) in
    let Inc := exitInc (st_inc st) d1 sps in
    let wl1 := push (returnPushes (st_jf st) Inc f d1 n d2) (st_wl st) in
    match followReturnsPastSeeds, Inc with
    | true, [] =>
        let ups := unbalancedPushes f n d2 in
        mkState (st_jf st) ES (st_inc st) (push ups wl1)
          (fold_left (fun U '(_, r, _, _) => sinsert r U) ups (st_unb st))
    | _, _ => mkState (st_jf st) ES (st_inc st) wl1 (st_unb st)
    end.

  Definition processNormalFlow (st : state) (d1 : D) (n : N) (d2 : D) : state :=
    mkState (st_jf st) (st_es st) (st_inc st)
      (push (normalPushes (jumpFunction (st_jf st) d1 n d2) d1 n d2) (st_wl st))
      (st_unb st).

  (** pathEdgeProcessingTask, IDESolver.h:706-736 *)
  Definition pathEdgeProcessingTask (st : state) (d1 : D) (n : N) (d2 : D) : state :=
    if isCallSite G n then processCall st d1 n d2
    else
      let st1 := if isExitInst G n then processExit st d1 n d2 else st in
      match getSuccsOf G n with
      | [] => st1
      | _ => processNormalFlow st1 d1 n d2
      end.

  (** propagate, IDESolver.h:1133-1189 *)
  Definition propagate (st : state) (d1 : D) (n : N) (d2 : D) (f : EF) : state :=
    let old :=
      match jf_reverse (st_jf st) n d2 with
      | Some l => match afind d1 l with Some g => g | None => allTop P end
      | None => allTop P
      end in
    let f' := combine P old f in
    if efEqb P f' old then st
    else
      pathEdgeProcessingTask
        (mkState (jf_add isAllTop (st_jf st) d1 n d2 f') (st_es st) (st_inc st)
                 (st_wl st) (st_unb st)) d1 n d2.

  (** doNext, IDESolver.h:1758-1768.  [None] is the failed assertion
      (with NDEBUG: undefined behaviour) on an empty worklist. *)
  Definition doNext (st : state) : option state :=
    match st_wl st with
    | [] => None
    | (d1, n, d2, f) :: wl =>
        Some (propagate (mkState (st_jf st) (st_es st) (st_inc st) wl (st_unb st)) d1 n d2 f)
    end.

  (** submitInitialSeeds, first loop, IDESolver.h:843-853 *)
  Definition addZeroSeeds (S : seeds) : seeds :=
    map (fun '(n, facts) =>
      (n, match afind (zeroValue P) facts with
          | Some _ => facts
          | None => aset (zeroValue P) (bottomElement P) facts
          end)) S.

  (** submitInitialSeeds, last loop, IDESolver.h:864-875 *)
  Definition seedItems (S : seeds) : list item :=
    flat_map (fun '(n, facts) => map (fun '(d, _) => (d, n, d, edgeIdentity P)) facts) S.

  (** doInitialize, IDESolver.h:1726-1756 *)
  Definition initState (S : seeds) : state :=
    mkState jf_empty [] [] (push (seedItems (addZeroSeeds S)) []) [].

  (** while (next()), IDESolverAPIMixin.h:433-437, with fuel;
      [None] = out of fuel *)
  Fixpoint runPhaseI (fuel : nat) (st : state) : option state :=
    match st_wl st with
    | [] => Some st
    | _ => match fuel with
           | 0 => None
           | S k => match doNext st with Some st' => runPhaseI k st' | None => None end
           end
    end.

  (** *** Phase II *)

  Record vstate := mkV { v_tab : table N D L; v_wl : list (N * D) }.

  (** val, IDESolver.h:644-650 *)
  Definition val (T : table N D L) (n : N) (d : D) : L :=
    match t_lookup T n d with Some v => v | None => topElement P end.

  (** propagateValue, IDESolver.h:635-642 (setVal 652-668, joinValueAt 1191-1193) *)
  Definition propagateValue (v : vstate) (n : N) (d : D) (l : L) : vstate :=
    let old := val (v_tab v) n d in
    let l' := joinL P old l in
    if lEqb P l' old then v
    else mkV (t_insert (v_tab v) n d l') ((n, d) :: v_wl v).

  (** propagateValueAtStart, IDESolver.h:587-606 *)
  Definition propagateValueAtStart (J : jumpfns N D EF) (v : vstate) (n : N) (d : D) : vstate :=
    fold_left (fun v c =>
      match jf_forward J d c with
      | None => v
      | Some l =>
          fold_left (fun v '(d', f') =>
            propagateValue v c d' (apply P f' (val (v_tab v) n d))) l v
      end) (getCallsFromWithin G (getFunctionOf G n)) v.

  (** propagateValueAtCall, IDESolver.h:608-633 *)
  Definition propagateValueAtCall (v : vstate) (n : N) (d : D) : vstate :=
    fold_left (fun v callee =>
      fold_left (fun v d' =>
        fold_left (fun v sp =>
          propagateValue v sp d' (apply P (callEF P n d callee d') (val (v_tab v) n d)))
          (getStartPointsOf G callee) v)
        (callFF P n callee d) v)
      (getCalleesOfCallAt G n) v.

  (** valuePropagationTask, IDESolver.h:739-754 *)
  Definition valuePropagationTask (S : seeds) (U : list N) (J : jumpfns N D EF)
      (v : vstate) (n : N) (d : D) : vstate :=
    let v1 :=
      if isStartPoint G n || (match afind n S with Some _ => true | None => false end)
         || mem n U
      then propagateValueAtStart J v n d else v in
    if isCallSite G n then propagateValueAtCall v1 n d else v1.

  (** submitInitialValues, seeds for unbalanced return sites, IDESolver.h:791-796 *)
  Definition allSeeds (S : seeds) (U : list N) : seeds :=
    fold_left (fun S u =>
      match afind u S with
      | Some _ => S
      | None => aset u [(zeroValue P, topElement P)] S
      end) U S.

  (** submitInitialValues, IDESolver.h:790-814.  [S] is the seed map after
      addZeroSeeds; containsInitialSeedsFor refers to [S], not to AllSeeds. *)
  Definition submitInitialValues (S : seeds) (U : list N) (J : jumpfns N D EF) (v : vstate) : vstate :=
    fold_left (fun v '(n, facts) =>
      fold_left (fun v '(d, l) =>
        let v1 := mkV (t_insert (v_tab v) n d (joinL P l (val (v_tab v) n d))) (v_wl v) in
        valuePropagationTask S U J v1 n d) facts v) (allSeeds S U) v.

  (** one iteration of the loop in computeValues, IDESolver.h:821-825 *)
  Definition vNext (S : seeds) (U : list N) (J : jumpfns N D EF) (v : vstate) : option vstate :=
    match v_wl v with
    | [] => None
    | (n, d) :: wl => Some (valuePropagationTask S U J (mkV (v_tab v) wl) n d)
    end.

  Fixpoint runPhaseIIi (fuel : nat) S U J (v : vstate) : option vstate :=
    match v_wl v with
    | [] => Some v
    | _ => match fuel with
           | 0 => None
           | S k => match vNext S U J v with Some v' => runPhaseIIi k S U J v' | None => None end
           end
    end.

  (** valueComputationTask, IDESolver.h:757-777 *)
  Definition valueComputationTask (J : jumpfns N D EF) (T : table N D L) : table N D L :=
    fold_left (fun T n =>
      fold_left (fun T sp =>
        fold_left (fun T '(d', d, f') =>
          t_insert T n d (joinL P (val T n d) (apply P f' (val T sp d'))))
          (t_cells (jf_byTarget J n)) T)
        (getStartPointsOf G (getFunctionOf G n)) T)
      (allNonCallStartNodes G) T.

  (** computeValues, IDESolver.h:817-832 *)
  Definition computeValues (fuel : nat) (S : seeds) (U : list N) (J : jumpfns N D EF) : option (table N D L) :=
    match runPhaseIIi fuel S U J (submitInitialValues S U J (mkV [] [])) with
    | Some v => Some (valueComputationTask J (v_tab v))
    | None => None
    end.

  (** solve(), IDESolverAPIMixin.h:73-99 with doInitialize/doNext/doFinalize *)
  Definition solve (fuel : nat) (S : seeds) : option (state * table N D L) :=
    match runPhaseI fuel (initState S) with
    | Some st =>
        match computeValues fuel (addZeroSeeds S) (st_unb st) (st_jf st) with
        | Some T => Some (st, T)
        | None => None
        end
    | None => None
    end.

  (** *** Order-abstracted runs: any pending item may be taken and the pushed
      items may be permuted (hash/pointer iteration orders). *)
  Inductive pstep : state -> state -> Prop :=
  | pstep_intro st l1 l2 d1 n d2 f st' :
      st_wl st = l1 ++ (d1, n, d2, f) :: l2 ->
      st_jf st' = st_jf (propagate (mkState (st_jf st) (st_es st) (st_inc st) (l1 ++ l2) (st_unb st)) d1 n d2 f) ->
      st_es st' = st_es (propagate (mkState (st_jf st) (st_es st) (st_inc st) (l1 ++ l2) (st_unb st)) d1 n d2 f) ->
      st_inc st' = st_inc (propagate (mkState (st_jf st) (st_es st) (st_inc st) (l1 ++ l2) (st_unb st)) d1 n d2 f) ->
      st_unb st' = st_unb (propagate (mkState (st_jf st) (st_es st) (st_inc st) (l1 ++ l2) (st_unb st)) d1 n d2 f) ->
      Permutation.Permutation (st_wl st')
        (st_wl (propagate (mkState (st_jf st) (st_es st) (st_inc st) (l1 ++ l2) (st_unb st)) d1 n d2 f)) ->
      pstep st st'.

  Inductive psteps : state -> state -> Prop :=
  | psteps_refl st : psteps st st
  | psteps_step st1 st2 st3 : psteps st1 st2 -> pstep st2 st3 -> psteps st1 st3.

  (** initial states: seeds submitted in any order *)
  Definition pinit (S : seeds) (st : state) : Prop :=
    st_jf st = jf_empty /\ st_es st = [] /\ st_inc st = [] /\ st_unb st = [] /\
    Permutation.Permutation (st_wl st) (seedItems (addZeroSeeds S)).

  Inductive vstep S U J : vstate -> vstate -> Prop :=
  | vstep_intro v l1 l2 n d v' :
      v_wl v = l1 ++ (n, d) :: l2 ->
      v_tab v' = v_tab (valuePropagationTask S U J (mkV (v_tab v) (l1 ++ l2)) n d) ->
      Permutation.Permutation (v_wl v')
        (v_wl (valuePropagationTask S U J (mkV (v_tab v) (l1 ++ l2)) n d)) ->
      vstep S U J v v'.

  Inductive vsteps S U J : vstate -> vstate -> Prop :=
  | vsteps_refl v : vsteps S U J v v
  | vsteps_step v1 v2 v3 : vsteps S U J v1 v2 -> vstep S U J v2 v3 -> vsteps S U J v1 v3.

  (** a completed solve under an arbitrary schedule *)
  Definition solved (S : seeds) (st : state) (T : table N D L) : Prop :=
    exists st0 v,
      pinit S st0 /\ psteps st0 st /\ st_wl st = [] /\
      vsteps (addZeroSeeds S) (st_unb st) (st_jf st)
        (submitInitialValues (addZeroSeeds S) (st_unb st) (st_jf st) (mkV [] [])) v /\
      v_wl v = [] /\ T = valueComputationTask (st_jf st) (v_tab v).
End IDE.
