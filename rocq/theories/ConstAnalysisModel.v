(** Model of IFDSConstAnalysis,
    /repo/lib/PhasarLLVM/DataFlow/IfdsIde/Problems/IFDSConstAnalysis.cpp.

    The flow functions of a write depend on the set Initialized, which grows while the
    solver asks for flow functions; what the solver gets the first time is cached
    (FlowEdgeFunctionCache.h:208-330).  The model takes the order in which the
    statements are asked for as a parameter and computes what was handed out.

    Simplifications: a flow function is asked for once per statement (a store has one
    successor, a memory intrinsic one return site); the alias sets do not change
    meanwhile; a failed assertion of the mappers gives no facts. *)
From Coq Require Import List Bool Arith.
From Verif Require Import Assoc TableModel IDESolverModel IFDSModel IRProgramModel LLVMFlowFunctionsModel TaintModel.
Import ListNotations.

Section Const.
  Context {N F : Type} {EN : EqDec N} {EF : EqDec F}.
  Local Notation value := (value N F).
  Variable p : prog N F.
  (** getAliasSet *)
  Variable alias : value -> list value.
  (** isTouchVTableInst; the call is a llvm::MemIntrinsic; the call is one of a heap
      allocating function *)
  Variables vtable memIntrin heapCall : N -> bool.

  (** the pointer operand of a store that is looked at, lines 51-58, or of a memory
      intrinsic, lines 135-136 *)
  Definition writeOp (n : N) : option value :=
    match code p n with
    | IStore _ q => if vtable n then None else Some q
    | ICall _ _ args => if memIntrin n then hd_error args else None
    | _ => None
    end.

  Definition isGlobal (v : value) : bool := match v with VGlob _ => true | _ => false end.
  (** isInitialized, lines 229-231 *)
  Definition isInit (ini : list value) (v : value) : bool := isGlobal v || existsb (eqb v) ini.
  (** the loop over the alias set, lines 71-79 and 140-148 *)
  Definition generates (ini : list value) (n : N) : bool :=
    match writeOp n with Some q => existsb (isInit ini) (alias q) | None => false end.
  (** Initialized behind the request for n, lines 84 and 149 *)
  Definition mark (ini : list value) (n : N) : list value :=
    match writeOp n with Some q => if generates ini n then ini else q :: ini | None => ini end.
  (** did the first request for n give a generating flow function *)
  Fixpoint decided (ini : list value) (order : list N) (n : N) : bool :=
    match order with
    | [] => false
    | m :: order' => if eqb m n then generates ini m else decided (mark ini m) order' n
    end.

  (** isAllocaInstOrHeapAllocaFunction, LLVMShorthands.cpp:54-73 *)
  Definition isAlloc (v : value) : bool :=
    match v with
    | VInst n => match code p n with IAlloca _ => true | ICall _ _ _ => heapCall n | _ => false end
    | _ => false
    end.
  (** getContextRelevantAliasSet, lines 191-227 *)
  Definition relevant (ctx : F) (v : value) : bool :=
    match v with
    | VInst n => isAlloc v || eqb (fnOf p n) ctx
    | VGlob _ => true
    | VArg f _ => eqb f ctx
    | _ => false
    end.
  Definition contextAliases (n : N) : list value :=
    match writeOp n with Some q => filter (relevant (fnOf p n)) (alias q) | None => [] end.

  Variable order : list N.
  (** generateManyFlows, FlowFunctions.h, or identityFlow *)
  Definition constWrite (n : N) (d : value) : list value :=
    if decided [] order n && isZero d then d :: contextAliases n else [d].
  (** getNormalFlowFunction, lines 47-90 *)
  Definition constNormal (n : N) (d : value) : list value :=
    match code p n with IStore _ _ => constWrite n d | _ => [d] end.
  (** getCallFlowFunction, lines 92-114 *)
  Definition constCall (c : N) (f : F) (d : value) : list value :=
    if memIntrin c then []
    else orNone (toCallee isZero isConst (fun v => v) (fun d => d) (fun a s => eqb a s && pointer p a) true true
      (argsAt p c) (calleeOf p f) d).
  (** getRetFlowFunction, lines 116-128 *)
  Definition constRet (c : N) (f : F) (e : N) (d : value) : list value :=
    orNone (toCaller isZero isConst (fun v => v) (fun q s => eqb q s && pointer p q) eqb true true (fun res => res)
      (argsAt p c) (calleeOf p (fnOf p e)) (retVal p e) (VInst c) d).
  (** getCallToRetFlowFunction, lines 130-155 *)
  Definition constCtr (c : N) (d : value) : list value :=
    if memIntrin c then constWrite c d else [d].
  (** getSummaryFlowFunction, lines 157-161: null *)
  Definition constFlows : flows N F value :=
    irFlows constNormal constCall constRet constCtr (fun _ _ => None).
  Definition constProblem : problem N F value bdom bef := ifdsProblem constFlows.
  (** initialSeeds, lines 163-168 *)
  Definition constSeeds (main : F) : list (N * list value) :=
    match entry p main with Some sp => [(sp, [VZero])] | None => [] end.

  (** emitTextReport, lines 241-289: what is left of AllMemLocs *)
  Definition exitsOf (f : F) : list N :=
    filter (fun n => eqb (fnOf p n) f && match code p n with IRet _ => true | _ => false end) (nodes p).
  Definition inFunction (f : F) (v : value) : bool := match v with VInst n => eqb (fnOf p n) f | _ => false end.
  Definition removeAt (T : table N value bdom) (f : F) (locs : list value) (e : N) : list value :=
    match ifdsResultsAt T e with
    | [] => filter (fun v => negb (inFunction f v)) locs
    | facts => filter (fun v => negb (existsb (eqb v) facts && (isAlloc v || isGlobal v || isZero v))) locs
    end.
  Definition immutable (T : table N value bdom) (funs : list F) (allMemLocs : list value) : list value :=
    fold_left (fun locs f => fold_left (removeAt T f) (exitsOf f) locs) funs allMemLocs.
  (** AllMemLocs is never filled: IFDSConstAnalysis.h:208-209 *)
  Definition constReport (T : table N value bdom) (funs : list F) : list value := immutable T funs [].
End Const.
