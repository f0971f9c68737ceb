(** Model of IFDSTaintAnalysis,
    /repo/lib/PhasarLLVM/DataFlow/IfdsIde/Problems/IFDSTaintAnalysis.cpp, with
    /repo/include/phasar/PhasarLLVM/TaintConfig/TaintConfigUtilities.h.

    The taint configuration, the alias sets and the library summaries are parameters.
    Simplifications: sets are lists whose order and duplicates carry no meaning; a call
    site has at least as many arguments as the callee parameters, otherwise asserting
    mappers give no fact; Leaks is given as what the summary flow functions record when
    they are applied to all facts the results have. *)
From Coq Require Import List Bool Arith.
From Verif Require Import Assoc TableModel IDESolverModel IFDSModel IRProgramModel LLVMFlowFunctionsModel.
Import ListNotations.

(** LLVMTaintConfig: isSource, isSink, isSanitizer, the facts of the registered source
    and sink callbacks.  [aliases]: PT.getAliasSet.  [readOnly]: the global variable is
    constant.  [strip]: Value::stripPointerCasts.  [libc f i]: what the summary of f says
    about parameter i, [Some j]: parameter j, [None]: the return value; [libc f = None]:
    no summary.  [swiftAppend]: the name is $sSS1poiyS2S_SStFZ.  [sretCall]:
    CallBase::hasStructRetAttr *)
Record taintEnv (N F : Type) := mkTaintEnv {
  isSource : value N F -> bool; isSink : value N F -> bool; isSanitizer : value N F -> bool;
  sourceCB : N -> list (value N F); sinkCB : N -> list (value N F);
  aliases : value N F -> list (value N F); readOnly : nat -> bool; strip : value N F -> value N F;
  libc : F -> option (nat -> list (option nat)); swiftAppend : F -> bool; sretCall : N -> bool }.
Arguments mkTaintEnv {N F}. Arguments isSource {N F}. Arguments isSink {N F}. Arguments isSanitizer {N F}.
Arguments sourceCB {N F}. Arguments sinkCB {N F}. Arguments aliases {N F}. Arguments readOnly {N F}.
Arguments strip {N F}. Arguments libc {N F}. Arguments swiftAppend {N F}. Arguments sretCall {N F}.

Section Taint.
  Context {N F : Type} {EN : EqDec N} {EF : EqDec F}.
  Local Notation value := (value N F).
  Variable p : prog N F.
  Variable t : taintEnv N F.

  Definition mem_ (d : value) (l : list value) : bool := existsb (eqb d) l.
  Definition isNil (l : list value) : bool := match l with [] => true | _ => false end.

  (** isSourceCall, lines 56-82; isSinkCall, lines 84-110 *)
  Definition sourceCall (c : N) (f : F) : bool :=
    existsb (isSource t) (params p f) || mem_ (VInst c) (sourceCB t c) || existsb (fun a => mem_ a (sourceCB t c)) (argsAt p c).
  Definition sinkCall (c : N) (f : F) : bool :=
    existsb (isSink t) (params p f) || mem_ (VInst c) (sinkCB t c) || existsb (fun a => mem_ a (sinkCB t c)) (argsAt p c).

  (** canSkipAtContext, lines 119-142 *)
  Definition canSkip (v : value) (ctx : N) : bool :=
    match v with
    | VInst m => negb (eqb (fnOf p m) (fnOf p ctx)) || later p ctx m
    | VArg f _ => negb (eqb f (fnOf p ctx))
    | _ => false
    end.
  (** isCompiletimeConstantData, lines 144-151 *)
  Definition ctConst (v : value) : bool :=
    match v with VZero | VUndef | VConst _ => true | VGlob g => readOnly t g | _ => false end.
  (** populateWithMayAliases, lines 153-178 *)
  Definition populate (facts : list value) (ctx : N) : list value :=
    facts ++
    flat_map (fun x => flat_map (fun a =>
      if canSkip a ctx || ctConst a then []
      else match a with VInst m => match code p m with ILoad q => [strip t q; a] | _ => [a] end | _ => [a] end)
      (aliases t x)) facts.

  (** transferFlow, FlowFunctions.h:549-570 *)
  Definition transfer (to from d : value) : list value :=
    if eqb d from then [d; to] else if eqb d to then [] else [d].
  (** transferAndKillFlow, lines 186-201 *)
  Definition transferKill (to from d : value) : list value :=
    if manyUses p from then transfer to from d
    else if eqb d from then [to] else if eqb d to then [] else [d].
  (** transferAndKillTwoFlows, lines 203-263 *)
  Definition transferKill2 (to from1 from2 d : value) : list value :=
    if manyUses p from1 then
      if manyUses p from2 then
        if eqb d from1 || eqb d from2 then [d; to] else if eqb d to then [] else [d]
      else
        if eqb d from1 then [d; to] else if eqb d from2 then [to] else if eqb d to then [] else [d]
    else
      if manyUses p from2 then
        if eqb d from1 then [to] else if eqb d from2 then [d; to] else if eqb d to then [] else [d]
      else
        if eqb d from1 || eqb d from2 then [to] else if eqb d to then [] else [d].

  (** getNormalFlowFunction, lines 265-315 *)
  Definition taintNormal (n : N) (d : value) : list value :=
    match code p n with
    | IStore v q =>
        let gen := populate [q] n ++ (if manyUses p v then [v] else []) in
        if eqb q d then [] else if eqb v d then gen else [d]
    | ILoad q => transferKill (VInst n) q d
    | IGep q _ => transferKill (VInst n) q d
    | IExtract agg => transferKill (VInst n) agg d
    | IInsert agg v => transferKill2 (VInst n) agg v d
    | ICast v => transfer (VInst n) v d
    | _ => [d]
    end.

  Definition calleeOf (f : F) : callee value := mkCallee (decl p f) (params p f) (sret p f) (vararg p f) (valists p f).
  Definition orNone (x : option (list value)) : list value := match x with Some l => l | None => [] end.

  (** getCallFlowFunction, lines 317-330 *)
  Definition taintCall (c : N) (f : F) (d : value) : list value :=
    if sourceCall c f || sinkCall c f then []
    else orNone (toCallee isZero isConst (fun v => v) (fun d => d) eqb true true (argsAt p c) (calleeOf f) d).

  (** getRetFlowFunction, lines 332-350; the parameters are those of the function of the
      exit instruction *)
  Definition taintRet (c : N) (f : F) (e : N) (d : value) : list value :=
    orNone (toCaller isZero isConst (fun v => v)
      (fun formal d => eqb formal d && pointer p formal) eqb true true
      (fun res => populate res c) (argsAt p c) (calleeOf (fnOf p e)) (retVal p e) (VInst c) d).

  (** getCallToRetFlowFunction, lines 352-365 *)
  Definition taintCtr (c : N) (d : value) : list value :=
    let declOnly := existsb (decl p) (calleesAt p c) in
    alongside isZero isConst eqb (fun v => v) (fun a => declOnly || negb (pointer p a)) true (argsAt p c) d.

  Definition selected (sel : value -> bool) (c : N) (f : F) : list value :=
    flat_map (fun x => if sel (fst x) then [snd x] else []) (List.combine (params p f) (argsAt p c)).
  (** collectGeneratedFacts, TaintConfigUtilities.h:24-45, and line 392 *)
  Definition gen (c : N) (f : F) : list value :=
    populate (sourceCB t c ++ (if isSource t (VInst c) then [VInst c] else []) ++ selected (isSource t) c f) c.
  (** collectLeakedFacts, TaintConfigUtilities.h:47-74 *)
  Definition leak (c : N) (f : F) : list value := sinkCB t c ++ selected (isSink t) c f.
  (** collectSanitizedFacts, TaintConfigUtilities.h:76-87, and lines 398-405 *)
  Definition kill (c : N) (f : F) : list value :=
    selected (isSanitizer t) c f ++
    (if sretCall t c then match argsAt p c with a :: _ => if mem_ a (gen c f) then [] else [a] | [] => [] end else []).

  (** the lambda of lines 411-431 *)
  Definition libcFlow (c : N) (f : F) (facts : nat -> list (option nat)) (d : value) : list value :=
    flat_map (fun x => if eqb d (fst x) then
        flat_map (fun o => match o with
          | Some j => match nth_error (argsAt p c) j with Some a => [a] | None => [] end
          | None => [VInst c]
          end) (facts (snd x))
      else []) (List.combine (argsAt p c) (seq 0 (nparams p f))) ++ [d].

  (** getSummaryFlowFunction, lines 367-480 *)
  Definition taintSum (c : N) (f : F) : option (value -> list value) :=
    if swiftAppend t f then
      Some (fun d => if existsb (fun o => match o with Some a => eqb d a | None => false end)
                          [nth_error (argsAt p c) 1; nth_error (argsAt p c) 3] then [d; VInst c] else [d])
    else if isNil (gen c f) && isNil (leak c f) && isNil (kill c f) then
      match libc t f with Some facts => Some (libcFlow c f facts) | None => None end
    else if isNil (gen c f) then Some (fun d => if mem_ d (kill c f) then [] else [d])
    else Some (fun d => if isZero d then VZero :: gen c f else [d]).

  Definition taintFlows : flows N F value := irFlows taintNormal taintCall taintRet taintCtr taintSum.

  (** initialSeeds, lines 482-503, with the entry point main *)
  Definition taintSeeds (main : F) (taintMainArgs : bool) : list (N * list value) :=
    match entry p main with
    | Some sp => [(sp, VZero :: if taintMainArgs then params p main else [])]
    | None => []
    end.
  Definition taintProblem : problem N F value bdom bef := ifdsProblem taintFlows.

  (** Leaks[n], lines 443-448 and 471-476; the summary flow function is applied at call
      sites with a return site, IDESolver.h:381-397 *)
  Definition recordedLeak (c : N) (f : F) (d : value) : bool :=
    negb (swiftAppend t f) && mem_ d (leak c f) && (isNil (gen c f) || negb (isZero d)).
  Definition leaks (T : table N value bdom) (n : N) : list value :=
    match succs p n with
    | [] => []
    | _ => flat_map (fun f => filter (recordedLeak n f) (ifdsResultsAt T n)) (calleesAt p n)
    end.
End Taint.
