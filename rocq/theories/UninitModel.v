(** Model of IFDSUninitializedVariables,
    /repo/lib/PhasarLLVM/DataFlow/IfdsIde/Problems/IFDSUninitializedVariables.cpp.

    Simplifications: undef and poison are one value; a call site has at least as many
    arguments as the callee parameters (otherwise the vector of actuals is read out of
    bounds); UndefValueUses is given as the uses the flow functions record when they
    are applied to all facts the results have. *)
From Coq Require Import List Bool Arith.
From Verif Require Import Assoc TableModel IDESolverModel IFDSModel IRProgramModel.
Import ListNotations.

Section Uninit.
  Context {N F : Type} {EN : EqDec N} {EF : EqDec F}.
  Local Notation value := (value N F).
  Variable p : prog N F.

  (** the operand at which the loop stops, lines 193-212 *)
  Definition firstUse (d : value) (ops : list value) : option value := find (fun o => eqb o d || isUndef o) ops.

  (** getNormalFlowFunction, lines 38-215 *)
  Definition uninitNormal (n : N) (d : value) : list value :=
    match code p n with
    | IStore v q =>
        if eqb d v || (isZero d && isUndef v) then [d; q]
        else if eqb d q then []
        else [d]
    | IAlloca prim => if isZero d && prim then [d; VInst n] else [d]
    | _ => match firstUse d (operands p n) with Some _ => [d; VInst n] | None => [d] end
    end.
  (** UndefValueUses[Curr].insert(Operand), lines 203-209 *)
  Definition recorded (n : N) (d : value) : option value :=
    match code p n with
    | IStore _ _ | IAlloca _ | IGep _ _ | ICast _ | IPhi _ => None
    | _ => firstUse d (operands p n)
    end.

  (** getCallFlowFunction, lines 217-298 *)
  Definition uninitCall (c : N) (f : F) (d : value) : list value :=
    if isZero d then [d]
    else flat_map (fun x => if eqb d (fst x) then [snd x] else []) (List.combine (argsAt p c) (params p f)).

  (** getRetFlowFunction, lines 300-343; the parameters are those of getCalledFunction() *)
  Definition uninitRet (c : N) (f : F) (e : N) (d : value) : list value :=
    (match retVal p e with Some v => if eqb v d then [VInst c] else [] | None => [] end) ++
    (match code p c with
     | ICall true (g :: _) args =>
         flat_map (fun x => if eqb (fst x) d && isPtr p (fst x) then [snd x] else []) (List.combine (params p g) args)
     | _ => []
     end).

  (** getCallToRetFlowFunction, lines 345-369 *)
  Definition uninitCtr (c : N) (d : value) : list value :=
    if pointer p d && existsb (eqb d) (argsAt p c) then [] else [d].

  (** getSummaryFlowFunction, lines 371-376: null *)
  Definition uninitFlows : flows N F value :=
    irFlows uninitNormal uninitCall uninitRet uninitCtr (fun _ _ => None).

  (** initialSeeds, lines 378-383 *)
  Definition uninitSeeds (main : F) : list (N * list value) :=
    match entry p main with Some sp => [(sp, [VZero])] | None => [] end.
  Definition uninitProblem : problem N F value bdom bef := ifdsProblem uninitFlows.

  (** UndefValueUses; the normal flow function is applied at instructions with a
      successor, IDESolver.h *)
  Definition undefUses (T : table N value bdom) (n : N) : list value :=
    if isCall p n then []
    else match succs p n with
         | [] => []
         | _ => flat_map (fun d => match recorded n d with Some v => [v] | None => [] end) (ifdsResultsAt T n)
         end.
End Uninit.
