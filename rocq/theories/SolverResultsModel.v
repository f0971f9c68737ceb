(** Model of the queries of a solver's results: psr::SolverResults (include/phasar/DataFlow/IfdsIde/SolverResults.h), their
    LLVM variants (include/phasar/PhasarLLVM/DataFlow/IfdsIde/LLVMSolverResults.h, "LSR.h") and the forwarding members of
    IDESolver (Solver/IDESolver.h) and IFDSSolver (Solver/IFDSSolver.h).

    The results are a Table (TableModel.v). The LLVM variants look at one function (LLVMCFGModel.v); [isVoid] says
    whether the type of an instruction is void. Printing (dumpResults) is not modelled. *)
From Coq Require Import List Bool Arith.
From Verif Require Import Assoc TableModel LLVMCFGModel.
Import ListNotations.

Section Plain.
  Context {N D L : Type} `{EqDec N} `{EqDec D}.
  Variables (dflt : L) (t : table N D L) (zero : D).

  (** SolverResults.h:49-52; [dflt] is L() *)
  Definition resultAt (n : N) (d : D) : L := t_get dflt t n d.
  (** lines 54-61 and 63-66 *)
  Definition resultsAt (n : N) (strip : bool) : list (D * L) := if strip then adel zero (t_row t n) else t_row t n.
  (** lines 70-80; a std::set *)
  Definition ifdsResultsAt (n : N) : list D := nodup eq_dec (map fst (t_row t n)).
  (** lines 125-128 *)
  Definition getAllResultEntries : list (N * D * L) := t_cells t.
End Plain.

Section LLVM.
  Context {D L : Type} `{EqDec D} `{EqDec L}.
  (** JoinLatticeTraits<L>, join and bottom, if it exists *)
  Variable lattice : option ((L -> L -> L) * L).
  Variables (dflt : L) (t : table inst D L) (zero : D).
  Variables (f : func) (isVoid : inst -> bool).

  (** Instruction::getNextNode *)
  Definition getNextNode (n : inst) : option inst :=
    if S (snd n) <? length (insts (getBlock f (fst n))) then Some (fst n, S (snd n)) else None.
  (** GetStartRow / GetStartVal, LSR.h:41-47: the first instruction that is no debug intrinsic *)
  Definition startOf (b : nat) : inst :=
    if isDbg (kindOf f (b, 0)) then match nextNonDbg f (b, 0) with Some n => n | None => (b, 0) end else (b, 0).
  (** BasicBlock::hasNPredecessors(1) *)
  Definition singlePred (b : nat) : bool := length (predBlocks f b) =? 1.

  (** LSR.h:71-85 *)
  Definition mergeVal (old new : L) : L :=
    if eqb new old then old else match lattice with Some (j, _) => j old new | None => dflt end.
  Definition mergeRow (acc row : list (D * L)) : list (D * L) :=
    fold_left (fun acc e => match afind (fst e) acc with
                            | None => aset (fst e) (snd e) acc
                            | Some o => aset (fst e) (mergeVal o (snd e)) acc
                            end) row acc.

  (** LSR.h:28-97. None: report_fatal_error *)
  Definition resultsAtSSA (n : inst) (allow strip : bool) : option (list (D * L)) :=
    let r :=
      if isVoid n then Some (t_row t n) else
      match getNextNode n with
      | Some m => Some (t_row t m)
      | None =>
          match find singlePred (targets f (fst n)) with
          | Some b => Some (t_row t (startOf b))
          | None => if allow then Some (fold_left mergeRow (map (fun b => t_row t (startOf b)) (targets f (fst n))) []) else None
          end
      end in
    match r with
    | Some row => Some (if strip then adel zero row else row)
    | None => None
    end.

  (** LSR.h:141-163 *)
  Fixpoint mergeVals (ret : L) (vs : list L) : L :=
    match vs with
    | [] => ret
    | v :: r =>
        match lattice with
        | Some (j, bot) => let x := j ret v in if eqb x bot then x else mergeVals x r
        | None => if eqb ret v then mergeVals ret r else dflt
        end
    end.
  (** LSR.h:99-168 *)
  Definition resultAtSSA (n : inst) (d : D) (allow : bool) : option L :=
    if isVoid n then Some (t_get dflt t n d) else
    match getNextNode n with
    | Some m => Some (t_get dflt t m d)
    | None =>
        match find singlePred (targets f (fst n)) with
        | Some b => Some (t_get dflt t (startOf b) d)
        | None =>
            if allow then
              Some (match map (fun b => t_get dflt t (startOf b) d) (targets f (fst n)) with
                    | [] => dflt
                    | v :: r => mergeVals v r
                    end)
            else None
        end
    end.

  (** IDESolver.h:133-135, 152-157, 162-165, 182-188: the forwarding members; the last one passes StripZero in
      the place of AllowOverapproximation *)
  Definition solverResultAt (n : inst) (d : D) : L := resultAt dflt t n d.
  Definition solverResultAtSSA (n : inst) (d : D) : option L := resultAtSSA n d false.
  Definition solverResultsAt (n : inst) (strip : bool) : list (D * L) := resultsAt t zero n strip.
  Definition solverResultsAtSSA (n : inst) (strip : bool) : option (list (D * L)) := resultsAtSSA n strip false.
  (** IFDSSolver.h:54-61 and 82-105. None: the assertion *)
  Definition solverIfdsResultsAt (n : inst) : list D := nodup eq_dec (map fst (solverResultsAt n false)).
  Definition solverIfdsResultsAtSSA (n : inst) : option (list D) :=
    if isVoid n then Some (nodup eq_dec (map fst (solverResultsAt n false))) else
    match getNextNode n with
    | Some m => Some (nodup eq_dec (map fst (solverResultsAt m false)))
    | None => None
    end.
End LLVM.
