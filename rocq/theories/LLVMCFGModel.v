(** Model of /repo/lib/PhasarLLVM/ControlFlow/LLVMBasedCFG.cpp ("CFG.cpp") and
    LLVMBasedBackwardCFG.cpp ("BCFG.cpp") on one function.

    An instruction is its position: block and index.  Of an instruction the
    model keeps whether it is a debug intrinsic (only llvm.dbg.declare is told
    apart, for BCFG.cpp), of a block its terminator, the last instruction.  The
    predecessors of a block, a use list in LLVM, come in block order. *)
From Coq Require Import List Bool Arith.
From Verif Require Import Assoc.
Import ListNotations.

Inductive instKind := Plain | DbgDeclare | DbgValue.
Inductive terminator :=
| Ret                                      (* ReturnInst, ResumeInst *)
| Br (targets : list nat) (lazy : bool)    (* BranchInst; [lazy]: isStaticVariableLazyInitializationBranch *)
| Other (targets : list nat).              (* switch, invoke, unreachable, ... *)
Record block := mkBlock { insts : list instKind; term : terminator }.
Definition func := list block.
Definition inst : Type := nat * nat.

Section CFG.
  Context (ign : bool) (f : func).         (* IgnoreDbgInstructions *)

  Definition getBlock (b : nat) : block := nth b f (mkBlock [] Ret).
  Definition kindOf (n : inst) : instKind := nth (snd n) (insts (getBlock (fst n))) Plain.
  Definition isDbg (k : instKind) : bool := match k with Plain => false | _ => true end.
  Definition skipped (n : inst) : bool := ign && isDbg (kindOf n).
  Definition targets (b : nat) : list nat :=
    match term (getBlock b) with Ret => [] | Br ts _ => ts | Other ts => ts end.
  Definition isTerminator (n : inst) : bool := S (snd n) =? length (insts (getBlock (fst n))).
  Definition terminatorOf (b : nat) : inst := (b, length (insts (getBlock b)) - 1).

  (** getNextNode / getNextNonDebugInstruction, and back *)
  Definition next (n : inst) : option inst :=
    find (fun m => negb (skipped m)) (map (pair (fst n)) (seq (S (snd n)) (length (insts (getBlock (fst n))) - S (snd n)))).
  Definition prev (n : inst) : option inst :=
    find (fun m => negb (skipped m)) (map (pair (fst n)) (rev (seq 0 (snd n)))).

  (** the first instruction of a block, CFG.cpp:80-86, 91-101, 134-142 *)
  Definition first (b : nat) : inst :=
    if skipped (b, 0) then match next (b, 0) with Some n => n | None => (b, 0) end else (b, 0).

  (** CFG.cpp:34-64 *)
  Definition predBlocks (b : nat) : list nat :=
    flat_map (fun b' => map (fun _ => b') (filter (Nat.eqb b) (targets b'))) (seq 0 (length f)).
  Definition getPredsOf (n : inst) : list inst :=
    match prev n with
    | Some p => [p]
    | None => map terminatorOf (predBlocks (fst n))
    end.

  (** CFG.cpp:66-103 *)
  Definition getSuccsOf (n : inst) : list inst :=
    match next n with
    | Some m => [m]
    | None =>
        match term (getBlock (fst n)) with
        | Br (t :: _) true => [first t]
        | _ => map first (targets (fst n))
        end
    end.

  (** llvm::instructions *)
  Definition allInstructions : list inst :=
    flat_map (fun b => map (pair b) (seq 0 (length (insts (getBlock b))))) (seq 0 (length f)).
  (** CFG.cpp:105-126 *)
  Definition flowNodes : list inst := filter (fun n => negb (skipped n)) allInstructions.
  Definition getAllControlFlowEdges : list (inst * inst) :=
    flat_map (fun n => map (pair n) (getSuccsOf n)) flowNodes.

  (** CFG.cpp:128-147, 149-165; LLVMShorthands.cpp:314-337 *)
  Definition getStartPointsOf : list inst := match f with [] => [] | _ => [first 0] end.
  Definition getExitPointsOf : list inst :=
    flat_map (fun b => match term (getBlock b) with Ret => [terminatorOf b] | _ => [] end) (seq 0 (length f)).
  (** CFG.cpp:167-176; does not depend on IgnoreDbgInstructions *)
  Definition nextNonDbg (n : inst) : option inst :=
    find (fun m => negb (isDbg (kindOf m))) (map (pair (fst n)) (seq (S (snd n)) (length (insts (getBlock (fst n))) - S (snd n)))).
  Definition isStartPoint (n : inst) : bool :=
    if eqb n (0, 0) then true else isDbg (kindOf (0, 0)) && eqb (Some n) (nextNonDbg (0, 0)).

  (** CFG.cpp:216-227 *)
  Definition isBranchTarget (n m : inst) : bool :=
    isTerminator n && existsb (fun b => eqb (b, 0) m) (targets (fst n)).

  (** ** BCFG.cpp; [BRet] is the artificial return of the function.  The
      constructor with an IRDB creates it, the other one does not ([rets]). *)
  Inductive bnode := I (n : inst) | BRet.
  Context (rets : bool).

  (** BCFG.cpp:40-48.  [None]: getFunction() of an instruction without parent *)
  Definition bPreds (n : bnode) : option (list bnode) :=
    match n with
    | BRet => None
    | I n => Some (map I (getSuccsOf n))
    end.
  (** BCFG.cpp:50-64 *)
  Definition bSuccs (n : bnode) : list bnode :=
    match n with
    | BRet => []
    | I n => match getPredsOf n with
             | [] => if rets then [BRet] else []
             | ps => map I ps
             end
    end.
  (** BCFG.cpp:66-91 *)
  Definition bEdges : list (bnode * bnode) :=
    flat_map (fun n => map (fun s => (s, I n)) (bSuccs (I n)))
      (filter (fun n => negb (ign && match kindOf n with DbgDeclare => true | _ => false end)) allInstructions).
  (** BCFG.cpp:93-112 *)
  Definition bStartPoints : list bnode := map I getExitPointsOf.
  Definition bExitPoints : list bnode := if rets then [BRet] else map I getStartPointsOf.
  (** BCFG.cpp:119-129; only BranchInst has successors here *)
  Definition bIsBranchTarget (n m : bnode) : bool :=
    match n, m with
    | I n, I m =>
        isTerminator m &&
        match term (getBlock (fst m)) with Br ts _ => existsb (fun b => eqb n (b, 0)) ts | _ => false end
    | _, _ => false
    end.
End CFG.
