(** Programs in a small LLVM-like IR, as the IFDS analyses of
    /repo/lib/PhasarLLVM/DataFlow/IfdsIde/Problems see them: LLVMBasedICFG,
    LLVMBasedCFG (/repo/include/phasar/PhasarLLVM/ControlFlow), the queries on
    llvm::Value and llvm::Instruction, and the ZeroedFlowFunction that the solver
    puts around flow functions.

    Simplifications: types appear only as the answers the analyses get; one start
    point per function; debug instructions are not there. *)
From Coq Require Import List Bool Arith.
From Verif Require Import Assoc IDESolverModel IFDSModel.
Import ListNotations.

(** llvm::Value, at the same time the data-flow facts: the zero value, undef, other
    constants, instructions, formal parameters, global variables *)
Inductive value (N F : Type) :=
| VZero | VUndef | VConst (k : nat) | VInst (n : N) | VArg (f : F) (i : nat) | VGlob (g : nat).
Arguments VZero {N F}. Arguments VUndef {N F}. Arguments VConst {N F}. Arguments VInst {N F}.
Arguments VArg {N F}. Arguments VGlob {N F}.
#[global] Instance EqDec_value (N F : Type) (EN : EqDec N) (EF : EqDec F) : EqDec (value N F).
Proof.
  intros [| |k|n|f i|g] [| |k'|n'|f' i'|g']; try (right; discriminate); try (now left).
  - destruct (Nat.eq_dec k k') as [->|H]; [now left|right; congruence].
  - destruct (EN n n') as [->|H]; [now left|right; congruence].
  - destruct (EF f f') as [->|H]; [|right; congruence]. destruct (Nat.eq_dec i i') as [->|H]; [now left|right; congruence].
  - destruct (Nat.eq_dec g g') as [->|H]; [now left|right; congruence].
Defined.

(** [IAlloca prim]: integer, floating point, pointer or array type.  [ICall direct]:
    getCalledFunction() is not null.  [IOp]: everything else with operands
    (arithmetic, comparisons, select, branches) *)
Inductive instr (N F : Type) :=
| IAlloca (prim : bool)
| IStore (v q : value N F)
| ILoad (q : value N F)
| ICast (v : value N F)
| IGep (q : value N F) (idx : list (value N F))
| IPhi (vs : list (value N F))
| IExtract (agg : value N F)
| IInsert (agg v : value N F)
| IOp (ops : list (value N F))
| ICall (direct : bool) (fs : list F) (args : list (value N F))
| IRet (v : option (value N F)).
Arguments IAlloca {N F}. Arguments IStore {N F}. Arguments ILoad {N F}. Arguments ICast {N F}. Arguments IGep {N F}.
Arguments IPhi {N F}. Arguments IExtract {N F}. Arguments IInsert {N F}. Arguments IOp {N F}. Arguments ICall {N F}. Arguments IRet {N F}.

(** [entry f = None]: f is a declaration.  [later n m]: m comes behind n in the basic
    block of n *)
Record prog (N F : Type) := mkProg {
  code : N -> instr N F; succs : N -> list N; fnOf : N -> F; entry : F -> option N;
  nparams : F -> nat; sret : F -> bool; vararg : F -> bool; valists : F -> list (value N F);
  isPtr : value N F -> bool; later : N -> N -> bool; nodes : list N }.
Arguments mkProg {N F}. Arguments code {N F}. Arguments succs {N F}. Arguments fnOf {N F}.
Arguments entry {N F}. Arguments nparams {N F}. Arguments sret {N F}. Arguments vararg {N F}.
Arguments valists {N F}. Arguments isPtr {N F}. Arguments later {N F}. Arguments nodes {N F}.

Section IR.
  Context {N F : Type} {EN : EqDec N} {EF : EqDec F}.
  Local Notation value := (value N F).
  Variable p : prog N F.

  (** User::operands(); the called function is left out *)
  Definition operands (n : N) : list value :=
    match code p n with
    | IAlloca _ => []
    | IStore v q => [v; q]
    | ILoad q => [q]
    | ICast v => [v]
    | IGep q idx => q :: idx
    | IPhi vs => vs
    | IExtract agg => [agg]
    | IInsert agg v => [agg; v]
    | IOp ops => ops
    | ICall _ _ args => args
    | IRet (Some v) => [v]
    | IRet None => []
    end.
  (** Value::hasNUsesOrMore(2) *)
  Definition manyUses (v : value) : bool :=
    2 <=? length (filter (eqb v) (flat_map operands (nodes p))).

  Definition isZero (d : value) : bool := match d with VZero => true | _ => false end.
  Definition isUndef (d : value) : bool := match d with VUndef => true | _ => false end.
  (** llvm::isa<llvm::Constant>; the zero value is a GlobalVariable *)
  Definition isConst (d : value) : bool := match d with VZero | VUndef | VConst _ | VGlob _ => true | _ => false end.
  (** Value::getType()->isPointerTy() *)
  Definition pointer (d : value) : bool := match d with VZero => true | _ => isPtr p d end.
  Definition decl (f : F) : bool := match entry p f with None => true | Some _ => false end.
  Definition params (f : F) : list value := map (VArg f) (seq 0 (nparams p f)).
  Definition calleesAt (n : N) : list F := match code p n with ICall _ fs _ => fs | _ => [] end.
  Definition argsAt (n : N) : list value := match code p n with ICall _ _ args => args | _ => [] end.
  Definition retVal (e : N) : option value := match code p e with IRet v => v | _ => None end.

  Definition isCall (n : N) : bool := match code p n with ICall _ _ _ => true | _ => false end.
  Definition isStart (n : N) : bool := match entry p (fnOf p n) with Some sp => eqb sp n | None => false end.
  Definition irICFG : icfg N F :=
    mkICFG (succs p) isCall
      (fun n => match code p n with IRet _ => true | _ => false end)
      isStart
      (fun f => match entry p f with Some sp => [sp] | None => [] end)
      calleesAt (succs p)
      (fun f => filter (fun n => existsb (eqb f) (calleesAt n)) (nodes p))
      (fnOf p)
      (fun f => filter (fun n => isCall n && eqb (fnOf p n) f) (nodes p))
      (filter (fun n => negb (isCall n) && negb (isStart n)) (nodes p)).

  (** ZeroedFlowFunction::computeTargets, FlowFunctions.h:111-118 *)
  Definition zeroed (ff : value -> list value) (d : value) : list value :=
    if isZero d then VZero :: ff d else ff d.
  (** the flow functions of a problem as the solver asks for them (autoAddZero is the
      default), FlowEdgeFunctionCache.h:208-330; summary functions are not wrapped *)
  Definition irFlows (normal : N -> value -> list value) (call : N -> F -> value -> list value)
      (ret : N -> F -> N -> value -> list value) (ctr : N -> value -> list value)
      (sum : N -> F -> option (value -> list value)) : flows N F value :=
    mkFlows (fun n _ => zeroed (normal n)) (fun c f => zeroed (call c f)) (fun c f e _ => zeroed (ret c f e))
      (fun c _ => zeroed (ctr c)) sum VZero.
End IR.
