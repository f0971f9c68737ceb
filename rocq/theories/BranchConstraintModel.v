(** The constraints of conditional branches,
    lib/PhasarLLVM/DataFlow/PathSensitivity/LLVMPathConstraints.cpp (PC.cpp).

    Values, instructions, functions and blocks are numbers; [defs] says what a
    value is.  z3 terms are trees, built by the operators of z3++.h, which look
    at the sorts of their operands.

    Simplifications:
    - Floating-point values, and arithmetic on bit vectors (casts of pointers),
      give the outcome [OOutside]; operands of sorts that the operator of z3
      does not take give [OClash] (an exception or a failed assertion of z3).
    - getVarName (PC.cpp:465-495) is the function [varName] of the alloca: the
      name of its debug variable, else its own name, else "".  [gepName] is the
      name at PC.cpp:577-578, [fnName] the demangled name of a function.
    - The widths in [DBin], [DCmp] and [DCast] are not looked at by the code,
      except for a trunc to i1; they are for the semantics.
    - The Variables are not sorted, only made unique (PC.cpp:61-65). *)
From Coq Require Import String List Bool Arith ZArith.
From Verif Require Import Assoc.
Import ListNotations.

Inductive out (A : Type) := ONoFuel | OFatal | OClash | OOutside | ORet (a : A).
Arguments ONoFuel {A}. Arguments OFatal {A}. Arguments OClash {A}. Arguments OOutside {A}. Arguments ORet {A} a.
Definition obind {A B} (r : out A) (f : A -> out B) : out B :=
  match r with ONoFuel => ONoFuel | OFatal => OFatal | OClash => OClash | OOutside => OOutside | ORet a => f a end.

(** ** The part of LLVM IR looked at *)
Inductive ty := TInt (bits : nat) | TFloat | TPtr | TOther.
Inductive icmp := EQ | NE | UGT | UGE | ULT | ULE | SGT | SGE | SLT | SLE.
Inductive binop := Add | Sub | Mul | UDiv | SDiv | URem | SRem | Shl | LShr | AShr | And | Or | Xor.
Inductive castop := Trunc (bits : nat) | SExt | ZExt (from : nat) | OtherCast.
Inductive def :=
| DInt (bits : nat) (z : Z)               (* ConstantInt; its signed value *)
| DNull                                   (* ConstantPointerNull *)
| DFloat                                  (* ConstantFP *)
| DData                                   (* other ConstantData, as undef *)
| DAlloca (t : ty)
| DLoad (p : nat)
| DGep (elt : ty) (ops : list nat)
| DBin (bits : nat) (o : binop) (a b : nat)
| DCmp (bits : nat) (p : icmp) (a b : nat)
| DFCmp (a b : nat)
| DCast (k : castop) (a : nat)
| DCall (callee : option nat) (ops : list nat)
| DPhi (t : ty) (ins : list nat)
| DBr (cond ifTrue ifFalse : nat)         (* a conditional branch; the blocks *)
| DInst (ops : list nat)                  (* any other instruction *)
| DValue.                                 (* arguments, globals, functions, blocks *)

(** ** z3 *)
Inductive zsort := SBool | SInt | SBV.
Inductive arith := Plus | Minus | Times | Div | Rem.
Inductive rel := REq | RNe | RGt | RGe | RLt | RLe.
Inductive junct := JAnd | JOr | JXor.
Inductive expr :=
| EInt (z : Z)
| EBool (b : bool)
| ENull                                   (* bv_val(0, 64) *)
| EVar (n : string) (s : zsort)
| EArith (o : arith) (a b : expr)
| EMod (a b : expr)
| ERel (r : rel) (a b : expr)
| EJunct (j : junct) (a b : expr)
| ENot (a : expr).
Definition sortOf (e : expr) : zsort :=
  match e with
  | EInt _ | EArith _ _ _ | EMod _ _ => SInt
  | EBool _ | ERel _ _ _ | EJunct _ _ _ | ENot _ => SBool
  | ENull => SBV
  | EVar _ s => s
  end.
Definition mkArith (o : arith) (a b : expr) : out expr :=
  match sortOf a, sortOf b with
  | SInt, SInt => ORet (EArith o a b)
  | SBV, SBV => OOutside
  | _, _ => OClash
  end.
Definition mkMod (a b : expr) : out expr :=
  match sortOf a, sortOf b with SInt, SInt => ORet (EMod a b) | SBV, SBV => OOutside | _, _ => OClash end.
(** shl, lshr, ashr: bit vectors only *)
Definition mkShift (a b : expr) : out expr :=
  match sortOf a, sortOf b with SBV, SBV => OOutside | _, _ => OClash end.
(** [&], [|], [^] *)
Definition mkBits (j : junct) (a b : expr) : out expr :=
  match sortOf a, sortOf b with
  | SBool, SBool => ORet (EJunct j a b)
  | SBV, SBV => OOutside
  | _, _ => OClash
  end.
Definition mkRel (r : rel) (a b : expr) : out expr :=
  match r, sortOf a, sortOf b with
  | _, SInt, SInt | _, SBV, SBV | REq, SBool, SBool | RNe, SBool, SBool => ORet (ERel r a b)
  | _, _, _ => OClash
  end.
Definition mkNot (a : expr) : out expr := match sortOf a with SBool => ORet (ENot a) | _ => OClash end.
(** [||] *)
Definition mkOr (a b : expr) : out expr :=
  match sortOf a, sortOf b with SBool, SBool => ORet (EJunct JOr a b) | _, _ => OClash end.

Section Constraints.
  Variable defs : nat -> def.
  Variable isDbg : nat -> bool.
  Variable blockOf : nat -> nat.
  Variable insts : nat -> list nat.
  Variable varName gepName : nat -> string.
  Variable fnName : nat -> option string.
  Variable fnRet : nat -> ty.
  (** IgnoreDebugInstructions *)
  Variable ignoreDbg : bool.

  (** ConstraintAndVariables; Z3Expr *)
  Definition cav : Type := expr * list nat.
  Definition cache : Type := list (nat * cav).
  Definition lookup (v : nat) (c : cache) : option cav := afind v c.
  (** try_emplace(...).first->second *)
  Definition emplace (v : nat) (x : cav) (c : cache) : cav * cache :=
    match lookup v c with Some y => (y, c) | None => (x, (v, x) :: c) end.

  (** the constants for the types, PC.cpp:504-539, 580-618, 640-655 *)
  Definition constOf (n : string) (t : ty) (other : out expr) : out expr :=
    match t with
    | TInt 1 => ORet (EVar n SBool)
    | TInt _ => ORet (EVar n SInt)
    | TFloat => OOutside
    | TPtr => ORet (EVar n SBV)
    | TOther => other
    end.
  (** PC.cpp:497-540 *)
  Definition getAllocaInstAsZ3 (v : nat) (t : ty) (c : cache) : out (cav * cache) :=
    match lookup v c with
    | Some x => ORet (x, c)
    | None => obind (constOf (varName v) t OFatal) (fun e => ORet (emplace v (e, [v]) c))
    end.
  (** PC.cpp:575-619; what is no integer or float is a pointer *)
  Definition getGEPInstAsZ3 (v : nat) (t : ty) (c : cache) : out (cav * cache) :=
    obind (constOf (gepName v) t (ORet (EVar (gepName v) SBV))) (fun e => ORet (emplace v (e, [v]) c)).
  (** llvm::dyn_cast<llvm::Instruction> and its operands *)
  Definition operands (v : nat) : list nat :=
    match defs v with
    | DLoad p => [p]
    | DGep _ ops => ops
    | DBin _ _ a b | DCmp _ _ a b | DFCmp a b => [a; b]
    | DCast _ a => [a]
    | DCall _ ops | DPhi _ ops | DInst ops => ops
    | _ => []
    end.
  (** PC.cpp:557-572; the back of the Worklist is the head of [w] *)
  Fixpoint track (fuel : nat) (w : list nat) (c : cache) : out (cav * cache) :=
    match fuel with
    | 0 => ONoFuel
    | S f =>
        match w with
        | [] => OFatal
        | v :: w' =>
            match defs v with
            | DAlloca t => getAllocaInstAsZ3 v t c
            | DGep t _ => getGEPInstAsZ3 v t c
            | _ => track f (rev (operands v) ++ w') c
            end
        end
    end.
  (** PC.cpp:542-573 *)
  Definition getLoadInstAsZ3 (fuel : nat) (v p : nat) (c : cache) : out (cav * cache) :=
    match lookup v c with
    | Some x => ORet (x, c)
    | None =>
        match defs p with
        | DAlloca t => getAllocaInstAsZ3 p t c
        | DGep t _ => getGEPInstAsZ3 p t c
        | _ => track fuel [v] c
        end
    end.
  (** PC.cpp:621-633 *)
  Definition isConstantData (v : nat) : bool :=
    match defs v with DInt _ _ | DNull | DFloat | DData => true | _ => false end.
  Definition getLiteralAsZ3 (v : nat) : out cav :=
    match defs v with
    | DInt _ z => ORet (EInt z, [])
    | DFloat => OOutside
    | DNull => ORet (ENull, [])
    | _ => OFatal
    end.
  (** PC.cpp:635-658 *)
  Definition getFunctionCallAsZ3 (callee : option nat) : out cav :=
    match callee with
    | None => OFatal
    | Some f =>
        match fnName f with
        | None => OFatal
        | Some n => obind (constOf n (fnRet f) OFatal) (fun e => ORet (e, [f]))
        end
    end.

  (** HandleOperand, PC.cpp:239-262 and 384-404, the latter without GEPs *)
  Definition handleOperand (bin : nat -> cache -> out (cav * cache)) (geps : bool) (fuel op : nat) (c : cache)
    : out (cav * cache) :=
    let op := match defs op with DCast _ a => a | _ => op end in
    if isConstantData op then obind (getLiteralAsZ3 op) (fun x => ORet (x, c))
    else match defs op with
         | DLoad p =>
             match defs p with
             | DAlloca t => getAllocaInstAsZ3 p t c
             | _ => getLoadInstAsZ3 fuel op p c
             end
         | DBin _ _ _ _ => bin op c
         | DCall callee _ => obind (getFunctionCallAsZ3 callee) (fun x => ORet (x, c))
         | DGep t _ => if geps then getGEPInstAsZ3 op t c else OFatal
         | _ => OFatal
         end.
  Definition mkBin (o : binop) (a b : expr) : out expr :=
    match o with
    | Add => mkArith Plus a b
    | Sub => mkArith Minus a b
    | Mul => mkArith Times a b
    | UDiv | SDiv => mkArith Div a b
    | URem | SRem => mkArith Rem a b
    | Shl | LShr | AShr => mkShift a b
    | And => mkBits JAnd a b
    | Or => mkBits JOr a b
    | Xor => mkBits JXor a b
    end.
  (** PC.cpp:375-463 *)
  Fixpoint handleBinaryOperator (fuel : nat) (v : nat) (c : cache) : out (cav * cache) :=
    match lookup v c with
    | Some x => ORet (x, c)
    | None =>
        match fuel with
        | 0 => ONoFuel
        | S f =>
            match defs v with
            | DBin _ o a b =>
                obind (handleOperand (handleBinaryOperator f) false f a c) (fun l =>
                obind (handleOperand (handleBinaryOperator f) false f b (snd l)) (fun r =>
                obind (mkBin o (fst (fst l)) (fst (fst r))) (fun e =>
                ORet (emplace v (e, snd (fst l) ++ snd (fst r)) (snd r)))))
            | _ => OFatal
            end
        end
    end.
  Definition relOf (p : icmp) : rel :=
    match p with
    | EQ => REq
    | NE => RNe
    | UGT | SGT => RGt
    | UGE | SGE => RGe
    | ULT | SLT => RLt
    | ULE | SLE => RLe
    end.
  (** PC.cpp:229-373; the predicate is looked at after the operands *)
  Definition handleCmpInst (fuel v : nat) (c : cache) : out (cav * cache) :=
    match lookup v c with
    | Some x => ORet (x, c)
    | None =>
        match defs v with
        | DCmp _ p a b =>
            obind (handleOperand (handleBinaryOperator fuel) true fuel a c) (fun l =>
            obind (handleOperand (handleBinaryOperator fuel) true fuel b (snd l)) (fun r =>
            obind (mkRel (relOf p) (fst (fst l)) (fst (fst r))) (fun e =>
            ORet ((e, snd (fst l) ++ snd (fst r)), snd r))))
        | DFCmp a b =>
            obind (handleOperand (handleBinaryOperator fuel) true fuel a c) (fun l =>
            obind (handleOperand (handleBinaryOperator fuel) true fuel b (snd l)) (fun r => OFatal))
        | _ => OFatal
        end
    end.

  (** PC.cpp:126-154 *)
  Definition phiValue (fuel : nat) (ty : out expr) (v : nat) (c : cache) : out (cav * cache) :=
    match defs v with
    | DInt bits z =>
        (* isOne(); i1 true has the signed value -1 *)
        if Z.eqb z 1 || (Nat.eqb bits 1 && Z.eqb z (-1)) then ORet ((EBool true, []), c)
        else if Z.eqb z 0 then ORet ((EBool false, []), c)
        else obind ty (fun e => ORet ((e, []), c))
    | DLoad p => getLoadInstAsZ3 fuel v p c
    | DCall callee _ => obind (getFunctionCallAsZ3 callee) (fun x => ORet (x, c))
    | DCmp _ _ _ _ | DFCmp _ _ => handleCmpInst fuel v c
    | _ => OFatal
    end.
  Fixpoint phiValues (fuel : nat) (ty : out expr) (l : list nat) (acc : cav) (c : cache) : out (cav * cache) :=
    match l with
    | [] => ORet (acc, c)
    | v :: l' =>
        obind (phiValue fuel ty v c) (fun r =>
        obind (mkOr (fst acc) (fst (fst r))) (fun e =>
        phiValues fuel ty l' (e, snd acc ++ snd (fst r)) (snd r)))
    end.
  (** PC.cpp:99-156 *)
  Definition handlePhiInstruction (fuel v : nat) (c : cache) : out (cav * cache) :=
    match lookup v c with
    | Some x => ORet (x, c)
    | None =>
        match defs v with
        | DPhi t ins =>
            match t with
            | TOther => OFatal
            | _ =>
                obind (phiValues fuel (constOf "PHI" t OFatal) ins (EBool true, []) c) (fun r =>
                ORet (emplace v (fst r) (snd r)))
            end
        | _ => OFatal
        end
    end.

  (** getNextNonDebugInstruction(false) on the list of what comes after *)
  Definition nextNonDbg (l : list nat) : option nat := find (fun i => negb (isDbg i)) l.
  (** GetFirstInst, PC.cpp:171-178 *)
  Definition getFirstInst (b : nat) : option nat :=
    match insts b with
    | [] => None
    | i :: l => if ignoreDbg && isDbg i then nextNonDbg l else Some i
    end.
  (** a result for the true edge, negated for the false one; [None]: neither *)
  Definition byEdge (h : out (cav * cache)) (t f succ : nat) : option (out (cav * cache)) :=
    if eqb (getFirstInst t) (Some succ) then Some h
    else if eqb (getFirstInst f) (Some succ) then
      Some (obind h (fun r => obind (mkNot (fst (fst r))) (fun e => ORet ((e, snd (fst r)), snd r))))
    else None.
  (** PC.cpp:158-227 *)
  Definition handleCondBrInst (fuel br cond t f succ : nat) (c : cache) : out (cav * cache) :=
    match lookup br c with
    | Some x => ORet (x, c)
    | None =>
        match
          match defs cond with
          | DCmp _ _ _ _ | DFCmp _ _ => byEdge (handleCmpInst fuel cond c) t f succ
          | DBin _ _ _ _ => byEdge (handleBinaryOperator fuel cond c) t f succ
          | DCall callee _ => byEdge (obind (getFunctionCallAsZ3 callee) (fun x => ORet (x, c))) t f succ
          | DCast (Trunc 1) a =>
              match defs a with
              | DLoad p =>
                  Some (obind (getLoadInstAsZ3 fuel a p c) (fun r =>
                        obind (mkMod (fst (fst r)) (EInt 2)) (fun m =>
                        obind (mkRel REq m (EInt 1)) (fun e => ORet ((e, snd (fst r)), snd r)))))
              | _ => None
              end
          | DPhi _ _ => Some (handlePhiInstruction fuel cond c)
          | _ => None
          end
        with
        | Some r => r
        | None => OFatal
        end
    end.

  (** the instructions before one in its block *)
  Fixpoint before (i : nat) (l : list nat) : list nat :=
    match l with [] => [] | x :: l' => if Nat.eqb x i then [] else x :: before i l' end.
  (** PC.cpp:30-38: the last of the previous (non-debug) ones *)
  Definition rewind (to : nat) : nat :=
    let p := before to (insts (blockOf to)) in
    match (if ignoreDbg then nextNonDbg p else hd_error p) with Some i => i | None => to end.
  (** LLVMBasedCFG.cpp:215-225, for a conditional branch *)
  Definition isBranchTarget (t f succ : nat) : bool :=
    eqb (hd_error (insts t)) (Some succ) || eqb (hd_error (insts f)) (Some succ).
  (** PC.cpp:21-45 *)
  Definition internalGetConstraintAndVariablesFromEdge (fuel from to : nat) (c : cache) : out (option cav * cache) :=
    match defs from with
    | DBr cond t f =>
        let to' := rewind to in
        if isBranchTarget t f to'
        then obind (handleCondBrInst fuel from cond t f to' c) (fun r => ORet (Some (fst r), snd r))
        else ORet (None, c)
    | _ => ORet (None, c)
    end.
  (** PC.cpp:56-68 *)
  Definition getConstraintAndVariablesFromEdge (fuel from to : nat) (c : cache) : out (option cav * cache) :=
    obind (internalGetConstraintAndVariablesFromEdge fuel from to c) (fun r =>
    ORet (match fst r with Some (e, vs) => Some (e, nodup Nat.eq_dec vs) | None => None end, snd r)).
End Constraints.
