(** Model of the edge functions of
    /repo/lib/PhasarLLVM/DataFlow/IfdsIde/Problems/IDELinearConstantAnalysis.cpp
    ("LCA.cpp").

    int64_t is Z between -2^63 and 2^63-1.  A data-flow fact is the zero value, a
    ConstantInt (unique per bit width and value) or another llvm::Value (of any
    type of identifiers [V]). *)
From Coq Require Import ZArith Bool.
From Verif Require Import Assoc LatticeModel.
Local Open Scope Z_scope.

Inductive opcode := Add | Sub | Mul | UDiv | SDiv | URem | SRem | And | Or | Xor | Shl | LShr | AShr.
Definition lval := ld Z.
(** [UB]: undefined behaviour of the analysis; [Fatal]: report_fatal_error *)
Inductive res := Ok (l : lval) | UB | Fatal.

Definition int64 (z : Z) : bool := (- 2 ^ 63 <=? z) && (z <? 2 ^ 63).

(** executeBinOperation, LCA.cpp:100-163.  llvm::AddOverflow etc. detect
    overflow; signed division of the minimum by -1 overflows, also for %. *)
Definition execute (op : opcode) (l r : lval) : res :=
  match l, r with
  | LVal a, LVal b =>
      match op with
      | Add => Ok (if int64 (a + b) then LVal (a + b) else LBot)
      | Sub => Ok (if int64 (a - b) then LVal (a - b) else LBot)
      | Mul => Ok (if int64 (a * b) then LVal (a * b) else LBot)
      | UDiv | SDiv =>
          Ok (if (a =? - 2 ^ 63) && (b =? -1) then LBot
              else if b =? 0 then LBot
              else LVal (Z.quot a b))
      | URem | SRem =>
          if b =? 0 then Ok LBot
          else if (a =? - 2 ^ 63) && (b =? -1) then UB
          else Ok (LVal (Z.rem a b))
      | And => Ok (LVal (Z.land a b))
      | Or => Ok (LVal (Z.lor a b))
      | Xor => Ok (LVal (Z.lxor a b))
      | Shl | LShr | AShr => Ok LBot
      end
  | _, _ => Ok LBot
  end.

Inductive fact (V : Type) := Zero | Const (w : Z) (v : Z) | Val (id : V).
Arguments Zero {V}. Arguments Const {V}. Arguments Val {V}.
#[global] Instance EqDec_fact (V : Type) (EV : EqDec V) : EqDec (fact V).
Proof. intros [|w v|i] [|w' v'|i']; try (right; discriminate); [now left| |].
  - destruct (Z.eq_dec w w') as [->|N]; [|right; congruence]. destruct (Z.eq_dec v v') as [->|N]; [now left|right; congruence].
  - destruct (EV i i') as [->|N]; [now left|right; congruence].
Defined.

Section Edges.
Context {V : Type} {EV : EqDec V}.
Local Notation fact := (fact V).

(** BinOp, LCA.cpp:190-269 *)
Record binOp := mkBinOp { bOp : opcode; bL : fact; bR : fact; bCur : fact }.
Definition sext (f : fact) : option Z := match f with Const _ v => Some v | _ => None end.   (* getSExtValue *)
Definition computeTarget (b : binOp) (src : lval) : res :=
  match bCur b, sext (bL b), sext (bR b) with
  | Zero, Some l, Some r => execute (bOp b) (LVal l) (LVal r)
  | _, sl, sr =>
      match src with
      | LBot => Ok LBot
      | _ =>
          match eqb (bL b) (bCur b), sr with
          | true, Some r => execute (bOp b) src (LVal r)
          | _, _ =>
              match eqb (bR b) (bCur b), sl with
              | true, Some l => execute (bOp b) (LVal l) src
              | _, _ => Fatal
              end
          end
      end
  end.
(** LCA.cpp:244-246 *)
Definition binOpEqb (a b : binOp) : bool :=
  match bOp a, bOp b with
  | Add, Add | Sub, Sub | Mul, Mul | UDiv, UDiv | SDiv, SDiv | URem, URem | SRem, SRem
  | And, And | Or, Or | Xor, Xor | Shl, Shl | LShr, LShr | AShr, AShr => eqb (bL a) (bL b) && eqb (bR a) (bR b)
  | _, _ => false
  end.

(** The edge a binary operation [n] gets, LCA.cpp:333-344 (which facts flow into
    it) and 506-521 (with which edge function).  [None]: no flow *)
Inductive edge := AllBottom | BinOpEdge (b : binOp).
Definition binaryEdge (op : opcode) (l r cur : fact) : option edge :=
  let isC f := match sext f with Some _ => true | None => false end in
  if (eqb l cur || eqb r cur || (eqb cur Zero && isC l && isC r)) then
    Some (if (eqb cur l && negb (isC r)) || (eqb cur r && negb (isC l)) then AllBottom else BinOpEdge (mkBinOp op l r cur))
  else None.
Definition applyEdge (e : edge) (src : lval) : res :=
  match e with AllBottom => Ok LBot | BinOpEdge b => computeTarget b src end.
End Edges.
Arguments binOp : clear implicits. Arguments edge : clear implicits.
