(** What a branch constraint should say, independently of how it is built: under
    an assignment that gives the variables their values in an execution, it
    holds exactly if the execution takes the edge. *)
From Coq Require Import String List Bool Arith ZArith.
From Verif Require Import BranchConstraintModel.
Import ListNotations.
Local Open Scope Z_scope.

(** ** Meaning of z3 terms *)
(** An assignment, with the results of divisions by zero, which z3 may choose.
    Booleans are 0 and -1, as values of type i1. *)
Record interp := mkI { var : string -> zsort -> Z; divZero : Z -> Z; remZero : Z -> Z; modZero : Z -> Z }.
Definition ofBool (b : bool) : Z := if b then -1 else 0.
(** SMT-LIB: the remainder of div is never negative; rem has the sign of the divisor *)
Definition zdiv (I : interp) (x y : Z) : Z := if y =? 0 then divZero I x else if y <? 0 then - (x / - y) else x / y.
Definition zmod (I : interp) (x y : Z) : Z := if y =? 0 then modZero I x else x mod Z.abs y.
Definition zrem (I : interp) (x y : Z) : Z := if y =? 0 then remZero I x else if y <? 0 then - (x mod - y) else x mod y.
Definition varValue (I : interp) (n : string) (s : zsort) : Z :=
  match s with SBool => ofBool (negb (var I n SBool =? 0)) | _ => var I n s end.
Fixpoint value (I : interp) (e : expr) : Z :=
  match e with
  | EInt z => z
  | EBool b => ofBool b
  | ENull => 0
  | EVar n s => varValue I n s
  | EArith o a b =>
      let x := value I a in
      let y := value I b in
      match o with Plus => x + y | Minus => x - y | Times => x * y | Div => zdiv I x y | Rem => zrem I x y end
  | EMod a b => zmod I (value I a) (value I b)
  | ERel r a b =>
      let x := value I a in
      let y := value I b in
      ofBool (match r with REq => x =? y | RNe => negb (x =? y) | RGt => y <? x | RGe => y <=? x | RLt => x <? y | RLe => x <=? y end)
  | EJunct j a b =>
      let x := negb (value I a =? 0) in
      let y := negb (value I b =? 0) in
      ofBool (match j with JAnd => x && y | JOr => x || y | JXor => xorb x y end)
  | ENot a => ofBool (value I a =? 0)
  end.
(** the constraint holds *)
Definition holdsIn (I : interp) (e : expr) : Prop := value I e <> 0.

(** ** Meaning of LLVM IR: values are signed numbers of their width *)
Definition wrap (bits : nat) (z : Z) : Z :=
  let m := 2 ^ Z.of_nat bits in let r := z mod m in if r <? 2 ^ (Z.of_nat bits - 1) then r else r - m.
Definition unsigned (bits : nat) (z : Z) : Z := z mod 2 ^ Z.of_nat bits.
Definition binValue (bits : nat) (o : binop) (x y : Z) : Z :=
  wrap bits
    match o with
    | Add => x + y
    | Sub => x - y
    | Mul => x * y
    | UDiv => unsigned bits x / unsigned bits y
    | SDiv => Z.quot x y
    | URem => unsigned bits x mod unsigned bits y
    | SRem => Z.rem x y
    | Shl => x * 2 ^ unsigned bits y
    | LShr => unsigned bits x / 2 ^ unsigned bits y
    | AShr => x / 2 ^ unsigned bits y
    | And => Z.land x y
    | Or => Z.lor x y
    | Xor => Z.lxor x y
    end.
Definition cmpValue (bits : nat) (p : icmp) (x y : Z) : bool :=
  let ux := unsigned bits x in
  let uy := unsigned bits y in
  match p with
  | EQ => x =? y
  | NE => negb (x =? y)
  | UGT => uy <? ux
  | UGE => uy <=? ux
  | ULT => ux <? uy
  | ULE => ux <=? uy
  | SGT => y <? x
  | SGE => y <=? x
  | SLT => x <? y
  | SLE => x <=? y
  end.
Definition castValue (k : castop) (x : Z) : option Z :=
  match k with
  | Trunc bits => Some (wrap bits x)
  | SExt => Some x
  | ZExt from => Some (unsigned from x)
  | OtherCast => None
  end.

(** the constants in a term *)
Fixpoint names (e : expr) : list string :=
  match e with
  | EInt _ | EBool _ | ENull => []
  | EVar n _ => [n]
  | EArith _ a b | EMod a b | ERel _ a b | EJunct _ a b => names a ++ names b
  | ENot a => names a
  end.

Section Semantics.
  Variable defs : nat -> def.
  Variable varName gepName : nat -> string.
  Variable fnName : nat -> option string.
  Variable fnRet : nat -> ty.

  (** [rho]: the values of all instructions at one moment of an execution.
      Results of loads, calls and phis, and addresses, can be anything. *)
  Definition coherent (rho : nat -> Z) : Prop := forall v,
    match defs v with
    | DInt _ z => rho v = z
    | DNull => rho v = 0
    | DBin bits o a b => rho v = binValue bits o (rho a) (rho b)
    | DCmp bits p a b => rho v = ofBool (cmpValue bits p (rho a) (rho b))
    | DCast k a => forall z, castValue k (rho a) = Some z -> rho v = z
    | _ => True
    end.

  (** The sort for a type *)
  Inductive sortFor : ty -> zsort -> Prop :=
  | for_bool : sortFor (TInt 1) SBool
  | for_int b : b <> 1%nat -> sortFor (TInt b) SInt
  | for_ptr : sortFor TPtr SBV.
  (** [reads v n s]: the value [v] is that of the variable [n]: a load of a local
      variable or through a getelementptr, a call *)
  Inductive reads (v : nat) : string -> zsort -> Prop :=
  | reads_var p t s : defs v = DLoad p -> defs p = DAlloca t -> sortFor t s -> reads v (varName p) s
  | reads_gep p t ops s : defs v = DLoad p -> defs p = DGep t ops -> sortFor t s -> reads v (gepName p) s
  | reads_call f ops n s : defs v = DCall (Some f) ops -> fnName f = Some n -> sortFor (fnRet f) s -> reads v n s.
  (** The assignment gives every variable the value read from it. *)
  Definition agrees (I : interp) (rho : nat -> Z) : Prop := forall v n s, reads v n s -> rho v = varValue I n s.

  (** ** Conditions that are understood *)
  Definition arithmetic (o : binop) : Prop := match o with Add | Sub | Mul | UDiv | SDiv | URem | SRem => True | _ => False end.
  Definition logical (o : binop) : Prop := match o with And | Or | Xor => True | _ => False end.
  (** [term v s]: [v] is not a cast; [operand v s]: it may be one *)
  Inductive term : nat -> zsort -> Prop :=
  | term_int v b z : defs v = DInt b z -> term v SInt
  | term_null v : defs v = DNull -> term v SBV
  | term_read v n s : reads v n s -> term v s
  | term_arith v b o x y : defs v = DBin b o x y -> arithmetic o -> operand x SInt -> operand y SInt -> term v SInt
  | term_logic v b o x y : defs v = DBin b o x y -> logical o -> operand x SBool -> operand y SBool -> term v SBool
  with operand : nat -> zsort -> Prop :=
  | operand_term v s : term v s -> operand v s
  | operand_cast v k a s : defs v = DCast k a -> term a s -> operand v s.
  Inductive condition : nat -> Prop :=
  | cond_cmp v b p x y s : defs v = DCmp b p x y -> operand x s -> operand y s ->
      (s = SBool -> p = EQ \/ p = NE) -> condition v
  | cond_bin v b o x y : defs v = DBin b o x y -> term v SBool -> condition v
  | cond_call v f ops : defs v = DCall (Some f) ops -> term v SBool -> condition v.

  (** ** Where unbounded signed integers are right *)
  Definition fits (bits : nat) (z : Z) : Prop := - 2 ^ (Z.of_nat bits - 1) <= z < 2 ^ (Z.of_nat bits - 1).
  Definition exactBin (bits : nat) (o : binop) (x y : Z) : Prop :=
    match o with
    | Add => fits bits (x + y)
    | Sub => fits bits (x - y)
    | Mul => fits bits (x * y)
    | UDiv | SDiv | URem | SRem => fits bits x /\ fits bits y /\ 0 <= x /\ 0 < y
    | _ => bits = 1%nat
    end.
  Definition exactCmp (bits : nat) (p : icmp) (x y : Z) : Prop :=
    match p with
    | UGT | UGE | ULT | ULE => fits bits x /\ fits bits y /\ 0 <= x /\ 0 <= y
    | _ => True
    end.
  (** for all operations that a value is computed by: no overflow, no negative
      numbers in unsigned operations and divisions, no cast that changes the value *)
  Inductive exact (rho : nat -> Z) : nat -> Prop :=
  | exact_leaf v : match defs v with DBin _ _ _ _ | DCmp _ _ _ _ | DCast _ _ => False | _ => True end -> exact rho v
  | exact_bin v b o x y : defs v = DBin b o x y -> exact rho x -> exact rho y -> exactBin b o (rho x) (rho y) -> exact rho v
  | exact_cmp v b p x y : defs v = DCmp b p x y -> exact rho x -> exact rho y -> exactCmp b p (rho x) (rho y) -> exact rho v
  | exact_cast v k a : defs v = DCast k a -> exact rho a -> rho v = rho a -> exact rho v.

  (** ** Executions along a path *)
  Variable isDbg : nat -> bool.
  Variable blockOf : nat -> nat.
  Variable insts : nat -> list nat.
  (** the block that a conditional branch goes to *)
  Definition target (rho : nat -> Z) (br : nat) : option nat :=
    match defs br with DBr c t f => Some (if rho c =? 0 then f else t) | _ => None end.
  (** [run]: instructions and the values when they are executed *)
  Fixpoint along (run : list (nat * (nat -> Z))) : Prop :=
    match run with
    | (a, rho) :: (((b, _) :: _) as run') =>
        (forall blk, target rho a = Some blk -> blockOf b = blk) /\ along run'
    | _ => True
    end.
  (** instructions belong to one block, once; no block starts with a debug
      instruction (if these are skipped) *)
  Definition wellPlaced (ignoreDbg : bool) (i : nat) : Prop :=
    In i (insts (blockOf i)) /\ (ignoreDbg = true -> isDbg i = false).
  Definition separateBlocks (ignoreDbg : bool) : Prop :=
    (forall b i, In i (insts b) -> blockOf i = b) /\
    (ignoreDbg = true -> forall b i l, insts b = i :: l -> isDbg i = false).
End Semantics.

(** ** Programs, and the edge constraints of the path filters (C57) *)
Record program := mkP { pDefs : nat -> def; pDbg : nat -> bool; pBlock : nat -> nat; pInsts : nat -> list nat;
                        pVar : nat -> string; pGepName : nat -> string; pFn : nat -> option string; pRet : nat -> ty; pIgnore : bool }.
Definition edge (P : program) : nat -> nat -> nat -> cache -> out (option cav * cache) :=
  getConstraintAndVariablesFromEdge (pDefs P) (pDbg P) (pBlock P) (pInsts P) (pVar P) (pGepName P) (pFn P) (pRet P) (pIgnore P).
(** the tables that calls leave behind *)
Inductive table (P : program) : cache -> Prop :=
| table_new : table P []
| table_edge c fuel from to r c' : table P c -> edge P fuel from to c = ORet (r, c') -> table P c'.
Definition constraintOf (P : program) (fuel from to : nat) : option cav :=
  match edge P fuel from to [] with ORet (r, _) => r | _ => None end.
Definition separate (P : program) : Prop := separateBlocks (pDbg P) (pBlock P) (pInsts P) (pIgnore P).
Definition placed (P : program) (i : nat) : Prop := wellPlaced (pDbg P) (pBlock P) (pInsts P) (pIgnore P) i.
Definition understood (P : program) (c : nat) : Prop := condition (pDefs P) (pVar P) (pGepName P) (pFn P) (pRet P) c.
Definition assigns (P : program) (I : interp) (rho : nat -> Z) : Prop := agrees (pDefs P) (pVar P) (pGepName P) (pFn P) (pRet P) I rho.
(** an execution along the path *)
Definition execution (P : program) (run : list (nat * (nat -> Z))) : Prop :=
  along (pDefs P) (pBlock P) run /\ (forall a rho, In (a, rho) run -> placed P a /\ coherent (pDefs P) rho).
(** the branches are understood, and unbounded integers are right for them *)
Definition plainRun (P : program) (run : list (nat * (nat -> Z))) : Prop :=
  forall a rho c t f, In (a, rho) run -> pDefs P a = DBr c t f -> t <> f /\ understood P c /\ exact (pDefs P) rho c.
(** [v] is a variable, a getelementptr or a function of name [n] *)
Definition variable (P : program) (n : string) (v : nat) : Prop :=
  (exists t, pDefs P v = DAlloca t /\ pVar P v = n) \/ (exists t ops, pDefs P v = DGep t ops /\ pGepName P v = n) \/ pFn P v = Some n.
