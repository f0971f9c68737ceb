(** Model of the value domain and edge functions of the extended taint analysis:
    /repo/lib/PhasarLLVM/DataFlow/IfdsIde/Problems/ExtendedTaintAnalysis/*.cpp,
    the headers of the same names and
    /repo/lib/PhasarLLVM/Utils/BasicBlockOrdering.cpp.

    An instruction is its basic block and its position therein. *)
From Coq Require Import Bool List Arith.
From Verif Require Import Assoc.
Import ListNotations.

Record instr := mkInstr { blk : nat; idx : nat }.
#[global] Instance EqDec_instr : EqDec instr.
Proof. unfold EqDec. decide equality; apply Nat.eq_dec. Defined.

(** EdgeDomain, EdgeDomain.h:33-63; [With None] is NotSanitized *)
Inductive ed := Bot | Top | San | With (s : option instr).
#[global] Instance EqDec_ed : EqDec ed.
Proof. unfold EqDec. decide equality. apply (@eq_dec (option instr) _). Defined.

Section CFG.
  (** llvm::successors(B), with one entry per edge; the function of a block;
      DominatorTree::dominates on instructions of different blocks *)
  Variables (succs : nat -> list nat) (fnOf : nat -> nat) (dom : instr -> instr -> bool).

  (** BasicBlockOrdering.cpp:25-40 *)
  Definition mustComeBefore (l r : instr) : bool :=
    if negb (fnOf (blk l) =? fnOf (blk r)) then false
    else if blk l =? blk r then idx l <? idx r
    else dom l r.

  Definition front (b : nat) : instr := mkInstr b 0.
  (** EdgeDomain.cpp:92-118, when neither must come before the other *)
  Definition joinPositions (s1 s2 : instr) : ed :=
    if existsb (fun b => eqb (front b) s2) (succs (blk s1)) then With (Some s2)
    else if existsb (fun b => eqb (front b) s1) (succs (blk s2)) then With (Some s2)
    else match filter (fun b => existsb (Nat.eqb b) (succs (blk s1))) (succs (blk s2)) with
         | [b] => With (Some (front b))
         | _ => With None
         end.
  (** EdgeDomain::join, EdgeDomain.cpp:49-128; [bbo]: whether the ordering is
      given.  JoinLatticeTraits<EdgeDomain>::join (EdgeDomain.h:115) does not. *)
  Definition join (bbo : bool) (a b : ed) : ed :=
    if eqb a b then a else
    match a, b with
    | Top, _ => b
    | _, Top => a
    | Bot, _ | _, Bot => Bot
    | San, _ => b
    | _, San => a
    | With (Some s1), With (Some s2) =>
        if negb (fnOf (blk s1) =? fnOf (blk s2)) then With None
        else if bbo && mustComeBefore s1 s2 then With (Some s1)
        else if bbo && mustComeBefore s2 s1 then With (Some s2)
        else joinPositions s1 s2
    | _, _ => With None
    end.

  (** Edge functions *)
  Inductive xef :=
  | Id | AllBottom | AllTop | AllSanitized
  | Gen (s : option instr)                              (* ConstantEdgeFunction<EdgeDomain>, GenEdgeFunction.h *)
  | Kill (load : option instr)                          (* KillIfSanitizedEdgeFunction *)
  | Transfer (load : option instr) (to : instr)         (* TransferEdgeFunction *)
  | Compose (f g : xef)                                 (* ComposeEdgeFunction *)
  | JoinEF (fs : list xef).                             (* JoinEdgeFunction<EdgeDomain,2> *)

  Definition sanitizer (x : ed) : option instr := match x with With s => s | _ => None end.
  Fixpoint apply (f : xef) (x : ed) : ed :=
    match f with
    | Id => x
    | AllBottom => Bot
    | AllTop => Top
    | AllSanitized => San
    | Gen s => With s
    | Kill load =>                                      (* KillIfSanitizedEdgeFunction.cpp:22-37 *)
        match sanitizer x with
        | Some s =>
            match load with
            | None => San
            | Some l => if (fnOf (blk s) =? fnOf (blk l)) && mustComeBefore s l then San else With None
            end
        | None => x
        end
    | Transfer load to =>                               (* TransferEdgeFunction.cpp:20-34 *)
        match sanitizer x with
        | Some s => match load with
                    | None => With (Some to)
                    | Some l => if mustComeBefore s l then With (Some to) else With None
                    end
        | None => if eqb x San then With (Some to) else With None
        end
    | Compose f g => apply g (apply f x)
    | JoinEF fs =>
        (fix go (acc : ed) (l : list xef) : ed :=       (* EdgeFunctionUtils.h:302-312 *)
           match l with
           | [] => acc
           | e :: r => let acc' := join false acc (apply e x) in if eqb acc' Bot then acc' else go acc' r
           end) Top fs
    end.
  Definition isConstant (f : xef) : bool := match f with AllBottom | AllTop | AllSanitized | Gen _ => true | _ => false end.

  (** operator==; TransferEdgeFunction.cpp:36-39 compares only To *)
  Fixpoint efEqb (f g : xef) : bool :=
    match f, g with
    | Id, Id | AllBottom, AllBottom | AllTop, AllTop | AllSanitized, AllSanitized => true
    | Gen s, Gen t => eqb s t
    | Kill l, Kill m => eqb l m
    | Transfer _ s, Transfer _ t => eqb s t
    | Compose a b, Compose c d => efEqb a c && efEqb b d
    | JoinEF v, JoinEF w =>
        (fix go (l r : list xef) : bool :=
           match l, r with [], [] => true | a :: l', b :: r' => efEqb a b && go l' r' | _, _ => false end) v w
    | _, _ => false
    end.

  Definition defaultCompose (f g : xef) : option xef :=   (* EdgeFunctionUtils.h:122-133 *)
    match g with Id => Some f | _ => if isConstant g then Some g else None end.
  (** compose: EdgeFunctionUtils.h:33, 61, 101, 163-203 (here IsSOOCandidate),
      AllSanitized.cpp:17-45, XTaintEdgeFunctionBase.h:32-39.  A client composing
      Compose re-associates (EdgeFunctionUtils.h:257-267), JoinEF wraps
      (:314-338); both only when the default does not apply.  NonTopBotValue::unwrap
      keeps the sanitizer only (EdgeDomain.h:102). *)
  Fixpoint compose (f g : xef) : xef :=
    match f with
    | Id => g
    | AllBottom => if isConstant g then g else AllBottom
    | AllTop => match g with Id => AllTop | _ => g end
    | AllSanitized =>
        match g with
        | Id => f
        | AllBottom => g
        | AllTop => f
        | _ => if isConstant g then g
               else match apply g San with Bot => AllBottom | Top => AllTop | San => f | With _ => g end
        end
    | Gen s =>
        match defaultCompose f g with
        | Some h => h
        | None => match apply g (With s) with Bot => AllBottom | Top => AllTop | c => Gen (sanitizer c) end
        end
    | Compose a b => match defaultCompose f g with Some h => h | None => compose a (compose b g) end
    | Kill _ | Transfer _ _ | JoinEF _ => match defaultCompose f g with Some h => h | None => Compose f g end
    end.

  (** join of Kill, Transfer and Compose: EdgeFunctionUtils.h:393-420
      (defaultJoinOrNull<L,2>), XTaintEdgeFunctionBase.h:41-55.  The order of the
      elements of the new JoinEdgeFunction is that of their addresses.
      [None]: joining with a JoinEdgeFunction is not modelled here (see
      EdgeFunctionModel). *)
  Definition joinBase (f g : xef) : option xef :=
    match g with
    | AllBottom => Some AllBottom
    | AllTop => Some f
    | _ => if efEqb g f then Some f
           else match g with
                | AllSanitized => Some f
                | JoinEF _ => None
                | _ => Some (JoinEF [f; g])
                end
    end.
End CFG.
