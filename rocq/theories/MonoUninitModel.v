(** Model of the uninitialised-variables analysis of the monotone framework
    (lib/PhasarLLVM/DataFlow/Mono/Problems/IntraMonoUninitVariables.cpp, below
    MU.cpp).

    Instructions are numbers; [code] tells what they are.  The solver is that of
    IntraMonoModel.

    Simplifications:
    - A std::set is a list without duplicates.
    - Of a value only its class is kept: an instruction, a constant number, undef
      (both are llvm::ConstantData), or another one (argument, global, constant
      expression).
    - Messages are left out. *)
From Coq Require Import List Bool Arith ZArith.
From Verif Require Import Assoc.
From Verif Require IntraMonoModel.
Import ListNotations.

Inductive value := VInst (n : nat) | VConst (z : Z) | VUndef | VOther (k : nat).
#[export] Instance EqDec_muvalue : EqDec value.
Proof. intros x y. unfold EqDec in *. decide equality; try apply Nat.eq_dec; apply Z.eq_dec. Defined.
Inductive instr :=
| IAlloca
| IStore (v : value) (int : bool) (p : value)    (* getValueOperand()->getType()->isIntegerTy() *)
| ICall
| IOther.
Definition cont : Type := list value.
Definition has (x : value) (m : cont) : bool := existsb (eqb x) m.
Definition add (m : cont) (x : value) : cont := if has x m then m else x :: m.
Definition erase (x : value) (m : cont) : cont := filter (fun y => negb (eqb x y)) m.

(** isa<ConstantData> *)
Definition constantData (v : value) : bool := match v with VConst _ | VUndef => true | _ => false end.
(** normalFlow, MU.cpp:58-75 *)
Definition flow (n : nat) (i : instr) (m : cont) : cont :=
  match i with
  | IAlloca => add m (VInst n)
  | IStore v int p => if int && constantData v then erase p m else m
  | ICall | IOther => m
  end.
(** merge, MU.cpp:39-46 *)
Definition merge (l r : cont) : cont := filter (fun x => has x r) l.
(** equal_to, MU.cpp:48-52 *)
Definition equal_to (l r : cont) : bool := forallb (fun x => has x r) l && forallb (fun x => has x l) r.

(** the problem; allTop: MU.cpp:54-56; initialSeeds: MU.cpp:77-91; one entry point,
    with start points [starts] *)
Definition problem (code : nat -> instr) (starts : list nat) : IntraMonoModel.problem nat cont unit :=
  IntraMonoModel.mkProblem (fun n => flow n (code n)) merge equal_to [] [] (fold_left add)
    (map (fun n => (n, [])) starts) [tt].
