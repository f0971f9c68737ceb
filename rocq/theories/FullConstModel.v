(** Model of the full constant propagation of the monotone framework
    (lib/PhasarLLVM/DataFlow/Mono/Problems/IntraMonoFullConstantPropagation.cpp,
    below FC.cpp, and InterMonoFullConstantPropagation.cpp, below IC.cpp).

    Instructions are numbers; [code] tells what they are.  The solver is that of
    IntraMonoModel.

    Simplifications:
    - A std::map is an association list with unique keys.
    - A constant integer is the number that it denotes as a signed number.
    - Messages are left out.
    - A container is [None] after undefined behaviour: signed overflow of int64_t,
      a constant that getSExtValue does not accept, a null pointer. *)
From Coq Require Import List Bool Arith ZArith.
From Verif Require Import Assoc LatticeModel.
From Verif Require IntraMonoModel.
Import ListNotations.

Inductive value := VInst (n : nat) | VConst (z : Z) | VOther (k : nat).
#[export] Instance EqDec_fcvalue : EqDec value.
Proof. intros x y. unfold EqDec in *. decide equality; try apply Nat.eq_dec; apply Z.eq_dec. Defined.
Inductive opcode := Add | Sub | Mul | UDiv | SDiv | URem | SRem | OtherOp.
Inductive instr :=
| IAlloca (int : bool)                           (* getAllocatedType()->isIntegerTy() *)
| IStore (v : value) (int : bool) (p : value)    (* getValueOperand()->getType()->isIntegerTy() *)
| ILoad (p : value)
| IBin (op : opcode) (w : Z) (l r : value)
| ICall
| IOther.
(** LatticeDomain<int64_t> *)
Definition lat : Type := ld Z.
Definition cont : Type := list (value * lat).
Definition latEqb : lat -> lat -> bool := ldEqb Z.eqb.

(** int64_t *)
Definition in64 (z : Z) : bool := (- (2 ^ 63) <=? z)%Z && (z <? 2 ^ 63)%Z.
Definition checked (z : Z) : option Z := if in64 z then Some z else None.
Definition val (x : option Z) : option lat := option_map LVal x.
(** FC.cpp:188-225 *)
Definition executeBinOperation (op : opcode) (l r : Z) : option lat :=
  match op with
  | Add => val (checked (l + r))
  | Sub => val (checked (l - r))
  | Mul => val (checked (l * r))
  | UDiv | SDiv => if (r =? 0)%Z then Some LBot else val (checked (Z.quot l r))
  | URem | SRem => if (r =? 0)%Z then Some LBot else match checked (Z.quot l r) with Some _ => Some (LVal (Z.rem l r)) | None => None end
  | OtherOp => Some LBot
  end.

(** std::map::insert *)
Definition emplace (k : value) (v : lat) (m : cont) : cont := match afind k m with Some _ => m | None => aset k v m end.
Definition isBot (x : lat) : bool := match x with LBot => true | _ => false end.
Definition isTop (x : lat) : bool := match x with LTop => true | _ => false end.
(** the operand of a binary operation, FC.cpp:145-168 *)
Definition operand (m : cont) (v : value) : option lat :=
  match v with
  | VConst z => val (checked z)
  | _ => Some (match afind v m with Some x => x | None => LTop end)
  end.
(** cases I and II of a store, FC.cpp:102-132 *)
Definition storeInt (m : cont) (v p : value) : cont :=
  match afind v m with
  | None | Some LTop => m
  | Some x =>
      match afind p m with
      | Some y => if isBot y then m else aset p x m
      | None => m
      end
  end.
Definition store (m : cont) (v : value) (int : bool) (p : value) : option cont :=
  let second := if int then storeInt m v p else m in
  match v with
  | VConst z =>
      match afind p m with
      | Some y => if isBot y then Some second else match checked z with Some z => Some (aset p (LVal z) m) | None => None end
      | None => Some second
      end
  | _ => Some second
  end.
(** normalFlow, FC.cpp:89-186 *)
Definition flow (n : nat) (i : instr) (m : cont) : option cont :=
  match i with
  | IAlloca int => Some (if int then emplace (VInst n) LTop m else m)
  | IStore v int p => store m v int p
  | ILoad p => Some (match afind p m with Some x => aset (VInst n) x m | None => m end)
  | IBin op _ l r =>
      match operand m l, operand m r with
      | Some (LVal a), Some (LVal b) =>
          match executeBinOperation op a b with Some x => Some (aset (VInst n) x m) | None => None end
      | Some _, Some _ => Some (aset (VInst n) LBot m)
      | _, _ => None
      end
  | ICall | IOther => Some m
  end.
(** merge, FC.cpp:52-64 *)
Definition mergeC (l r : cont) : cont :=
  flat_map (fun kv => match afind (fst kv) l, afind (fst kv) r with
                      | Some v, Some v' => if latEqb v v' then [(fst kv, v)] else []
                      | _, _ => []
                      end) l.
(** equal_to, FC.cpp:66-70 *)
Definition within (l r : cont) : bool :=
  forallb (fun kv => match afind (fst kv) l, afind (fst kv) r with
                     | Some v, Some v' => latEqb v v'
                     | _, _ => false
                     end) l.
Definition equalC (l r : cont) : bool := within l r && within r l.

(** with undefined behaviour *)
Definition M : Type := option cont.
Definition bindM (x : M) (f : cont -> M) : M := match x with Some m => f m | None => None end.
Definition merge (l r : M) : M := bindM l (fun l => bindM r (fun r => Some (mergeC l r))).
Definition equal_to (l r : M) : bool :=
  match l, r with Some l, Some r => equalC l r | None, None => true | _, _ => false end.
Definition insertAll (l r : M) : M := bindM l (fun l => bindM r (fun r => Some (fold_left (fun m kv => emplace (fst kv) (snd kv) m) r l))).

(** the problem; initialSeeds: FC.cpp:72-87; one entry point, with start points
    [starts].  allTop is mono_container_t{}, IntraMonoProblem.h:82 *)
Definition problem (code : nat -> instr) (starts : list nat) : IntraMonoModel.problem nat M unit :=
  IntraMonoModel.mkProblem (fun n x => bindM x (flow n (code n))) merge equal_to (Some []) (Some []) insertAll
    (map (fun n => (n, Some [])) starts) [tt].

(** ** InterMonoFullConstantPropagation *)
(** merge, IC.cpp:45-51 *)
Definition interMerge (l r : cont) : cont := [].
(** callFlow, IC.cpp:72-117; too few formals: out of bounds *)
Fixpoint mapArgs (m : cont) (actuals formals : list value) (out : cont) : option cont :=
  match actuals with
  | [] => Some out
  | a :: actuals' =>
      let touched := match afind a m, a with None, VConst _ => true | Some _, _ => true | None, _ => false end in
      match formals with
      | [] => if touched then None else mapArgs m actuals' [] out
      | f :: formals' =>
          let out := match afind a m with Some x => emplace f x out | None => out end in
          match a with
          | VConst z => match checked z with Some z => mapArgs m actuals' formals' (emplace f (LVal z) out) | None => None end
          | _ => mapArgs m actuals' formals' out
          end
      end
  end.
Definition callFlow (actuals formals : list value) (isVarArg : bool) (m : cont) : option cont :=
  match actuals with
  | [] => Some []
  | _ => if isVarArg then Some [] else mapArgs m actuals formals []
  end.
(** an exit statement: a return (the value, whether it is an integer), or another *)
Inductive exitStmt := ERet (v : option (value * bool)) | EOther.
(** returnFlow, IC.cpp:119-147 *)
Definition returnFlow (callSite : nat) (e : exitStmt) (m : cont) : option cont :=
  match e with
  | EOther => Some []
  | ERet None => None
  | ERet (Some (_, false)) => Some []
  | ERet (Some (VConst z, true)) => match checked z with Some z => Some [(VInst callSite, LVal z)] | None => None end
  | ERet (Some (v, true)) => Some (match afind v m with Some x => [(VInst callSite, x)] | None => [] end)
  end.
(** callToRetFlow, IC.cpp:149-156 *)
Definition callToRetFlow (m : cont) : cont := m.
