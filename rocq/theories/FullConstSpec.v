(** Executions of a function, and what it means that a constant is right. *)
From Coq Require Import List Bool Arith ZArith.
From Verif Require Import Assoc LatticeModel FullConstModel.
From Verif Require IntraMonoModel.
Import ListNotations.

(** ** Arithmetic of LLVM on [w] bits, numbers as signed ones *)
Definition signed (w z : Z) : Z := ((z + 2 ^ (w - 1)) mod 2 ^ w - 2 ^ (w - 1))%Z.
Definition unsigned (w z : Z) : Z := (z mod 2 ^ w)%Z.
(** [None]: undefined behaviour; other operations give anything *)
Definition llvmOp (op : opcode) (w a b z : Z) : Prop :=
  match op with
  | Add => z = signed w (a + b)
  | Sub => z = signed w (a - b)
  | Mul => z = signed w (a * b)
  | UDiv => b <> 0%Z /\ z = signed w (unsigned w a / unsigned w b)
  | URem => b <> 0%Z /\ z = signed w (unsigned w a mod unsigned w b)
  | SDiv => b <> 0%Z /\ z = signed w (Z.quot a b)
  | SRem => b <> 0%Z /\ z = Z.rem a b
  | OtherOp => True
  end.
(** the result is that of the integers *)
Definition exactOp (op : opcode) (a b z : Z) : Prop :=
  match op with
  | Add => z = (a + b)%Z
  | Sub => z = (a - b)%Z
  | Mul => z = (a * b)%Z
  | UDiv | SDiv => z = Z.quot a b
  | URem | SRem => z = Z.rem a b
  | OtherOp => True
  end.

(** ** Executions *)
Inductive rv := RInt (z : Z) | RPtr (a : nat).
Record state := mkS { env : nat -> option rv; mem : nat -> option rv; next : nat }.
Definition upd {A} (f : nat -> option A) (n : nat) (x : option A) : nat -> option A := fun k => if k =? n then x else f k.

Section E.
  Variable code : nat -> instr.
  Variable args : nat -> rv.
  Variable arith : opcode -> Z -> Z -> Z -> Z -> Prop.

  Definition eval (s : state) (v : value) : option rv :=
    match v with VInst n => env s n | VConst z => Some (RInt z) | VOther k => Some (args k) end.
  Inductive step (n : nat) (s : state) : state -> Prop :=
  | step_alloca int : code n = IAlloca int ->
      step n s (mkS (upd (env s) n (Some (RPtr (next s)))) (upd (mem s) (next s) None) (S (next s)))
  | step_store v int p a x : code n = IStore v int p -> eval s p = Some (RPtr a) -> eval s v = Some x ->
      (int = true -> exists z, x = RInt z) ->
      step n s (mkS (env s) (upd (mem s) a (Some x)) (next s))
  | step_load p a x : code n = ILoad p -> eval s p = Some (RPtr a) -> mem s a = Some x ->
      step n s (mkS (upd (env s) n (Some x)) (mem s) (next s))
  | step_bin op w l r a b z : code n = IBin op w l r -> eval s l = Some (RInt a) -> eval s r = Some (RInt b) ->
      arith op w a b z ->
      step n s (mkS (upd (env s) n (Some (RInt z))) (mem s) (next s))
  | step_call x mem' : code n = ICall ->
      step n s (mkS (upd (env s) n x) mem' (next s))
  | step_other x : code n = IOther ->
      step n s (mkS (upd (env s) n x) (mem s) (next s)).

  (** [run tr n s]: an execution of [tr] comes to [n] with state [s] *)
  Inductive run (succs : nat -> list nat) (starts : list nat) : list nat -> nat -> state -> Prop :=
  | run_start n : In n starts -> run succs starts [] n (mkS (fun _ => None) (fun _ => None) 0)
  | run_step tr n s m s' : run succs starts tr n s -> step n s s' -> In m (succs n) -> run succs starts (tr ++ [n]) m s'.

  (** constant [c] for [k] is right in state [s]: the value, or for a stack
      variable its content *)
  Definition right (s : state) (k : value) (c : Z) : Prop :=
    match k with
    | VInst n =>
        match code n with
        | IAlloca _ => exists a, env s n = Some (RPtr a) /\ mem s a = Some (RInt c)
        | _ => env s n = Some (RInt c)
        end
    | VConst z => z = c
    | VOther j => args j = RInt c
    end.

  (** ** What the analysis needs *)
  (** stores go to stack variables directly, there are no calls *)
  Definition simple : Prop := forall n,
    code n <> ICall /\
    forall v int p, code n = IStore v int p -> exists a b, p = VInst a /\ code a = IAlloca b.
  (** where a known variable is overwritten, the new value is known *)
  Definition knownStore (n : nat) (m : cont) : Prop :=
    forall v int p c, code n = IStore v int p -> afind p m = Some (LVal c) ->
      (exists z, v = VConst z) \/ (int = true /\ exists x, afind v m = Some x /\ x <> LTop).
End E.
