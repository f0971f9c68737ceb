(** Variables that have not been initialised: along paths, and in executions. *)
From Coq Require Import List Bool Arith ZArith.
From Verif Require Import Assoc MonoUninitModel.
From Verif Require IntraMonoModel.
Import ListNotations.

(** ** Paths *)
(** [path c tr n]: [tr] leads from an instruction without predecessors to [n] *)
Inductive path (c : IntraMonoModel.cfg nat unit) (V : nat -> Prop) : list nat -> nat -> Prop :=
| path_start n : V n -> IntraMonoModel.preds c n = [] -> path c V [] n
| path_step tr n m : path c V tr n -> In m (IntraMonoModel.succs c n) -> path c V (tr ++ [n]) m.
(** a store of a constant integer, or of an undefined one, to [p] *)
Definition sets (code : nat -> instr) (n : nat) (p : value) : Prop :=
  (exists z, code n = IStore (VConst z) true p) \/ code n = IStore VUndef true p.
(** [x] has been allocated, and not been set since *)
Definition fresh (code : nat -> instr) (tr : list nat) (x : value) : Prop :=
  exists before a since, tr = before ++ a :: since /\ code a = IAlloca /\ x = VInst a /\ forall n, In n since -> ~ sets code n x.

(** ** Executions *)
(** an integer, which may be undefined, or a pointer *)
Inductive rv := RVal (defined : bool) | RPtr (a : nat).
(** [init a]: what has been written to [a] is defined *)
Record state := mkS { env : nat -> option rv; init : nat -> bool; next : nat }.
Definition upd {A} (f : nat -> A) (n : nat) (x : A) : nat -> A := fun k => if k =? n then x else f k.
Definition isDefined (x : rv) : bool := match x with RVal b => b | RPtr _ => true end.

Section E.
  Variable code : nat -> instr.
  Variable args : nat -> rv.
  Definition eval (s : state) (v : value) : option rv :=
    match v with VInst n => env s n | VConst _ => Some (RVal true) | VUndef => Some (RVal false) | VOther k => Some (args k) end.
  Inductive step (n : nat) (s : state) : state -> Prop :=
  | step_alloca : code n = IAlloca ->
      step n s (mkS (upd (env s) n (Some (RPtr (next s)))) (upd (init s) (next s) false) (S (next s)))
  | step_store v int p a x : code n = IStore v int p -> eval s p = Some (RPtr a) -> eval s v = Some x ->
      step n s (mkS (env s) (upd (init s) a (isDefined x)) (next s))
  | step_call x init' : code n = ICall -> step n s (mkS (upd (env s) n x) init' (next s))
  | step_other x : code n = IOther -> step n s (mkS (upd (env s) n x) (init s) (next s)).
  (** [run tr n s]: an execution of [tr] comes to [n] with state [s] *)
  Inductive run (succs : nat -> list nat) (starts : list nat) : list nat -> nat -> state -> Prop :=
  | run_start n : In n starts -> run succs starts [] n (mkS (fun _ => None) (fun _ => false) 0)
  | run_step tr n s m s' : run succs starts tr n s -> step n s s' -> In m (succs n) -> run succs starts (tr ++ [n]) m s'.

  (** variable [x] is without a defined content in [s] *)
  Definition uninitialised (s : state) (x : value) : Prop :=
    exists n a, x = VInst n /\ code n = IAlloca /\ env s n = Some (RPtr a) /\ init s a = false.
  (** no calls; only integer constants are stored, and to stack variables directly *)
  Definition simple : Prop := forall n, code n <> ICall /\
    forall v int p, code n = IStore v int p -> int = true /\ ((exists z, v = VConst z) \/ v = VUndef) /\ exists b, p = VInst b /\ code b = IAlloca.
End E.
