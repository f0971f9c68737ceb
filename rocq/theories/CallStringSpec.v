(** Call stacks, independently of the k-limited contexts. *)
From Coq Require Import List Arith.
From Verif Require Import CallStringModel.
Import ListNotations.

Section Spec.
  Context {Nd : Type}.

  (** the real call stack, innermost call first: calls push, returns pop *)
  Fixpoint stack (os : list (op Nd)) (s : list Nd) : list Nd :=
    match os with
    | [] => s
    | Push x :: os' => stack os' (x :: s)
    | Pop :: os' => stack os' (tl s)
    end.
  (** how many of its frames are known with a memory of [k] frames *)
  Fixpoint known (k : nat) (os : list (op Nd)) (n : nat) : nat :=
    match os with
    | [] => n
    | Push _ :: os' => known k os' (Nat.min k (n + 1))
    | Pop :: os' => known k os' (n - 1)
    end.
  (** the deepest the stack gets *)
  Fixpoint depth (os : list (op Nd)) (n : nat) : nat :=
    match os with
    | [] => n
    | Push _ :: os' => Nat.max n (depth os' (n + 1))
    | Pop :: os' => Nat.max n (depth os' (n - 1))
    end.
End Spec.
