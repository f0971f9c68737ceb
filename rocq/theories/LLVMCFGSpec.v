(** Control flow of a function, independently of the CFG classes. *)
From Coq Require Import List Bool Arith.
From Verif Require Import LLVMCFGModel.
Import ListNotations.

Section Spec.
  Context (f : func).
  Definition valid (n : inst) : Prop := fst n < length f /\ snd n < length (insts (getBlock f (fst n))).

  (** valid IR: blocks end in a terminator, which is no debug instruction;
      branches go to existing blocks, never to the entry block *)
  Record wf : Prop := {
    wf_term : forall b, b < length f -> insts (getBlock f b) <> [] /\ isDbg (last (insts (getBlock f b)) Plain) = false;
    wf_target : forall b t, b < length f -> In t (targets f b) -> t < length f /\ t <> 0 }.
  (** no branch around the initialisation of a static variable *)
  Definition noLazy : Prop := forall b ts, term (getBlock f b) <> Br ts true.
  Definition noDbgFront : Prop := forall b, isDbg (kindOf f (b, 0)) = false.

  (** what executes after [n] *)
  Inductive executes : inst -> inst -> Prop :=
  | ex_next : forall b i, S i < length (insts (getBlock f b)) -> executes (b, i) (b, S i)
  | ex_branch : forall b i t, S i = length (insts (getBlock f b)) -> In t (targets f b) -> executes (b, i) (t, 0).
  (** the same, with the instructions in [skip] left out *)
  Inductive executesNext (skip : inst -> bool) : inst -> inst -> Prop :=
  | en_step : forall n m, executes n m -> skip m = false -> executesNext skip n m
  | en_skip : forall n x m, executes n x -> skip x = true -> executesNext skip x m -> executesNext skip n m.
End Spec.
