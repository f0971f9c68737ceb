(** Which functions constants hold. *)
From Coq Require Import String List Bool Arith.
From Verif Require Import ResolverModel ResolverSpec OTFModel.
Import ListNotations.

Section S.
  Variable kind : nat -> vkind.

  Definition function (v : nat) : Prop := kind v = KFunction.
  Definition initializedBy (g b : nat) : Prop := exists name, kind g = KGlobal name (Some b).
  (** [holds a f]: aggregate [a] has a pointer to [f]: an element, an element behind a
      cast, in an inner aggregate, or in the aggregate that initializes an element *)
  Inductive holds : nat -> nat -> Prop :=
  | holds_element a k ops f : kind a = KAggregate k ops -> In f ops -> function f -> holds a f
  | holds_cast a k ops e b ops' f : kind a = KAggregate k ops -> In e ops -> kind e = KExpr true true b (f :: ops') -> function f -> holds a f
  | holds_inner a k ops b f : kind a = KAggregate k ops -> In b ops -> holds b f -> holds a f
  | holds_global a k ops g b f : kind a = KAggregate k ops -> In g ops -> initializedBy g b -> holds b f -> holds a f.
  (** what an alias can lead to: itself, or what the globals hold that it names *)
  Definition leadsTo (p f : nat) : Prop :=
    p = f \/
    exists g b, (p = g \/ exists x y z ops, kind p = KExpr x y z ops /\ In g ops) /\ initializedBy g b /\ holds b f.

  (** [denotes v f]: the constant [v] is the address of function [f] *)
  Inductive denotes : nat -> nat -> Prop :=
  | denotes_self f : function f -> denotes f f
  | denotes_alias v a f : kind v = KAlias a -> denotes a f -> denotes v f
  | denotes_cast v b o ops f : kind v = KExpr true true b (o :: ops) -> denotes o f -> denotes v f.

  (** a virtual table group: its tables; entries start behind offset and type info *)
  Definition tables (g : nat) (ts : list (list nat)) : Prop :=
    exists name b ops, kind g = KGlobal (Some name) (Some b) /\ prefix "_ZTV" name = true /\ kind b = KAggregate AStruct ops /\
      Forall2 (fun o t => exists h1 h2, kind o = KAggregate AArray (h1 :: h2 :: t)) ops ts.
  (** entry [i] of a table is a pointer to [f] *)
  Definition entryIs (t : list nat) (i f : nat) : Prop :=
    exists v c o ops, nth_error t i = Some v /\ (exists p, kind v = KExpr p c true (o :: ops)) /\
      (o = f \/ kind o = KAlias f) /\ function f.
End S.

(** the pointers that a call hands over: to a parameter, to the variable arguments *)
Definition handed (actuals : list (nat * bool)) (t : target) (x y : nat) : Prop :=
  (exists i, nth_error actuals i = Some (x, true) /\ nth_error (tParams t) i = Some (y, true)) \/
  (tVarArg t = true /\ exists i rest, length (tParams t) <= i /\ nth_error actuals i = Some (x, true) /\ tVaLists t = y :: rest).
