(** What the documentation of FlowFunctions.h says, as a relation:
    [documented f x y]: y is a target of x.  Sets are predicates. *)
From Coq Require Import List.
From Verif Require Import FlowFunctionsModel.
Import ListNotations.

Section Spec.
  Context {D : Type}.
  Definition set := D -> Prop.
  Definition Sing (x : D) : set := fun y => y = x.
  Definition Empty : set := fun _ => False.
  Definition Cup (A B : set) : set := fun y => A y \/ B y.
  Definition Of (l : list D) : set := fun y => In y l.
  (** the distributive lifting of a flow function to sets of facts *)
  Definition lift (f : D -> set) (A : set) : set := fun y => exists x, A x /\ f x y.
  Definition cases (P : Prop) (A B : set) : set := fun y => (P /\ A y) \/ (~ P /\ B y).

  Fixpoint documented (f : ff D) (x : D) : set :=
    match f with
    | FIdentity | FLegacyIdentity => Sing x
    | FLambda F => Of (F x)
    | FGen v w => cases (x = w) (Cup (Sing v) (Sing w)) (Sing x)
    | FGenIf v p => cases (p x = true) (Cup (Sing v) (Sing x)) (Sing x)
    | FGenMany vs w => cases (x = w) (Cup (Of vs) (Sing w)) (Sing x)
    | FKill v => cases (x = v) Empty (Sing x)
    | FKillIf p => cases (p x = true) Empty (Sing x)
    | FKillMany vs => cases (In x vs) Empty (Sing x)
    | FKillAll => Empty
    | FGenKillOthers v w => cases (x = w) (Cup (Sing v) (Sing w)) Empty
    | FGenManyKillOthers vs w => cases (x = w) (Cup (Of vs) (Sing w)) Empty
    | FTransfer v w =>
        cases (x = w) (Cup (Sing v) (Sing w)) (cases (x = v) Empty (Sing x))
    | FUnion g h => Cup (documented g x) (documented h x)
    | FZeroed g z => cases (x = z) (Cup (documented g x) (Sing z)) (documented g x)
    | FCompose fs => fold_left (fun A g => lift g A) (map documented fs) (Sing x)
    | FLegacyGenIf vs p => cases (p x = true) (Cup (Of vs) (Sing x)) (Sing x)
    | FGenAll vs z => cases (x = z) (Cup (Of vs) (Sing z)) (Sing x)
    | FGenAllKillOthers vs z => cases (x = z) (Cup (Of vs) (Sing z)) Empty
    | FLegacyUnion fs => fun y => Exists (fun g => g x y) (map documented fs)
    end.

  (** containers inside a flow function are sets *)
  Fixpoint wf (f : ff D) : Prop :=
    match f with
    | FLambda F => forall x, NoDup (F x)
    | FGenMany vs _ | FGenManyKillOthers vs _ | FKillMany vs
    | FLegacyGenIf vs _ | FGenAll vs _ | FGenAllKillOthers vs _ => NoDup vs
    | FUnion g h => wf g /\ wf h
    | FZeroed g _ => wf g
    | FCompose fs | FLegacyUnion fs =>
        (fix all l := match l with [] => True | g :: l' => wf g /\ all l' end) fs
    | _ => True
    end.
End Spec.
