(** Specification of EquivalenceClassMap in terms of the history of insertions. *)
From Coq Require Import List Bool.
From Verif Require Import Assoc.
Import ListNotations.

Section Spec.
  Context {K V : Type} `{EqDec K}.
  Variable veqb : V -> V -> bool.

  (** the inserted values up to ==, in the order of their first appearance *)
  Definition newVal (vs : list V) (v : V) : list V :=
    if existsb (fun w => veqb w v) vs then vs else vs ++ [v].
  Definition classValues (h : list (K * V)) : list V := fold_left newVal (map snd h) [].

  (** the oldest of these values under which [k] was inserted *)
  Definition firstClass (h : list (K * V)) (k : K) : option V :=
    find (fun v => existsb (fun p => eqb (fst p) k && veqb v (snd p)) h) (classValues h).
End Spec.
