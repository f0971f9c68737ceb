(** What the value sets of the generalized linear constant analysis mean. *)
From Coq Require Import ZArith Bool List.
From Verif Require Import Assoc LCAModel GLCAModel.
Import ListNotations.
Local Open Scope Z_scope.

(** The integers (of width w) a set of edge values stands for *)
Definition denotes (s : list ev) (w x : Z) : Prop := In ETop s \/ In (EInt w x) s.

(** Bounded sets over any type: the one-element set {top} or at most M elements *)
Definition bounded {A} (top : A) (M : nat) (s : list A) : Prop := NoDup s /\ (s = [top] \/ (length s <= M)%nat).
Definition equiv {A} (a b : list A) : Prop := forall x, In x a <-> In x b.
(** the order: {top} is above everything, otherwise inclusion *)
Definition below {A} (top : A) (a b : list A) : Prop := b = [top] \/ incl a b.

(** What casts do to an iW in LLVM: the unsigned representation afterwards *)
Definition trunc (w w' u : Z) : Z := u mod 2 ^ w'.
Definition zext (w w' u : Z) : Z := u.
Definition sext (w w' u : Z) : Z := (if u <? 2 ^ (w - 1) then u else u - 2 ^ w) mod 2 ^ w'.
