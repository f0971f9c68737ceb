(** Label sets, and what a store does to them. *)
From Coq Require Import List NArith.
From Verif Require Import IIAModel.
Import ListNotations.

Definition hasLabel (x : lab) (i : N) : Prop := exists s, x = Set_ s /\ N.testbit s i = true.
(** Top below all, Bot above all, sets by inclusion *)
Definition le (x y : lab) : Prop :=
  x = Top \/ y = Bot \/ exists a b, x = Set_ a /\ y = Set_ b /\ forall i, N.testbit a i = true -> N.testbit b i = true.
Definition upperBound (h f g : ief) : Prop := forall x, le (apply f x) (apply h x) /\ le (apply g x) (apply h x).
