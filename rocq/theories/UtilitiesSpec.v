(** What the helpers should do. *)
From Coq Require Import String Ascii List Bool Arith NArith ZArith.
From Verif Require Import Assoc.
Import ListNotations.
Open Scope nat_scope.

(** the elements of [l] whose position (counted from [k]) satisfies [p] *)
Fixpoint keep {A} (p : nat -> bool) (k : nat) (l : list A) : list A :=
  match l with [] => [] | x :: r => if p k then x :: keep p (S k) r else keep p (S k) r end.
Definition without {A} (idx : list nat) (l : list A) : list A := keep (fun i => negb (existsb (Nat.eqb i) idx)) 0 l.

(** [b]-sorted, strictly increasing, all below [n] *)
Fixpoint increasing (b : nat) (l : list nat) (n : nat) : Prop :=
  match l with [] => True | x :: r => b <= x /\ x < n /\ increasing (S x) r n end.

(** decimal notation *)
Definition digitChar (d : nat) : ascii := ascii_of_N (N.of_nat d + 48).
Fixpoint numeral (ds : list nat) : string := match ds with [] => EmptyString | d :: r => String (digitChar d) (numeral r) end.
Definition value (ds : list nat) : Z := fold_left (fun a d => 10 * a + Z.of_nat d)%Z ds 0%Z.
(** the digits of a number without leading zeros *)
Definition canonical (ds : list nat) : Prop :=
  (forall d, In d ds -> d < 10) /\ match ds with [] => False | [_] => True | d :: _ => d <> 0 end.
