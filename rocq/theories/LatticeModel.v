(** Model of /repo/include/phasar/Domain/LatticeDomain.h.
    The value type V comes with operator== ([veqb]), operator< ([vltb]) and a
    hash function; none of them is assumed to be related to Leibniz equality. *)
From Coq Require Import Bool ZArith.

(** std::variant<Top, L, Bottom>, LatticeDomain.h:64 *)
Inductive ld (V : Type) := LTop | LVal (v : V) | LBot.
Arguments LTop {V}. Arguments LVal {V}. Arguments LBot {V}.

Section LD.
  Context {V H : Type}.
  Variable veqb vltb : V -> V -> bool.
  Variable vhash : V -> H.
  (** llvm::hash_value(INTPTR_MAX), llvm::hash_value(INTPTR_MIN) *)
  Variable hmax hmin : H.

  Definition isTop (x : ld V) : bool := match x with LTop => true | _ => false end.
  Definition isBottom (x : ld V) : bool := match x with LBot => true | _ => false end.
  Definition getValueOrNull (x : ld V) : option V := match x with LVal v => Some v | _ => None end.
  Definition index (x : ld V) : nat := match x with LTop => 0 | LVal _ => 1 | LBot => 2 end.

  (** operator==, LatticeDomain.h:127-138 *)
  Definition ldEqb (l r : ld V) : bool :=
    if negb (Nat.eqb (index l) (index r)) then false
    else match getValueOrNull l with
         | Some a => match getValueOrNull r with Some b => veqb a b | None => false end
         | None => true
         end.

  (** operator==(LL, LatticeDomain) and its mirror, LatticeDomain.h:140-155 *)
  Definition ldEqbVal (l : V) (r : ld V) : bool :=
    match getValueOrNull r with Some b => veqb l b | None => false end.

  (** operator<, LatticeDomain.h:223-244; [None] = llvm_unreachable *)
  Definition ldLt (l r : ld V) : option bool :=
    if isTop r then Some false
    else if isTop l then Some true
    else
      match getValueOrNull l with
      | Some a =>
          match getValueOrNull r with
          | Some b => Some (vltb a b)
          | None => if isBottom r then Some true else None
          end
      | None => if isBottom l then Some false
                else if isBottom r then Some true else None
      end.

  (** JoinLatticeTraits<LatticeDomain<L>>::join, LatticeDomain.h:250-262 *)
  Definition ldJoin (l r : ld V) : ld V :=
    if isTop l || ldEqb l r then r
    else if isTop r then l
    else LBot.

  (** hash_value, LatticeDomain.h:82-91 *)
  Definition ldHash (x : ld V) : H :=
    if isBottom x then hmax else if isTop x then hmin
    else match x with LVal v => vhash v | _ => hmin end.
End LD.
