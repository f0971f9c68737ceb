(** Specification for C56: what an abstract memory location stands for.

    "A Memorylocation abstraction represented by a base-pointer and an array of
    byte offsets.  The byte offsets are applied to the base-pointer alternating
    with memory loads" (AbstractMemoryLocation.h:47-52). *)
From Coq Require Import List Bool Arith ZArith.
From Verif Require Import AmlModel.
Import ListNotations.
Local Open Scope Z_scope.

(** Pointers at run time: the memory, the values of the base pointers and the
    byte offsets of the getelementptr instructions with variable indices. *)
Definition memory : Type := Z -> Z.

Fixpoint run (m : memory) (env : value -> Z) (index : nat -> Z) (v : value) : Z :=
  match v with
  | Zero | Base _ _ => env v
  | Load _ p => m (run m env index p)
  | Cast _ p => run m env index p
  | Gep _ p (Some d) => run m env index p + d
  | Gep n p None => run m env index p + index n
  end.

(** applying offsets alternating with memory loads *)
Inductive follows (m : memory) : Z -> list Z -> Z -> Prop :=
| Stay a : follows m a [] a
| Shift a o : follows m a [o] (a + o)
| Through a o p os b : follows m (m (a + o)) (p :: os) b -> follows m a (o :: p :: os) b.

(** the run time pointer a location stands for *)
Definition standsFor (m : memory) (env : value -> Z) (a : location) (p : Z) : Prop :=
  follows m (env (base a)) (offsets a) p.

(** the accesses which lead from its root to a pointer *)
Fixpoint root (v : value) : value :=
  match v with
  | Zero | Base _ _ => v
  | Load _ p | Cast _ p | Gep _ p _ => root p
  end.

(** [os] with [d] added to its last offset *)
Inductive shifted (d : Z) : list Z -> list Z -> Prop :=
| ShiftedLast os o : shifted d (os ++ [o]) (os ++ [o + d]).

Inductive accesses (index : nat -> Z) : value -> list Z -> Prop :=
| AZero : accesses index Zero [0]
| ABase n b : accesses index (Base n b) [0]
| ALoad n p os : accesses index p os -> accesses index (Load n p) (os ++ [0])
| ACast n p os : accesses index p os -> accesses index (Cast n p) os
| AGep n p d os os' : accesses index p os -> shifted d os os' -> accesses index (Gep n p (Some d)) os'
| AGepVar n p os os' : accesses index p os -> shifted (index n) os os' -> accesses index (Gep n p None) os'.

Definition isPrefix (os ps : list Z) : Prop := exists rest, ps = os ++ rest.

(** [a] accounts for the accesses [ps] from its base: exactly, or if it is an
    over-approximation all which begin with its offsets ("Check whether Larger
    describes a memory location that is tainted if this is tainted",
    AbstractMemoryLocation.h:111-113). *)
Definition covers (a : location) (ps : list Z) : Prop :=
  if (lifetime a =? 0)%nat then isPrefix (offsets a) ps else offsets a = ps.

(** no getelementptr with variable indices *)
Fixpoint constant (v : value) : Prop :=
  match v with
  | Zero | Base _ _ => True
  | Load _ p | Cast _ p => constant p
  | Gep _ p o => o <> None /\ constant p
  end.

(** Factories as they come about: the locations handed to a factory are its
    own or the zero fact. *)
Definition known (f : factory) (a : location) : Prop := In a (pool f) \/ a = zeroLocation.
Definition legal (f : factory) (r : request) : Prop :=
  match r with
  | Create _ => True
  | Indirection a _ | Offset a _ | Offsets a _ => known f a
  | TransferTo a from _ => known f a /\ known f from
  | TransferFrom a to => known f a /\ known f to
  end.

Inductive grown (bound : nat) : factory -> Prop :=
| Fresh : grown bound emptyFactory
| Grow f r f' a : grown bound f -> legal f r -> serve bound f r = Some (f', a) -> grown bound f'.

Inductive later (bound : nat) : factory -> factory -> Prop :=
| Same f : later bound f f
| Later f g r h a : later bound f g -> legal g r -> serve bound g r = Some (h, a) -> later bound f h.

(** Objects in memory blocks. *)
Definition within (sizes : list Z) (o : object) : Prop :=
  let '(k, start, size) := o in
  exists cap, nth_error (rev sizes) k = Some cap /\ 0 <= start /\ start + size <= cap.
Definition apart (o p : object) : Prop :=
  let '(k, s, n) := o in let '(k', s', n') := p in k <> k' \/ s + n <= s' \/ s' + n' <= s.

(** allocations one after the other for at most [most] offsets, newest object
    first *)
Inductive allocated (capacity most : Z) : allocator -> list object -> Prop :=
| NoneYet : allocated capacity most (newAllocator capacity) []
| Another m os n m' o : allocated capacity most m os -> Z.of_nat n <= most ->
    allocate m n = (m', o) -> allocated capacity most m' (o :: os).
