(** Monotone frameworks, independently of the solver. *)
From Coq Require Import List.
From Verif Require Import IntraMonoModel.
Import ListNotations.

Section Spec.
  Context {Nd M F : Type} (c : cfg Nd F) (P : problem Nd M F) (le : M -> M -> Prop).

  (** the nodes of the analysed functions *)
  Definition inV (n : Nd) : Prop := exists f, In f (entryPoints P) /\ In n (nodes c f).

  Definition isLub (S : M -> Prop) (x : M) : Prop :=
    (forall y, S y -> le y x) /\ (forall u, (forall y, S y -> le y u) -> le x u).

  (** a monotone problem: [le] is a preorder, merge its join, allTop its least
      element, equal_to its equivalence; the flow is monotone *)
  Record monotone : Prop := {
    le_refl : forall x, le x x;
    le_trans : forall x y z, le x y -> le y z -> le x z;
    merge_l : forall x y, le x (merge P x y);
    merge_r : forall x y, le y (merge P x y);
    merge_least : forall x y u, le x u -> le y u -> le (merge P x y) u;
    equal_to_ok : forall x y, equal_to P x y = true <-> le x y /\ le y x;
    top_least : forall x, le (allTop P) x;
    flow_mono : forall n x y, le x y -> le (normalFlow P n x) (normalFlow P n y) }.
  Definition distributive : Prop :=
    forall n x y, le (normalFlow P n (merge P x y)) (merge P (normalFlow P n x) (normalFlow P n y)).

  (** the CFG is a graph: edges stay within the function, every successor knows
      its predecessor, and a node that is not a branch target has only one *)
  Record graph : Prop := {
    nodes_instructions : forall f n, In f (entryPoints P) -> In n (nodes c f) -> In n (instructions c f);
    succs_closed : forall n m, inV n -> In m (succs c n) -> inV m;
    preds_closed : forall n m, inV n -> In m (preds c n) -> inV m;
    succ_pred : forall n m, inV n -> In m (succs c n) -> In n (preds c m);
    single_pred : forall s d p, inV s -> In d (succs c s) -> isBranchTarget c s d = false -> In p (preds c d) -> p = s }.

  (** there are no predecessors beyond that.  (LLVMBasedCFG leaves out a
      successor, but not the predecessor, at branches of lazily initialised
      static variables.) *)
  Definition predsExact : Prop := forall n m, inV m -> In n (preds c m) -> In m (succs c n).

  (** seeds sit at nodes without predecessors *)
  Definition entrySeeds : Prop :=
    NoDup (map fst (initialSeeds P)) /\ forall n x, In (n, x) (initialSeeds P) -> inV n /\ preds c n = [].

  (** what holds at [n] before anything has been propagated *)
  Definition starts (n : Nd) (x : M) : Prop :=
    (exists facts, In (n, facts) (initialSeeds P) /\ x = insertAll P (allTop P) facts) \/
    (inV n /\ (forall facts, ~ In (n, facts) (initialSeeds P)) /\ x = allTop P).

  (** [flows n x]: the value [x] arrives before [n] along some path *)
  Inductive flows : Nd -> M -> Prop :=
  | flows_start : forall n x, starts n x -> flows n x
  | flows_step : forall n m x, flows n x -> In m (succs c n) -> flows m (normalFlow P n x).

  (** a solution of the data-flow inequations *)
  Definition solution (X : Nd -> M) : Prop :=
    (forall n x, starts n x -> le x (X n)) /\
    (forall n m, inV n -> In m (succs c n) -> le (normalFlow P n (X n)) (X m)).
End Spec.
