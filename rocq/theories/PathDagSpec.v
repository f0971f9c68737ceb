(** The paths that tracing is to find, and the paths that can be read in a
    graph, independently of the search. *)
From Coq Require Import List Relations.
From Verif Require Import Assoc DFAMinimizerModel DFAMinimizerSpec ExplodedSuperGraphModel.
Import ListNotations.

Section Traces.
  Context {N D : Type}.
  Variable g : esg N D.
  Variable isEnd isErr : nat -> option nat -> bool.

  (** backwards in the exploded supergraph: to the predecessor or to one of its
      alternatives *)
  Definition back (k q : nat) : Prop :=
    exists nd p, nodeAt g k = Some nd /\ pred nd = Some p /\
      (q = p \/ exists pd, nodeAt g p = Some pd /\ In q (neighbors pd)).

  (** The path ends at [k]: nothing comes before it, or a step back reaches the
      end according to the filter. *)
  Definition ends (k : nat) : Prop :=
    exists nd, nodeAt g k = Some nd /\
      match pred nd with
      | None => isEnd k None = true \/ isErr k None = false
      | Some p => isEnd k (Some p) = true \/
          exists pd q, nodeAt g p = Some pd /\ In q (neighbors pd) /\
            isErr k (Some q) = false /\ isEnd k (Some q) = true
      end.
  (** a step that the filter lets through *)
  Definition goesTo (k q : nat) : Prop := back k q /\ isEnd k (Some q) = false /\ isErr k (Some q) = false.

  (** [btrace k vs]: the nodes [vs] lead back from [k] to an end *)
  Fixpoint btrace (k : nat) (vs : list nat) : Prop :=
    match vs with
    | [] => ends k
    | q :: vs' => goesTo k q /\ btrace q vs'
    end.
  Definition sourceOf (k : nat) (n : N) : Prop := exists nd, nodeAt g k = Some nd /\ source nd = n.
  (** the instructions of a trace *)
  Definition spelled (k : nat) (vs : list nat) (l : list N) : Prop := Forall2 sourceOf (k :: vs) l.

  (** where tracing may begin for the node [k] *)
  Definition start (k s : nat) : Prop := s = k \/ exists nd, nodeAt g k = Some nd /\ In s (neighbors nd).

  (** [l] are the instructions of a path back from [k] *)
  Definition traced (k : nat) (l : list N) : Prop := exists s vs, start k s /\ btrace s vs /\ spelled s vs l.

  Definition onCycle (k : nat) : Prop := clos_trans _ back k k.

  (** A filter that ends a path at a node does not let it go on there. *)
  Definition decisive : Prop := forall k q, ends k -> ~ goesTo k q.
End Traces.

(** the ids in an exploded supergraph are those of its nodes *)
Definition inRange {N D} `{EqDec N} `{EqDec D} (g : esg N D) : Prop :=
  (forall k nd, nodeAt g k = Some nd ->
    (forall p, pred nd = Some p -> p < length (owner g)) /\ (forall q, In q (neighbors nd) -> q < length (owner g))) /\
  (forall n d k, getNodeOrNull g n d = Some k -> k < length (owner g)).

Section Graphs.
  Context {T : Type}.
  Implicit Type G : graph (list T) unit.

  Definition arc G (v u : nat) : Prop := In (tt, u) (outEdges G v).
  Definition acyclic G : Prop := forall v, ~ clos_trans _ (arc G) v v.

  (** [spells G v l]: the tags on a path from [v] to a vertex without successors *)
  Definition spells G (v : nat) (l : list T) : Prop :=
    exists n ws, readsAll G v n ws /\ l = concat (n :: map snd ws).
  (** the same with each tag read backwards *)
  Definition spellsBack G (v : nat) (l : list T) : Prop :=
    exists n ws, readsAll G v n ws /\ l = concat (map (@rev T) (n :: map snd ws)).

  (** at most [k] arcs from a root *)
  Fixpoint within G (k v : nat) : Prop :=
    match k with
    | 0 => In v (roots G)
    | S k' => within G k' v \/ exists w, within G k' w /\ arc G w v
    end.
End Graphs.
