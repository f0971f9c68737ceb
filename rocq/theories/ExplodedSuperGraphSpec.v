(** The flows that the solver reported, and the traces that can be read off an
    exploded supergraph, independently of how it is built. *)
From Coq Require Import List.
From Verif Require Import Assoc ExplodedSuperGraphModel.
Import ListNotations.

Section Flows.
  Context {N D B : Type}.
  Variable blockOf : N -> B.
  Variable zero : D.
  Variable L : list (call N D).

  Definition src (c : call N D) : N * D := (curr c, currFact c).
  (** [edge x y]: some call reported the flow from [x] to [y] *)
  Definition edge (x y : N * D) : Prop :=
    exists c, In c L /\ src c = x /\ succ c = fst y /\ In (snd y) (succFacts c).
  (** the call-to-return edge from zero to zero, which carries no information *)
  Definition skips (c : call N D) (d : D) : Prop := kind c = CallToRet /\ currFact c = zero /\ d = zero.
  Definition skipEdge (x y : N * D) : Prop :=
    exists c, In c L /\ src c = x /\ succ c = fst y /\ In (snd y) (succFacts c) /\ skips c (snd y).
  Definition flow (x y : N * D) : Prop :=
    exists c, In c L /\ src c = x /\ succ c = fst y /\ In (snd y) (succFacts c) /\ ~ skips c (snd y).

  Definition target (x : N * D) : Prop := exists y, edge y x.
  Definition seed (x : N * D) : Prop := (exists c, In c L /\ src c = x) /\ ~ target x.

  (** [follows x l y]: a backwards path from [x] to [y] over reported flows.
      [l] lists the instructions that it leaves, without some that left a
      non-zero fact as it was. *)
  Inductive follows : N * D -> list N -> N * D -> Prop :=
  | follows_refl x : follows x [] x
  | follows_edge m e x l y : edge (m, e) x -> follows (m, e) l y -> follows x (m :: l) y
  | follows_same m n d l y : edge (m, d) (n, d) -> d <> zero -> follows (m, d) l y -> follows (n, d) l y.

  (** [reached x]: from a seed over flows *)
  Inductive reached : N * D -> Prop :=
  | reached_seed x y : seed x -> flow x y -> reached y
  | reached_flow x y : reached x -> flow x y -> reached y.

  (** ** What is assumed of the calls *)
  (** A pair is processed after it has been reported, unless it is a seed; a
      seed is processed once. *)
  Definition ordered : Prop := forall P c Q, L = P ++ c :: Q ->
    (exists c', In c' P /\ succ c' = curr c /\ In (currFact c) (succFacts c')) \/
    (~ target (src c) /\ forall c', In c' (P ++ Q) -> src c' <> src c).
  (** No flow enters the instruction of a seed. *)
  Definition startsFresh : Prop := forall x n d e, edge x (n, d) -> ~ seed (n, e).
  (** What a seed flows to is reached from the instruction of the seed only. *)
  Definition leavesStart : Prop := forall n e m d y, seed (n, e) -> edge (n, e) y -> edge (m, d) y -> m = n.

  (** [held m d n]: the fact [d], which came about at [m], is carried unchanged
      to [n] inside the block of [m]. *)
  Inductive held (m : N) (d : D) : N -> Prop :=
  | held_start e n : edge (m, e) (n, d) -> held m d n
  | held_step n s : held m d n -> edge (n, d) (s, d) -> d <> zero -> blockOf s = blockOf m -> held m d s.
  (** Where a fact is carried on unchanged inside the block it came about in,
      it has no second origin. *)
  Definition oneOrigin : Prop := forall m d n s x,
    held m d n -> edge (n, d) (s, d) -> d <> zero -> blockOf s = blockOf m ->
    edge x (s, d) -> x = (n, d).
End Flows.

Section Traces.
  Context {N D : Type}.
  Variable g : esg N D.

  (** From a node, over its source to its predecessor, or to one of the
      alternatives of its predecessor. *)
  Inductive trace : nat -> list N -> Prop :=
  | trace_end k nd : nodeAt g k = Some nd -> pred nd = None -> trace k [source nd]
  | trace_pred k nd p l : nodeAt g k = Some nd -> pred nd = Some p -> trace p l -> trace k (source nd :: l)
  | trace_neighbor k nd p pd q l : nodeAt g k = Some nd -> pred nd = Some p ->
      nodeAt g p = Some pd -> In q (neighbors pd) -> trace q l -> trace k (source nd :: l).

  Definition traceOf (k : nat) (l : list N) : Prop :=
    trace k l \/ exists nd q, nodeAt g k = Some nd /\ In q (neighbors nd) /\ trace q l.

  (** Going from predecessor to predecessor ends, or meets a node with
      alternatives. *)
  Inductive settles : nat -> Prop :=
  | settles_end k nd : nodeAt g k = Some nd -> pred nd = None -> settles k
  | settles_choice k nd p pd : nodeAt g k = Some nd -> pred nd = Some p ->
      nodeAt g p = Some pd -> neighbors pd <> [] -> settles k
  | settles_step k nd p : nodeAt g k = Some nd -> pred nd = Some p -> settles p -> settles k.
End Traces.
