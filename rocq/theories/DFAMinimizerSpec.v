(** What can be read in a labelled graph, independently of the minimiser. *)
From Coq Require Import List Arith.
From Verif Require Import DFAMinimizerModel.
Import ListNotations.

Section Spec.
  Context {N W : Type}.
  Implicit Types G : graph N W.

  (** well-formed: vertices in range *)
  Definition wf G : Prop :=
    length (nodes G) = length (adj G) /\
    (forall v w t, In (w, t) (outEdges G v) -> t < size G) /\
    (forall r, In r (roots G) -> r < size G).

  (** [reads G v n ws]: from [v], tagged [n], the weights and tags [ws] can be read *)
  Fixpoint reads G (v : nat) (n : N) (ws : list (W * N)) : Prop :=
    nth_error (nodes G) v = Some n /\
    match ws with
    | [] => True
    | (w, n') :: ws' => exists t, In (w, t) (outEdges G v) /\ reads G t n' ws'
    end.
  (** the same for paths that end in a vertex without successors *)
  Fixpoint readsAll G (v : nat) (n : N) (ws : list (W * N)) : Prop :=
    nth_error (nodes G) v = Some n /\
    match ws with
    | [] => outEdges G v = []
    | (w, n') :: ws' => exists t, In (w, t) (outEdges G v) /\ readsAll G t n' ws'
    end.
  Definition sameReadings G v G' v' : Prop :=
    (forall n ws, reads G v n ws <-> reads G' v' n ws) /\
    (forall n ws, readsAll G v n ws <-> readsAll G' v' n ws).
End Spec.
