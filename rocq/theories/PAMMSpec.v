(** What the measurements should give, from the history of calls alone. *)
From Coq Require Import List Bool ZArith.
From Verif Require Import Assoc PAMMModel.
Import ListNotations.
Local Open Scope Z_scope.

Section Spec.
  Context {K : Type} {EK : EqDec K}.

  Inductive tstate := Idle | Running (since : Z) | Stopped (since until : Z).

  (** what one call does to the timer [id] *)
  Definition tnext (id : K) (st : tstate) (o : op K) : tstate :=
    match o, st with
    | Start i t, _ => if eq_dec id i then Running t else st
    | ResetT i, _ => if eq_dec id i then Idle else st
    | Stop i true _, Running _ => if eq_dec id i then Idle else st
    | Stop i false e, Running t => if eq_dec id i then Stopped t e else st
    | StopAll e, Running t => Stopped t e
    | _, _ => st
    end.
  Definition timer (id : K) (h : list (op K)) : tstate := fold_left (tnext id) h Idle.

  (** the measured intervals of [id] that ended with a pause *)
  Fixpoint pauses (id : K) (st : tstate) (h : list (op K)) : list (Z * Z) :=
    match h with
    | [] => []
    | o :: h' =>
        match o, st with
        | Stop i true e, Running t => if eq_dec id i then [(t, e)] else []
        | _, _ => []
        end ++ pauses id (tnext id st o) h'
    end.

  (** the call may end the run of the timer *)
  Definition ends (id : K) (o : op K) : Prop :=
    match o with
    | Stop i _ _ | ResetT i => i = id
    | StopAll _ => True
    | _ => False
    end.
  (** the call ends the measurement at [e] *)
  Definition stops (id : K) (e : Z) (o : op K) : Prop := o = Stop id false e \/ o = StopAll e.

  (** the amounts added to a counter and to a data point *)
  Fixpoint added (id : K) (h : list (op K)) : Z :=
    match h with
    | [] => 0
    | Inc i n :: h' => (if eq_dec id i then n else 0) + added id h'
    | Dec i n :: h' => (if eq_dec id i then - n else 0) + added id h'
    | _ :: h' => added id h'
    end.
  Definition registers (id : K) (o : op K) : Prop := exists n, o = Reg id n.
  (** registered first with [n], [h2] followed *)
  Definition counts (id : K) (n : Z) (h2 h : list (op K)) : Prop :=
    exists h1, h = h1 ++ Reg id n :: h2 /\ forall o, In o h1 -> ~ registers id o.

  Fixpoint points (id dp : K) (h : list (op K)) : list Z :=
    match h with
    | [] => []
    | AddHist i d v :: h' =>
        (if eq_dec id i then if eq_dec dp d then [v] else [] else []) ++ points id dp h'
    | _ :: h' => points id dp h'
    end.
  Definition sumZ (l : list Z) : Z := fold_right Z.add 0 l.
  Definition collects (id : K) (h2 h : list (op K)) : Prop :=
    exists h1, h = h1 ++ RegHist id :: h2 /\ ~ In (RegHist id) h1.
End Spec.
