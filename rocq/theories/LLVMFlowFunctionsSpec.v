(** What the documentation of LLVMFlowFunctions.h promises, as relations between
    a fact and the facts it flows to. *)
From Coq Require Import List Bool.
From Verif Require Import Assoc LLVMFlowFunctionsModel.
Import ListNotations.

Section Doc.
  Context {V D : Type}.
  Variable zero global : D -> Prop.
  Variable mk : V -> D.

  (** LLVMFlowFunctions.h:43-50: everything unchanged, globals if wanted, arguments
      as the predicate says.  [arg a d]: d is the fact of argument a *)
  Definition docAlongside (arg : V -> D -> Prop) (propArgs : V -> bool) (propGlobals : bool) (args : list V) (d d' : D) : Prop :=
    (zero d -> d' = d) /\
    (~ zero d -> global d -> d' = d /\ propGlobals = true) /\
    (forall a, In a args -> arg a d -> d' = mk a /\ propArgs a = true) /\
    (~ zero d -> ~ global d -> (forall a, In a args -> ~ arg a d) -> d' = d).

  (** LLVMFlowFunctions.h:122-128, for a call that passes args.[i] to params.[i] *)
  Definition docCallee (propArg : V -> D -> bool) (propGlobals propZero : bool) (args params : list V) (d d' : D) : Prop :=
    (zero d /\ propZero = true /\ d' = d) \/
    (global d /\ ~ zero d /\ propGlobals = true /\ d' = d) \/
    (exists i a p, nth_error args i = Some a /\ nth_error params i = Some p /\ propArg a d = true /\ d' = mk p).

  (** LLVMFlowFunctions.h:248-253 *)
  Definition docCaller (propParam propRet : V -> D -> bool) (propGlobals propZero : bool)
      (args params : list V) (ret : option V) (cs : V) (d d' : D) : Prop :=
    (zero d /\ propZero = true /\ d' = d) \/
    (global d /\ ~ zero d /\ propGlobals = true /\ d' = d) \/
    (exists i a p, nth_error args i = Some a /\ nth_error params i = Some p /\ propParam p d = true /\ d' = mk a) \/
    (exists r, ret = Some r /\ propRet r d = true /\ d' = mk cs).

  (** the undocumented part: arguments beyond the parameters of a variadic function
      are represented by its va_list variables *)
  Definition varargIn (propArg : V -> D -> bool) (args params : list V) (vas : list V) (d d' : D) : Prop :=
    exists i a v, length params <= i /\ nth_error args i = Some a /\ propArg a d = true /\ In v vas /\ d' = mk v.
  Definition varargOut (propParam : V -> D -> bool) (args params : list V) (vas : list V) (d d' : D) : Prop :=
    exists i a v, length params <= i /\ nth_error args i = Some a /\ In v vas /\ propParam v d = true /\ d' = mk a.
End Doc.

(** LLVMFlowFunctions.h:365-370 and 438-441: a store through [b] *)
Definition docStore {V} (b : V) (gen : V -> Prop) (x x' : V) : Prop :=
  x <> b /\ (x' = x \/ (gen x /\ x' = b)).
