(** What the names of enumerators should satisfy. *)
From Coq Require Import String List.
From Verif Require Import EnumNamesModel.
Import ListNotations.
Local Open Scope string_scope.

(** [s] is the name or the flag of entry [i] *)
Definition denotes (T : entries) (i : nat) (s : string) : Prop :=
  exists n f, nth_error T i = Some (n, f) /\ (s = n \/ s = f).

(** the enumerations with flags and the name of their extra value *)
Definition enums : list (entries * string) :=
  [(soundness, "Invalid"); (callGraph, "Invalid"); (aliasAnalysis, "Invalid"); (dataFlow, "None");
   (strategies, "None")].
