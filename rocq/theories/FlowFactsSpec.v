(** What a library summary says after a sequence of calls. *)
From Coq Require Import String List Bool Arith.
From Verif Require Import FlowFactsModel.
Import ListNotations.

Section Spec.
  Context {K : Type}.
  Inductive op := InsertSet (k : K) (i : nat) (out : list fact) | AddElement (k : K) (i : nat) (f : fact) | Lookup (k : K) (i : nat).
  (** the operation gives something for the function k *)
  Definition names (k : K) (o : op) : Prop := match o with InsertSet k' _ _ | AddElement k' _ _ => k' = k | Lookup _ _ => False end.

  (** [added h k i l]: h adds the elements l to (k, i), in this order *)
  Inductive added (k : K) (i : nat) : list op -> list fact -> Prop :=
  | ad_nil : added k i [] []
  | ad_elem f h l : added k i h l -> added k i (AddElement k i f :: h) (f :: l)
  | ad_skip o h l : added k i h l -> (forall f, o <> AddElement k i f) -> added k i (o :: h) l.
  (** [known h k i l]: the first operation of h for (k, i) gives a set or an element,
      later ones only add elements *)
  Inductive known (k : K) (i : nat) : list op -> list fact -> Prop :=
  | kn_set out h l : added k i h l -> known k i (InsertSet k i out :: h) (out ++ l)
  | kn_elem f h l : added k i h l -> known k i (AddElement k i f :: h) (f :: l)
  | kn_skip o h l : known k i h l -> (forall out, o <> InsertSet k i out) -> (forall f, o <> AddElement k i f) -> known k i (o :: h) l.
End Spec.
Arguments op : clear implicits.

(** What some C functions do (C11 7.21.6.5, 7.24.2): data of parameter i is afterwards
    where the parameter j, or the result, points to *)
Local Open Scope string_scope.
Inductive copies : string -> nat -> fact -> Prop :=
| cp_memcpy : copies "memcpy" 1 (Param 0) | cp_memmove : copies "memmove" 1 (Param 0)
| cp_strcpy : copies "strcpy" 1 (Param 0) | cp_strncpy : copies "strncpy" 1 (Param 0)
| cp_strcat : copies "strcat" 1 (Param 0) | cp_strncat : copies "strncat" 1 (Param 0)
| cp_snprintf i : 2 <= i -> copies "snprintf" i (Param 0)
| cp_result f i : In f ["memcpy"; "memmove"; "strcpy"; "strncpy"; "strcat"; "strncat"] -> i < 2 -> copies f i Ret.
