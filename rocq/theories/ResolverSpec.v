(** Virtual dispatch as the program performs it, and which calls are type correct. *)
From Coq Require Import String List NArith.
From Verif Require Import Assoc TypeHierarchyModel TypeHierarchySpec ResolverModel.
Import ListNotations.

(** An argument of type [a] can be passed for a parameter of type [f]: equal types, pointers to void,
    pointers to structs (C-style sub typing), opaque pointers, recursively below pointers. *)
Inductive passable : lty -> lty -> Prop :=
| pass_refl t : passable t t
| pass_void a : passable (TPtr a) (TPtr (TInt 8))
| pass_struct s t : passable (TStruct s) (TStruct t)
| pass_opaque_l f : passable TOpaque (TPtr f)
| pass_opaque_r a : passable (TPtr a) TOpaque
| pass_ptr a f : passable a f -> passable (TPtr a) (TPtr f).

(** The call can invoke the function: the same number of arguments (more for a variadic function), the
    same number of fixed parameters, the same return type and passable arguments. *)
Definition invokes (c : call) (f : func) : Prop :=
  (length (cArgs c) = length (fnParams f) \/ (fnVarArg f = true /\ length (fnParams f) <= length (cArgs c)))
  /\ Forall2 passable (cParams c) (fnParams f)
  /\ cRet c = fnRet f.

(** The call passes a pointer to an object of class [r] as the receiver: its first argument after
    the hidden return slot. *)
Definition receives (c : call) (r : nat) : Prop :=
  exists pre rest, cArgs c = pre ++ TPtr (TStruct r) :: rest /\ length pre = (if cSRet c then 1 else 0).

(** The call loads slot [k] of a table. *)
Definition callsSlot (c : call) (k : nat) : Prop := exists n, cOp c = OLoadGep (Some n) /\ (n < 4294967296)%N /\ k = N.to_nat n.

(** The function a constant denotes: itself, or what its alias stands for. *)
Inductive denotes : cval -> nat -> Prop :=
| den_function f n : denotes (VFunction f n) f
| den_alias n v f : denotes v f -> denotes (VAlias n v) f.

Section S.
  Variable nm : nat -> string.
  Variable demangle : string -> string.
  Variable m : modul.
  (** the struct type of the class whose virtual tables the global of this name holds *)
  Variable vcls : string -> option nat.

  (** the virtual tables of class [d]: one array per sub object with its own table pointer *)
  Definition tablesOf (d : nat) (groups : list (list elt)) : Prop :=
    exists g, In g (mGlobals m) /\ vcls (gName g) = Some d /\ gInit g = IStruct (map OArray groups).

  (** Calling slot [k] through a table pointer into group [g] with [off] entries before the address
      point, on an object of class [d], executes [f]. *)
  Definition dispatches (d g off k f : nat) : Prop :=
    exists groups l v, tablesOf d groups /\ nth_error groups g = Some l
      /\ nth_error l (off + k) = Some (EBitCast v) /\ denotes v f.

  Record vnamed : Prop := {
    v_types : NoDup (mTypes m);
    v_cls : forall n t, vcls n = Some t -> prefix "_ZTV" n = true /\ removeVTablePrefix (demangle n) = removeStructOrClassPrefix (nm t);
    v_uniq : forall g g', In g (mGlobals m) -> In g' (mGlobals m) -> isVTable demangle (gName g) = true -> isVTable demangle (gName g') = true ->
       removeVTablePrefix (demangle (gName g)) = removeVTablePrefix (demangle (gName g')) -> g = g' }.
End S.
