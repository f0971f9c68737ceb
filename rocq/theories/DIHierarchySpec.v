(** The classes of a module and their derivation, as the debug information
    states them. *)
From Coq Require Import String List Relations.
From Verif Require Import DIHierarchyModel.
Import ListNotations.

Section S.
  Variable m : modul.

  (** classes, structs and unions *)
  Definition isClass (t : nat) : Prop :=
    In t (mTypes m) /\ exists tag n i es, mTy m t = Composite tag n i es /\ tag <> OtherTag.
  (** a chain of typedefs that ends in a type *)
  Inductive names : baseref -> nat -> Prop :=
  | names_direct t : names (Direct t) t
  | names_alias b t : names b t -> names (Alias b) t.
  (** [d] has the direct base [b] *)
  Definition base (b d : nat) : Prop :=
    isClass d /\ exists tag n i es r, mTy m d = Composite tag n i es /\ In (Inherits r) es /\ names r b.
  Definition derives (b d : nat) : Prop := clos_refl_trans nat base b d.

  (** What C++ guarantees: bases are classes of the module, and are complete
      before the classes that derive from them. *)
  Record wellFormed : Prop := {
    wf_once : NoDup (mTypes m);
    wf_closed : forall b d, base b d -> isClass b;
    wf_order : exists rank : nat -> nat, forall b d, base b d -> rank b < rank d
  }.
  (** the identifier of a class: the one of the debug information, or its name *)
  Definition key (x : ty) : string :=
    match x with Composite _ n EmptyString _ => n | Composite _ _ i _ => i | OtherType n => n end.
  Definition tyName (x : ty) : string := match x with Composite _ n _ _ => n | OtherType n => n end.
  Definition named : Prop := forall t, isClass t -> key (mTy m t) <> EmptyString.

  (** the virtual functions that the debug information places in class [t] *)
  Definition declares (t i : nat) (s : subprogram) : Prop :=
    sVirtual s = true /\ sScope s = Some t /\ sIndex s = i /\ In (sLinkage s) (mFuns m).
  (** [f] is the last of the subprograms [l] for slot [i] of class [t] *)
  Definition lastDeclared (l : list subprogram) (t i : nat) (f : string) : Prop :=
    exists l1 s l2, l = l1 ++ s :: l2 /\ declares t i s /\ sLinkage s = f /\ forall s', In s' l2 -> ~ declares t i s'.

  (** the function that a call through slot [i] of an object of class [t]
      reaches, for classes with one base: its own, or the one of its base *)
  Inductive dispatches (i : nat) : nat -> string -> Prop :=
  | disp_own t f : lastDeclared (mSubs m) t i f -> dispatches i t f
  | disp_base b t f : base b t -> (forall b', base b' t -> b' = b) ->
      (forall s, In s (mSubs m) -> ~ declares t i s) -> dispatches i b f -> dispatches i t f.

  (** names that can be read back *)
  Record unique : Prop := {
    u_names : forall t s, isClass t -> In s (mTypes m) -> s <> t -> tyName (mTy m s) <> tyName (mTy m t);
    u_keys : forall t s tag n i es, isClass t -> In s (mTypes m) -> s <> t ->
        mTy m s = Composite tag n i es -> n <> key (mTy m t) /\ i <> key (mTy m t)
  }.
End S.
