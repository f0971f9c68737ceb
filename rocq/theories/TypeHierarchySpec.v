(** What the class hierarchy of a C++ module is, independently of how it is computed: the type info
    objects emitted by the compiler name the bases of each class. *)
From Coq Require Import String List Relations.
From Verif Require Import Assoc TypeHierarchyModel.
Import ListNotations.

Section S.
  Variable nm : nat -> string.
  Variable demangle : string -> string.
  Variable m : modul.
  (** the struct type of the class described by the type info object of this name, if any *)
  Variable cls : string -> option nat.

  (** [g]'s initialiser references the type info object [b] *)
  Definition references (g : global) (b : string) : Prop :=
    exists ops, gInit g = IStruct ops /\ In (OElt (EBitCast (VGlobal b))) ops /\ cls b <> None.

  (** class [d] has [b] as a direct base *)
  Definition directBase (b d : nat) : Prop :=
    exists g bn, In g (mGlobals m) /\ cls (gName g) = Some d /\ references g bn /\ cls bn = Some b.

  (** every class reachable by derivation, including the class itself *)
  Definition derived (t s : nat) : Prop := clos_refl_trans nat directBase t s.

  (** The naming scheme of the compiler: distinct globals, struct types and type infos of the same
      class have the same name up to their prefixes, and different classes have different names. *)
  Record named : Prop := {
    n_types : NoDup (mTypes m);
    n_globals : NoDup (map gName (mGlobals m));
    n_cls : forall n t, cls n = Some t ->
        In t (mTypes m) /\ prefix "_ZTI" n = true
        /\ removeTypeInfoPrefix (demangle n) = removeStructOrClassPrefix (nm t);
    n_inv : forall n t, In t (mTypes m) -> In n (map gName (mGlobals m)) -> prefix "_ZTI" n = true ->
        removeTypeInfoPrefix (demangle n) = removeStructOrClassPrefix (nm t) -> cls n = Some t;
    n_uniq : forall t u, In t (mTypes m) -> In u (mTypes m) ->
        removeStructOrClassPrefix (nm t) = removeStructOrClassPrefix (nm u) -> t = u;
    n_ti : forall n, In n (map gName (mGlobals m)) -> prefix "typeinfo for " (demangle n) = true -> prefix "_ZTI" n = true;
    n_tiuniq : forall a b, In a (map gName (mGlobals m)) -> In b (map gName (mGlobals m)) -> prefix "_ZTI" a = true -> prefix "_ZTI" b = true ->
        removeTypeInfoPrefix (demangle a) = removeTypeInfoPrefix (demangle b) -> a = b;
    n_ops : forall g ops v, In g (mGlobals m) -> gInit g = IStruct ops -> prefix "_ZTI" (gName g) = true ->
        In (OElt (EBitCast v)) ops -> cname v <> EmptyString -> containsStr "_ZTI" (cname v) = true ->
        exists b, v = VGlobal b /\ In b (map gName (mGlobals m)) /\ prefix "_ZTI" b = true }.
End S.
