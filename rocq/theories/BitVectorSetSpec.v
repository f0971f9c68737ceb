(** What the objects should be: sets of values. *)
From Coq Require Import List Bool Arith.
From Verif Require Import Assoc BitVectorSetModel.
Import ListNotations.

Section Spec.
  Context {T : Type} `{EqDec T}.

  Definition sets := nat -> T -> bool.

  Definition update (o : nat) (s : T -> bool) (m : sets) : sets :=
    fun i => if i =? o then s else m i.

  Definition meaning (c : op T) (m : sets) : sets :=
    match c with
    | Create o _ | Clear o => update o (fun _ => false) m
    | Copy o a => update o (m a) m
    | Insert o x => update o (fun y => eqb y x || m o y) m
    | InsertSet o a => update o (fun y => m o y || m a y) m
    | Erase o x => update o (fun y => negb (eqb y x) && m o y) m
    | EraseSet o a => update o (fun y => m o y && negb (m a y)) m
    | IntersectWith o a => update o (fun y => m o y && m a y) m
    | Union o a b => update o (fun y => m a y || m b y) m
    | Intersect o a b => update o (fun y => m a y && m b y) m
    end.

  Definition meaningAll (cs : list (op T)) : sets :=
    fold_left (fun m c => meaning c m) cs (fun _ _ => false).

  (** [l] lists the set, each element once *)
  Definition lists (l : list T) (s : T -> bool) : Prop :=
    NoDup l /\ forall x, In x l <-> s x = true.
End Spec.
