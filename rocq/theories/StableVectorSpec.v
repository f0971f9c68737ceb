(** Ordinary sequences.  [None]: the caller violates the precondition. *)
From Coq Require Import List Arith.
From Verif Require Import StableVectorModel.
Import ListNotations.

Section Spec.
  Context {T : Type}.

  Definition apply (o : op T) (l : list T) : option (list T) :=
    match o with
    | Emplace x => Some (l ++ [x])
    | Pop => match l with [] => None | _ => Some (removelast l) end
    | PopN n => if n <=? length l then Some (firstn (length l - n) l) else None
    | Clear => Some []
    | Shrink => Some l
    end.
  Fixpoint applyAll (os : list (op T)) (l : list T) : option (list T) :=
    match os with
    | [] => Some l
    | o :: os' => match apply o l with None => None | Some l' => applyAll os' l' end
    end.

  (** several sequences *)
  Definition replace {A} (i : nat) (a : A) (l : list A) : list A := firstn i l ++ a :: skipn (S i) l.
  Definition mapply (o : mop T) (ls : list (list T)) : option (list (list T)) :=
    match o with
    | New => Some (ls ++ [[]])
    | On i o =>
        match nth_error ls i with
        | None => None
        | Some l => match apply o l with None => None | Some l' => Some (replace i l' ls) end
        end
    | CopyOf i => match nth_error ls i with None => None | Some l => Some (ls ++ [l]) end
    | Delete i => match nth_error ls i with None => None | Some l => Some (replace i [] ls) end
    end.
  Fixpoint mapplyAll (os : list (mop T)) (ls : list (list T)) : option (list (list T)) :=
    match os with
    | [] => Some ls
    | o :: os' => match mapply o ls with None => None | Some ls' => mapplyAll os' ls' end
    end.
  Definition mshrinkNonempty (o : mop T) (ls : list (list T)) : Prop :=
    match o with On i Shrink => nth_error ls i <> Some [] | _ => True end.
  Fixpoint mshrinksNonempty (os : list (mop T)) (ls : list (list T)) : Prop :=
    match os with
    | [] => True
    | o :: os' => mshrinkNonempty o ls /\ match mapply o ls with None => True | Some ls' => mshrinksNonempty os' ls' end
    end.

  (** an element at index [i] stays in the container during [os] *)
  Fixpoint stays (i : nat) (os : list (op T)) (l : list T) : Prop :=
    i < length l /\
    match os with
    | [] => True
    | o :: os' => match apply o l with None => False | Some l' => stays i os' l' end
    end.

  Definition noShrink (o : op T) : Prop := match o with Shrink => False | _ => True end.

  (** the container is never empty when shrink_to_fit is called *)
  Fixpoint shrinkNonempty (os : list (op T)) (l : list T) : Prop :=
    match os with
    | [] => True
    | o :: os' =>
        match o with Shrink => l <> [] | _ => True end /\
        match apply o l with None => True | Some l' => shrinkNonempty os' l' end
    end.
End Spec.
