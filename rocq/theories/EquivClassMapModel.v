(** Model of /repo/include/phasar/Utils/EquivalenceClassMap.h ("ECM.h").
    StoredData is a vector of (set of keys, value); operator== of the value
    type is [veqb]. *)
From Coq Require Import List Bool.
From Verif Require Import Assoc.
Import ListNotations.

Section ECM.
  Context {K V : Type} `{EqDec K}.
  Variable veqb : V -> V -> bool.

  Definition ecm := list (list K * V).

  (** try_emplace, ECM.h:104-118 and 122-136; insert forwards to it, 69-88.
      The flag of the returned pair. *)
  Fixpoint try_emplace (k : K) (v : V) (m : ecm) : ecm * bool :=
    match m with
    | [] => ([([k], v)], true)
    | (ks, w) :: m' =>
        if veqb w v then ((sinsert k ks, w) :: m', negb (mem k ks))
        else let (r, b) := try_emplace k v m' in ((ks, w) :: r, b)
    end.

  (** insert of a range, ECM.h:91-95; also the constructors 52-60 *)
  Definition insertRange (l : list (K * V)) (m : ecm) : ecm :=
    fold_left (fun a p => fst (try_emplace (fst p) (snd p) a)) l m.

  (** count, ECM.h:139-146 *)
  Fixpoint count (k : K) (m : ecm) : nat :=
    match m with [] => 0 | (ks, _) :: m' => if mem k ks then 1 else count k m' end.

  (** find, ECM.h:157-162, and findValue, 164-170 *)
  Fixpoint findValue (k : K) (m : ecm) : option V :=
    match m with [] => None | (ks, v) :: m' => if mem k ks then Some v else findValue k m' end.

  (** size / numEquivalenceClasses, ECM.h:148-155 *)
  Definition size (m : ecm) : nat := length m.
End ECM.
Arguments ecm K V : clear implicits.
