(** Model of /repo/include/phasar/DataFlow/Mono/Contexts/CallStringCTX.h ("CS.h").

    The deque is a list, front first.  [K] is the template argument, an
    unsigned of 32 bits; lengths fit in size_t. *)
From Coq Require Import List Bool NArith String.
From Verif Require Import Assoc.
Import ListNotations.
Local Open Scope N_scope.

Section CS.
  Context {Nd : Type} `{EqDec Nd} (zero : Nd).     (* N{} *)

  Definition callString := list Nd.
  Definition size (c : callString) : N := N.of_nat (List.length c).
  (** KLimit - 1 in unsigned arithmetic *)
  Definition limitMinus1 (K : N) : N := (K + 2 ^ 32 - 1) mod 2 ^ 32.

  (** CS.h:25-30; [None]: throws *)
  Definition ofList (K : N) (l : list Nd) : option callString :=
    if K <? size l then None else Some l.

  (** CS.h:32-37 *)
  Definition push_back (K : N) (s : Nd) (c : callString) : callString :=
    (if limitMinus1 K <? size c then tl c else c) ++ [s].
  (** CS.h:39-46 *)
  Definition pop_back (c : callString) : Nd * callString :=
    match c with
    | [] => (zero, [])
    | _ => (List.last c zero, removelast c)
    end.
  (** CS.h:48-64 *)
  Definition isEqual (a b : callString) : bool := eqb a b.
  Definition isDifferent (a b : callString) : bool := negb (isEqual a b).
  Definition empty (c : callString) : bool := match c with [] => true | _ => false end.

  (** std::hash, CS.h:91-99.  [hd] is boost::hash of the deque, [hu] of an
      unsigned; 64-bit words. *)
  Definition hash (hd : list Nd -> N) (hu : N -> N) (K : N) (c : callString) : N :=
    N.lxor (hu K) (N.shiftl (hd c) 1 mod 2 ^ 64).

  (** print, CS.h:71-80 *)
  Definition print (str : Nd -> string) (c : callString) : string :=
    ("Call string: [ " ++
     String.concat "" (map (fun x => str x ++ (if eqb x (List.last c zero) then "" else " * "))%string c) ++ " ]")%string.

  (** ** Histories *)
  Inductive op := Push (s : Nd) | Pop.
  Definition step (K : N) (o : op) (c : callString) : callString :=
    match o with Push s => push_back K s c | Pop => snd (pop_back c) end.
  Fixpoint run (K : N) (os : list op) (c : callString) : callString :=
    match os with [] => c | o :: os' => run K os' (step K o c) end.
End CS.
Arguments op : clear implicits.
