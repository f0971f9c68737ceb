(** What a client of MaybeUniquePtr may do, and the ownership ledger. *)
From Coq Require Import List Bool Arith NArith.
From Verif Require Import Assoc MaybeUniquePtrModel.
Import ListNotations.
Open Scope N_scope.

Definition event_eq_dec : forall a b : event, {a = b} + {a <> b}.
Proof. decide equality; apply N.eq_dec. Defined.

(** how often ownership of [o] was handed to the pointers, given back by release, and how often it was deleted *)
Definition times (e : event) (tr : list event) : nat := count_occ event_eq_dec tr e.
Definition handedOver (o : N) (tr : list event) : nat := times (Given o) tr.
Definition givenBack (o : N) (tr : list event) : nat := times (Released o) tr.
Definition deletions (o : N) (tr : list event) : nat := times (Deleted o) tr.

(** The client itself is the owner: it got back everything it handed over and nothing was deleted. *)
Definition clientOwns (o : N) (tr : list event) : Prop := handedOver o tr = givenBack o tr /\ deletions o tr = 0%nat.

(** The object an operation hands over or refers to. *)
Definition passes (o : op) : N := match o with FromRaw _ p _ | FromUnique _ p | AssignUnique _ p => p | _ => 0 end.
Definition handsOver (o : op) : option N :=
  match o with
  | FromRaw _ p true | FromUnique _ p | AssignUnique _ p => if N.eqb p 0 then None else Some p
  | _ => None
  end.

(** Life times of the pointers. *)
Definition creates (o : op) : option nat :=
  match o with Default s | FromRaw s _ _ | FromUnique s _ | MoveConstruct s _ => Some s | _ => None end.
Definition uses (o : op) : list nat :=
  match o with
  | MoveConstruct _ f => [f] | MoveAssign s f => [s; f] | AssignUnique s _ | ResetNull s | Release s | Destroy s => [s]
  | _ => []
  end.
Inductive alive : list op -> nat -> Prop :=
| alive_new ops o s : creates o = Some s -> alive (ops ++ [o]) s
| alive_old ops o s : alive ops s -> o <> Destroy s -> alive (ops ++ [o]) s.

(** addresses of objects with alignof(T) = 2 ^ a *)
Definition alignedTo (a p : N) : Prop := p mod 2 ^ a = 0.

(** The next operation of a correct client. *)
Record allowed (align : N) (ops : list op) (tr : list event) (o : op) : Prop := {
  al_creates : forall s, creates o = Some s -> ~ alive ops s;
  al_uses : forall s, In s (uses o) -> alive ops s;
  al_aligned : alignedTo align (passes o);
  al_owner : forall p, handsOver o = Some p -> clientOwns p tr }.

(** Histories of a correct client: the operations, the pointers and what happened. *)
Inductive history (ly : layout) (asserts : bool) (align : N) : list op -> state -> list event -> Prop :=
| h_start : history ly asserts align [] [] []
| h_step ops st tr o st' ev : history ly asserts align ops st tr -> allowed align ops tr o ->
    step ly asserts o st = Some (st', ev) -> history ly asserts align (ops ++ [o]) st' (tr ++ ev).
