(** What it means that a memory location is written more than once when a program of
    IRProgramModel.v runs (executions of IRProgramSpec.v; the marks play no role). *)
From Coq Require Import List Bool Arith Relations.
From Verif Require Import Assoc IDESolverModel IRProgramModel IRProgramSpec.
Import ListNotations.

Section Spec.
  Context {N F : Type} {EN : EqDec N} {EF : EqDec F}.
  Local Notation value := (value N F).
  Local Notation conf := (@conf N F).
  Variable p : prog N F.
  Variable ext : N -> F -> list cval -> mem -> cval -> mem -> Prop.
  Variable main : F.

  Definition runs : conf -> Prop := exec p false false false ext main (fun _ => false).
  Definition later_ : conf -> conf -> Prop := clos_refl_trans _ (step p false false false ext).
  Definition stmt (c : conf) : N := fst (fst (fst (fst c))).
  (** the register x holds the address l *)
  Definition pointsTo (c : conf) (x : value) (l : loc) : Prop :=
    exists m, eval false (snd (fst (fst (fst c)))) x = Some (PPtr l, m).
  (** n is a store, or a memset (memcpy, memmove), to where q points *)
  Definition writesTo (memIntrin : N -> bool) (n : N) (q : value) : Prop :=
    (exists v, code p n = IStore v q) \/ (memIntrin n = true /\ exists b fs args, code p n = ICall b fs (q :: args)).
  (** the statement about to run writes l *)
  Definition writes (memIntrin : N -> bool) (c : conf) (l : loc) : Prop :=
    exists q, pointsTo c q l /\ writesTo memIntrin (stmt c) q.
  (** local variables, heap objects, global variables *)
  Definition memLoc (heapCall : N -> bool) (x : value) : Prop :=
    (exists n, x = VInst n /\
       ((exists b, code p n = IAlloca b) \/ (heapCall n = true /\ exists b fs args, code p n = ICall b fs args))) \/
    exists g, x = VGlob g.

  (** values that ever hold the same address in one execution are in each other's sets *)
  Definition aliasSound (alias : value -> list value) : Prop :=
    forall c c' x y l, runs c -> later_ c c' -> pointsTo c x l -> pointsTo c' y l ->
      In y (alias x) /\ In x (alias y).

  (** statements behind n in the same function, over calls *)
  Definition within : N -> N -> Prop := clos_refl_trans _ (fun n n' => In n' (succs p n)).
End Spec.
