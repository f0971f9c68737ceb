(** What a call graph means: a multiset (here: a sequence) of edges. *)
From Coq Require Import String List Arith.
From Verif Require Import CallGraphModel.
Import ListNotations.

(** the edges a history adds, in order *)
Definition edgeOf (o : op) : list (inst * fn) :=
  match o with Edge n f | EdgeI n _ f | EdgeF n f _ => [(n, f)] | _ => [] end.
Definition edgesOf (ops : list op) := flat_map edgeOf ops.

Definition calleesIn (es : list (inst * fn)) (n : inst) : list fn := map snd (filter (fun e => fst e =? n) es).
Definition callersIn (es : list (inst * fn)) (f : fn) : list inst := map fst (filter (fun e => snd e =? f) es).

(** functions / call sites mentioned *)
Definition funOf (o : op) : list fn :=
  match o with AddFun f | Edge _ f | EdgeI _ _ f | EdgeF _ f _ => [f] | _ => [] end.
Definition instOf (o : op) : list inst :=
  match o with AddInst n | Edge n _ | EdgeI n _ _ | EdgeF n _ _ => [n] | _ => [] end.

Definition occ (x : nat) (l : list nat) : nat := count_occ Nat.eq_dec l x.

(** A client is legal if it passes only pointers the builder gave it for that call
    site / function, does not exceed the capacity and only reserves before adding. *)
Definition room (f : fn) (s : cg) := In f (getAllVertexFunctions s) \/ size s < funCap s.
Definition legalOp (o : op) (s : cg) : Prop :=
  match o with
  | Reserve k => k <= funCap s \/ size s = 0
  | AddFun f => room f s
  | AddInst _ => True
  | Edge _ f => room f s
  | EdgeI n i f => getInstVertexOrNull n s = Some i /\ room f s
  | EdgeF n f p => addFunctionVertex true f s = Some (p, s)
  end.
Fixpoint legal (asserts : bool) (ops : list op) (s : cg) : Prop :=
  match ops with
  | [] => True
  | o :: r => legalOp o s /\ forall s', step asserts o s = Some s' -> legal asserts r s'
  end.
