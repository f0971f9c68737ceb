(** Model of the IFDS layer on top of the IDE solver:
    /repo/include/phasar/Domain/BinaryDomain.h,
    /repo/include/phasar/DataFlow/IfdsIde/IFDSTabulationProblem.h,
    /repo/include/phasar/DataFlow/IfdsIde/Solver/IFDSSolver.h,
    and the three edge functions that can occur there
    (/repo/include/phasar/DataFlow/IfdsIde/EdgeFunctionUtils.h). *)
From Coq Require Import List Bool.
From Verif Require Import Assoc TableModel IDESolverModel.
Import ListNotations.

(** BinaryDomain.h:30 *)
Inductive bdom := BOTTOM | TOP.

Definition bdom_eqb (x y : bdom) : bool :=
  match x, y with BOTTOM, BOTTOM => true | TOP, TOP => true | _, _ => false end.

(** JoinLatticeTraits<BinaryDomain>::join, BinaryDomain.h:41-44 *)
Definition bdom_join (l r : bdom) : bdom := if bdom_eqb l r then l else BOTTOM.

(** EdgeFunction<BinaryDomain> objects that an IFDS analysis can build *)
Inductive bef := bAllTop | bAllBottom | bIdentity.

(** computeTarget, EdgeFunctionUtils.h:26-31, 51-59, 91-99 *)
Definition bef_apply (f : bef) (x : bdom) : bdom :=
  match f with bAllTop => TOP | bAllBottom => BOTTOM | bIdentity => x end.

Definition bef_isConstant (f : bef) : bool :=
  match f with bIdentity => false | _ => true end.

(** compose, EdgeFunctionUtils.h:33-37 (EdgeIdentity), 61-65 (AllBottom),
    101-105 (AllTop) *)
Definition bef_compose (f g : bef) : bef :=
  match f with
  | bIdentity => g
  | bAllBottom => if bef_isConstant g then g else bAllBottom
  | bAllTop => match g with bIdentity => bAllTop | _ => g end
  end.

(** join, EdgeFunctionUtils.h:449-462 (EdgeIdentity), 67-71, 107-111; the last
    line of EdgeIdentity::join is not reached for these three classes *)
Definition bef_join (f g : bef) : bef :=
  match f with
  | bIdentity => match g with bAllBottom => bAllBottom | _ => bIdentity end
  | bAllBottom => bAllBottom
  | bAllTop => g
  end.

Definition bef_eqb (f g : bef) : bool :=
  match f, g with
  | bAllTop, bAllTop | bAllBottom, bAllBottom | bIdentity, bIdentity => true
  | _, _ => false
  end.

Section IFDS.
  Context {N F D : Type} `{EqDec N} `{EqDec D}.

  (** The flow functions a client of IFDSTabulationProblem supplies. *)
  Record flows := mkFlows {
    f_normal : N -> N -> D -> list D;
    f_call : N -> F -> D -> list D;
    f_ret : N -> F -> N -> N -> D -> list D;
    f_ctr : N -> N -> D -> list D;
    f_sum : N -> F -> option (D -> list D);
    f_zero : D
  }.

  (** IFDSTabulationProblem.h:47-79: all five edge-function factories return
      EdgeIdentity. *)
  Definition ifdsProblem (W : flows) : problem N F D bdom bef :=
    mkProblem (f_normal W) (f_call W) (f_ret W) (f_ctr W) (f_sum W)
      (fun _ _ _ _ => bIdentity) (fun _ _ _ _ => bIdentity) (fun _ _ _ _ _ _ => bIdentity)
      (fun _ _ _ _ => bIdentity) (fun _ _ _ _ => bIdentity)
      (f_zero W) bef_apply bef_compose bef_join bef_eqb bAllTop bIdentity
      TOP BOTTOM bdom_join bdom_eqb.

  (** IFDSSolver::ifdsResultsAt, IFDSSolver.h:51-58: the keys of the row of
      the value table *)
  Definition ifdsResultsAt (T : table N D bdom) (n : N) : list D := map fst (t_row T n).

  (** InitialSeeds.h: a seed map all of whose facts carry the value the
      two-argument addSeed stores for BinaryDomain *)
  Definition bottomSeeds (S : list (N * list D)) : list (N * list (D * bdom)) :=
    map (fun '(n, ds) => (n, map (fun d => (d, BOTTOM)) ds)) S.
End IFDS.
Arguments flows : clear implicits.
