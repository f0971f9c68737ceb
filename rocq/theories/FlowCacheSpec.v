(** What a query must answer: the problem's own function. *)
From Coq Require Import List NArith.
From Verif Require Import FlowCacheModel.

Section Spec.
  Context {Nd Fn Fc FF EF : Type}.
  Variable efeqb : EF -> EF -> bool.
  Variable P : problem Nd Fn Fc FF EF.
  Variable autoAddZero : bool.
  Variable zeroed : FF -> FF.

  Definition keepZero (f : FF) : FF := if autoAddZero then zeroed f else f.

  Definition expected (q : query Nd Fn Fc) : answer FF EF :=
    match q with
    | QNormalFF n s => AFF (keepZero (pNormalFF P n s))
    | QCallFF n f => AFF (keepZero (pCallFF P n f))
    | QRetFF n f e s => AFF (keepZero (pRetFF P n f e s))
    | QCtrFF n s fs => AFF (keepZero (pCtrFF P n s fs))
    | QSumFF n f => ASumFF (pSumFF P n f)
    | QNormalEF n d s d' => AEF (pNormalEF P n d s d')
    | QCallEF n d f d' => AEF (pCallEF P n d f d')
    | QRetEF n f e d s d' => AEF (pRetEF P n f e d s d')
    | QCtrEF n d s d' fs => AEF (pCtrEF P n d s d' fs)
    | QSumEF n d s d' => AEF (pSumEF P n d s d')
    end.

  (** flow functions: the same; edge functions: comparing equal *)
  Definition agree (q : query Nd Fn Fc) (a : answer FF EF) : Prop :=
    match a, expected q with
    | AFF f, AFF g => f = g
    | ASumFF f, ASumFF g => f = g
    | AEF e, AEF e' => efeqb e e' = true
    | _, _ => False
    end.

  (** the callees passed to call-to-return queries are those of the call site *)
  Definition calleesFixed (calleesOf : Nd -> list Fn) (q : query Nd Fn Fc) : Prop :=
    match q with
    | QCtrFF n _ fs | QCtrEF n _ _ _ fs => fs = calleesOf n
    | _ => True
    end.
End Spec.
