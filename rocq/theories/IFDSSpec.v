(** Independent specification of IFDS: facts reachable along
    interprocedurally valid paths of the exploded super-graph.  No values, no
    edge functions. *)
From Coq Require Import List Bool.
From Verif Require Import Assoc IDESolverModel IFDSModel.
Import ListNotations.

Section Spec.
  Context {N F D : Type}.
  Variable G : icfg N F.
  Variable W : flows N F D.
  (** seeds: facts that hold before a start instruction *)
  Variable S0 : list (N * list D).

  Inductive valid : list (N * F) -> N -> D -> Prop :=
  | v_seed n ds d : In (n, ds) S0 -> In d ds -> valid [] n d
  | v_zero n ds : In (n, ds) S0 -> valid [] n (f_zero W)
  | v_normal stk n d n' d' :
      valid stk n d -> isCallSite G n = false -> In n' (getSuccsOf G n) ->
      In d' (f_normal W n n' d) -> valid stk n' d'
  | v_ctr stk c d r d' :
      valid stk c d -> isCallSite G c = true -> In r (getReturnSitesOfCallAt G c) ->
      In d' (f_ctr W c r d) -> valid stk r d'
  | v_summary stk c d callee sf r d' :
      valid stk c d -> isCallSite G c = true -> In callee (getCalleesOfCallAt G c) ->
      f_sum W c callee = Some sf -> In r (getReturnSitesOfCallAt G c) -> In d' (sf d) ->
      valid stk r d'
  | v_call stk c d callee sp d' :
      valid stk c d -> isCallSite G c = true -> In callee (getCalleesOfCallAt G c) ->
      f_sum W c callee = None -> In sp (getStartPointsOf G callee) ->
      In d' (f_call W c callee d) -> valid ((c, callee) :: stk) sp d'
  | v_ret stk c callee e d r d' :
      valid ((c, callee) :: stk) e d -> isCallSite G e = false -> isExitInst G e = true ->
      In r (getReturnSitesOfCallAt G c) -> In d' (f_ret W c callee e r d) -> valid stk r d'.
End Spec.
