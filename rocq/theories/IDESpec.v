(** Independent specification of what an IDE solver has to compute: the value
    semantics of interprocedurally valid paths, given as a push-down system
    over the exploded super-graph.  Nothing in this file refers to jump
    functions, summaries, worklists or any other solver notion; only the input
    (ICFG, flow functions, edge functions, seeds) is used. *)
From Coq Require Import List Bool.
From Verif Require Import Assoc TableModel IDESolverModel.
Import ListNotations.

Section Spec.
  Context {N F D L EF : Type} `{EqDec N} `{EqDec F} `{EqDec D}.
  Variable G : icfg N F.
  Variable P : problem N F D L EF.

  (** join order: x below y iff joining x into y does not change y
      (top is the least, bottom the greatest element) *)
  Definition lle (x y : L) : Prop := joinL P x y = y.

  (** A pending call: call site and chosen callee. *)
  Definition frame := (N * F)%type.

  (** One step of the exploded super-graph with its call stack; the value is
      transformed by the edge function of the edge taken. *)
  Inductive estep : list frame * N * D * L -> list frame * N * D * L -> Prop :=
  | es_normal S n d v n' d' :
      isCallSite G n = false -> In n' (getSuccsOf G n) -> In d' (normalFF P n n' d) ->
      estep (S, n, d, v) (S, n', d', apply P (normalEF P n d n' d') v)
  | es_ctr S c d v r d' :
      isCallSite G c = true -> In r (getReturnSitesOfCallAt G c) -> In d' (ctrFF P c r d) ->
      estep (S, c, d, v) (S, r, d', apply P (ctrEF P c d r d') v)
  | es_summary S c d v callee sf r d' :
      isCallSite G c = true -> In callee (getCalleesOfCallAt G c) ->
      sumFF P c callee = Some sf -> In r (getReturnSitesOfCallAt G c) -> In d' (sf d) ->
      estep (S, c, d, v) (S, r, d', apply P (sumEF P c d r d') v)
  | es_call S c d v callee sp d' :
      isCallSite G c = true -> In callee (getCalleesOfCallAt G c) ->
      sumFF P c callee = None -> In sp (getStartPointsOf G callee) ->
      In d' (callFF P c callee d) ->
      estep (S, c, d, v) ((c, callee) :: S, sp, d', apply P (callEF P c d callee d') v)
  | es_ret S c callee e d v r d' :
      isCallSite G e = false -> isExitInst G e = true ->
      In r (getReturnSitesOfCallAt G c) -> In d' (retFF P c callee e r d) ->
      estep ((c, callee) :: S, e, d, v) (S, r, d', apply P (retEF P c callee e d r d') v).

  (** Configurations reachable from the seeds; [Q] restricts the values that
      may occur on the way (all values, or all values except top). *)
  Inductive reach (Q : L -> Prop) (S0 : @seeds N D L) : list frame * N * D * L -> Prop :=
  | reach_seed n facts d v :
      In (n, facts) S0 -> In (d, v) facts -> Q v -> reach Q S0 ([], n, d, v)
  | reach_step c stk n d v :
      reach Q S0 c -> estep c (stk, n, d, v) -> Q v -> reach Q S0 (stk, n, d, v).

  (** Facts and values that hold before a seed statement: those the client
      supplied, and the zero fact with value bottom unless the client supplied
      a value for it.  (Stated here independently of [addZeroSeeds].) *)
  Definition holds_initially (S : @seeds N D L) (n : N) (d : D) (v : L) : Prop :=
    exists facts, In (n, facts) S /\
      (In (d, v) facts \/
       (d = zeroValue P /\ v = bottomElement P /\ forall v', ~ In (zeroValue P, v') facts)).

  (** Interprocedurally valid paths from the configurations described by
      [Init]; [Q] restricts the values on the way. *)
  Inductive vpath (Q : L -> Prop) (Init : N -> D -> L -> Prop) : list frame * N * D * L -> Prop :=
  | vp_init n d v : Init n d v -> Q v -> vpath Q Init ([], n, d, v)
  | vp_step c stk n d v : vpath Q Init c -> estep c (stk, n, d, v) -> Q v -> vpath Q Init (stk, n, d, v).

  (** the value reported for (n, d): top if the table has no entry *)
  Definition valueAt (T : table N D L) (n : N) (d : D) : L :=
    match t_lookup T n d with Some v => v | None => topElement P end.

  Definition anyval (_ : L) : Prop := True.
  Definition nontop (v : L) : Prop := v <> topElement P.

  (** *** Assumptions on the inputs *)

  (** The ICFG is structurally consistent. *)
  Record icfg_wf : Prop := {
    wf_succ_fun : forall n n', In n' (getSuccsOf G n) -> getFunctionOf G n' = getFunctionOf G n;
    wf_ret_fun : forall c r, In r (getReturnSitesOfCallAt G c) -> getFunctionOf G r = getFunctionOf G c;
    wf_start_fun : forall f sp, In sp (getStartPointsOf G f) -> getFunctionOf G sp = f;
    wf_start : forall n, isStartPoint G n = true <-> In n (getStartPointsOf G (getFunctionOf G n));
    wf_succ_nostart : forall n n', In n' (getSuccsOf G n) -> isStartPoint G n' = false;
    wf_ret_nostart : forall c r, In r (getReturnSitesOfCallAt G c) -> isStartPoint G r = false;
    wf_calls : forall c, In c (getCallsFromWithin G (getFunctionOf G c)) <-> isCallSite G c = true;
    wf_calls_fun : forall f c, In c (getCallsFromWithin G f) -> getFunctionOf G c = f;
    wf_rest : forall n, In n (allNonCallStartNodes G) <->
                        (isCallSite G n = false /\ isStartPoint G n = false)
  }.

  (** Join-semilattice of values with top as least element. *)
  Record lattice_laws : Prop := {
    ll_comm : forall x y, joinL P x y = joinL P y x;
    ll_assoc : forall x y z, joinL P x (joinL P y z) = joinL P (joinL P x y) z;
    ll_idem : forall x, joinL P x x = x;
    ll_top : forall x, joinL P (topElement P) x = x;
    ll_eqb : forall x y, lEqb P x y = true <-> x = y
  }.

  (** Edge functions: [extend]/[combine] may over-approximate. *)
  Record ef_sound : Prop := {
    es_mono : forall f x y, lle x y -> lle (apply P f x) (apply P f y);
    es_id : forall x, apply P (edgeIdentity P) x = x;
    es_top : forall x, apply P (allTop P) x = topElement P;
    es_eqb : forall f g, efEqb P f g = true -> forall x, apply P f x = apply P g x;
    es_extend : forall f g x, lle (apply P g (apply P f x)) (apply P (extend P f g) x);
    es_combine_l : forall f g x, lle (apply P f x) (apply P (combine P f g) x);
    es_combine_r : forall f g x, lle (apply P g x) (apply P (combine P f g) x)
  }.

  (** The same, without any demand on what edge functions do with top.  (phasar
      analyses have edge functions that map top to bottom.) *)
  Record ef_sound_nt : Prop := {
    en_mono : forall f x y, nontop x -> lle x y -> lle (apply P f x) (apply P f y);
    en_id : forall x, apply P (edgeIdentity P) x = x;
    en_top : forall x, apply P (allTop P) x = topElement P;
    en_eqb : forall f g, efEqb P f g = true -> forall x, apply P f x = apply P g x;
    en_extend : forall f g x, nontop (apply P f x) ->
      lle (apply P g (apply P f x)) (apply P (extend P f g) x);
    en_combine_l : forall f g x, lle (apply P f x) (apply P (combine P f g) x);
    en_combine_r : forall f g x, lle (apply P g x) (apply P (combine P f g) x)
  }.

  (** Distributive edge functions with exact [extend]/[combine].  The
      phasar class AllTop composes inexactly (EdgeFunctionUtils.h:93-97), so
      exactness of [extend] is only asked for a first argument that is not
      AllTop, and call edges must not be AllTop. *)
  Record ef_precise : Prop := {
    ep_distr : forall f x y, apply P f (joinL P x y) = joinL P (apply P f x) (apply P f y);
    ep_extend : forall f g x, efEqb P f (allTop P) = false ->
      lle (apply P (extend P f g) x) (apply P g (apply P f x));
    ep_extend_nt : forall f g, efEqb P f (allTop P) = false -> efEqb P g (allTop P) = false ->
      efEqb P (extend P f g) (allTop P) = false;
    ep_combine : forall f g x,
      lle (apply P (combine P f g) x) (joinL P (apply P f x) (apply P g x));
    ep_call_nt : forall c d callee d', efEqb P (callEF P c d callee d') (allTop P) = false
  }.

  (** Joins need only be exact on the jump functions that occur: [Sh d1 n d2 f] holds of
      all functions the rules of the exploded super-graph give for a path from fact d1
      at the start of the function of n to fact d2 at n. *)
  Record ef_precise_on (Sh : D -> N -> D -> EF -> Prop) : Prop := {
    eo_distr : forall f x y, apply P f (joinL P x y) = joinL P (apply P f x) (apply P f y);
    eo_extend : forall f g x, efEqb P f (allTop P) = false ->
      lle (apply P (extend P f g) x) (apply P g (apply P f x));
    eo_extend_nt : forall f g, efEqb P f (allTop P) = false -> efEqb P g (allTop P) = false ->
      efEqb P (extend P f g) (allTop P) = false;
    eo_call_nt : forall c d callee d', efEqb P (callEF P c d callee d') (allTop P) = false;
    eo_combine : forall d1 n d2 f g x, Sh d1 n d2 f -> Sh d1 n d2 g ->
      lle (apply P (combine P f g) x) (joinL P (apply P f x) (apply P g x));
    eo_first : forall f x, lle (apply P (combine P (allTop P) f) x) (apply P f x);
    sh_combine : forall d1 n d2 f g, Sh d1 n d2 f -> Sh d1 n d2 g -> Sh d1 n d2 (combine P f g);
    sh_first : forall d1 n d2 f, Sh d1 n d2 f -> Sh d1 n d2 (combine P (allTop P) f);
    sh_start : forall n d, Sh d n d (edgeIdentity P);
    sh_normal : forall d1 n d2 f n' d3, Sh d1 n d2 f -> isCallSite G n = false ->
      In n' (getSuccsOf G n) -> In d3 (normalFF P n n' d2) -> Sh d1 n' d3 (extend P f (normalEF P n d2 n' d3));
    sh_ctr : forall d1 n d2 f n' d3, Sh d1 n d2 f -> isCallSite G n = true ->
      In n' (getReturnSitesOfCallAt G n) -> In d3 (ctrFF P n n' d2) -> Sh d1 n' d3 (extend P f (ctrEF P n d2 n' d3));
    sh_sum : forall d1 n d2 f callee sf n' d3, Sh d1 n d2 f -> isCallSite G n = true ->
      In callee (getCalleesOfCallAt G n) -> sumFF P n callee = Some sf ->
      In n' (getReturnSitesOfCallAt G n) -> In d3 (sf d2) -> Sh d1 n' d3 (extend P f (sumEF P n d2 n' d3));
    sh_return : forall d1 c d2 f callee d3 g e d4 r d5, Sh d1 c d2 f -> Sh d3 e d4 g ->
      isCallSite G c = true -> In callee (getCalleesOfCallAt G c) -> In d3 (callFF P c callee d2) ->
      getFunctionOf G e = callee -> isExitInst G e = true ->
      In r (getReturnSitesOfCallAt G c) -> In d5 (retFF P c callee e r d4) ->
      Sh d1 r d5 (extend P f (extend P (extend P (callEF P c d2 callee d3) g) (retEF P c callee e d4 r d5)))
  }.

  (** Monotone edge functions with exact [extend]/[combine] and an AllTop that
      is recognised; no distributivity. *)
  Record ef_exact : Prop := {
    ex_extend : forall f g x, efEqb P f (allTop P) = false ->
      lle (apply P (extend P f g) x) (apply P g (apply P f x));
    ex_extend_nt : forall f g, efEqb P f (allTop P) = false -> efEqb P g (allTop P) = false ->
      efEqb P (extend P f g) (allTop P) = false;
    ex_combine : forall f g x,
      lle (apply P (combine P f g) x) (joinL P (apply P f x) (apply P g x));
    ex_call_nt : forall c d callee d', efEqb P (callEF P c d callee d') (allTop P) = false;
    ex_top : forall f, (forall x, apply P f x = topElement P) -> efEqb P f (allTop P) = true
  }.

  (** [x] is below the join of a finite non-empty set of values in [R] *)
  Definition below_join (R : L -> Prop) (x : L) : Prop :=
    exists v vs, R v /\ Forall R vs /\ lle x (fold_left (joinL P) vs v).

  (** [Ds] contains every fact the analysis can generate *)
  Record facts_closed (S0 : @seeds N D L) (Ds : list D) : Prop := {
    fc_zero : In (zeroValue P) Ds;
    fc_seed : forall n facts d v, In (n, facts) S0 -> In (d, v) facts -> In d Ds;
    fc_normal : forall n n' d d', In d Ds -> In d' (normalFF P n n' d) -> In d' Ds;
    fc_call : forall n f d d', In d Ds -> In d' (callFF P n f d) -> In d' Ds;
    fc_ret : forall c f e r d d', In d Ds -> In d' (retFF P c f e r d) -> In d' Ds;
    fc_ctr : forall c r d d', In d Ds -> In d' (ctrFF P c r d) -> In d' Ds;
    fc_sum : forall c f sf d d', sumFF P c f = Some sf -> In d Ds -> In d' (sf d) -> In d' Ds
  }.

  (** finite height: every strict change of a jump function (of a value)
      decreases a rank; AllTop has the greatest rank *)
  Record finite_height (frank : EF -> nat) (lrank : L -> nat) : Prop := {
    fh_combine : forall f g, efEqb P (combine P f g) f = false -> frank (combine P f g) < frank f;
    fh_top : forall f, frank f <= frank (allTop P);
    fh_istop : forall f, efEqb P f (allTop P) = true -> frank f = frank (allTop P);
    fh_join : forall x y, lEqb P (joinL P x y) x = false -> lrank (joinL P x y) < lrank x
  }.

  Definition seeds_at_starts (S0 : @seeds N D L) : Prop :=
    forall n facts, In (n, facts) S0 -> isStartPoint G n = true.

  Definition single_start : Prop :=
    forall f sp1 sp2, In sp1 (getStartPointsOf G f) -> In sp2 (getStartPointsOf G f) -> sp1 = sp2.

  (** special summaries only for functions without a body *)
  Definition summaries_for_declarations : Prop :=
    forall c callee sf, sumFF P c callee = Some sf -> getStartPointsOf G callee = [].

  (** no edge maps a non-top value to top *)
  Definition nontop_preserving : Prop :=
    forall c stk n d v, estep c (stk, n, d, v) -> nontop (snd c) -> nontop v.
End Spec.
