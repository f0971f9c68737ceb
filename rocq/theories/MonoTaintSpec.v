(** Which programs and configurations the monotone taint analysis is made for, on top
    of TaintSpec. *)
From Coq Require Import List Bool Arith.
From Verif Require Import Assoc IRProgramModel IRProgramSpec UninitSpec TaintModel TaintSpec.
Import ListNotations.

Section Spec.
  Context {N F : Type} {EN : EqDec N} {EF : EqDec F}.
  Local Notation value := (value N F).
  Variable p : prog N F.
  Variable P : policy N F.
  Variable t : taintEnv N F.

  Definition register (v : value) : Prop := match v with VInst _ | VArg _ _ => True | _ => False end.
  (** the configuration names a source at the call c *)
  Definition isSourceCall (c : N) : Prop :=
    exists f, In f (calleesAt p c) /\
      (sourceCB t c <> [] \/ isSource t (VInst c) = true \/
       exists i, i < nparams p f /\ i < length (argsAt p c) /\ isSource t (VArg f i) = true).

  (** No aggregates; library functions copy nothing; pointers are passed to functions
      without a body only where a source is *)
  Record monoSimple : Prop := {
    me_code : forall n, match code p n with
      | IExtract agg => ~ register agg
      | IInsert agg v => ~ register agg /\ ~ register v
      | IRet _ => succs p n = []
      | _ => True
      end;
    me_lib : forall f i, lib P f i = [];
    me_pointers : forall c a, In a (argsAt p c) -> register a -> isPtr p a = true -> var p a = true \/ isSourceCall c;
    me_extern : forall c f a, In f (calleesAt p c) -> entry p f = None -> In a (argsAt p c) -> var p a = true -> isSourceCall c
  }.
  (** the sources and sinks of the policy are configured; nothing sanitizes *)
  Record monoConfigured : Prop := {
    mc_srcParam : forall n f i a, srcParam P n f i = true -> nth_error (argsAt p n) i = Some a ->
      isSource t (VArg f i) = true \/ In a (sourceCB t n);
    mc_srcCall : forall n, srcCall P n = true -> isSource t (VInst n) = true \/ In (VInst n) (sourceCB t n);
    mc_sink : forall n f i a, sinkParam P n f i = true -> nth_error (argsAt p n) i = Some a ->
      isSink t (VArg f i) = true \/ In a (sinkCB t n);
    mc_sanitizer : forall f i, isSanitizer t (VArg f i) = false
  }.
End Spec.
