(** Leaks of tainted data, independently of the analysis.  A mark is "tainted" here:
    copies of a tainted value are tainted, results of operations are not. *)
From Coq Require Import List Bool ZArith Arith.
From Verif Require Import Assoc IRProgramModel IRProgramSpec UninitSpec TaintModel.
Import ListNotations.

(** what the user wants of the program: sources are parameters through which a call
    writes tainted data and calls with a tainted result; sinks are parameters that
    tainted data must not reach; [lib f i]: the parameters ([Some j]) and the result
    ([None]) the function f copies the data of parameter i to *)
Record policy (N F : Type) := mkPolicy {
  srcParam : N -> F -> nat -> bool; srcCall : N -> bool; sinkParam : N -> F -> nat -> bool; lib : F -> nat -> list (option nat) }.
Arguments mkPolicy {N F}. Arguments srcParam {N F}. Arguments srcCall {N F}. Arguments sinkParam {N F}. Arguments lib {N F}.

Section Spec.
  Context {N F : Type} {EN : EqDec N} {EF : EqDec F}.
  Local Notation value := (value N F).
  Variable p : prog N F.
  Variable P : policy N F.

  (** argument i brings tainted data: it is tainted, or the variable whose address it is *)
  Definition brings (f : F) (cs : list cval) (M : mem) (i : nat) : Prop :=
    exists c, nth_error cs i = Some c /\
      (marked c = true \/ (isPtr p (VArg f i) = true /\ exists l, fst c = PPtr l /\ marked (M l) = true)).

  (** functions without a body taint no more than the policy says *)
  Definition extTaint (c : N) (f : F) (cs : list cval) (M : mem) (x : cval) (M' : mem) : Prop :=
    (marked x = true -> srcCall P c = true \/ exists i, brings f cs M i /\ In None (lib P f i)) /\
    forall l, marked (M' l) = true -> marked (M l) = true \/
      exists j m, nth_error cs j = Some (PPtr l, m) /\ isPtr p (VArg f j) = true /\
        (srcParam P c f j = true \/ exists i, brings f cs M i /\ In (Some j) (lib P f i)).

  (** the call n of f is about to run and gives tainted data to a sink *)
  Definition leaksAt (f : F) (n : N) (E : env) (M : mem) (v : value) : Prop :=
    In f (calleesAt p n) /\ exists i, nth_error (argsAt p n) i = Some v /\ i < nparams p f /\ sinkParam P n f i = true /\
      ((exists pl, eval false E v = Some (pl, true)) \/
       (var p v = true /\ exists l m, eval false E v = Some (PPtr l, m) /\ marked (M l) = true)).

  Definition taintRuns (arith : bool) (ext : N -> F -> list cval -> mem -> cval -> mem -> Prop) (main : F) (taintMain : bool) (s : conf) : Prop :=
    exec p false false arith ext main (fun i => taintMain && negb (isPtr p (VArg main i))) s.

  (** No phi of registers; loads and stores only name variables, globals get constants
      only; different variables are passed by address; other pointers only go to
      parameters of functions without a body that the policy does not name; a
      parameter with a variable's address is not used only once *)
  Record taintSimple : Prop := {
    ts_code : forall n, match code p n with
      | IStore v q => var p q = true \/ exists g k, q = VGlob g /\ v = VConst k
      | ILoad q => var p q = true \/ exists g, q = VGlob g
      | IPhi vs => forall v, In v vs -> match v with VInst _ | VArg _ _ => False | _ => True end
      | _ => True
      end;
    ts_args : forall n f i a, In f (calleesAt p n) -> nth_error (argsAt p n) i = Some a ->
      var p a = isPtr p (VArg f i) \/
      (entry p f = None /\ srcParam P n f i = false /\ (forall j, ~ In (Some i) (lib P f j)) /\ ((exists g, a = VGlob g) \/ lib P f i = []));
    ts_pointers : forall n a, In a (argsAt p n) -> match a with VInst _ | VArg _ _ => isPtr p a = true | _ => False end ->
      var p a = true \/ exists f, In f (calleesAt p n) /\ entry p f = None;
    ts_noalias : forall n i j a, nth_error (argsAt p n) i = Some a -> nth_error (argsAt p n) j = Some a -> var p a = true -> i = j;
    ts_params : forall n f, In f (calleesAt p n) -> entry p f <> None -> nparams p f = length (argsAt p n) /\ sret p f = false;
    ts_policy : forall n f i, (srcParam P n f i = true \/ lib P f i <> []) -> i < nparams p f;
    ts_used : forall f i n, isPtr p (VArg f i) = true -> In (VArg f i) (operands p n) -> manyUses p (VArg f i) = true
  }.

  (** The analysis is told about the sources, sinks and library functions of the policy.
      Functions with a body and library functions are neither source, sink nor
      sanitizer *)
  Record configured (t : taintEnv N F) : Prop := {
    cf_srcParam : forall n f i a, srcParam P n f i = true -> nth_error (argsAt p n) i = Some a ->
      isSource t (VArg f i) = true \/ In a (sourceCB t n);
    cf_srcCall : forall n, srcCall P n = true -> isSource t (VInst n) = true \/ In (VInst n) (sourceCB t n);
    cf_sink : forall n f i a, sinkParam P n f i = true -> nth_error (argsAt p n) i = Some a ->
      isSink t (VArg f i) = true \/ In a (sinkCB t n);
    cf_lib : forall f i o, In o (lib P f i) -> exists g, libc t f = Some g /\ In o (g i);
    cf_body : forall n f, In f (calleesAt p n) -> entry p f <> None -> libc t f = None;
    cf_plain : forall n f, In f (calleesAt p n) -> (entry p f <> None \/ exists i o, In o (lib P f i)) ->
      sourceCB t n = [] /\ sinkCB t n = [] /\ isSource t (VInst n) = false /\ sretCall t n = false /\
      forall i, isSource t (VArg f i) = false /\ isSink t (VArg f i) = false /\ isSanitizer t (VArg f i) = false;
    cf_swift : forall n f, In f (calleesAt p n) -> swiftAppend t f = false
  }.
End Spec.
