(** Model of the taint analysis of the monotone framework
    (/repo/lib/PhasarLLVM/DataFlow/Mono/Problems/InterMonoTaintAnalysis.cpp, below
    MT.cpp), with /repo/include/phasar/PhasarLLVM/TaintConfig/TaintConfigUtilities.h.

    Programs are those of IRProgramModel, the taint configuration is the record of
    TaintModel (of which only sources, sinks, sanitizers and the callbacks are used),
    the problem is one of InterMonoModel.

    Simplifications: a BitVectorSet is a list whose order and duplicates carry no
    meaning; a call site has at least as many arguments as the callee parameters
    (getArgOperand is out of bounds otherwise); there is a main function with a body
    (initialSeeds dereferences a null pointer otherwise; here there are no seeds). *)
From Coq Require Import List Bool Arith.
From Verif Require Import Assoc IRProgramModel TaintModel.
From Verif Require InterMonoModel.
Import ListNotations.

Section Mono.
  Context {N F : Type} {EN : EqDec N} {EF : EqDec F}.
  Local Notation value := (value N F).
  Local Notation cont := (list value).
  Variable p : prog N F.
  Variable t : taintEnv N F.

  Definition add (x : value) (m : cont) : cont := if mem_ x m then m else x :: m.
  Definition without (k m : cont) : cont := filter (fun x => negb (mem_ x k)) m.

  (** normalFlow, MT.cpp:56-84 *)
  Definition copy (n : N) (from : value) (m : cont) : cont := if mem_ from m then add (VInst n) m else m.
  Definition normalFlow (n : N) (m : cont) : cont :=
    match code p n with
    | IStore v q => if mem_ v m then add q m else without [q] m
    | ILoad q => copy n q m
    | IGep q _ => copy n q m
    | ICast v => copy n v m
    | _ => m
    end.
  (** callFlow, MT.cpp:86-98 *)
  Definition callFlow (c : N) (f : F) (m : cont) : cont :=
    flat_map (fun x => if mem_ (snd x) m then [fst x] else []) (List.combine (params p f) (argsAt p c)).
  (** returnFlow, MT.cpp:100-123 *)
  Definition returnFlow (c : N) (f : F) (e : N) (m : cont) : cont :=
    (match retVal p e with Some v => if mem_ v m then [VInst c] else [] | None => [] end) ++
    flat_map (fun x => if pointer p (fst x) && mem_ (fst x) m then [snd x] else []) (List.combine (params p f) (argsAt p c)).

  (** collectGeneratedFacts, TaintConfigUtilities.h:24-45 *)
  Definition generated (c : N) (f : F) : cont :=
    sourceCB t c ++ (if isSource t (VInst c) then [VInst c] else []) ++ selected p (isSource t) c f.
  (** collectSanitizedFacts, TaintConfigUtilities.h:76-87 *)
  Definition sanitized (c : N) (f : F) : cont := selected p (isSanitizer t) c f.
  (** the loop over the callees, MT.cpp:138-153 *)
  Definition allGen (c : N) (fs : list F) : cont := flat_map (generated c) fs.
  Definition allKill (c : N) (fs : list F) : cont :=
    match fs with
    | [] => []
    | f :: fs' => fold_left (fun k g => filter (fun x => mem_ x (sanitized c g)) k) fs' (sanitized c f)
    end.
  (** callToRetFlow, MT.cpp:125-166 *)
  Definition callToRetFlow (c : N) (fs : list F) (m : cont) : cont :=
    let out := without (allKill c fs) m ++ allGen c fs in
    if isNil (allGen c fs) && isNil (allKill c fs) then filter (fun x => negb (mem_ x (argsAt p c) && pointer p x)) out
    else out.
  (** what it adds to Leaks[CallSite], MT.cpp:143-144 *)
  Definition leaksOf (c : N) (fs : list F) (m : cont) : cont :=
    flat_map (fun f => filter (fun x => mem_ x m) (leak p t c f)) fs.

  (** merge and equal_to, MT.cpp:41-54; allTop, InterMonoProblem.h *)
  Definition equal_to (l r : cont) : bool := forallb (fun x => mem_ x r) l && forallb (fun x => mem_ x l) r.
  (** initialSeeds, MT.cpp:168-182 *)
  Definition seeds (main : F) : list (N * cont) :=
    match entry p main with Some sp => [(sp, params p main)] | None => [] end.
  Definition monoProblem (main : F) : InterMonoModel.problem N cont F :=
    InterMonoModel.mkProblem normalFlow callFlow (fun c f e _ => returnFlow c f e) (fun c _ => callToRetFlow c)
      (@app value) equal_to [] [] (@app value) (seeds main).

  (** LLVMBasedICFG, as in IRProgramModel; [target]: isBranchTarget *)
  Definition monoICFG (target : N -> N -> bool) : InterMonoModel.icfg N F :=
    InterMonoModel.mkIcfg (fnOf p)
      (fun f => flat_map (fun n => if eqb (fnOf p n) f then map (pair n) (succs p n) else []) (nodes p))
      (succs p) (fun n => filter (fun m => existsb (eqb n) (succs p m)) (nodes p)) target (isCall p)
      (fun n => match code p n with IRet _ => true | _ => false end)
      (calleesAt p) (fun f => filter (fun n => existsb (eqb f) (calleesAt p n)) (nodes p))
      (fun f => match entry p f with Some sp => [sp] | None => [] end)
      (fun f => filter (fun n => eqb (fnOf p n) f && match code p n with IRet _ => true | _ => false end) (nodes p))
      (succs p).
End Mono.
