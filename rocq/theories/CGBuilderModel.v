(** Model of the call-graph construction
    (lib/PhasarLLVM/ControlFlow/LLVMBasedCallGraphBuilder.cpp:22-288).

    The module is [instrs]/[isDecl]; the resolver is a state [R] with
    [resolve] (Resolver::resolveIndirectCall, a function of the state),
    [handle] (handlePossibleTargets), [pre]/[post] (preCall/postCall) and [other] (otherInst).
    Simplifications: [handle] does not edit the target set it gets by reference (no resolver
    in the repository does); logging and counters are left out. [None] is a fatal error, a
    failed assertion or undefined behaviour of the call graph (CallGraphModel.v). *)
From Coq Require Import List Bool Arith.
From Verif Require Import Assoc CallGraphModel.
Import ListNotations.

(** what fillPossibleTargets finds out about the called operand (lines 109-129) *)
Inductive callee := Static (f : fn) | Asm | Indirect.
Inductive instr := OtherI (i : inst) | CallI (n : inst) (c : callee).

Section Builder.
  Context {R : Type}.
  Variable asserts : bool.
  Variable isDecl : fn -> bool.
  Variable instrs : fn -> list instr.
  Variable resolve : R -> inst -> list fn.
  Variable handle : R -> inst -> list fn -> R.
  Variables pre post other : R -> inst -> R.
  (** iteration order of the DenseMap IndirectCalls *)
  Variable order : list inst -> list inst.

  (** lines 24-51; the head of [wl] is the back of the SmallVector *)
  Record bst := mkB { bcg : cg; visited : list fn; wl : list fn; indirect : list (inst * nat); res : R }.

  (** lines 54-60 *)
  Definition initB (numFunctions : nat) (entry : list fn) (r : R) : bst :=
    mkB (reserve numFunctions emptyCG) [] (rev entry) [] r.

  (** lines 105-140: targets, "no dynamic call", IndirectCalls *)
  Definition fillPossibleTargets (r : R) (n : inst) (c : callee) (ind : list (inst * nat)) : list fn * bool * list (inst * nat) :=
    match c with
    | Static f => ([f], true, ind)
    | Asm => ([], true, ind)
    | Indirect => let ts := resolve r n in (ts, false, aset n (length ts) ind)
    end.

  (** lines 184-187 and 242-245 *)
  Definition addTarget (n : inst) (i : nat) (acc : option (cg * list fn)) (t : fn) : option (cg * list fn) :=
    match acc with
    | Some (s, w) => match addCallEdgeI asserts n i t s with Some s' => Some (s', t :: w) | None => None end
    | None => None
    end.
  Definition addTargets n i ts s w := fold_left (addTarget n i) ts (Some (s, w)).

  (** lines 161-189 *)
  Definition processInstr (acc : option (bool * bst)) (i : instr) : option (bool * bst) :=
    match acc with
    | None => None
    | Some (fp, st) =>
        match i with
        | OtherI i => Some (fp, mkB (bcg st) (visited st) (wl st) (indirect st) (other (res st) i))
        | CallI n c =>
            let r1 := pre (res st) n in
            let '(ts, b, ind) := fillPossibleTargets r1 n c (indirect st) in
            let r2 := handle r1 n ts in
            let '(v, s1) := addInstructionVertex n (bcg st) in
            match addTargets n v ts s1 (wl st) with
            | Some (s2, w) => Some (fp && b, mkB s2 (visited st) w ind (post r2 n))
            | None => None
            end
        end
    end.

  (** lines 142-192 *)
  Definition processFunction (f : fn) (st : bst) : option (bool * bst) :=
    if isDecl f || mem f (visited st) then Some (true, st)
    else match addFunctionVertex asserts f (bcg st) with
         | Some (_, s) => fold_left processInstr (instrs f) (Some (true, mkB s (f :: visited st) (wl st) (indirect st) (res st)))
         | None => None
         end.

  (** lines 194-248; the result is "found new targets" *)
  Definition constructDynamicCall (n : inst) (st : bst) : option (bool * bst) :=
    match getInstVertexOrNull n (bcg st) with
    | None => None
    | Some v =>
        let r1 := pre (res st) n in
        let ts := resolve r1 n in
        match afind n (indirect st) with
        | None => None
        | Some k =>
            if length ts <=? k then Some (false, mkB (bcg st) (visited st) (wl st) (indirect st) (post r1 n))
            else
              match nth_error (instOwner (bcg st)) v with
              | None => None
              | Some old =>
                  let new := filter (fun t => negb (mem t old)) ts in
                  let r2 := handle r1 n new in
                  match addTargets n v new (bcg st) (wl st) with
                  | Some (s, w) => Some (true, mkB s (visited st) w (aset n (length ts) (indirect st)) (post r2 n))
                  | None => None
                  end
              end
        end
    end.

  (** lines 74-77 *)
  Inductive outcome (A : Type) := Done (x : A) | Fail | OutOfFuel.
  Fixpoint drain (fuel : nat) (fp : bool) (st : bst) : outcome (bool * bst) :=
    match wl st with
    | [] => Done _ (fp, st)
    | f :: r =>
        match fuel with
        | 0 => OutOfFuel _
        | S k =>
            match processFunction f (mkB (bcg st) (visited st) r (indirect st) (res st)) with
            | Some (b, st') => drain k (fp && b) st'
            | None => Fail _
            end
        end
    end.

  (** lines 83-85 *)
  Definition dynStep (acc : option (bool * bst)) (n : inst) : option (bool * bst) :=
    match acc with
    | Some (fp, st) => match constructDynamicCall n st with Some (b, st') => Some (fp && negb b, st') | None => None end
    | None => None
    end.

  (** lines 72-87 *)
  Fixpoint buildLoop (fuel : nat) (requires : bool) (st : bst) : outcome bst :=
    match fuel with
    | 0 => OutOfFuel _
    | S k =>
        match drain fuel true st with
        | Done _ (fp, st1) =>
            match (if requires then fold_left dynStep (order (akeys (indirect st1))) (Some (fp, st1)) else Some (fp, st1)) with
            | Some (true, st2) => Done _ st2
            | Some (false, st2) => buildLoop k requires st2
            | None => Fail _
            end
        | Fail _ => Fail _
        | OutOfFuel _ => OutOfFuel _
        end
    end.

  (** lines 62-103, 251-272; [sound]: Soundness is not Unsound,
      [mutates]: Resolver::mutatesHelperAnalysisInformation *)
  Definition buildCallGraph (fuel : nat) (numFunctions : nat) (entry : list fn) (r : R) (sound mutates : bool) : outcome bst :=
    buildLoop fuel (sound && mutates) (initB numFunctions entry r).
End Builder.
