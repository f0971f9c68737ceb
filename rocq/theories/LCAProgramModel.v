(** Model of the analysis problem
    /repo/lib/PhasarLLVM/DataFlow/IfdsIde/Problems/IDELinearConstantAnalysis.cpp
    ("LCA.cpp"): flow functions, edge functions and seeds, for programs in a
    small LLVM-like IR.  The solver is IDESolverModel.v, the shared flow
    functions LLVMFlowFunctionsModel.v, the shared edge functions
    EdgeFunctionModel.v, the edge functions BinOp and GenConstant LCAModel.v.

    Simplifications: an instruction the analysis does not look at is [IOther];
    types only appear as the answers the analysis gets (isIntegerTy, isPointerTy);
    logging and the text report (LCA.cpp:601-end) are left out. *)
From Coq Require Import List Bool ZArith Arith.
From Verif Require Import Assoc LatticeModel LCAModel IDESolverModel EdgeFunctionModel LLVMFlowFunctionsModel.
Import ListNotations.

(** llvm::Value: an instruction, the i-th formal parameter, a global variable *)
Inductive var (N F : Type) := VInst (n : N) | VArg (f : F) (i : nat) | VGlob (g : nat).
Arguments VInst {N F}. Arguments VArg {N F}. Arguments VGlob {N F}.
#[global] Instance EqDec_var (N F : Type) (EN : EqDec N) (EF : EqDec F) : EqDec (var N F).
Proof.
  intros [n|f i|g] [n'|f' i'|g']; try (right; discriminate).
  - destruct (EN n n') as [->|H]; [now left|right; congruence].
  - destruct (EF f f') as [->|H]; [|right; congruence]. destruct (Nat.eq_dec i i') as [->|H]; [now left|right; congruence].
  - destruct (Nat.eq_dec g g') as [->|H]; [now left|right; congruence].
Defined.

(** Operands and data-flow facts alike: the zero value, a ConstantInt, or a [var] *)
Definition value (N F : Type) := fact (var N F).

(** [int] answers the type test the analysis makes for the instruction.
    [IStore v p b]: b is p without pointer casts.  [IBinIntrin]: a call of a
    BinaryOpIntrinsic, the declared function f.  [IExtract agg i]: extractvalue
    of element i, [bin]: agg is a BinaryOpIntrinsic *)
Inductive instr (N F : Type) :=
| IAlloca (int : bool)
| IStore (v p b : value N F) (int : bool)
| ILoad (p : value N F) (int : bool)
| IGep (p : value N F) (int : bool)
| IBin (w : Z) (nsw : bool) (op : opcode) (l r : value N F)
| IBinIntrin (w : Z) (op : opcode) (l r : value N F) (f : F)
| IExtract (agg : value N F) (i : nat) (bin int : bool)
| ICall (fs : list F) (args : list (value N F))
| IRet (v : option (value N F))
| IOther.
Arguments IAlloca {N F}. Arguments IStore {N F}. Arguments ILoad {N F}. Arguments IGep {N F}.
Arguments IBin {N F}. Arguments IBinIntrin {N F}. Arguments IExtract {N F}. Arguments ICall {N F}.
Arguments IRet {N F}. Arguments IOther {N F}.

(** [entry f = None]: f is a declaration.  [inits]: the global variables with a
    ConstantInt initializer and its getSExtValue *)
Record prog (N F : Type) := mkProg {
  code : N -> instr N F; succs : N -> list N; fnOf : N -> F; entry : F -> option N;
  nparams : F -> nat; sret : F -> bool; vararg : F -> bool; valists : F -> list (value N F);
  isPtr : var N F -> bool; inits : list (nat * Z); nodes : list N }.
Arguments mkProg {N F}. Arguments code {N F}. Arguments succs {N F}. Arguments fnOf {N F}.
Arguments entry {N F}. Arguments nparams {N F}. Arguments sret {N F}. Arguments vararg {N F}.
Arguments valists {N F}. Arguments isPtr {N F}. Arguments inits {N F}. Arguments nodes {N F}.

(** the BinOps of the edge functions the analysis makes: exactly the operand that is
    not a ConstantInt is the current fact (the zero value if both are).  All others
    end in report_fatal_error *)
Definition linear {V} {EV : EqDec V} (b : binOp V) : bool :=
  match sext (bL b), sext (bR b) with
  | Some _, Some _ => eqb (bCur b) Zero
  | None, Some _ => eqb (bL b) (bCur b) && negb (eqb (bCur b) Zero)
  | Some _, None => eqb (bR b) (bCur b) && negb (eqb (bCur b) Zero)
  | None, None => false
  end.

Section LCA.
  Context {N F : Type} {EN : EqDec N} {EF : EqDec F}.
  Local Notation value := (value N F).
  Local Notation var := (var N F).
  (** IsSOOCandidate of the ConstantEdgeFunction *)
  Variable soo : bool.
  Variable p : prog N F.

  (** *** edge functions *)
  Definition binop := { b : binOp var | linear b = true }.
  Definition lop : lops lval := mkLops lval (ldJoin Z.eqb) LTop LBot (ldEqb Z.eqb).
  (** undefined behaviour and report_fatal_error become bottom here *)
  Definition runBin (b : binOp var) (x : lval) : lval :=
    match computeTarget b x with Ok l => l | UB | Fatal => LBot end.
  Definition eqBin (a b : binop) : bool := binOpEqb (proj1_sig a) (proj1_sig b).
  (** the client as far as defaultComposeOrNull and defaultJoinOrNull look at it *)
  Definition lclient0 : clientops lval binop :=
    mkClient lval binop (fun b x => runBin (proj1_sig b) x) (fun _ => false) eqBin
             (fun b _ => EUser b) (fun b _ => EUser b) (fun a b _ => EComp a b).
  (** the order of edge functions; only JoinEdgeFunction looks at it, which does not
      occur, see [occurs] *)
  Definition anyLt (_ : nat) (f g : ef lval binop) : bool := negb (efEqb lop lclient0 f g).
  (** BinOp::compose and join, LCA.cpp:223-242; LCAEdgeFunctionComposer::join, 62-68 *)
  Definition lclient : clientops lval binop :=
    mkClient lval binop
      (fun b x => runBin (proj1_sig b) x) (fun _ => false) eqBin
      (fun b g => match defaultComposeOrNull lclient0 (EUser b) g with Some h => h | None => EComp (EUser b) g end)
      (fun b g => match defaultJoinOrNull lop lclient0 anyLt 0 (EUser b) g with Some h => h | None => EBot end)
      (fun a b g => match defaultJoinOrNull lop lclient0 anyLt 0 (EComp a b) g with Some h => h | None => EBot end).

  (** The edge functions that occur: composers start with a BinOp, there is no
      JoinEdgeFunction.  (GenConstant, LCA.cpp:77, is ConstantEdgeFunction under
      another name; operator== distinguishes the two classes, the model does not.) *)
  Fixpoint occurs (f : ef lval binop) : bool :=
    match f with
    | EJoin _ _ _ | EJComp _ _ _ => false
    | EComp (EUser _) g => occurs g
    | EComp _ _ => false
    | _ => true
    end.
  Definition ledge := { f : ef lval binop | occurs f = true }.

  Lemma defaultCompose_occurs C f g h : defaultComposeOrNull C f g = Some h -> occurs f = true -> occurs g = true -> occurs h = true.
  Proof. unfold defaultComposeOrNull. destruct g; cbn; try discriminate; try (intros [= <-]; auto; fail). destruct (uconst C u); [intros [= <-]|]; auto; discriminate. Qed.
  Lemma compose_occurs f : forall g, occurs f = true -> occurs g = true -> occurs (compose lop lclient soo f g) = true.
  Proof.
    induction f as [| | |v|n s vec|n f1 IH1 f2 IH2|f1 IH1 f2 IH2|u]; intros g Hf Hg; try discriminate Hf; cbn [compose].
    - exact Hg.
    - destruct (isConstant lclient g); auto.
    - destruct g; auto.
    - destruct (defaultComposeOrNull lclient (EConst v) g) as [h|] eqn:E; [eapply defaultCompose_occurs; eauto|].
      destruct (negb soo && _); auto. unfold constOf. destruct (leqb lop _ _); auto. destruct (leqb lop _ _); auto.
    - destruct (defaultComposeOrNull lclient (EComp f1 f2) g) as [h|] eqn:E; [eapply defaultCompose_occurs; eauto|].
      destruct f1; try discriminate Hf. cbn [compose ucompose lclient].
      assert (H : occurs (compose lop lclient soo f2 g) = true) by auto.
      destruct (defaultComposeOrNull lclient0 _ _) as [h|] eqn:E2; [eapply defaultCompose_occurs; eauto|auto].
    - cbn [ucompose lclient]. destruct (defaultComposeOrNull lclient0 _ _) as [h|] eqn:E2; [eapply defaultCompose_occurs; eauto|auto].
  Qed.
  Lemma defaultJoin_occurs C l f g h : defaultJoinOrNull lop C l 0 f g = Some h -> occurs f = true -> occurs g = true -> occurs h = true.
  Proof.
    unfold defaultJoinOrNull. destruct g; try (intros [= <-]; auto; fail); destruct (efEqb lop C _ f); try discriminate; intros [= <-]; auto.
  Qed.
  Lemma join_occurs f g : occurs f = true -> occurs g = true -> occurs (join lop lclient soo anyLt f g) = true.
  Proof.
    assert (JO : forall a b, occurs a = true -> occurs b = true -> occurs (joinOpaque lop lclient anyLt a b) = true).
    { intros a b Ha Hb. destruct a; try discriminate Ha; auto; cbn [joinOpaque cjoin ujoin lclient];
        destruct (defaultJoinOrNull _ _ _ _ _ _) as [h|] eqn:E; auto; eapply defaultJoin_occurs; eauto. }
    assert (JC : forall v b, occurs b = true -> occurs (joinConst lop lclient soo anyLt v b) = true).
    { intros v b Hb. unfold joinConst. destruct (defaultJoinOrNull _ _ _ _ _ _) as [h|] eqn:E; [eapply defaultJoin_occurs; eauto|].
      destruct (negb (isConstant lclient b)); [apply JO; auto|]. destruct (leqb lop _ _); auto.
      destruct (_ && _); auto. destruct (_ && _); auto. }
    intros Hf Hg. destruct f; try discriminate Hf; cbn [join]; auto.
    destruct g; auto; try (apply JC; auto); apply JO; auto.
  Qed.

  Definition mk (f : ef lval binop) (H : occurs f = true) : ledge := exist _ f H.
  Definition idE : ledge := mk EId eq_refl.
  Definition botE : ledge := mk EBot eq_refl.
  Definition topE : ledge := mk ETop eq_refl.
  Definition genConstant (z : Z) : ledge := mk (EConst (LVal z)) eq_refl.
  Definition composeE (f g : ledge) : ledge := mk _ (compose_occurs (proj1_sig f) (proj1_sig g) (proj2_sig f) (proj2_sig g)).
  Definition joinE (f g : ledge) : ledge := mk _ (join_occurs (proj1_sig f) (proj1_sig g) (proj2_sig f) (proj2_sig g)).
  (** A BinOp object; [linear] is tested only to stay in [ledge], see
      C51_edges_are_linear *)
  Definition binE (op : opcode) (l r cur : value) : ledge :=
    let b := mkBinOp op l r cur in
    match bool_dec (linear b) true with
    | left H => mk (EUser (exist _ b H)) eq_refl
    | right _ => botE
    end.

  (** *** queries *)
  Definition isZero (d : value) : bool := match d with Zero => true | _ => false end.
  (** llvm::isa<llvm::Constant>; the zero value is a GlobalVariable *)
  Definition isConst (d : value) : bool := match d with Zero | Const _ _ | Val (VGlob _) => true | _ => false end.
  Definition isConstInt (d : value) : bool := match d with Const _ _ => true | _ => false end.
  Definition pointer (d : value) : bool := match d with Zero => true | Const _ _ => false | Val x => isPtr p x end.
  Definition decl (f : F) : bool := match entry p f with None => true | Some _ => false end.
  Definition sig (f : F) : callee value :=
    mkCallee (decl f) (map (fun i => Val (VArg f i)) (seq 0 (nparams p f))) (sret p f) (vararg p f) (valists p f).
  Definition calleesAt (n : N) : list F :=
    match code p n with ICall fs _ => fs | IBinIntrin _ _ _ _ f => [f] | _ => [] end.
  Definition argsAt (n : N) : list value :=
    match code p n with ICall _ args => args | IBinIntrin _ _ l r _ => [l; r] | _ => [] end.

  (** generateFlow / generateFlowIf / generateFromZero, FlowFunctions.h:
      the source fact survives *)
  Definition generateIf (gen : value) (pred : value -> bool) (d : value) : list value :=
    if pred d then [d; gen] else [d].
  (** LCA.cpp:338-343 and 450-455 *)
  Definition flowsIn (l r : value) (d : value) : bool :=
    eqb l d || eqb r d || (isZero d && isConstInt l && isConstInt r).

  (** getNormalFlowFunction, LCA.cpp:289-363 *)
  Definition normalFlow (n _ : N) (d : value) : list value :=
    match code p n with
    | IAlloca true => generateIf (Val (VInst n)) isZero d
    | IStore v q b int =>
        if isConstInt v then strongUpdateIf q b isZero d
        else if int then strongUpdate q b v d
        else [d]
    | IGep q true => generateIf (Val (VInst n)) (eqb q) d
    | ILoad q true => generateIf (Val (VInst n)) (fun d => eqb d q) d
    | IBin _ _ _ l r => generateIf (Val (VInst n)) (flowsIn l r) d
    | IExtract agg _ true true => generateIf (Val (VInst n)) (eqb agg) d
    | _ => [d]
    end.

  (** getCallFlowFunction, LCA.cpp:365-379.  A failed assertion of
      mapFactsToCallee yields no facts here *)
  Definition callFlow (n : N) (f : F) (d : value) : list value :=
    if decl f then [d]
    else match toCallee isZero isConst (fun v => v) (fun d => d)
                 (fun a s => eqb a s || (isZero s && isConstInt a)) true true (argsAt n) (sig f) d with
         | Some l => l
         | None => []
         end.

  (** the value returned by an exit instruction *)
  Definition retVal (e : N) : option value := match code p e with IRet v => v | _ => None end.

  (** getRetFlowFunction, LCA.cpp:381-394 *)
  Definition retFlow (c : N) (_ : F) (e _ : N) (d : value) : list value :=
    match toCaller isZero isConst (fun v => v)
            (fun a s => eqb a s && pointer a) (fun r s => eqb r s || (isZero s && isConstInt r)) true true (fun l => l)
            (argsAt c) (sig (fnOf p e)) (retVal e) (Val (VInst c)) d with
    | Some l => l
    | None => []
    end.

  (** getCallToRetFlowFunction, LCA.cpp:396-407 *)
  Definition ctrFlow (c _ : N) (d : value) : list value :=
    if forallb decl (calleesAt c) then [d]
    else alongside isZero isConst eqb (fun v => v) (fun a => negb (pointer a)) false (argsAt c) d.

  (** getSummaryFlowFunction, LCA.cpp:437-457 *)
  Definition sumFlow (c : N) (_ : F) : option (value -> list value) :=
    match code p c with
    | IBinIntrin _ _ l r _ => Some (generateIf (Val (VInst c)) (flowsIn l r))
    | _ => None
    end.

  (** LCA.cpp:514-517 and 591-594 *)
  Definition nonlinear (l r cur : value) : bool :=
    (eqb cur l && negb (isConstInt r)) || (eqb cur r && negb (isConstInt l)).

  (** getNormalEdgeFunction, LCA.cpp:472-527 *)
  Definition normalEdge (n : N) (d : value) (_ : N) (d' : value) : ledge :=
    if isZero d && isZero d' then idE
    else match code p n with
    | IAlloca _ => if isZero d then botE else idE
    | IStore v q b _ =>
        if eqb q d' || eqb b d' then
          match isZero d, sext v with
          | true, Some z => genConstant z
          | _, _ => idE
          end
        else idE
    | IBin _ _ op l r =>
        if eqb (Val (VInst n)) d' && negb (eqb d d') then
          if nonlinear l r d then botE else binE op l r d
        else idE
    | _ => idE
    end.

  (** getCallEdgeFunction, LCA.cpp:529-544.  (getArgOperand beyond the number of
      arguments is not defined; here identity) *)
  Definition callEdge (c : N) (d : value) (_ : F) (d' : value) : ledge :=
    match isZero d, d' with
    | true, Val (VArg _ i) =>
        match nth_error (argsAt c) i with
        | Some a => match sext a with Some z => genConstant z | None => idE end
        | None => idE
        end
    | _, _ => idE
    end.

  (** getReturnEdgeFunction, LCA.cpp:546-560.  (An exit that is not a ReturnInst
      fails the cast; here identity) *)
  Definition retEdge (_ : N) (_ : F) (e : N) (d : value) (_ : N) (d' : value) : ledge :=
    if isZero d && negb (isZero d') then
      match retVal e with
      | Some v => match sext v with Some z => genConstant z | None => idE end
      | None => idE
      end
    else idE.

  (** getSummaryEdgeFunction, LCA.cpp:568-599 *)
  Definition sumEdge (c : N) (d : value) (_ : N) (d' : value) : ledge :=
    match code p c with
    | IBinIntrin _ op l r _ =>
        if nonlinear l r d then botE
        else if eqb (Val (VInst c)) d' && negb (eqb d d') then binE op l r d
        else idE
    | _ => idE
    end.

  Definition lcaProblem : problem N F value lval ledge :=
    mkProblem normalFlow callFlow retFlow ctrFlow sumFlow
      normalEdge callEdge retEdge (fun _ _ _ _ => idE) sumEdge Zero
      (fun f => apply lop lclient (proj1_sig f)) composeE joinE
      (fun f g => efEqb lop lclient (proj1_sig f) (proj1_sig g)) topE idE LTop LBot (ldJoin Z.eqb) (ldEqb Z.eqb).

  (** initialSeeds, LCA.cpp:409-434, for one entry point *)
  Definition lcaSeeds (main : F) : @seeds N value lval :=
    match entry p main with
    | Some sp => [(sp, (Zero, LBot) :: map (fun gz => (Val (VGlob (fst gz)), LVal (snd gz))) (inits p))]
    | None => []
    end.

  (** The ICFG of the program (LLVMBasedICFG, LLVMBasedCFG): intrinsic calls are call
      sites, exits are the return instructions, return sites the successors *)
  Definition isCall (n : N) : bool := match code p n with ICall _ _ | IBinIntrin _ _ _ _ _ => true | _ => false end.
  Definition isStart (n : N) : bool := match entry p (fnOf p n) with Some sp => eqb sp n | None => false end.
  Definition lcaICFG : icfg N F :=
    mkICFG (succs p) isCall
      (fun n => match code p n with IRet _ => true | _ => false end)
      isStart
      (fun f => match entry p f with Some sp => [sp] | None => [] end)
      calleesAt (succs p)
      (fun f => filter (fun n => existsb (eqb f) (calleesAt n)) (nodes p))
      (fnOf p)
      (fun f => filter (fun n => isCall n && eqb (fnOf p n) f) (nodes p))
      (filter (fun n => negb (isCall n) && negb (isStart n)) (nodes p)).
End LCA.
