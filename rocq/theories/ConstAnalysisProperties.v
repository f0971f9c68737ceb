(** C66: IFDSConstAnalysis, from program to report.

    [runs p ext main c]: an execution of main gets to c; [later_ p ext c c']: and goes on
    to c'; [writes p memIntrin c l]: the statement about to run at c writes the location
    l; [pointsTo c x l]: x then holds the address l (ConstAnalysisSpec.v).  [order]: the
    order in which the solver asks for the flow functions of the statements. *)
From Coq Require Import List Bool ZArith Arith Lia Relations.
From Verif Require Import Assoc TableModel IDESolverModel IDESpec IFDSModel IFDSSpec IFDSProofs
  IRProgramModel IRProgramSpec IRProgramProofs IRProgramSim IRProgramExamples UninitProofs ConstAnalysisModel ConstAnalysisSpec ConstAnalysisProofs.
Import ListNotations.

(** A location that one execution writes by two statements is a fact at every statement
    behind one of the two, whatever the order of the requests. *)
Theorem C66_written_by_two_statements :
  forall (N F : Type) (EN : EqDec N) (EF : EqDec F) (p : prog N F) alias vtable memIntrin heapCall order main ext st T c0 c1 c2 x l,
    prog_wf p -> aliasSound p ext main alias ->
    solved (irICFG p) (constProblem p alias vtable memIntrin heapCall order) false (bottomSeeds (constSeeds p main)) st T ->
    (forall n, In n (nodes p) -> In n order) ->
    runs p ext main c0 -> later_ p ext c0 c1 -> later_ p ext c1 c2 ->
    pointsTo c0 x l -> memLoc p heapCall x ->
    writes p memIntrin c1 l -> writes p memIntrin c2 l -> stmt c1 <> stmt c2 ->
    vtable (stmt c1) = false -> vtable (stmt c2) = false ->
    exists n, (n = stmt c1 \/ n = stmt c2) /\
      forall n' m, In n' (succs p n) -> within p n' m -> In x (ifdsResultsAt T m).
Proof.
  intros N F EN EF p alias vtable memIntrin heapCall order main ext st T c0 c1 c2 x l WF AS SO OR R0 L01 L12 Px Mx W1 W2 Hne V1 V2.
  assert (R1 : runs p ext main c1).
  { clear - R0 L01. apply clos_rt_rtn1 in L01. induction L01; auto. eapply ex_step; eauto. }
  destruct (two_writes p alias vtable memIntrin heapCall order main ext c1 c2 c0 x l AS (OR _ (pw_nodes p WF _)) (OR _ (pw_nodes p WF _)) Hne R1 L12 W1 W2 V1 V2 R0 L01 Px Mx)
    as (n & Hn & H).
  exists n. split; auto. intros n' m Hs Hw. destruct (H n' m Hs Hw) as [stk V]. eapply const_covers; eauto.
Qed.
Print Assumptions C66_written_by_two_statements.

(** So the report would not list it, were AllMemLocs filled, if both statements can
    reach the end of their functions. *)
Theorem C66_written_by_two_statements_is_not_listed :
  forall (N F : Type) (EN : EqDec N) (EF : EqDec F) (p : prog N F) alias vtable memIntrin heapCall order main ext st T c0 c1 c2 x l funs locs,
    prog_wf p -> aliasSound p ext main alias ->
    solved (irICFG p) (constProblem p alias vtable memIntrin heapCall order) false (bottomSeeds (constSeeds p main)) st T ->
    (forall n, In n (nodes p) -> In n order) -> (forall f, In f funs) ->
    runs p ext main c0 -> later_ p ext c0 c1 -> later_ p ext c1 c2 ->
    pointsTo c0 x l -> memLoc p heapCall x ->
    writes p memIntrin c1 l -> writes p memIntrin c2 l -> stmt c1 <> stmt c2 ->
    vtable (stmt c1) = false -> vtable (stmt c2) = false ->
    (forall n, n = stmt c1 \/ n = stmt c2 -> exists n' e v, In n' (succs p n) /\ within p n' e /\ code p e = IRet v) ->
    ~ In x (immutable p heapCall T funs locs).
Proof.
  intros N F EN EF p alias vtable memIntrin heapCall order main ext st T c0 c1 c2 x l funs locs WF AS SO OR FU R0 L01 L12 Px Mx W1 W2 Hne V1 V2 EX.
  destruct (C66_written_by_two_statements N F EN EF p alias vtable memIntrin heapCall order main ext st T c0 c1 c2 x l WF AS SO OR R0 L01 L12 Px Mx W1 W2 Hne V1 V2)
    as (n & Hn & H).
  destruct (EX n Hn) as (n' & e & v & A & B & C).
  eapply immutable_gone with (f := fnOf p e) (e := e); auto.
  - apply filter_In. split; [apply (pw_nodes p WF)|]. rewrite C, eqb_refl. reflexivity.
  - eapply H; eauto.
Qed.
Print Assumptions C66_written_by_two_statements_is_not_listed.

(** A global variable is a fact behind every write to it. *)
Theorem C66_written_global :
  forall (N F : Type) (EN : EqDec N) (EF : EqDec F) (p : prog N F) alias vtable memIntrin heapCall order main ext st T c g n' m,
    prog_wf p -> aliasSound p ext main alias ->
    solved (irICFG p) (constProblem p alias vtable memIntrin heapCall order) false (bottomSeeds (constSeeds p main)) st T ->
    (forall n, In n (nodes p) -> In n order) ->
    runs p ext main c -> writes p memIntrin c (LGlob g) -> vtable (stmt c) = false ->
    In n' (succs p (stmt c)) -> within p n' m -> In (VGlob g) (ifdsResultsAt T m).
Proof.
  intros N F EN EF p alias vtable memIntrin heapCall order main ext st T c g n' m WF AS SO OR R Wr V Hs Hw.
  destruct (global_write p alias vtable memIntrin heapCall order main ext c g (VGlob g) _ AS (OR _ (pw_nodes p WF _)) R Wr V eq_refl eq_refl n' m Hs Hw) as [stk H].
  eapply const_covers; eauto.
Qed.
Print Assumptions C66_written_global.

(** A pointer parameter that a function writes twice: the argument is a fact at the
    return sites of the call. *)
Theorem C66_written_through_a_parameter :
  forall (N F : Type) (EN : EqDec N) (EF : EqDec F) (p : prog N F) alias vtable memIntrin heapCall order main ext st T
    n1 E1 n2 E2 c f Ec K M1 k1 M2 k2 i a l,
    prog_wf p -> aliasSound p ext main alias ->
    solved (irICFG p) (constProblem p alias vtable memIntrin heapCall order) false (bottomSeeds (constSeeds p main)) st T ->
    (forall n, In n (nodes p) -> In n order) ->
    let c1 := (n1, E1, (c, f, Ec) :: K, M1, k1) in let c2 := (n2, E2, (c, f, Ec) :: K, M2, k2) in
    runs p ext main c1 -> later_ p ext c1 c2 -> n1 <> n2 -> vtable n1 = false -> vtable n2 = false ->
    pointsTo c1 (VArg f i) l -> isPtr p (VArg f i) = true -> writes p memIntrin c1 l -> writes p memIntrin c2 l ->
    nth_error (argsAt p c) i = Some a -> length (argsAt p c) = nparams p f ->
    (forall n, n = n1 \/ n = n2 -> exists n' e v, In n' (succs p n) /\ within p n' e /\ code p e = IRet v) ->
    forall r, In r (succs p c) -> In a (ifdsResultsAt T r).
Proof.
  intros N F EN EF p alias vtable memIntrin heapCall order main ext st T n1 E1 n2 E2 c f Ec K M1 k1 M2 k2 i a l WF AS SO OR c1 c2
    R1 L12 Hne V1 V2 Px Hp W1 W2 Hi Ha EX r Hr.
  assert (R2 : runs p ext main c2).
  { clear - R1 L12. apply clos_rt_rtn1 in L12. induction L12; auto. eapply ex_step; eauto. }
  pose proof (runs_inFun p alias vtable memIntrin heapCall order main WF ext c1 R1) as [F1 _].
  pose proof (runs_inFun p alias vtable memIntrin heapCall order main WF ext c2 R2) as [F2 _].
  destruct (two_writes_valid p alias vtable memIntrin heapCall order main ext c1 c2 c1 (VArg f i) l AS (OR _ (pw_nodes p WF _)) (OR _ (pw_nodes p WF _)) Hne R1 L12 W1 W2 V1 V2 R1 (rt_refl _ _ _) Px) as (c' & Hc & H).
  - cbn [relevant stmt fst snd] in *. rewrite F1. apply eqb_refl.
  - cbn [relevant stmt fst snd] in *. rewrite F2. apply eqb_refl.
  - assert (X : exists n' e v, In n' (succs p (stmt c')) /\ within p n' e /\ code p e = IRet v) by (destruct Hc as [->| ->]; apply EX; auto).
    destruct X as (n' & e & v & A & B & D). specialize (H _ _ A B).
    assert (HS : stkOf (snd (fst (fst c'))) = (c, f) :: stkOf K) by (destruct Hc as [->| ->]; reflexivity). rewrite HS in H.
    pose proof (valid_inFun p _ _ WF _ _ _ H) as [Fe _].
    eapply const_covers; [exact WF|exact SO|]. eapply v_ret; [exact H|cbn; unfold isCall; now rewrite D|cbn; now rewrite D|exact Hr|].
    apply zeroed_In. apply ret_param with (i := i); auto.
Qed.
Print Assumptions C66_written_through_a_parameter.

(** The other direction: what is a fact where a function is called is one of the
    parameter in the function, except for the sret parameter. *)
Theorem C66_passed_to_callee :
  forall (N F : Type) (EN : EqDec N) (EF : EqDec F) (p : prog N F) alias vtable memIntrin heapCall order main st T c a f i sp m,
    prog_wf p ->
    solved (irICFG p) (constProblem p alias vtable memIntrin heapCall order) false (bottomSeeds (constSeeds p main)) st T ->
    In a (ifdsResultsAt T c) -> isPtr p a = true -> In f (calleesAt p c) -> memIntrin c = false -> entry p f = Some sp ->
    nth_error (argsAt p c) i = Some a -> length (argsAt p c) = nparams p f -> (i = 0 -> sret p f = false) ->
    within p sp m -> In (VArg f i) (ifdsResultsAt T m).
Proof.
  intros N F EN EF p alias vtable memIntrin heapCall order main st T c a f i sp m WF SO Hd Hp Hf Hm He Hi Hl Hs Hw.
  eapply ifds_exact_results in Hd; [|apply ir_icfg_wf; exact WF|apply ir_single_start| |
    |exact SO].
  - destruct Hd as [stk V]. eapply const_covers; [exact WF|exact SO|]. eapply valid_within; [exact Hw|].
    eapply v_call; [exact V|cbn; unfold isCall, calleesAt in *; destruct (code p c); auto; destruct Hf|exact Hf|reflexivity|cbn; rewrite He; now left|].
    apply zeroed_In. apply call_param; auto; [congruence|]. intros ->. apply (pw_nozero p WF c).
    apply nth_error_In in Hi. unfold operands, argsAt in *. destruct (code p c); auto; destruct Hi.
  - intros c' f' sf X. discriminate X.
  - intros n ds X. unfold constSeeds in X. destruct (entry p main) as [sp'|] eqn:E; [|destruct X].
    destruct X as [[= <- _]|[]]. apply ir_isStart. now rewrite (pw_entry p WF _ _ E).
Qed.
Print Assumptions C66_passed_to_callee.

(** Facts need two writes: if no write has a global variable among its aliases and no
    two have common ones, only zero holds. *)
Theorem C66_single_writes_are_no_facts :
  forall (N F : Type) (EN : EqDec N) (EF : EqDec F) (p : prog N F) alias vtable memIntrin heapCall order main st T,
    prog_wf p -> (forall f, ~ In VZero (valists p f)) ->
    solved (irICFG p) (constProblem p alias vtable memIntrin heapCall order) false (bottomSeeds (constSeeds p main)) st T ->
    (forall n q g, writesTo p memIntrin n q -> ~ In (VGlob g) (alias q)) ->
    (forall n1 n2 q1 q2, writesTo p memIntrin n1 q1 -> writesTo p memIntrin n2 q2 -> In q1 (alias q2) -> n1 = n2) ->
    forall m d, In d (ifdsResultsAt T m) -> d = VZero.
Proof.
  intros N F EN EF p alias vtable memIntrin heapCall order main st T WF NV SO NG ONE m d H.
  eapply ifds_exact_results in H; [|apply ir_icfg_wf; exact WF|apply ir_single_start| |
    |exact SO].
  - destruct H as [stk V]. eapply onlyZero in V; eauto.
  - intros c f sf X. discriminate X.
  - intros n ds X. unfold constSeeds in X. destruct (entry p main) as [sp|] eqn:E; [|destruct X].
    destruct X as [[= <- _]|[]]. apply ir_isStart. now rewrite (pw_entry p WF _ _ E).
Qed.
Print Assumptions C66_single_writes_are_no_facts.

(** The analysis ends on every program. *)
Theorem C66_terminates :
  forall (N F : Type) (EN : EqDec N) (EF : EqDec F) (p : prog N F) alias vtable memIntrin heapCall order main (funs : list F) follow,
    prog_wf p -> (forall f, In f funs) ->
    exists fuel st T, solve (irICFG p) (constProblem p alias vtable memIntrin heapCall order) follow fuel (bottomSeeds (constSeeds p main)) = Some (st, T).
Proof.
  intros N F EN EF p alias vtable memIntrin heapCall order main funs follow WF FU.
  apply (ifds_terminates (irICFG p) (constFlows p alias vtable memIntrin heapCall order) (constSeeds p main) (nodes p)
    (constFacts p alias vtable memIntrin heapCall funs) follow (ir_icfg_wf p WF) (pw_nodes p WF)).
  apply const_facts; auto.
Qed.
Print Assumptions C66_terminates.

(** ** Examples *)
Local Notation V n := (VInst n).
Local Notation C z := (VConst z).
Definition no (n : nd) : bool := false.
(** every pointer is its only alias *)
Definition self (v : value nd fd) : list (value nd fd) := [v].
Definition cprob p order := constProblem p self no no no order.
Definition analysed (p : prog nd fd) order (P : table nd (value nd fd) bdom -> Prop) : Prop :=
  exists fuel st T, solve (irICFG p) (cprob p order) false fuel (bottomSeeds (constSeeds p Main)) = Some (st, T) /\ P T.
Lemma analyse p order P :
  match solve (irICFG p) (cprob p order) false 500 (bottomSeeds (constSeeds p Main)) with Some (_, T) => P T | None => False end ->
  analysed p order P.
Proof. intros H. unfold analysed. exists 500. destruct (solve _ _ _ _ _) as [[st T]|]; [eauto|destruct H]. Qed.
Definition fds := [Main; Fun; Ext; Src; Snk].
(** what the report would be if AllMemLocs had the alloca I0 *)
Definition listed (p : prog nd fd) T := immutable p no T fds [V I0].
Definition noExt (n : nd) (f : fd) (cs : list cval) (M : mem) (x : cval) (M' : mem) : Prop := False.
Definition oneCell (cd : nd -> instr nd fd) sc := program cd sc (fun _ _ => false) (fun _ => 0)
  (fun x => match x with VInst I0 => true | _ => false end).

(** int x; x = 1; x = 2: the hypotheses hold *)
Definition twiceProg := oneCell
  (fun n => match n with I0 => IAlloca true | I1 => IStore (C 1) (V I0) | I2 => IStore (C 2) (V I0) | I3 => IRet None | _ => IOp [] end)
  (fun n => match n with I0 => [I1] | I1 => [I2] | I2 => [I3] | _ => [] end).
Definition cellE : @env nd fd := upd noE (V I0) (PPtr (LMem 0), false).

(** programs whose only pointers are those of the alloca I0 *)
Definition onePointer (p : prog nd fd) : Prop :=
  entry p Main = Some I0 /\
  forall n, match code p n with
    | IAlloca _ => n = I0
    | IStore v q => exists k, v = C k
    | IOp ops => ops = []
    | IRet None => True
    | _ => False
    end.
Lemma onePointer_env p c : onePointer p -> (forall n, ~ In I0 (succs p n)) -> runs p noExt Main c ->
  let '(n, E, K, M, k) := c in
  K = [] /\ (n = I0 -> k = 0) /\
  (forall x pl m, E x = Some (pl, m) -> (exists z, pl = PInt z) \/ (x = V I0 /\ pl = PPtr (LMem 0) /\ k <> 0)).
Proof.
  intros [HE HC] HN. unfold runs. induction 1 as [sp E M Hs HI _|c c' _ IH Hs].
  - split; [reflexivity|]. split; [reflexivity|]. intros x pl m H. apply HI in H as (i & z & A & -> & [= -> ->]). left. eauto.
  - destruct Hs; destruct IH as (HK & H0' & IH); pose proof (HC n) as X.
    + rewrite H in X. subst n. rewrite H0' in * by reflexivity. split; auto. split; [intros ->; now apply HN in H0|].
      intros x pl m. unfold upd. destruct (eq_dec (V I0) x) as [<-|ne]; [intros [= <- <-]; auto|].
      intros Y. apply IH in Y as [Y|(-> & _)]; [now left|congruence].
    + split; auto. split; [intros ->; now apply HN in H0|]. auto.
    + rewrite H in X. destruct X.
    + split; auto. split; [intros ->; now apply HN in H0|].
      intros x pl m. unfold upd. destruct (eq_dec (V n) x) as [<-|ne]; [|apply IH]. intros [= ->]. left.
      inversion H; subst; rewrite <- H1 in X; try contradiction; try now destruct X.
      all: subst ops; match goal with A : evals _ _ [] _ |- _ => inversion A; subst end.
      all: match goal with A : _ \/ In _ _ |- _ => destruct A as [A|[]]; exact A end.
    + rewrite H in X. destruct X.
    + destruct H4.
    + discriminate HK.
    + discriminate HK.
Qed.

Lemma onePointer_at p c x l : onePointer p -> (forall n, ~ In I0 (succs p n)) -> runs p noExt Main c -> pointsTo c x l ->
  (x = V I0 /\ l = LMem 0) \/ exists g, x = VGlob g /\ l = LGlob g.
Proof.
  intros O N R [m H]. destruct c as [[[[n E] K] M] k]. destruct (onePointer_env p _ O N R) as (_ & _ & X). cbn [fst snd] in H.
  destruct x; cbn in H; try discriminate.
  - apply X in H as [[z H]|(-> & [= ->] & _)]; [discriminate|auto].
  - apply X in H as [[z H]|(E' & _)]; discriminate.
  - injection H as <- <-. right. eauto.
Qed.
Lemma onePointer_sound p : onePointer p -> (forall n, ~ In I0 (succs p n)) -> aliasSound p noExt Main self.
Proof.
  intros O N c c' x y l R L P1 P2.
  assert (R' : runs p noExt Main c'). { clear - R L. apply clos_rt_rtn1 in L. induction L; auto. eapply ex_step; eauto. }
  pose proof (onePointer_at p _ _ _ O N R P1) as A. pose proof (onePointer_at p _ _ _ O N R' P2) as B.
  assert (E : x = y). { destruct A as [[-> ->]|(g & -> & ->)]; destruct B as [[-> B]|(g' & -> & B)]; congruence. }
  subst y. unfold self. cbn. auto.
Qed.
Ltac rstep := eapply rt_trans; [apply rt_step|].

Definition conf0 (n : nd) (M : mem) : @conf nd fd := (n, cellE, [], M, 1).
Definition M0 : mem := write zeroM (LMem 0) (PInt 0, false).
Lemma alloca_runs p : code p I0 = IAlloca true -> entry p Main = Some I0 -> In I1 (succs p I0) -> runs p noExt Main (conf0 I1 M0).
Proof.
  intros H E S. eapply ex_step; [|eapply st_alloca with (u := 0%Z); [exact H|exact S]].
  apply ex_start; [exact E|discriminate|intros g; exists 0%Z; reflexivity].
Qed.
Lemma store_step p n n' k M : code p n = IStore (C k) (V I0) -> In n' (succs p n) ->
  later_ p noExt (conf0 n M) (conf0 n' (write M (LMem 0) (PInt (Z.of_nat k), false))).
Proof. intros H S. apply rt_step. eapply st_store; [exact H|exact S|reflexivity|reflexivity]. Qed.
Lemma cell_writes p n k M : code p n = IStore (C k) (V I0) -> writes p no (conf0 n M) (LMem 0).
Proof. intros H. exists (V I0). split; [exists false; reflexivity|left; eauto]. Qed.

Example twice_hypotheses :
  prog_wf twiceProg /\ aliasSound twiceProg noExt Main self /\
  (exists c0 c1 c2, runs twiceProg noExt Main c0 /\ later_ twiceProg noExt c0 c1 /\ later_ twiceProg noExt c1 c2 /\
     pointsTo c0 (V I0) (LMem 0) /\ memLoc twiceProg no (V I0) /\
     writes twiceProg no c1 (LMem 0) /\ writes twiceProg no c2 (LMem 0) /\ stmt c1 <> stmt c2 /\
     (forall n, n = stmt c1 \/ n = stmt c2 -> exists n' e v, In n' (succs twiceProg n) /\ within twiceProg n' e /\ code twiceProg e = IRet v)) /\
  analysed twiceProg [I1; I2] (fun T => listed twiceProg T = []) /\ analysed twiceProg [I2; I1] (fun T => listed twiceProg T = []).
Proof.
  split; [wf|]. split; [apply onePointer_sound; [split; [reflexivity|intros []; cbn; eauto]|intros []; cbn; intuition discriminate]|].
  split; [|split; apply analyse; vm_compute; reflexivity].
  exists (conf0 I1 M0), (conf0 I1 M0), (conf0 I2 (write M0 (LMem 0) (PInt 1, false))).
  split; [apply alloca_runs; cbn; auto|]. split; [apply rt_refl|]. split; [exact (store_step twiceProg I1 I2 1 M0 eq_refl (or_introl eq_refl))|].
  split; [exists false; reflexivity|]. split; [left; exists I0; split; [reflexivity|left; exists true; reflexivity]|]. split; [exact (cell_writes twiceProg I1 1 _ eq_refl)|].
  split; [exact (cell_writes twiceProg I2 2 _ eq_refl)|]. split; [discriminate|].
  intros n [->| ->]; cbn.
  - exists I2, I3, None. split; [auto|]. split; [apply rt_step; cbn; auto|reflexivity].
  - exists I3, I3, None. split; [auto|]. split; [apply rt_refl|reflexivity].
Qed.

(** int x; do x = 1; while (...): one store, run again and again, is not seen *)
Definition loopProg := oneCell
  (fun n => match n with I0 => IAlloca true | I1 => IStore (C 1) (V I0) | I3 => IRet None | _ => IOp [] end)
  (fun n => match n with I0 => [I1] | I1 => [I2] | I2 => [I1; I3] | _ => [] end).
Theorem C66_written_in_a_loop_refuted :
  prog_wf loopProg /\ aliasSound loopProg noExt Main self /\
  (exists c1 c2 c', runs loopProg noExt Main c1 /\ step loopProg false false false noExt c1 c' /\ later_ loopProg noExt c' c2 /\
     writes loopProg no c1 (LMem 0) /\ writes loopProg no c2 (LMem 0) /\ pointsTo c1 (V I0) (LMem 0)) /\
  forall order, In order [[I1]; allNd] -> analysed loopProg order (fun T => listed loopProg T = [V I0] /\ forall n, ~ In (V I0) (ifdsResultsAt T n)).
Proof.
  split; [wf|]. split; [apply onePointer_sound; [split; [reflexivity|intros []; cbn; eauto]|intros []; cbn; intuition discriminate]|].
  split.
  - set (M1 := write M0 (LMem 0) (PInt 1, false)).
    exists (conf0 I1 M0), (I1, upd cellE (V I2) (PInt 0, false), [], M1, 1), (conf0 I2 M1).
    split; [apply alloca_runs; cbn; auto|].
    split; [eapply st_store; [reflexivity|cbn; auto|reflexivity|reflexivity]|].
    split; [apply rt_step; apply (st_compute loopProg false false false noExt I2 I1 cellE [] M1 1 (PInt 0, false)); [|cbn; auto]; exact (cp_op false false cellE [] [] (PInt 0) (Forall2_nil _) (or_introl (ex_intro _ 0%Z eq_refl)))|].
    split; [exact (cell_writes loopProg I1 1 _ eq_refl)|]. split; [|exists false; reflexivity].
    exists (V I0). split; [exists false; reflexivity|left; exists (C 1); reflexivity].
  - intros order [<-|[<-|[]]]; apply analyse; vm_compute; (split; [reflexivity|intros []; cbn; intuition discriminate]).
Qed.
Print Assumptions C66_written_in_a_loop_refuted.

(** int x; x = 1; if (...) \{ x = 2; abort(); \}: the fact is there only on the way to
    abort(), which is no exit statement *)
Definition abortProg := oneCell
  (fun n => match n with I0 => IAlloca true | I1 => IStore (C 1) (V I0) | I3 => IStore (C 2) (V I0) | I5 => IRet None | _ => IOp [] end)
  (fun n => match n with I0 => [I1] | I1 => [I2] | I2 => [I3; I5] | I3 => [I4] | _ => [] end).
Theorem C66_written_before_abort_refuted :
  prog_wf abortProg /\ aliasSound abortProg noExt Main self /\
  (exists c1 c2, runs abortProg noExt Main c1 /\ later_ abortProg noExt c1 c2 /\
     writes abortProg no c1 (LMem 0) /\ writes abortProg no c2 (LMem 0) /\ stmt c1 <> stmt c2 /\ pointsTo c1 (V I0) (LMem 0)) /\
  analysed abortProg [I1; I3] (fun T => listed abortProg T = [V I0] /\ In (V I0) (ifdsResultsAt T I4)).
Proof.
  split; [wf|]. split; [apply onePointer_sound; [split; [reflexivity|intros []; cbn; eauto]|intros []; cbn; intuition discriminate]|].
  split.
  - set (M1 := write M0 (LMem 0) (PInt 1, false)).
    exists (conf0 I1 M0), (I3, upd cellE (V I2) (PInt 0, false), [], M1, 1).
    split; [apply alloca_runs; cbn; auto|].
    split; [eapply rt_trans; [exact (store_step abortProg I1 I2 1 M0 eq_refl (or_introl eq_refl))|];
      apply rt_step; apply (st_compute abortProg false false false noExt I2 I3 cellE [] M1 1 (PInt 0, false)); [|cbn; auto]; exact (cp_op false false cellE [] [] (PInt 0) (Forall2_nil _) (or_introl (ex_intro _ 0%Z eq_refl)))|].
    split; [exact (cell_writes abortProg I1 1 _ eq_refl)|]. split; [|split; [discriminate|exists false; reflexivity]].
    exists (V I0). split; [exists false; reflexivity|left; exists (C 2); reflexivity].
  - apply analyse; vm_compute; auto 10.
Qed.
Print Assumptions C66_written_before_abort_refuted.

(** if (...) x = 1; else x = 2: no execution writes x twice, but x is a fact at the end;
    in which branch depends on the order of the requests *)
Definition branchProg := oneCell
  (fun n => match n with I0 => IAlloca true | I2 | I4 => IStore (C 1) (V I0) | I6 => IRet None | _ => IOp [] end)
  (fun n => match n with I0 => [I1] | I1 => [I2; I4] | I2 => [I3] | I3 => [I6] | I4 => [I5] | I5 => [I6] | _ => [] end).
Theorem C66_written_once_per_execution_refuted :
  ~ within branchProg I2 I4 /\ ~ within branchProg I4 I2 /\
  (forall n, In n [I2; I4] <-> exists v q, code branchProg n = IStore v q) /\
  analysed branchProg [I2; I4] (fun T => listed branchProg T = [] /\ In (V I0) (ifdsResultsAt T I6)) /\
  analysed branchProg [I4; I2] (fun T => listed branchProg T = [] /\ In (V I0) (ifdsResultsAt T I6)).
Proof.
  assert (A : forall n m, within branchProg n m -> (n = I2 \/ n = I3 \/ n = I6 -> m = I2 \/ m = I3 \/ m = I6) /\ (n = I4 \/ n = I5 \/ n = I6 -> m = I4 \/ m = I5 \/ m = I6)).
  { intros n m H. induction H as [n m H| |n m k _ [IH1 IH1'] _ [IH2 IH2']]; [|auto|auto].
    destruct n; cbn in H; intuition (subst; auto; try discriminate). }
  split; [intros H; apply A in H as [H _]; destruct H as [H|[H|H]]; auto; discriminate|].
  split; [intros H; apply A in H as [_ H]; destruct H as [H|[H|H]]; auto; discriminate|].
  split; [|split; apply analyse; vm_compute; auto 10].
  intros n. split; [intros [<-|[<-|[]]]; eexists _, _; reflexivity|]. intros (v & q & H). destruct n; try discriminate H; cbn; auto.
Qed.
Print Assumptions C66_written_once_per_execution_refuted.
Theorem C66_results_depend_on_the_order_refuted :
  analysed branchProg [I2; I4] (fun T => ~ In (V I0) (ifdsResultsAt T I3) /\ In (V I0) (ifdsResultsAt T I5)) /\
  analysed branchProg [I4; I2] (fun T => In (V I0) (ifdsResultsAt T I3) /\ ~ In (V I0) (ifdsResultsAt T I5)).
Proof. split; apply analyse; vm_compute; split; auto 10; intuition discriminate. Qed.
Print Assumptions C66_results_depend_on_the_order_refuted.

(** int x; x = 1; ext(&x), where ext writes its argument *)
Definition extWrites (n : nd) (f : fd) (cs : list cval) (M : mem) (x : cval) (M' : mem) : Prop :=
  exists l m, cs = [(PPtr l, m)] /\ x = (PInt 0, false) /\ M' = write M l (PInt 5, false).
Definition outProg := oneCell
  (fun n => match n with I0 => IAlloca true | I1 => IStore (C 1) (V I0) | I2 => ICall true [Ext] [V I0] | I3 => IRet None | _ => IOp [] end)
  (fun n => match n with I0 => [I1] | I1 => [I2] | I2 => [I3] | _ => [] end).
Theorem C66_written_by_a_library_function_refuted :
  prog_wf outProg /\
  (exists E M E' M', runs outProg extWrites Main (I2, E, [], M, 1) /\
     step outProg false false false extWrites (I2, E, [], M, 1) (I3, E', [], M', 1) /\
     pointsTo (I2, E, @nil (nd * fd * @env nd fd), M, 1) (V I0) (LMem 0) /\ M (LMem 0) = (PInt 1, false) /\ M' (LMem 0) = (PInt 5, false)) /\
  forall order, In order [[I1]; allNd] -> analysed outProg order (fun T => listed outProg T = [V I0]).
Proof.
  split; [wf|]. split.
  - exists cellE, (write M0 (LMem 0) (PInt 1, false)), (upd cellE (V I2) (PInt 0, false)), (write (write M0 (LMem 0) (PInt 1, false)) (LMem 0) (PInt 5, false)).
    split.
    { eapply ex_step; [eapply ex_step; [apply ex_start with (E := noE) (M := zeroM); [reflexivity|discriminate|intros g; exists 0%Z; reflexivity]|
        apply (st_alloca outProg false false false extWrites I0 I1 _ _ _ _ true 0%Z); cbn; auto]|].
      eapply (st_store outProg false false false extWrites I1 I2); [reflexivity|cbn; auto|reflexivity|reflexivity]. }
    split; [eapply (st_extern outProg false false false extWrites I2 I3); [reflexivity|cbn; auto|reflexivity|cbn; auto|repeat constructor|exists (LMem 0), false; auto]|].
    split; [exists false; reflexivity|split; reflexivity].
  - intros order [<-|[<-|[]]]; apply analyse; vm_compute; reflexivity.
Qed.
Print Assumptions C66_written_by_a_library_function_refuted.

(** int x; x = 1: the report has no location, as AllMemLocs is never filled *)
Definition onceProg := oneCell
  (fun n => match n with I0 => IAlloca true | I1 => IStore (C 1) (V I0) | I3 => IRet None | _ => IOp [] end)
  (fun n => match n with I0 => [I1] | I1 => [I2] | I2 => [I3] | _ => [] end).
Lemma report_empty (N F : Type) (EN : EqDec N) (EF : EqDec F) (p : prog N F) heapCall T funs : constReport p heapCall T funs = [].
Proof.
  destruct (constReport p heapCall T funs) as [|x l] eqn:E; auto. exfalso.
  assert (X : In x (constReport p heapCall T funs)) by (rewrite E; now left). now apply immutable_incl in X.
Qed.
Theorem C66_constants_are_reported_refuted :
  (forall (N F : Type) (EN : EqDec N) (EF : EqDec F) (p : prog N F) heapCall T funs, constReport p heapCall T funs = []) /\
  analysed onceProg [I1] (fun T => listed onceProg T = [V I0] /\ constReport onceProg no T fds = []).
Proof. split; [exact report_empty|apply analyse; vm_compute; auto]. Qed.
Print Assumptions C66_constants_are_reported_refuted.

(** the hypotheses of C66_single_writes_are_no_facts *)
Example once_hypotheses :
  prog_wf onceProg /\ (forall f, ~ In VZero (valists onceProg f)) /\
  (exists n q, writesTo onceProg no n q) /\
  (forall n q g, writesTo onceProg no n q -> ~ In (VGlob g) (self q)) /\
  (forall n1 n2 q1 q2, writesTo onceProg no n1 q1 -> writesTo onceProg no n2 q2 -> In q1 (self q2) -> n1 = n2).
Proof.
  split; [wf|]. split; [intros f []|]. split; [exists I1, (V I0); left; exists (C 1); reflexivity|].
  assert (X : forall n q, writesTo onceProg no n q -> n = I1 /\ q = V I0).
  { intros n q [[v H]|[H _]]; [|discriminate]. destruct n; try discriminate H. injection H as _ <-. auto. }
  split.
  - intros n q g H. apply X in H as [_ ->]. cbn. intuition discriminate.
  - intros n1 n2 q1 q2 H1 H2 _. apply X in H1 as [-> _]. apply X in H2 as [-> _]. reflexivity.
Qed.

(** g = 1 for a global variable g: the hypotheses of C66_written_global *)
Definition globProg := oneCell
  (fun n => match n with I0 => IAlloca true | I1 => IStore (C 1) (VGlob 0) | I2 => IRet None | _ => IOp [] end)
  (fun n => match n with I0 => [I1] | I1 => [I2] | _ => [] end).
Example glob_hypotheses :
  prog_wf globProg /\ aliasSound globProg noExt Main self /\
  (runs globProg noExt Main (conf0 I1 M0) /\ writes globProg no (conf0 I1 M0) (LGlob 0)) /\
  analysed globProg [I1] (fun T => immutable globProg no T fds [VGlob 0; V I0] = [V I0]).
Proof.
  split; [wf|]. split; [apply onePointer_sound; [split; [reflexivity|intros []; cbn; eauto]|intros []; cbn; intuition discriminate]|].
  split; [|apply analyse; vm_compute; reflexivity].
  split; [apply alloca_runs; cbn; auto|]. exists (VGlob 0). split; [exists false; reflexivity|left; exists (C 1); reflexivity].
Qed.

(** void f(int * q) \{ *q = 1; *q = 2; \}  int x; f(&x): the hypotheses of
    C66_written_through_a_parameter *)
Definition paramProg := program
  (fun n => match n with I0 => IAlloca true | I1 => ICall true [Fun] [V I0] | I2 => IRet None
    | I12 => IStore (C 1) (VArg Fun 0) | I13 => IStore (C 2) (VArg Fun 0) | I14 => IRet None | _ => IOp [] end)
  (fun n => match n with I0 => [I1] | I1 => [I2] | I12 => [I13] | I13 => [I14] | _ => [] end)
  (fun _ _ => false) (fun f => match f with Fun => 1 | _ => 0 end) (fun x => match x with VInst I0 | VArg _ _ => true | _ => false end).
Definition paramAlias (v : value nd fd) : list (value nd fd) := match v with VGlob g => [VGlob g] | _ => [V I0; VArg Fun 0] end.
Definition cellOnly (E : @env nd fd) : Prop :=
  forall x pl m, E x = Some (pl, m) -> (exists z, pl = PInt z) \/ (pl = PPtr (LMem 0) /\ (x = V I0 \/ x = VArg Fun 0)).
Lemma param_env c : runs paramProg noExt Main c ->
  let '(n, E, K, M, k) := c in (n = I0 -> k = 0) /\ cellOnly E /\ forall c f Ec, In (c, f, Ec) K -> cellOnly Ec /\ c = I1.
Proof.
  unfold runs. induction 1 as [sp E M Hs HI _|c c' _ IH Hs].
  - split; [reflexivity|]. split; [|intros c f Ec []]. intros x pl m H. apply HI in H as (i & z & A & -> & [= -> ->]). left. eauto.
  - destruct Hs; destruct IH as (H0' & IE & IK); cbn [code succs paramProg program] in *.
    + destruct n; try discriminate. rewrite H0' in * by reflexivity. destruct H0 as [<-|[]]. split; [discriminate|]. split; auto.
      intros x pl m. unfold upd. destruct (eq_dec (V I0) x) as [<-|ne]; [intros [= <- <-]; auto|]. apply IE.
    + split; [|auto]. destruct n; try discriminate; destruct H0 as [<-|[]]; discriminate.
    + destruct n; discriminate.
    + destruct n; cbn in H0; try contradiction; inversion H.
    + destruct n; try discriminate. injection H as <- <- <-. destruct H0 as [<-|[]]. cbn in H1. injection H1 as <-. split; [discriminate|]. split.
      * intros x pl m. rewrite H4. destruct x as [| | | |g i|]; try discriminate. destruct (eq_dec Fun g) as [<-|]; [|discriminate].
        inversion H3 as [|? ? ? ? A B]; subst. inversion B; subst. destruct i as [|[|i]]; cbn; try discriminate. intros [= ->]. cbn in A. apply IE in A as [A|[A _]]; auto.
      * intros c f Ec [[= <- <- <-]|X]; eauto.
    + destruct H4.
    + destruct n; discriminate.
    + destruct (IK c f Ec (or_introl eq_refl)) as [A ->]. split; [destruct H0 as [<-|[]]; discriminate|]. split; auto. intros c' f' E' X. apply (IK c' f' E'). now right.
Qed.
Lemma param_at c x l : runs paramProg noExt Main c -> pointsTo c x l ->
  (l = LMem 0 /\ (x = V I0 \/ x = VArg Fun 0)) \/ exists g, x = VGlob g /\ l = LGlob g.
Proof.
  intros R [m H]. destruct c as [[[[n E] K] M] k]. destruct (param_env _ R) as (_ & X & _). cbn [fst snd] in H.
  destruct x; cbn in H; try discriminate; try (apply X in H as [[z H]|([= ->] & H)]; [discriminate|auto]).
  injection H as <- <-. right. eauto.
Qed.
Lemma param_sound : aliasSound paramProg noExt Main paramAlias.
Proof.
  intros c c' x y l R L P1 P2.
  assert (R' : runs paramProg noExt Main c'). { clear - R L. apply clos_rt_rtn1 in L. induction L; auto. eapply ex_step; eauto. }
  destruct (param_at _ _ _ R P1) as [[-> A]|(g & -> & ->)]; destruct (param_at _ _ _ R' P2) as [[B B']|(g' & -> & B)]; try discriminate.
  - destruct A as [->| ->]; destruct B' as [->| ->]; cbn; auto.
  - injection B as <-. cbn. auto.
Qed.
Example param_hypotheses :
  prog_wf paramProg /\ aliasSound paramProg noExt Main paramAlias /\
  (exists E M1 M2, let c1 := (I12, E, [(I1, Fun, cellE)], M1, 1) in let c2 := (I13, E, [(I1, Fun, cellE)], M2, 1) in
     runs paramProg noExt Main c1 /\ later_ paramProg noExt c1 c2 /\
     pointsTo c1 (VArg Fun 0) (LMem 0) /\ writes paramProg no c1 (LMem 0) /\ writes paramProg no c2 (LMem 0)) /\
  (forall n, n = I12 \/ n = I13 -> exists n' e v, In n' (succs paramProg n) /\ within paramProg n' e /\ code paramProg e = IRet v) /\
  exists fuel st T, solve (irICFG paramProg) (constProblem paramProg paramAlias no no no [I13; I12]) false fuel (bottomSeeds (constSeeds paramProg Main)) = Some (st, T)
    /\ In (V I0) (ifdsResultsAt T I2).
Proof.
  split; [wf|]. split; [exact param_sound|]. split; [|split].
  - exists (callE Fun [(PPtr (LMem 0), false)]), M0, (write M0 (LMem 0) (PInt 1, false)). cbv zeta.
    split; [eapply ex_step; [apply alloca_runs; cbn; auto|]|].
    { eapply (st_call paramProg false false false noExt I1) with (f := Fun) (cs := [(PPtr (LMem 0), false)]);
        [reflexivity|cbn; auto|reflexivity|reflexivity|repeat constructor|reflexivity]. }
    split; [apply rt_step; eapply st_store; [reflexivity|cbn; auto|reflexivity|reflexivity]|].
    split; [exists false; reflexivity|].
    split; exists (VArg Fun 0); (split; [exists false; reflexivity|left; eexists; reflexivity]).
  - intros n [->| ->].
    + exists I13, I14, None. split; [cbn; auto|]. split; [apply rt_step; cbn; auto|reflexivity].
    + exists I14, I14, None. split; [cbn; auto|]. split; [apply rt_refl|reflexivity].
  - exists 500. match goal with |- exists st T, ?x = _ /\ _ => assert (X : match x with Some (_, T) => In (V I0) (ifdsResultsAt T I2) | None => False end) by (vm_compute; auto 10) end.
    destruct (solve _ _ _ _ _) as [[st T]|]; [eauto|destruct X].
Qed.

(** int x; x = 1; x = 2; f(&x): the hypotheses of C66_passed_to_callee *)
Definition passProg := program
  (fun n => match n with I0 => IAlloca true | I1 => IStore (C 1) (V I0) | I2 => IStore (C 2) (V I0) | I3 => ICall true [Fun] [V I0] | I4 => IRet None
    | I14 => IRet None | _ => IOp [] end)
  (fun n => match n with I0 => [I1] | I1 => [I2] | I2 => [I3] | I3 => [I4] | I12 => [I13] | I13 => [I14] | _ => [] end)
  (fun _ _ => false) (fun f => match f with Fun => 1 | _ => 0 end) (fun x => match x with VInst I0 | VArg _ _ => true | _ => false end).
Example pass_hypotheses :
  prog_wf passProg /\ In Fun (calleesAt passProg I3) /\ entry passProg Fun = Some I12 /\ nth_error (argsAt passProg I3) 0 = Some (V I0) /\
  within passProg I12 I13 /\
  analysed passProg [I1; I2] (fun T => In (V I0) (ifdsResultsAt T I3) /\ In (VArg Fun 0) (ifdsResultsAt T I13)).
Proof.
  split; [wf|]. split; [cbn; auto|]. split; [reflexivity|]. split; [reflexivity|]. split; [apply rt_step; cbn; auto|].
  apply analyse; vm_compute; auto 10.
Qed.
