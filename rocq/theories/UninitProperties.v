(** C52: IFDSUninitializedVariables, from program to report.

    [runs p ext main (n, E, K, M, k)] (UninitSpec.v): an execution of main is about to
    run n with registers E, pending calls K and memory M; [usesUninit p n E M v]: n
    then loads from the variable v, which has no value, or computes with the
    uninitialised value of v.  [undefUses p T n]: what the analysis reports for n. *)
From Coq Require Import List Bool ZArith Arith Lia.
From Verif Require Import Assoc TableModel IDESolverModel IDESpec IFDSModel IFDSSpec IFDSProofs
  IRProgramModel IRProgramSpec IRProgramProofs IRProgramSim IRProgramExamples UninitModel UninitSpec UninitProofs.
Import ListNotations.

(** In a simple program every use of an uninitialised value is reported: the operand
    itself or, if the instruction also has an undef literal, that literal.
    _partial: only for [simple] programs (see the refutations below for what is
    missing). *)
Theorem C52_uninitialised_uses_are_reported_partial :
  forall (N F : Type) (EN : EqDec N) (EF : EqDec F) (p : prog N F) (main : F) st T n E K M k v,
    prog_wf p -> simple p ->
    solved (irICFG p) (uninitProblem p) false (bottomSeeds (uninitSeeds p main)) st T ->
    runs p extInit main (n, E, K, M, k) -> succs p n <> [] -> usesUninit p n E M v ->
    In v (undefUses p T n) \/ (In VUndef (operands p n) /\ In VUndef (undefUses p T n)).
Proof. intros N F EN EF p main st T n E K M k v WF SI. exact (uninit_reported p main WF SI st T n E K M k v). Qed.
Print Assumptions C52_uninitialised_uses_are_reported_partial.

(** The analysis ends on every program. *)
Theorem C52_terminates :
  forall (N F : Type) (EN : EqDec N) (EF : EqDec F) (p : prog N F) (main : F) (funs : list F) follow,
    prog_wf p -> (forall f, In f funs) ->
    exists fuel st T, solve (irICFG p) (uninitProblem p) follow fuel (bottomSeeds (uninitSeeds p main)) = Some (st, T).
Proof.
  intros N F EN EF p main funs follow WF FU.
  apply (ifds_terminates (irICFG p) (uninitFlows p) (uninitSeeds p main) (nodes p) (irFacts p funs) follow (ir_icfg_wf p WF) (pw_nodes p WF)).
  apply uninit_facts; auto. apply (pw_nodes p WF).
Qed.
Print Assumptions C52_terminates.

Local Notation V n := (VInst n).
Local Notation C z := (VConst z).
Definition analysed (p : prog nd fd) (P : table nd (value nd fd) bdom -> Prop) : Prop :=
  exists fuel st T, solve (irICFG p) (uninitProblem p) false fuel (bottomSeeds (uninitSeeds p Main)) = Some (st, T) /\ P T.
Lemma analyse p P :
  match solve (irICFG p) (uninitProblem p) false 500 (bottomSeeds (uninitSeeds p Main)) with Some (_, T) => P T | None => False end ->
  analysed p P.
Proof. intros H. unfold analysed. exists 500. destruct (solve _ _ _ _ _) as [[st T]|]; [eauto|destruct H]. Qed.
(** an execution uses the uninitialised v at n, and nothing is reported there *)
Definition missed (p : prog nd fd) ext (n : nd) (v : value nd fd) : Prop :=
  prog_wf p /\ (exists E K M k, runs p ext Main (n, E, K, M, k) /\ usesUninit p n E M v) /\
  succs p n <> [] /\ analysed p (fun T => undefUses p T n = []).
Ltac found H := eexists _, _, _, _; split; [exact H|split; [cbn; auto|cbn; eauto 8]].
Ltac begin H p := start H p true true true (@extInit nd fd).

(** int x; ext(&x); x + 1: the fact of x is deleted at the call, although ext need
    not write x *)
Definition extProg := straight
  (fun n => match n with I0 => IAlloca true | I1 => ICall true [Ext] [V I0] | I2 => ILoad (V I0) | _ => IOp [] end)
  (fun _ => 1) (fun x => match x with VInst I0 | VArg _ _ => true | _ => false end).
Theorem C52_external_call_refuted : missed extProg extPure I2 (V I0).
Proof.
  split; [wf|]. split; [|split; [discriminate|apply analyse; vm_compute; reflexivity]].
  start H extProg true true true (@extPure nd fd). alloca H extProg I0 I1.
  eapply ex_step in H; [|eapply (st_extern extProg _ _ _ _ I1 I2) with (x := (PInt 0, false)); [reflexivity|cbn; auto|reflexivity|cbn; auto|repeat constructor|split; reflexivity]].
  found H.
Qed.
Print Assumptions C52_external_call_refuted.

(** int x; fp(&x); x + 1 with a function that does not touch its parameter: only the
    parameters of getCalledFunction() are mapped back *)
Definition indirectProg (direct : bool) := straight
  (fun n => match n with I0 => IAlloca true | I1 => ICall direct [Fun] [V I0] | I2 => ILoad (V I0)
    | I12 => IOp [] | I13 => IRet (Some (C 0)) | _ => IOp [] end)
  (fun f => match f with Fun => 1 | _ => 0 end) (fun x => match x with VInst I0 | VArg _ _ => true | _ => false end).
Theorem C52_indirect_call_refuted :
  missed (indirectProg false) extInit I2 (V I0) /\
  analysed (indirectProg true) (fun T => In (V I0) (undefUses (indirectProg true) T I2)).
Proof.
  split; [|apply analyse; vm_compute; auto].
  split; [wf|]. split; [|split; [discriminate|apply analyse; vm_compute; reflexivity]].
  begin H (indirectProg false). alloca H (indirectProg false) I0 I1.
  call H (indirectProg false) I1 Fun [(PPtr (LMem 0), false)].
  op H (indirectProg false) I12 I13 0%Z.
  ret H (indirectProg false) I13 I2.
  found H.
Qed.
Print Assumptions C52_indirect_call_refuted.

(** int x; g = x; f(); where f reads the global g: only arguments are passed to the
    callee *)
Definition globalProg := straight
  (fun n => match n with I0 => IAlloca true | I1 => ILoad (V I0) | I2 => IStore (V I1) (VGlob 0) | I3 => ICall true [Fun] []
    | I12 => ILoad (VGlob 0) | I13 => IRet (Some (C 0)) | _ => IOp [] end)
  (fun _ => 0) (fun x => match x with VInst I0 | VGlob _ => true | _ => false end).
Theorem C52_global_refuted : missed globalProg extInit I12 (VGlob 0).
Proof.
  split; [wf|]. split; [|split; [discriminate|apply analyse; vm_compute; reflexivity]].
  begin H globalProg. alloca H globalProg I0 I1. load H globalProg I1 I2. store H globalProg I2 I3.
  call H globalProg I3 Fun (@nil cval).
  found H.
Qed.
Print Assumptions C52_global_refuted.

(** struct { int a; } s; s.a + 1: no fact for variables of struct type *)
Definition structProg := straight
  (fun n => match n with I0 => IAlloca false | I1 => ILoad (V I0) | _ => IOp [] end)
  (fun _ => 0) (fun x => match x with VInst I0 => true | _ => false end).
Theorem C52_struct_refuted : missed structProg extInit I1 (V I0).
Proof.
  split; [wf|]. split; [|split; [discriminate|apply analyse; vm_compute; reflexivity]].
  begin H structProg. alloca H structProg I0 I1.
  found H.
Qed.
Print Assumptions C52_struct_refuted.

(** undef crosses calls unseen: (a) f(undef) with f(a) = a + 1; (b) f() + 1 with
    f() = undef *)
Definition undefArgProg := straight
  (fun n => match n with I0 => ICall true [Fun] [VUndef] | I12 => IOp [VArg Fun 0; C 1] | I13 => IRet (Some (V I12)) | _ => IOp [] end)
  (fun f => match f with Fun => 1 | _ => 0 end) (fun _ => false).
Definition undefRetProg := straight
  (fun n => match n with I0 => ICall true [Fun] [] | I1 => IOp [V I0; C 1] | I12 => IRet (Some VUndef) | _ => IOp [] end)
  (fun _ => 0) (fun _ => false).
Theorem C52_undef_call_refuted : missed undefArgProg extInit I12 (VArg Fun 0) /\ missed undefRetProg extInit I1 (V I0).
Proof.
  split; (split; [wf|]; split; [|split; [discriminate|apply analyse; vm_compute; reflexivity]]).
  - begin H undefArgProg. call H undefArgProg I0 Fun [(PInt 0, true)]. found H.
  - begin H undefRetProg. call H undefRetProg I0 Fun (@nil cval). ret H undefRetProg I12 I1. found H.
Qed.
Print Assumptions C52_undef_call_refuted.

(** pointers: (a) int x = 1, *q = &x; *q = y; x + 1, y uninitialised;
    (b) f(&x, &x) with f(a, b) { *a = undef; *b + 1 } and x = 1 *)
Definition pointerProg := straight
  (fun n => match n with I0 => IAlloca true | I1 => IStore (C 1) (V I0) | I2 => IAlloca true | I3 => IStore (V I0) (V I2)
    | I4 => ILoad (V I2) | I5 => IStore VUndef (V I4) | I6 => ILoad (V I0) | _ => IOp [] end)
  (fun _ => 0) (fun x => match x with VInst I0 | VInst I2 | VInst I4 => true | _ => false end).
Definition aliasProg := straight
  (fun n => match n with I0 => IAlloca true | I1 => IStore (C 1) (V I0) | I2 => ICall true [Fun] [V I0; V I0]
    | I12 => IStore VUndef (VArg Fun 0) | I13 => ILoad (VArg Fun 1) | _ => IOp [] end)
  (fun f => match f with Fun => 2 | _ => 0 end) (fun x => match x with VInst I0 | VArg _ _ => true | _ => false end).
Theorem C52_pointers_refuted : missed pointerProg extInit I6 (V I0) /\ missed aliasProg extInit I13 (VArg Fun 1).
Proof.
  split; (split; [wf|]; split; [|split; [discriminate|apply analyse; vm_compute; reflexivity]]).
  - begin H pointerProg. alloca H pointerProg I0 I1. store H pointerProg I1 I2. alloca H pointerProg I2 I3.
    store H pointerProg I3 I4. load H pointerProg I4 I5. store H pointerProg I5 I6. found H.
  - begin H aliasProg. alloca H aliasProg I0 I1. store H aliasProg I1 I2.
    call H aliasProg I2 Fun [(PPtr (LMem 0), false); (PPtr (LMem 0), false)]. store H aliasProg I12 I13. found H.
Qed.
Print Assumptions C52_pointers_refuted.

(** int x, *q = &x; *q = 5; x + 1: storing the address of x makes q uninitialised, and
    the store through q does not initialise x.  Both loads are reported; no execution
    uses an uninitialised value there. *)
Definition alarmProg := straight
  (fun n => match n with I0 => IAlloca true | I1 => IAlloca true | I2 => IStore (V I0) (V I1) | I3 => ILoad (V I1)
    | I4 => IStore (C 5) (V I3) | I5 => ILoad (V I0) | _ => IOp [] end)
  (fun _ => 0) (fun x => match x with VInst I0 | VInst I1 | VInst I3 => true | _ => false end).
Definition alarmInv (s : @conf nd fd) : Prop :=
  let '(n, E, K, M, k) := s in
  let x := E (V I0) = Some (PPtr (LMem 0), false) in
  let q := E (V I1) = Some (PPtr (LMem 1), false) in
  match n with
  | I0 => k = 0
  | I1 => x /\ k = 1
  | I2 => x /\ q
  | I3 => x /\ q /\ M (LMem 1) = (PPtr (LMem 0), false)
  | I4 => x /\ E (V I3) = Some (PPtr (LMem 0), false)
  | I5 => x /\ M (LMem 0) = (PInt 5, false)
  | _ => True
  end.
Lemma alarm_inv s : runs alarmProg extInit Main s -> alarmInv s /\ snd (fst (fst s)) = [].
Proof.
  induction 1 as [sp E M Hs HE HM|s s' _ [IH IK] Hst].
  - injection Hs as <-. split; reflexivity.
  - destruct Hst as [n n' E K M k b u Hc Hn|n n' E K M k v q l m c Hc Hn Hq Hv|n n' E K M k q l m Hc Hn Hq|n n' E K M k c Hc Hn
      |n E K M k b fs args f sp E' cs Hc|n n' E K M k b fs args f cs x M' Hc|n n' E c f Ec K M k v x Hc|n n' E c f Ec K M k Hc];
      cbn in IK; try discriminate IK; subst; try (exfalso; destruct n; discriminate Hc); (split; [|reflexivity]);
      destruct n; cbn in Hc; try discriminate Hc; try (inversion Hc; fail); cbn in Hn; repeat destruct Hn as [<-|Hn]; try destruct Hn;
      cbn in IH |- *; auto; try (intuition (subst; auto); fail).
    + injection Hc as <- <-. cbn in Hq, Hv. destruct IH as [I1' I2']. rewrite I2' in Hq. rewrite I1' in Hv. injection Hq as <- <-. injection Hv as <-. auto.
    + injection Hc as <- <-. cbn in Hq, Hv. destruct IH as [I1' I2']. rewrite I2' in Hq. injection Hq as <- <-. injection Hv as <-. auto.
    + injection Hc as <-. cbn in Hq. destruct IH as (I1' & I2' & I3'). rewrite I2' in Hq. injection Hq as <- <-. rewrite I3'. auto.
Qed.
Theorem C52_false_alarms_refuted :
  prog_wf alarmProg /\
  analysed alarmProg (fun T => In (V I1) (undefUses alarmProg T I3) /\ In (V I0) (undefUses alarmProg T I5)) /\
  forall n E K M k v, n = I3 \/ n = I5 -> runs alarmProg extInit Main (n, E, K, M, k) -> ~ usesUninit alarmProg n E M v.
Proof.
  split; [wf|]. split; [apply analyse; vm_compute; auto|].
  intros n E K M k v Hn HR [Ho HU]. destruct (alarm_inv _ HR) as [HI _]. cbn in HI.
  destruct Hn as [->| ->]; cbn in Ho, HU; destruct Ho as [<-|[]]; cbn in HU.
  - destruct HI as (H1 & H2 & H3). rewrite H2 in HU. destruct HU as [[pl [=]]|(l & m & [= <- <-] & HU)]. now rewrite H3 in HU.
  - destruct HI as (H1 & H2). rewrite H1 in HU. destruct HU as [[pl [=]]|(l & m & [= <- <-] & HU)]. now rewrite H2 in HU.
Qed.
Print Assumptions C52_false_alarms_refuted.

(** A simple program: int x, y = 1; f(&x, &y); x + y; where f(a, b) does *b = *b in a
    loop *)
Definition goodProg := program
  (fun n => match n with I0 => IAlloca true | I1 => IAlloca true | I2 => IStore (C 1) (V I1) | I3 => ICall true [Fun] [V I0; V I1]
    | I4 => ILoad (V I0) | I5 => ILoad (V I1) | I6 => IOp [V I5; V I4] | I7 => IRet (Some (V I6))
    | I12 => ILoad (VArg Fun 1) | I13 => IStore (V I12) (VArg Fun 1) | I14 => IOp [] | I15 => IRet None | _ => IOp [] end)
  (fun n => match n with I7 => [] | I14 => [I13; I15] | _ => straightSuccs n end) (fun _ _ => false)
  (fun f => match f with Fun => 2 | _ => 0 end) (fun x => match x with VInst I0 | VInst I1 | VArg _ _ => true | _ => false end).
Example good_simple : prog_wf goodProg /\ simple goodProg.
Proof.
  split; [wf|]. intros []; cbn; auto; try discriminate.
  refine (conj _ (conj _ (conj _ _))).
  - intros f [<-|[]] _. split; [reflexivity|]. intros [|[|[|i]]] a [= <-]; split; auto; discriminate.
  - intros a [<-|[<-|[]]]; reflexivity.
  - intros [|[|[|i]]] [|[|[|j]]] a; cbn; congruence.
  - eauto.
Qed.
Example good_reports : analysed goodProg (fun T =>
  undefUses goodProg T I4 = [V I0] /\ undefUses goodProg T I5 = [] /\ undefUses goodProg T I6 = [V I4] /\ undefUses goodProg T I12 = []).
Proof. apply analyse. vm_compute. auto. Qed.
Example good_uses : exists E K M k, runs goodProg extInit Main (I6, E, K, M, k) /\ usesUninit goodProg I6 E M (V I4).
Proof.
  begin H goodProg. alloca H goodProg I0 I1. alloca H goodProg I1 I2. store H goodProg I2 I3.
  call H goodProg I3 Fun [(PPtr (LMem 0), false); (PPtr (LMem 1), false)].
  load H goodProg I12 I13. store H goodProg I13 I14. op H goodProg I14 I15 0%Z.
  eapply ex_step in H; [|eapply (st_retvoid goodProg _ _ _ _ I15 I4); [reflexivity|cbn; auto]].
  load H goodProg I4 I5. load H goodProg I5 I6. found H.
Qed.
