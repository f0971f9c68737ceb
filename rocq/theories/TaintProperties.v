(** C53: IFDSTaintAnalysis, from program to report.

    [taintRuns p arith ext main tm (n, E, K, M, k)] (TaintSpec.v): an execution of main
    is about to run n with registers E, pending calls K and memory M, where tainted
    values are marked; [leaksAt p P f n E M v]: n then calls f and gives the tainted v,
    or the address v of a variable with tainted contents, to a sink of the policy P.
    [leaks p t T n]: what the analysis reports for n. *)
From Coq Require Import List Bool ZArith Arith Lia.
From Verif Require Import Assoc TableModel IDESolverModel IDESpec IFDSModel IFDSSpec IFDSProofs
  IRProgramModel IRProgramSpec IRProgramProofs IRProgramSim IRProgramExamples UninitSpec TaintModel TaintSpec TaintProofs.
Import ListNotations.

(** In a simple program every leak of copied data is reported, whatever the alias sets.
    _partial: only for [taintSimple] programs and taint that flows through copies (see
    the refutations below for what is missing). *)
Theorem C53_leaks_are_reported_partial :
  forall (N F : Type) (EN : EqDec N) (EF : EqDec F) (p : prog N F) (P : policy N F) (t : taintEnv N F) (main : F) tm st T f n E K M k v,
    prog_wf p -> taintSimple p P -> configured p P t ->
    solved (irICFG p) (taintProblem p t) false (bottomSeeds (taintSeeds p main tm)) st T ->
    taintRuns p false (extTaint p P) main tm (n, E, K, M, k) -> succs p n <> [] -> leaksAt p P f n E M v ->
    In v (leaks p t T n).
Proof. intros N F EN EF p P t main tm st T f n E K M k v WF SI CF. exact (taint_reported p P t main tm WF SI CF st T f n E K M k v). Qed.
Print Assumptions C53_leaks_are_reported_partial.

(** The analysis ends on every program with finitely many values. *)
Theorem C53_terminates :
  forall (N F : Type) (EN : EqDec N) (EF : EqDec F) (p : prog N F) (t : taintEnv N F) (main : F) tm (U : list (value N F)) follow,
    prog_wf p -> closedValues p t U ->
    exists fuel st T, solve (irICFG p) (taintProblem p t) follow fuel (bottomSeeds (taintSeeds p main tm)) = Some (st, T).
Proof.
  intros N F EN EF p t main tm U follow WF CV.
  apply (ifds_terminates (irICFG p) (taintFlows p t) (taintSeeds p main tm) (nodes p) U follow (ir_icfg_wf p WF) (pw_nodes p WF)).
  now apply taint_facts.
Qed.
Print Assumptions C53_terminates.

(** What may hold the same pointer as q and is known at n: an alias of q that is an
    earlier instruction or a parameter of the function, or a writable global; if it was
    loaded, also the place it was loaded from. *)
Definition visible {N F} (p : prog N F) (t : taintEnv N F) (n : N) (a : value N F) : Prop :=
  match a with
  | VInst m => fnOf p m = fnOf p n /\ later p n m = false
  | VArg f _ => f = fnOf p n
  | VGlob g => readOnly t g = false
  | _ => False
  end.
Definition mayAlias {N F} (p : prog N F) (t : taintEnv N F) (n : N) (q d : value N F) : Prop :=
  exists a, In a (aliases t q) /\ visible p t n a /\ (d = a \/ exists m x, a = VInst m /\ code p m = ILoad x /\ d = strip t x).
Lemma populate_spec {N F} {EN : EqDec N} {EF : EqDec F} (p : prog N F) (t : taintEnv N F) facts n d :
  In d (populate p t facts n) <-> In d facts \/ exists x, In x facts /\ mayAlias p t n x d.
Proof.
  assert (V : forall a, canSkip p a n || ctConst t a = false <-> visible p t n a).
  { intros [| |k|m|f i|g]; cbn; rewrite ?orb_true_r, ?orb_false_r; try (split; [discriminate|intros []]); try tauto.
    - rewrite orb_false_iff, negb_false_iff. rewrite Assoc.eqb_true. tauto.
    - rewrite negb_false_iff. rewrite Assoc.eqb_true. tauto. }
  unfold populate. rewrite in_app_iff, in_flat_map. split; (intros [H|H]; [auto|right]).
  - destruct H as (x & Hx & H). apply in_flat_map in H as (a & Ha & H). exists x. split; auto. exists a. split; auto.
    destruct (canSkip p a n || ctConst t a) eqn:E; [destruct H|]. apply V in E. split; auto.
    destruct a as [| |k|m|f i|g]; try (destruct H as [<-|[]]; auto; fail).
    destruct (code p m) eqn:Hm; try (destruct H as [<-|[]]; auto; fail). destruct H as [<-|[<-|[]]]; eauto 8.
  - destruct H as (x & Hx & a & Ha & Hv & H). exists x. split; auto. apply in_flat_map. exists a. split; auto.
    apply V in Hv. rewrite Hv. destruct H as [->|(m & y & -> & Hm & ->)].
    + destruct a as [| |k|m|f i|g]; try (now left). destruct (code p m); cbn; auto.
    + rewrite Hm. now left.
Qed.

(** A store overwrites its variable; a tainted stored value taints the variable and what
    may alias it, and stays a fact only if it is used elsewhere. *)
Theorem C53_store :
  forall (N F : Type) (EN : EqDec N) (EF : EqDec F) (p : prog N F) (t : taintEnv N F) n v q d d',
    code p n = IStore v q ->
    (In d' (taintNormal p t n d) <->
     d <> q /\ ((d <> v /\ d' = d) \/ (d = v /\ (d' = q \/ mayAlias p t n q d' \/ (d' = v /\ manyUses p v = true))))).
Proof.
  intros N F EN EF p t n v q d d' Hn. unfold taintNormal. rewrite Hn.
  destruct (eqb q d) eqn:E1; [apply eqb_eq in E1; subst; cbn; tauto|]. apply Assoc.eqb_false in E1.
  destruct (eqb v d) eqn:E2; [apply eqb_eq in E2; subst d|apply Assoc.eqb_false in E2; cbn; intuition (subst; auto)].
  rewrite in_app_iff, populate_spec.
  assert (X : In d' (if manyUses p v then [v] else []) <-> d' = v /\ manyUses p v = true).
  { destruct (manyUses p v); cbn; intuition (subst; auto; discriminate). }
  rewrite X. cbn [In]. split.
  - intros [[[<-|[]]|(x & [<-|[]] & H)]|H]; auto 10.
  - intros (_ & [[H _]|(_ & [->|[H|H]])]); try congruence; auto 10. left; right. exists q. auto.
Qed.
Print Assumptions C53_store.

(** A returned tainted pointer parameter taints the argument and what may alias it, and a
    tainted result the call and what may alias it. *)
Theorem C53_return :
  forall (N F : Type) (EN : EqDec N) (EF : EqDec F) (p : prog N F) (t : taintEnv N F) c f e i a d,
    fnOf p e = f -> nparams p f = length (argsAt p c) ->
    (nth_error (argsAt p c) i = Some a -> i < nparams p f -> isPtr p (VArg f i) = true -> d = a \/ mayAlias p t c a d ->
     In d (taintRet p t c f e (VArg f i))) /\
    (forall v, retVal p e = Some v -> d = VInst c \/ mayAlias p t c (VInst c) d -> In d (taintRet p t c f e v)).
Proof.
  intros N F EN EF p t c f e i a d He Hn.
  assert (Lp : length (params p f) = length (argsAt p c)) by (unfold params; now rewrite map_length, seq_length).
  assert (X : forall x y,
    In y (flat_map (fun pa => if eqb (fst pa) x && pointer p (fst pa) then [snd pa] else []) (List.combine (params p f) (argsAt p c))) \/
    In y (match retVal p e with Some r => if eqb r x then [VInst c] else [] | None => [] end) ->
    d = y \/ mayAlias p t c y d -> In d (taintRet p t c f e x)).
  { intros x y Hy Hd. unfold taintRet, LLVMFlowFunctionsModel.toCaller, LLVMFlowFunctionsModel.arityOk. rewrite He.
    cbn [calleeOf LLVMFlowFunctionsModel.cParams LLVMFlowFunctionsModel.cVarArg LLVMFlowFunctionsModel.cVaLists].
    rewrite Lp, Nat.leb_refl, Nat.eqb_refl. cbn [andb orb negb orNone]. apply populate_spec.
    match goal with |- In d ?l \/ _ => assert (Z : In y l) end.
    { apply in_or_app. right. apply in_or_app. destruct Hy as [Hy|Hy]; [left; exact Hy|right]. apply in_or_app. now right. }
    destruct Hd as [->|Hd]; eauto. }
  split.
  - intros Ha Hi Hp Hd. apply (X _ a); auto. left. apply in_flat_map. exists (VArg f i, a).
    split; [eapply UninitProofs.in_pairs; eauto using UninitProofs.nth_params|]. cbn [fst snd]. rewrite eqb_refl. cbn. rewrite Hp. now left.
  - intros v Hv Hd. apply (X _ (VInst c)); auto. right. rewrite Hv, eqb_refl. now left.
Qed.
Print Assumptions C53_return.

(** A sanitizer with a body removes the taint from the argument, unless the call is also
    a source: neither flow function beside the call keeps the argument, and the body is
    not entered. *)
Theorem C53_sanitizer_with_body :
  forall (N F : Type) (EN : EqDec N) (EF : EqDec F) (p : prog N F) (t : taintEnv N F) c f i a r d,
    calleesAt p c = [f] -> entry p f <> None -> nth_error (argsAt p c) i = Some a -> i < nparams p f ->
    match a with VInst _ | VArg _ _ => isPtr p a = true | _ => False end ->
    swiftAppend t f = false -> isSanitizer t (VArg f i) = true ->
    sourceCB t c = [] -> isSource t (VInst c) = false -> (forall j, isSource t (VArg f j) = false) ->
    ~ In a (f_ctr (taintFlows p t) c r d) /\ exists sf, f_sum (taintFlows p t) c f = Some sf /\ ~ In a (sf d).
Proof.
  intros N F EN EF p t c f i a r d Hf Hb Ha Hi Hp Hsw Hsan H1 H2 H3.
  assert (Ra : isReg a = true /\ pointer p a = true) by (destruct a; try (destruct Hp; fail); auto). destruct Ra as [Ra Pa].
  split.
  - cbn. unfold zeroed. intros H.
    assert (H' : In a (taintCtr p c d)).
    { destruct (isZero d); auto. destruct H as [<-|H]; auto. discriminate Ra. }
    clear H. unfold taintCtr, LLVMFlowFunctionsModel.alongside in H'. rewrite Hf in H'. cbn [existsb] in H'. unfold decl in H'.
    destruct (entry p f); [cbn [orb] in H'|congruence].
    destruct (isZero d) eqn:Z; [destruct H' as [<-|[]]; destruct d; discriminate|].
    destruct (isConst d) eqn:Co; [destruct H' as [<-|[]]; destruct d; discriminate|].
    destruct (find (fun x => eqb x d) (argsAt p c)) as [x|] eqn:Fi.
    + apply find_some in Fi as [_ Fi]. apply eqb_eq in Fi. subst x.
      destruct (pointer p d) eqn:Pd; cbn in H'; [destruct H'|]. destruct H' as [<-|[]]. congruence.
    + destruct H' as [<-|[]]. eapply find_none in Fi; [|eapply nth_error_In; eauto]. cbn in Fi. rewrite eqb_refl in Fi. discriminate.
  - cbn. unfold taintSum. rewrite Hsw.
    assert (G : gen p t c f = []).
    { unfold gen, selected. rewrite H1, H2. cbn [app]. unfold params. generalize (argsAt p c).
      induction (seq 0 (nparams p f)) as [|j l IH]; intros [|b bs]; cbn; auto. rewrite H3. apply IH. }
    assert (Kl : In a (kill p t c f)) by (apply in_or_app; left; eapply selected_In; eauto).
    rewrite G, (isNil_In _ _ Kl), andb_false_r. cbn [isNil]. eexists. split; [reflexivity|]. cbn.
    destruct (mem_ d (kill p t c f)) eqn:E; [auto|]. intros [->|[]]. apply mem_In in Kl. congruence.
Qed.
Print Assumptions C53_sanitizer_with_body.

(** Only arguments for sinks (or what the sink callback names) that are facts are
    reported. *)
Theorem C53_reports_are_sink_facts :
  forall (N F : Type) (EN : EqDec N) (EF : EqDec F) (p : prog N F) (t : taintEnv N F) T n v,
    In v (leaks p t T n) ->
    In v (ifdsResultsAt T n) /\ exists f, In f (calleesAt p n) /\
      (In v (sinkCB t n) \/ exists i, i < nparams p f /\ isSink t (VArg f i) = true /\ nth_error (argsAt p n) i = Some v).
Proof.
  intros N F EN EF p t T n v H. unfold leaks in H. destruct (succs p n); [destruct H|].
  apply in_flat_map in H as (f & Hf & H). apply filter_In in H as [H1 H2]. split; auto. exists f. split; auto.
  unfold recordedLeak in H2. apply andb_true_iff in H2 as [H2 _]. apply andb_true_iff in H2 as [_ H2].
  apply (proj1 (mem_In _ _)) in H2. unfold leak in H2. apply in_app_iff in H2 as [H2|H2]; [auto|right].
  unfold selected in H2. apply in_flat_map in H2 as ([x y] & H2 & H3). cbn [fst snd] in H3.
  apply In_nth_error in H2 as [i Hi].
  assert (P : forall (l : list (value N F)) (l' : list (value N F)) i x y, nth_error (List.combine l l') i = Some (x, y) -> nth_error l i = Some x /\ nth_error l' i = Some y).
  { clear. induction l as [|a l IH]; intros [|b l'] [|i] x y; cbn; try discriminate; auto. intros [= -> ->]. auto. }
  destruct (P _ _ _ _ _ Hi) as [P1 P2].
  assert (Hlt : i < nparams p f).
  { assert (i < length (params p f)) by (apply nth_error_Some; congruence). unfold params in H. now rewrite map_length, seq_length in H. }
  rewrite UninitProofs.nth_params in P1 by auto. injection P1 as <-.
  destruct (isSink t (VArg f i)) eqn:E; [|destruct H3]. destruct H3 as [<-|[]]. eauto.
Qed.
Print Assumptions C53_reports_are_sink_facts.

Local Notation V n := (VInst n).
Local Notation C z := (VConst z).
Definition analysed (p : prog nd fd) t (P : table nd (value nd fd) bdom -> Prop) : Prop :=
  exists fuel st T, solve (irICFG p) (taintProblem p t) false fuel (bottomSeeds (taintSeeds p Main false)) = Some (st, T) /\ P T.
Lemma analyse p t P :
  match solve (irICFG p) (taintProblem p t) false 500 (bottomSeeds (taintSeeds p Main false)) with Some (_, T) => P T | None => False end ->
  analysed p t P.
Proof. intros H. unfold analysed. exists 500. destruct (solve _ _ _ _ _) as [[st T]|]; [eauto|destruct H]. Qed.
(** an execution leaks v at n, and nothing is reported there *)
Definition missed (p : prog nd fd) P t (arith : bool) (n : nd) (v : value nd fd) : Prop :=
  prog_wf p /\ (exists f E K M k, taintRuns p arith (extTaint p P) Main false (n, E, K, M, k) /\ leaksAt p P f n E M v) /\
  succs p n <> [] /\ analysed p t (fun T => leaks p t T n = []).

(** Src taints what its parameter points to, or its result; Snk is a sink.  [ext]: the
    function Ext returns (a copy of) its argument; [known]: the analysis has a summary
    for Ext.  The analysis treats parameter 1 of Ext as a sink if [sink1] says so, and
    parameter 0 as a sanitizer if [san] *)
Definition pol (ext : bool) : policy nd fd :=
  mkPolicy (fun _ f i => match f, i with Src, 0 => true | _, _ => false end)
    (fun n => match n with I0 => true | _ => false end)
    (fun _ f i => match f, i with Snk, 0 => true | _, _ => false end)
    (fun f i => match f, i with Ext, 0 => if ext then [None] else [] | _, _ => [] end).
Definition tenv (src0 known sink1 san : bool) (al : value nd fd -> list (value nd fd)) : taintEnv nd fd :=
  mkTaintEnv
    (fun v => match v with VInst I0 => src0 | VArg Src 0 => true | _ => false end)
    (fun v => match v with VArg Snk 0 => true | VArg Ext 1 => sink1 | _ => false end)
    (fun v => match v with VArg Ext 0 => san | _ => false end)
    (fun _ => []) (fun _ => []) al (fun _ => false) (fun v => v)
    (fun f => match f with Ext => if known then Some (fun i => match i with 0 => [None] | _ => [] end) else None | _ => None end)
    (fun _ => false) (fun _ => false).
Definition noAlias (_ : value nd fd) : list (value nd fd) := [].

Ltac found H f := eexists f, _, _, _, _; split; [exact H|split; [cbn; auto|]]; exists 0; cbn; repeat split; eauto 10.
Ltac begin H p ar P :=
  assert (H : taintRuns p ar (extTaint p P) Main false (I0, noE, [], zeroM, 0))
    by (apply ex_start; [reflexivity|discriminate|intros g; exists 0%Z; reflexivity]).
(** the call n of a function without a body gives x and memory m *)
Ltac extern H pr n1 n2 xx mm tac := eapply ex_step in H; [|eapply (st_extern pr _ _ _ _ n1 n2) with (x := xx) (M' := mm);
  [reflexivity|cbn; auto|reflexivity|cbn; auto|repeat constructor|tac]].
Ltac source_ := split; [auto|intros l; auto].
Ltac taints := split; [discriminate|]; intros l Hl; unfold write in Hl; destruct (eq_dec (LMem 0) l) as [<-|];
  [right; exists 0, false; cbn; auto|discriminate].
Ltac copies v := split; [|intros l; auto]; intros _; right; exists 0; split; [exists (v, true); cbn; auto|cbn; auto].

(** t = src(); sink(t + 1) *)
Definition arithProg := straight
  (fun n => match n with I0 => ICall true [Src] [] | I1 => IOp [V I0; C 1] | I2 => ICall true [Snk] [V I1] | _ => IOp [] end)
  (fun f => match f with Snk => 1 | _ => 0 end) (fun _ => false).
(** t = src(); sink(phi(t, 0)) *)
Definition phiProg := straight
  (fun n => match n with I0 => ICall true [Src] [] | I1 => IPhi [V I0; C 0] | I2 => ICall true [Snk] [V I1] | _ => IOp [] end)
  (fun f => match f with Snk => 1 | _ => 0 end) (fun _ => false).
Theorem C53_operations_refuted :
  missed arithProg (pol false) (tenv true false false false noAlias) true I2 (V I1) /\
  missed phiProg (pol false) (tenv true false false false noAlias) false I2 (V I1).
Proof.
  split; (split; [wf|]; split; [|split; [discriminate|apply analyse; vm_compute; reflexivity]]).
  - begin H arithProg true (pol false). extern H arithProg I0 I1 (PInt 0, true) zeroM ltac:(source_).
    op H arithProg I1 I2 0%Z. found H Snk.
  - begin H phiProg false (pol false). extern H phiProg I0 I1 (PInt 0, true) zeroM ltac:(source_).
    eapply ex_step in H; [|eapply (st_compute phiProg _ _ _ _ I1 I2); [eapply cp_phi; [left; reflexivity|reflexivity]|cbn; auto]]. found H Snk.
Qed.
Print Assumptions C53_operations_refuted.

(** int x; src(&x); f(&x); sink(&x) with f(a) { *a; }: the only use of a takes the
    taint away from a, so it does not come back to the caller *)
Definition onceProg := straight
  (fun n => match n with I1 => IAlloca true | I2 => ICall true [Src] [V I1] | I3 => ICall true [Fun] [V I1]
    | I4 => ICall true [Snk] [V I1] | I12 => ILoad (VArg Fun 0) | I13 => IRet (Some (C 0)) | _ => IOp [] end)
  (fun f => match f with Main => 0 | _ => 1 end) (fun x => match x with VInst I1 | VArg _ _ => true | _ => false end).
Theorem C53_parameter_used_once_refuted : missed onceProg (pol false) (tenv false false false false noAlias) false I4 (V I1).
Proof.
  split; [wf|]. split; [|split; [discriminate|apply analyse; vm_compute; reflexivity]].
  begin H onceProg false (pol false). op H onceProg I0 I1 0%Z. alloca H onceProg I1 I2.
  extern H onceProg I2 I3 (PInt 0, false) (write zeroM (LMem 0) (PInt 7, true)) ltac:(taints).
  call H onceProg I3 Fun [(PPtr (LMem 0), false)]. load H onceProg I12 I13. ret H onceProg I13 I4.
  eexists Snk, _, _, _, _; split; [exact H|split; [cbn; auto|]]. exists 0. cbn. repeat split; auto. right. split; auto. eexists _, _. split; reflexivity.
Qed.
Print Assumptions C53_parameter_used_once_refuted.

(** t = src(); sink(ext(t)): (a) no summary for ext; (b) there is one, but it is not used
    because ext also has a sink parameter *)
Definition libProg := straight
  (fun n => match n with I0 => ICall true [Src] [] | I1 => ICall true [Ext] [V I0; C 1] | I2 => ICall true [Snk] [V I1] | _ => IOp [] end)
  (fun f => match f with Snk => 1 | Ext => 2 | _ => 0 end) (fun _ => false).
Theorem C53_library_function_refuted :
  missed libProg (pol true) (tenv true false false false noAlias) false I2 (V I1) /\
  missed libProg (pol true) (tenv true true true false noAlias) false I2 (V I1) /\
  analysed libProg (tenv true true false false noAlias) (fun T => leaks libProg (tenv true true false false noAlias) T I2 = [V I1]).
Proof.
  assert (X : exists f E K M k, taintRuns libProg false (extTaint libProg (pol true)) Main false (I2, E, K, M, k) /\ leaksAt libProg (pol true) f I2 E M (V I1)).
  { begin H libProg false (pol true). extern H libProg I0 I1 (PInt 0, true) zeroM ltac:(source_).
    extern H libProg I1 I2 (PInt 0, true) zeroM ltac:(copies (PInt 0)).
    found H Snk. }
  split; [|split; [|apply analyse; vm_compute; reflexivity]];
    (split; [wf|split; [exact X|split; [discriminate|apply analyse; vm_compute; reflexivity]]]).
Qed.
Print Assumptions C53_library_function_refuted.

(** int x, *p = &x, *q = &x; *p = src(); sink( *q): the alias sets are exact, but the load
    of q comes later in the basic block, so it is skipped *)
Definition lateProg := straight
  (fun n => match n with I0 => ICall true [Src] [] | I1 => IAlloca true | I2 => IAlloca true | I3 => IAlloca true
    | I4 => IStore (V I1) (V I2) | I5 => IStore (V I1) (V I3) | I6 => ILoad (V I2) | I7 => IStore (V I0) (V I6)
    | I8 => ILoad (V I3) | I9 => ILoad (V I8) | I10 => ICall true [Snk] [V I9] | _ => IOp [] end)
  (fun f => match f with Snk => 1 | _ => 0 end)
  (fun x => match x with VInst (I1 | I2 | I3 | I6 | I8) => true | _ => false end).
Definition lateAlias (v : value nd fd) : list (value nd fd) :=
  match v with VInst (I1 | I6 | I8) => [V I1; V I6; V I8] | _ => [v] end.
Lemma late_run : exists E K M k, taintRuns lateProg false (extTaint lateProg (pol false)) Main false (I10, E, K, M, k) /\
  E (V I1) = Some (PPtr (LMem 0), false) /\ E (V I6) = Some (PPtr (LMem 0), false) /\ E (V I8) = Some (PPtr (LMem 0), false) /\
  E (V I9) = Some (PInt 0, true).
Proof.
  begin H lateProg false (pol false). extern H lateProg I0 I1 (PInt 0, true) zeroM ltac:(source_).
  alloca H lateProg I1 I2. alloca H lateProg I2 I3. alloca H lateProg I3 I4. store H lateProg I4 I5. store H lateProg I5 I6.
  load H lateProg I6 I7. store H lateProg I7 I8. load H lateProg I8 I9. load H lateProg I9 I10.
  eexists _, _, _, _. split; [exact H|]. cbn. auto.
Qed.
Theorem C53_alias_behind_refuted : missed lateProg (pol false) (tenv true false false false lateAlias) false I10 (V I9).
Proof.
  split; [wf|]. split; [|split; [discriminate|apply analyse; vm_compute; reflexivity]].
  destruct late_run as (E & K & M & k & H & _ & _ & _ & HE). eexists Snk, E, K, M, k. split; [exact H|]. split; [cbn; auto|].
  exists 0. cbn. rewrite HE. repeat split; eauto.
Qed.
Print Assumptions C53_alias_behind_refuted.

(** int x; src(&x); sanitize(&x); sink(&x): the call-to-return flow function keeps x
    because sanitize is only declared.  Reported; no execution leaks. *)
Definition sanProg := straight
  (fun n => match n with I1 => IAlloca true | I2 => ICall true [Src] [V I1] | I3 => ICall true [Ext] [V I1]
    | I4 => ICall true [Snk] [V I1] | _ => IOp [] end)
  (fun f => match f with Main => 0 | _ => 1 end) (fun x => match x with VInst I1 | VArg _ _ => true | _ => false end).
(** Ext removes the taint from what its argument points to *)
Definition extSan (c : nd) (f : fd) (cs : list cval) (M : mem) (x : cval) (M' : mem) : Prop :=
  extTaint sanProg (pol false) c f cs M x M' /\ (f = Ext -> forall l m, In (PPtr l, m) cs -> marked (M' l) = false).
Definition sanInv (s : @conf nd fd) : Prop :=
  let '(n, E, K, M, k) := s in
  let x := E (V I1) = Some (PPtr (LMem 0), false) in
  match n with
  | I0 | I1 => k = 0
  | I2 | I3 => x
  | I4 => x /\ marked (M (LMem 0)) = false
  | _ => True
  end.
Lemma san_inv s : taintRuns sanProg false extSan Main false s -> sanInv s /\ snd (fst (fst s)) = [].
Proof.
  induction 1 as [sp E M Hs HE HM|s s' _ [IH IK] Hst].
  - injection Hs as <-. split; reflexivity.
  - destruct Hst as [n n' E K M k b u Hc Hn|n n' E K M k v q l m c Hc Hn Hq Hv|n n' E K M k q l m Hc Hn Hq|n n' E K M k c Hc Hn
      |n E K M k b fs args f sp E' cs Hc Hf He|n n' E K M k b fs args f cs x M' Hc Hf He Hn Hcs Hx|n n' E c f Ec K M k v x Hc|n n' E c f Ec K M k Hc];
      cbn in IK; try discriminate IK; subst; try (exfalso; destruct n; discriminate Hc);
      destruct n; cbn in Hc; try discriminate Hc; try (inversion Hc; fail);
      try (injection Hc as <- <- <-; destruct Hf as [<-|[]]; try discriminate He);
      (split; [|reflexivity]); cbn in Hn; repeat destruct Hn as [<-|Hn]; try destruct Hn;
      cbn in IH |- *; auto; try (intuition (subst; auto); fail).
    destruct Hx as [_ Hx]. split; auto. apply (Hx eq_refl (LMem 0) false).
    inversion Hcs as [|? ? ? ? E1]; subst. cbn in E1. rewrite IH in E1. injection E1 as <-. now left.
Qed.
Theorem C53_sanitizer_refuted :
  prog_wf sanProg /\
  analysed sanProg (tenv false false false true noAlias) (fun T => In (V I1) (leaks sanProg (tenv false false false true noAlias) T I4)) /\
  (exists E K M k, taintRuns sanProg false extSan Main false (I4, E, K, M, k)) /\
  forall f E K M k v, taintRuns sanProg false extSan Main false (I4, E, K, M, k) -> ~ leaksAt sanProg (pol false) f I4 E M v.
Proof.
  split; [wf|]. split; [apply analyse; vm_compute; auto|]. split.
  - assert (H : taintRuns sanProg false extSan Main false (I0, noE, [], zeroM, 0))
      by (apply ex_start; [reflexivity|discriminate|intros g; exists 0%Z; reflexivity]).
    op H sanProg I0 I1 0%Z. alloca H sanProg I1 I2.
    extern H sanProg I2 I3 (PInt 0, false) zeroM ltac:(split; [split; [discriminate|intros l [=]]|discriminate]).
    extern H sanProg I3 I4 (PInt 0, false) zeroM ltac:(split; [split; [discriminate|intros l [=]]|reflexivity]). eauto.
  - intros f E K M k v HR (Hf & i & Hi & _ & _ & Hv). destruct (san_inv _ HR) as [[H1 H2] _].
    destruct i as [|[|i]]; cbn in Hi; try discriminate. injection Hi as <-. cbn in Hv. rewrite H1 in Hv.
    destruct Hv as [(pl & [=])|(_ & l & m & [= <- <-] & Hm)]. congruence.
Qed.
Print Assumptions C53_sanitizer_refuted.

(** A simple program: int x, y; src(&x); f(&x, &y); sink(ext(y)) where f(a, b) does
    *b = *a; the alias sets say nothing *)
Definition goodProg := straight
  (fun n => match n with I0 => IOp [] | I1 => IAlloca true | I2 => IAlloca true | I3 => ICall true [Src] [V I1] | I4 => ICall true [Fun] [V I1; V I2]
    | I5 => ILoad (V I2) | I6 => ICall true [Ext] [V I5] | I7 => ICall true [Snk] [V I6]
    | I12 => ILoad (VArg Fun 0) | I13 => IStore (V I12) (VArg Fun 1) | I14 => IOp [VArg Fun 0; VArg Fun 1] | I15 => IRet None | _ => IOp [] end)
  (fun f => match f with Main => 0 | Fun => 2 | _ => 1 end)
  (fun x => match x with VInst I1 | VInst I2 | VArg Fun _ | VArg Src _ => true | _ => false end).
Definition goodPol : policy nd fd :=
  mkPolicy (fun _ f i => match f, i with Src, 0 => true | _, _ => false end) (fun _ => false)
    (fun _ f i => match f, i with Snk, 0 => true | _, _ => false end) (fun f i => match f, i with Ext, 0 => [None] | _, _ => [] end).
Definition goodEnv := tenv false true false false noAlias.
Example good_simple : prog_wf goodProg /\ taintSimple goodProg goodPol /\ configured goodProg goodPol goodEnv.
Proof.
  split; [wf|]. split; split.
  - intros []; cbn; auto.
  - intros [] f i a Hf Ha; cbn in Hf; try contradiction; destruct Hf as [<-|[]]; destruct i as [|[|[|i]]]; cbn in Ha; try discriminate Ha;
      injection Ha as <-; left; reflexivity.
  - intros [] a Ha; cbn in Ha; repeat destruct Ha as [<-|Ha]; try destruct Ha; cbn; auto; discriminate.
  - intros [] [|[|i]] [|[|j]] a Hi Hj; cbn in *; try discriminate; try (destruct i; discriminate); try (destruct j; discriminate); congruence.
  - intros [] f Hf Hb; cbn in Hf; try destruct Hf as [<-|[]]; try destruct Hf; cbn in Hb; try congruence; auto.
  - intros n f i H. destruct f, i; cbn in H |- *; try lia; destruct H as [H|H]; congruence.
  - intros f i n Hp Ho. destruct n; cbn in Ho; repeat destruct Ho as [Ho|Ho]; try contradiction; try discriminate; injection Ho as <- <-; reflexivity.
  - intros n f i a Hs Ha. left. destruct f, i; cbn in *; auto; discriminate.
  - discriminate.
  - intros n f i a Hs Ha. left. destruct f, i; cbn in *; auto; discriminate.
  - intros f i o Ho. destruct f, i; cbn in Ho; try contradiction. eexists. split; [reflexivity|exact Ho].
  - intros [] f Hf Hb; cbn in Hf; try destruct Hf as [<-|[]]; try destruct Hf; cbn in Hb; try congruence; auto.
  - assert (NE : forall n f, In f (calleesAt goodProg n) -> (entry goodProg f <> None \/ exists i o, In o (lib goodPol f i)) -> n <> I0 /\ (f = Fun \/ f = Ext)).
    { intros [] f Hf Hb; cbn in Hf; try destruct Hf as [<-|[]]; try destruct Hf; (split; [discriminate|]); auto;
        destruct Hb as [Hb|(i & o & Hb)]; cbn in Hb; try congruence; destruct i; destruct Hb. }
    intros n f Hf Hb. destruct (NE n f Hf Hb) as [H1 [-> | ->]]; (split; [reflexivity|split; [reflexivity|split; [destruct n; auto; congruence|split; [reflexivity|]]]]);
      intros [|[|i]]; auto.
  - reflexivity.
Qed.
Example good_reports : analysed goodProg goodEnv (fun T => leaks goodProg goodEnv T I7 = [V I6]).
Proof. apply analyse. vm_compute. auto. Qed.
Example good_leaks : exists E K M k, taintRuns goodProg false (extTaint goodProg goodPol) Main false (I7, E, K, M, k) /\ leaksAt goodProg goodPol Snk I7 E M (V I6).
Proof.
  begin H goodProg false goodPol. op H goodProg I0 I1 0%Z. alloca H goodProg I1 I2. alloca H goodProg I2 I3.
  extern H goodProg I3 I4 (PInt 0, false) (write zeroM (LMem 0) (PInt 7, true)) ltac:(taints).
  call H goodProg I4 Fun [(PPtr (LMem 0), false); (PPtr (LMem 1), false)].
  load H goodProg I12 I13. store H goodProg I13 I14. op H goodProg I14 I15 0%Z.
  eapply ex_step in H; [|eapply (st_retvoid goodProg _ _ _ _ I15 I5); [reflexivity|cbn; auto]].
  load H goodProg I5 I6.
  match type of H with exec _ _ _ _ _ _ _ (_, _, _, ?m, _) => extern H goodProg I6 I7 (PInt 7, true) m ltac:(copies (PInt 7)) end.
  eexists _, _, _, _. split; [exact H|]. split; [cbn; auto|]. exists 0. cbn. repeat split; eauto.
Qed.
Example good_closed : closedValues goodProg goodEnv
  (VZero :: map (fun n => V n) allNd ++ [VArg Fun 0; VArg Fun 1; VArg Ext 0; VArg Src 0; VArg Snk 0]).
Proof.
  split.
  - now left.
  - intros []; cbn; auto 30.
  - intros [] d; cbn; intuition.
  - intros [] d; cbn; intuition.
  - intros d d' _ [].
  - auto.
  - intros n d [].
Qed.
(** the store through p in lateProg taints x, p and the variable p was loaded from; q is
    loaded later *)
Example late_store : forall d, In d (taintNormal lateProg (tenv true false false false lateAlias) I7 (V I0)) <-> d = V I6 \/ d = V I1 \/ d = V I2.
Proof. intros d. vm_compute. intuition. Qed.
Example late_alias : mayAlias lateProg (tenv true false false false lateAlias) I7 (V I6) (V I1) /\ ~ mayAlias lateProg (tenv true false false false lateAlias) I7 (V I6) (V I8).
Proof.
  split; [exists (V I1); cbn; auto|]. intros (a & [<-|[<-|[<-|[]]]] & Hv & [H|(m & x & [= <-] & H1 & H2)]); cbn in *; try discriminate; try (destruct Hv as [_ Hv]; discriminate Hv); try (injection H1 as <-; discriminate H2).
Qed.
(** int x; src(&x); f(&x); sink(&x) with a sanitizer f *)
Definition bodyProg := straight
  (fun n => match n with I1 => IAlloca true | I2 => ICall true [Src] [V I1] | I3 => ICall true [Fun] [V I1]
    | I4 => ICall true [Snk] [V I1] | I12 => IStore (C 0) (VArg Fun 0) | I13 => IRet (Some (C 0)) | _ => IOp [] end)
  (fun f => match f with Main => 0 | _ => 1 end) (fun x => match x with VInst I1 | VArg _ _ => true | _ => false end).
Definition bodyEnv : taintEnv nd fd :=
  mkTaintEnv (fun v => match v with VArg Src 0 => true | _ => false end) (fun v => match v with VArg Snk 0 => true | _ => false end)
    (fun v => match v with VArg Fun 0 => true | _ => false end) (fun _ => []) (fun _ => []) noAlias (fun _ => false) (fun v => v) (fun _ => None) (fun _ => false) (fun _ => false).
Example body_sanitized :
  analysed bodyProg bodyEnv (fun T => In (V I1) (ifdsResultsAt T I3) /\ leaks bodyProg bodyEnv T I4 = []) /\
  calleesAt bodyProg I3 = [Fun] /\ nth_error (argsAt bodyProg I3) 0 = Some (V I1) /\ isSanitizer bodyEnv (VArg Fun 0) = true.
Proof. split; [apply analyse; vm_compute; auto|auto]. Qed.
