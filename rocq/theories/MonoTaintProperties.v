(** C68: InterMonoTaintAnalysis.

    [flows … n st X] (InterMonoSpec.v): along some path that returns to where it was
    called from the set X arrives before n with pending calls st, by the analysis' flow
    functions; [leaksOf p t n fs X]: what the analysis then records as leaked at n;
    [taintRuns], [leaksAt] (TaintSpec.v): executions, and their leaks. *)
From Coq Require Import List Bool ZArith Arith Lia.
From Verif Require Import Assoc IDESolverModel IDESpec IFDSModel IFDSSpec
  IRProgramModel IRProgramSpec IRProgramExamples UninitSpec TaintModel TaintSpec TaintProofs TaintProperties MonoTaintModel MonoTaintSpec MonoTaintProofs.
From Verif Require InterMonoModel InterMonoSpec.
Import ListNotations.

(** In a simple program every leak of an execution is recorded by the path the execution
    takes.
    _partial: only for [taintSimple] and [monoSimple] programs, taint that flows through
    copies, and configurations without sanitizers; nothing is said about the solver (see
    C26 for what it leaves out). *)
Theorem C68_leaks_are_found_partial :
  forall (N F : Type) (EN : EqDec N) (EF : EqDec F) (p : prog N F) (P : policy N F) (t : taintEnv N F) (main : F) target f n E K M k v,
    prog_wf p -> taintSimple p P -> monoSimple p P t -> monoConfigured p P t ->
    taintRuns p false (extTaint p P) main true (n, E, K, M, k) -> leaksAt p P f n E M v ->
    exists X, InterMonoSpec.flows (monoICFG p target) (monoProblem p t main) n (map (fun x => fst (fst x)) K) X /\
      In v (leaksOf p t n (calleesAt p n) X).
Proof. intros N F EN EF p P t main target f n E K M k v WF SI ME MC. exact (mono_reported p P t main target WF SI ME MC f n E K M k v). Qed.
Print Assumptions C68_leaks_are_found_partial.

(** What leaves an instruction other than a call. *)
Theorem C68_normal :
  forall (N F : Type) (EN : EqDec N) (EF : EqDec F) (p : prog N F) (n : N) (X : list (value N F)) x,
    In x (normalFlow p n X) <->
    match code p n with
    | IStore v q => (x = q /\ In v X) \/ (x <> q /\ In x X)
    | ILoad q | IGep q _ | ICast q => In x X \/ (x = VInst n /\ In q X)
    | _ => In x X
    end.
Proof.
  intros N F EN EF p n X x. unfold normalFlow. destruct (code p n) as [b|v q|q|v|q idx|vs|agg|agg v|ops|b fs args|v]; rewrite ?in_copy; try tauto.
  rewrite in_store. destruct (eq_dec x q) as [->|Ne]; [|tauto]. split; [|intros [[_ H]|[H _]]; [auto|congruence]].
  intros [[H _]|[_ [H|H]]]; auto. congruence.
Qed.
Print Assumptions C68_normal.

(** A callee gets the parameters whose arguments are tainted, and nothing else; the
    caller gets back the result and the arguments of tainted pointer parameters. *)
Theorem C68_call_and_return :
  forall (N F : Type) (EN : EqDec N) (EF : EqDec F) (p : prog N F) (c : N) (f : F) (e : N) (X : list (value N F)) x,
    (In x (callFlow p c f X) <-> exists i a, x = VArg f i /\ i < nparams p f /\ nth_error (argsAt p c) i = Some a /\ In a X) /\
    (In x (returnFlow p c f e X) <->
     (x = VInst c /\ exists v, code p e = IRet (Some v) /\ In v X) \/
     exists i, i < nparams p f /\ isPtr p (VArg f i) = true /\ In (VArg f i) X /\ nth_error (argsAt p c) i = Some x).
Proof.
  intros N F EN EF p c f e X x. rewrite in_callFlow, in_returnFlow. split.
  - split; intros (i & a & H); exists i, a; tauto.
  - assert (R : forall v, retVal p e = Some v <-> code p e = IRet (Some v)).
    { intros v. unfold retVal. destruct (code p e); split; try discriminate; congruence. }
    split.
    + intros [(v & A & B & C)|(i & H)]; [left|right; exists i; tauto]. split; [exact C|]. exists v. rewrite <- R. auto.
    + intros [(A & v & B & C)|(i & H)]; [left; exists v; rewrite R; auto|right; exists i; tauto].
Qed.
Print Assumptions C68_call_and_return.

(** argument i of the call c of f is a, and f has a parameter for it *)
Definition passes {N F} (p : prog N F) (c : N) (f : F) (i : nat) (a : value N F) : Prop := nth_error (argsAt p c) i = Some a /\ i < nparams p f.
(** Beside a call: what some callee makes a source arrives; what every callee sanitizes
    does not stay; and where nothing is generated and no argument is sanitized by every
    callee, pointer arguments do not stay. *)
Theorem C68_call_to_return :
  forall (N F : Type) (EN : EqDec N) (EF : EqDec F) (p : prog N F) (t : taintEnv N F) (c : N) (fs : list F) (X : list (value N F)) x,
    let source y := exists f, In f fs /\ (In y (sourceCB t c) \/ (y = VInst c /\ isSource t (VInst c) = true) \/
                                          exists i, passes p c f i y /\ isSource t (VArg f i) = true) in
    let cleaned y := fs <> [] /\ forall f, In f fs -> exists i, passes p c f i y /\ isSanitizer t (VArg f i) = true in
    In x (callToRetFlow p t c fs X) <->
    source x \/ (In x X /\ ~ cleaned x /\ ~ ((forall y, ~ source y) /\ (forall y, ~ cleaned y) /\ In x (argsAt p c) /\ pointer p x = true)).
Proof.
  intros N F EN EF p t c fs X x source cleaned.
  assert (G : forall y, In y (allGen p t c fs) <-> source y).
  { intros y. unfold allGen, source. rewrite in_flat_map. unfold generated. split; intros (f & I & H); exists f; (split; [exact I|]).
    - rewrite !in_app_iff, in_selected in H. destruct H as [H|[H|(i & A & B & C)]]; [auto| |right; right; exists i; unfold passes; auto].
      destruct (isSource t (VInst c)); [destruct H as [<-|[]]; auto|destruct H].
    - rewrite !in_app_iff, in_selected. destruct H as [H|[[-> H]|(i & [A B] & C)]]; [auto| |right; right; eauto]. rewrite H. cbn. auto. }
  assert (K : forall y, In y (allKill p t c fs) <-> cleaned y).
  { intros y. rewrite in_allKill. unfold cleaned. apply and_iff_compat_l. split; intros H f I.
    - specialize (H f I). unfold sanitized in H. apply in_selected in H. destruct H as (i & A & B & C). exists i. unfold passes. auto.
    - destruct (H f I) as (i & [A B] & C). unfold sanitized. apply in_selected. eauto. }
  assert (Nil : forall (l : list (value N F)), l = [] <-> forall y, ~ In y l).
  { intros [|y l]; split; auto; [discriminate|]. intros H. destruct (H y). now left. }
  rewrite in_callToRet. unfold erased. rewrite !Nil, G, K. setoid_rewrite G. setoid_rewrite K. reflexivity.
Qed.
Print Assumptions C68_call_to_return.

(** The flow functions distribute over the merge operator. *)
Theorem C68_distributive :
  forall (N F : Type) (EN : EqDec N) (EF : EqDec F) (p : prog N F) (t : taintEnv N F) (main : F),
    let Pb := monoProblem p t main in
    let distr ff := forall X Y x, In x (ff (InterMonoModel.merge Pb X Y)) <-> In x (ff X) \/ In x (ff Y) in
    (forall n, distr (InterMonoModel.normalFlow Pb n)) /\ (forall c f, distr (InterMonoModel.callFlow Pb c f)) /\
    (forall c f e r, distr (InterMonoModel.returnFlow Pb c f e r)) /\ (forall c r fs, distr (InterMonoModel.callToRetFlow Pb c r fs)).
Proof.
  intros N F EN EF p t main Pb distr. unfold distr, Pb. cbn. repeat split; intros H.
  all: try (destruct H as [H|H]; revert H; first [apply normal_mono|apply call_mono|apply return_mono|apply ctr_mono]; auto using incl_appl, incl_appr, incl_refl; fail).
  - rewrite C68_normal in *. rewrite C68_normal. destruct (code p n); rewrite !in_app_iff in H; tauto.
  - rewrite in_callFlow in H. destruct H as (i & a & A & B & C & D). rewrite in_app_iff in C. rewrite !in_callFlow. destruct C; [left|right]; exists i, a; auto.
  - rewrite in_returnFlow in H. rewrite !in_returnFlow. destruct H as [(v & A & B & C)|(i & A & B & C & D)].
    + rewrite in_app_iff in B. destruct B; [left|right]; left; exists v; auto.
    + rewrite in_app_iff in D. destruct D; [left|right]; right; exists i; auto.
  - rewrite in_callToRet in H. rewrite !in_callToRet. rewrite in_app_iff in H. tauto.
Qed.
Print Assumptions C68_distributive.

(** Two sets are taken for equal exactly if they have the same elements; a recorded leak
    is a fact that is an argument for a sink, or that the sink callback names. *)
Theorem C68_leaks :
  forall (N F : Type) (EN : EqDec N) (EF : EqDec F) (p : prog N F) (t : taintEnv N F) (c : N) fs (X : list (value N F)) x,
    In x (leaksOf p t c fs X) <->
    In x X /\ exists f, In f fs /\ (In x (sinkCB t c) \/ exists i, passes p c f i x /\ isSink t (VArg f i) = true).
Proof.
  intros N F EN EF p t c fs X x. unfold leaksOf. rewrite in_flat_map. unfold leak. split.
  - intros (f & I & H). apply filter_In in H. destruct H as [H M]. apply mem_In in M. split; [exact M|]. exists f. split; [exact I|].
    rewrite in_app_iff, in_selected in H. destruct H as [H|(i & A & B & C)]; [auto|right]. exists i. unfold passes. auto.
  - intros (M & f & I & H). exists f. split; [exact I|]. apply filter_In. rewrite mem_In. split; [|exact M].
    rewrite in_app_iff, in_selected. destruct H as [H|(i & [A B] & C)]; eauto.
Qed.
Print Assumptions C68_leaks.
Theorem C68_equal :
  forall (N F : Type) (EN : EqDec N) (EF : EqDec F) (p : prog N F) (t : taintEnv N F) (main : F) (X Y : list (value N F)),
    InterMonoModel.equal_to (monoProblem p t main) X Y = true <-> forall x, In x X <-> In x Y.
Proof.
  intros N F EN EF p t main X Y. cbn. unfold equal_to. rewrite andb_true_iff, !forallb_forall. split.
  - intros [A B] x. split; intros I; [apply A in I|apply B in I]; now apply mem_In.
  - intros H. split; intros x I; apply mem_In; now apply H.
Qed.
Print Assumptions C68_equal.

(** The start: the parameters of main before its first instruction. *)
Theorem C68_seeds :
  forall (N F : Type) (EN : EqDec N) (EF : EqDec F) (p : prog N F) (t : taintEnv N F) (main : F) sp,
    entry p main = Some sp ->
    exists X, InterMonoModel.initialSeeds (monoProblem p t main) = [(sp, X)] /\
      forall x, In x X <-> exists i, x = VArg main i /\ i < nparams p main.
Proof.
  intros N F EN EF p t main sp E. exists (params p main). cbn. unfold seeds. rewrite E. split; [reflexivity|]. intros x. unfold params. rewrite in_map_iff. split.
  - intros (i & <- & I). apply in_seq in I. exists i. split; [reflexivity|lia].
  - intros (i & -> & L). exists i. split; [reflexivity|]. apply in_seq. lia.
Qed.
Print Assumptions C68_seeds.

(** The graph the problem is solved on agrees with the program: edges, predecessors,
    callers and exits are those its instructions give. *)
Theorem C68_graph :
  forall (N F : Type) (EN : EqDec N) (EF : EqDec F) (p : prog N F) target, prog_wf p ->
    let c := monoICFG p target in
    (forall f n m, In (n, m) (InterMonoModel.allEdges c f) <-> fnOf p n = f /\ In m (succs p n)) /\
    (forall n m, In m (InterMonoModel.preds c n) <-> In n (succs p m)) /\
    (forall f n, In n (InterMonoModel.callersOf c f) <-> In f (calleesAt p n)) /\
    (forall f n, In n (InterMonoModel.exitPoints c f) <-> fnOf p n = f /\ exists v, code p n = IRet v) /\
    (forall n, InterMonoModel.isExitInst c n = true <-> exists v, code p n = IRet v).
Proof.
  intros N F EN EF p target WF c. unfold c. cbn.
  assert (Ex : forall (T : Type) (ET : EqDec T) (x : T) l, existsb (eqb x) l = true <-> In x l).
  { intros T ET x l. rewrite existsb_exists. split; [intros (y & I & H); apply eqb_eq in H; now subst|intros I; exists x; split; [exact I|apply eqb_refl]]. }
  assert (R : forall n, match code p n with IRet _ => true | _ => false end = true <-> exists v, code p n = IRet v).
  { intros n. destruct (code p n); split; try discriminate; try (intros (w & [=])); eauto. }
  split; [|split; [|split; [|split]]].
  - intros f n m. rewrite in_flat_map. split.
    + intros (k & _ & H). destruct (eqb (fnOf p k) f) eqn:E; [|destruct H]. apply eqb_eq in E. apply in_map_iff in H. destruct H as (y & [= <- <-] & H). auto.
    + intros [E I]. exists n. split; [apply (pw_nodes p WF)|]. rewrite E, eqb_refl. now apply in_map.
  - intros n m. rewrite filter_In, Ex. pose proof (pw_nodes p WF m). tauto.
  - intros f n. rewrite filter_In, Ex. pose proof (pw_nodes p WF n). tauto.
  - intros f n. rewrite filter_In, andb_true_iff, R, Assoc.eqb_true. pose proof (pw_nodes p WF n). tauto.
  - exact R.
Qed.
Print Assumptions C68_graph.

(** ** What it misses *)
Definition bt (_ _ : nd) := true.
Local Notation V n := (VInst n).
(** an execution leaks v at n, but along no path is v recorded there *)
Definition unseen (p : prog nd fd) P t (arith : bool) (n : nd) (v : value nd fd) : Prop :=
  prog_wf p /\ (exists f E K M k, taintRuns p arith (extTaint p P) Main true (n, E, K, M, k) /\ leaksAt p P f n E M v) /\
  forall st X, InterMonoSpec.flows (monoICFG p bt) (monoProblem p t Main) n st X -> ~ In v (leaksOf p t n (calleesAt p n) X).
Definition subset (X Y : list (value nd fd)) : bool := forallb (fun x => mem_ x Y) X.
Definition bounds (p : prog nd fd) t (A : nd -> list (value nd fd)) : bool :=
  subset (params p Main) (A I0) &&
  forallb (fun n => forallb (fun m => subset (if isCall p n then callToRetFlow p t n (calleesAt p n) (A n) else normalFlow p n (A n)) (A m)) (succs p n)) allNd &&
  forallb (fun n => forallb (fun f => match entry p f with Some sp => subset (callFlow p n f (A n)) (A sp) | None => true end) (calleesAt p n)) allNd &&
  forallb (fun n => forallb (fun e => isCall p e || negb (isCall p n) || forallb (fun r => subset (returnFlow p n (fnOf p e) e (A e)) (A r)) (succs p n)) allNd) allNd.
Lemma bounded p t A n v st X : bounds p t A = true -> entry p Main = Some I0 -> ~ In v (A n) ->
  InterMonoSpec.flows (monoICFG p bt) (monoProblem p t Main) n st X -> ~ In v (leaksOf p t n (calleesAt p n) X).
Proof.
  intros B EM Hv Fl. unfold bounds in B. rewrite !andb_true_iff, !forallb_forall in B. destruct B as [[[B1 B2] B3] B4].
  assert (All : forall m, In m allNd) by (intros []; cbn; auto 20).
  assert (Sub : forall X Y, subset X Y = true -> incl X Y) by (intros Y Z H x I; unfold subset in H; rewrite forallb_forall in H; apply mem_In, H, I).
  rewrite C68_leaks. intros [I _]. apply Hv.
  refine (proj1 (flows_bound p t Main bt A _ _ _ _ _ n st X Fl) v I).
  - intros sp E. rewrite EM in E. injection E as <-. now apply Sub.
  - intros m r C J. specialize (B2 m (All m)). rewrite forallb_forall in B2. specialize (B2 r J). rewrite C in B2. now apply Sub.
  - intros c f sp J E. specialize (B3 c (All c)). rewrite forallb_forall in B3. specialize (B3 f J). rewrite E in B3. now apply Sub.
  - intros c r C J. specialize (B2 c (All c)). rewrite forallb_forall in B2. specialize (B2 r J). rewrite C in B2. now apply Sub.
  - intros c e r C Ce J. specialize (B4 c (All c)). rewrite forallb_forall in B4. specialize (B4 e (All e)). rewrite C, Ce in B4. cbn [orb negb] in B4.
    rewrite forallb_forall in B4. now apply Sub, B4.
Qed.
Ltac begin H p ar P :=
  assert (H : taintRuns p ar (extTaint p P) Main true (I0, noE, [], zeroM, 0))
    by (apply ex_start; [reflexivity|discriminate|intros g; exists 0%Z; reflexivity]).
Ltac bound_by A := intros st X; apply (bounded _ _ A); [vm_compute; reflexivity|reflexivity|cbn; intuition discriminate].
Ltac pointee H := eexists Snk, _, _, _, _; split; [exact H|split; [cbn; auto|]]; exists 0; cbn; repeat split; auto; right; split; auto; eexists _, _; split; reflexivity.

(** t = src(); sink(t + 1), and sink(phi(t, 0)) *)
Theorem C68_operations_refuted :
  unseen arithProg (pol false) (tenv true false false false noAlias) true I2 (V I1) /\
  unseen phiProg (pol false) (tenv true false false false noAlias) false I2 (V I1).
Proof.
  split; (split; [wf|]; split; [|bound_by (fun n => match n with I0 => [] | _ => [V I0 : value nd fd] end)]).
  - begin H arithProg true (pol false). extern H arithProg I0 I1 (PInt 0, true) zeroM ltac:(source_).
    op H arithProg I1 I2 0%Z. found H Snk.
  - begin H phiProg false (pol false). extern H phiProg I0 I1 (PInt 0, true) zeroM ltac:(source_).
    eapply ex_step in H; [|eapply (st_compute phiProg _ _ _ _ I1 I2); [eapply cp_phi; [left; reflexivity|reflexivity]|cbn; auto]]. found H Snk.
Qed.
Print Assumptions C68_operations_refuted.

(** int x; src(&x); ext(&x); sink(&x): ext has no body, so nothing returns the pointer
    that is erased beside its call *)
Theorem C68_library_call_refuted : unseen sanProg (pol false) (tenv false false false false noAlias) false I4 (V I1).
Proof.
  split; [wf|]. split; [|bound_by (fun n => match n with I3 => [V I1 : value nd fd] | _ => [] end)].
  begin H sanProg false (pol false). op H sanProg I0 I1 0%Z. alloca H sanProg I1 I2.
  extern H sanProg I2 I3 (PInt 0, false) (write zeroM (LMem 0) (PInt 7, true)) ltac:(taints).
  match type of H with taintRuns _ _ _ _ _ (_, _, _, ?m, _) => extern H sanProg I3 I4 (PInt 0, false) m ltac:(split; [discriminate|auto]) 
  | exec _ _ _ _ _ _ _ (_, _, _, ?m, _) => extern H sanProg I3 I4 (PInt 0, false) m ltac:(split; [discriminate|auto]) end.
  pointee H.
Qed.
Print Assumptions C68_library_call_refuted.

(** t = src(); sink(ext(t)) where ext returns its argument *)
Theorem C68_library_result_refuted : unseen libProg (pol true) (tenv true true false false noAlias) false I2 (V I1).
Proof.
  split; [wf|]. split; [|bound_by (fun n => match n with I0 => [] | _ => [V I0 : value nd fd] end)].
  begin H libProg false (pol true). extern H libProg I0 I1 (PInt 0, true) zeroM ltac:(source_).
  extern H libProg I1 I2 (PInt 0, true) zeroM ltac:(copies (PInt 0)). found H Snk.
Qed.
Print Assumptions C68_library_result_refuted.

(** int x, *p = &x, *q = &x; *p = src(); sink( *q) *)
Theorem C68_alias_refuted : forall al, unseen lateProg (pol false) (tenv true false false false al) false I10 (V I9).
Proof.
  intros al. split; [wf|]. split.
  - begin H lateProg false (pol false). extern H lateProg I0 I1 (PInt 0, true) zeroM ltac:(source_).
    alloca H lateProg I1 I2. alloca H lateProg I2 I3. alloca H lateProg I3 I4. store H lateProg I4 I5. store H lateProg I5 I6.
    load H lateProg I6 I7. store H lateProg I7 I8. load H lateProg I8 I9. load H lateProg I9 I10. found H Snk.
  - bound_by (fun n => match n with I0 => [] | _ => [V I0 : value nd fd; V I6] end).
Qed.
Print Assumptions C68_alias_refuted.

(** g = src(); f() with f() { sink(g) }: globals are not passed to callees *)
Definition globProg := straight
  (fun n => match n with I0 => ICall true [Src] [] | I1 => IStore (V I0) (VGlob 0) | I2 => ICall true [Fun] []
    | I12 => ILoad (VGlob 0) | I13 => ICall true [Snk] [V I12] | I14 => IRet None | _ => IOp [] end)
  (fun f => match f with Snk => 1 | _ => 0 end) (fun _ => false).
Theorem C68_global_refuted : unseen globProg (pol false) (tenv true false false false noAlias) false I13 (V I12).
Proof.
  split; [wf|]. split.
  - begin H globProg false (pol false). extern H globProg I0 I1 (PInt 0, true) zeroM ltac:(source_).
    store H globProg I1 I2. call H globProg I2 Fun (@nil cval). load H globProg I12 I13. found H Snk.
  - bound_by (fun n => match n with I0 | I12 | I13 | I14 | I15 => [] | _ => [V I0 : value nd fd; VGlob 0] end).
Qed.
Print Assumptions C68_global_refuted.

(** A fact that every callee sanitizes need not be gone after the call: int x; src(&x);
    f(&x); sink(&x) where f is a sanitizer with a body; the parameter brings the fact
    back *)
Definition bodySan : taintEnv nd fd :=
  mkTaintEnv (fun v => match v with VArg Src 0 => true | _ => false end) (fun v => match v with VArg Snk 0 => true | _ => false end)
    (fun v => match v with VArg Fun 0 => true | _ => false end) (fun _ => []) (fun _ => []) noAlias (fun _ => false) (fun v => v)
    (fun _ => None) (fun _ => false) (fun _ => false).
Theorem C68_sanitizer_with_body_refuted :
  exists (p : prog nd fd) t (c r : nd) (a : value nd fd) st X,
    prog_wf p /\ succs p c = [r] /\ (forall f, In f (calleesAt p c) -> exists i, passes p c f i a /\ isSanitizer t (VArg f i) = true) /\
    (forall Y, ~ In a (callToRetFlow p t c (calleesAt p c) Y)) /\
    InterMonoSpec.flows (monoICFG p bt) (monoProblem p t Main) r st X /\ In a (leaksOf p t r (calleesAt p r) X).
Proof.
  exists onceProg, bodySan, I3, I4, (V I1).
  assert (Sn : forall f, In f (calleesAt onceProg I3) -> exists i, passes onceProg I3 f i (V I1) /\ isSanitizer bodySan (VArg f i) = true).
  { intros f [<-|[]]. exists 0. repeat split; auto. }
  assert (H : InterMonoSpec.flows (monoICFG onceProg bt) (monoProblem onceProg bodySan Main) I3 [] [V I1]).
  { pose proof (InterMonoSpec.fl_seed (monoICFG onceProg bt) (monoProblem onceProg bodySan Main) I0 [] (or_introl eq_refl)) as H.
    eapply (InterMonoSpec.fl_normal _ _ I0 I1) in H; [|reflexivity|reflexivity|cbn; auto].
    eapply (InterMonoSpec.fl_normal _ _ I1 I2) in H; [|reflexivity|reflexivity|cbn; auto].
    eapply (InterMonoSpec.fl_call_to_return _ _ I2 I3) in H; [|reflexivity|cbn; auto]. exact H. }
  eapply (InterMonoSpec.fl_call _ _ I3 Fun I12) in H; [|reflexivity|cbn; auto|cbn; auto].
  eapply (InterMonoSpec.fl_normal _ _ I12 I13) in H; [|reflexivity|reflexivity|cbn; auto].
  eapply (InterMonoSpec.fl_return _ _ I13 I3 I4) in H; [|reflexivity|reflexivity|cbn; auto].
  eexists _, _. split; [wf|]. split; [reflexivity|]. split; [exact Sn|]. split; [|split; [exact H|vm_compute; auto]].
  intros Y I. rewrite C68_call_to_return in I. destruct I as [(f & [<-|[]] & [[]|[[[=] _]|(i & [A B] & C)]])|(_ & K & _)]; [discriminate C|].
  apply K. split; [discriminate|exact Sn].
Qed.
Print Assumptions C68_sanitizer_with_body_refuted.

(** ** A program the positive theorem is about: int x, y; src(&x); f(&x, &y); sink(y)
    where f(a, b) does *b = *a *)
Definition copyProg := straight
  (fun n => match n with I0 => IOp [] | I1 => IAlloca true | I2 => IAlloca true | I3 => ICall true [Src] [V I1] | I4 => ICall true [Fun] [V I1; V I2]
    | I5 => ILoad (V I2) | I6 => ICall true [Snk] [V I5]
    | I12 => ILoad (VArg Fun 0) | I13 => IStore (V I12) (VArg Fun 1) | I14 => IOp [VArg Fun 0; VArg Fun 1] | I15 => IRet None | _ => IOp [] end)
  (fun f => match f with Main => 0 | Fun => 2 | _ => 1 end)
  (fun x => match x with VInst I1 | VInst I2 | VArg Fun _ | VArg Src _ => true | _ => false end).
Definition copyPol : policy nd fd :=
  mkPolicy (fun _ f i => match f, i with Src, 0 => true | _, _ => false end) (fun _ => false)
    (fun _ f i => match f, i with Snk, 0 => true | _, _ => false end) (fun _ _ => []).
Definition copyEnv := tenv false false false false noAlias.
Example copy_simple : prog_wf copyProg /\ taintSimple copyProg copyPol /\ monoSimple copyProg copyPol copyEnv /\ monoConfigured copyProg copyPol copyEnv.
Proof.
  split; [wf|]. split; [|split]; split.
  - intros []; cbn; auto.
  - intros [] f i a Hf Ha; cbn in Hf; try contradiction; destruct Hf as [<-|[]]; destruct i as [|[|[|i]]]; cbn in Ha; try discriminate Ha;
      injection Ha as <-; left; reflexivity.
  - intros [] a Ha; cbn in Ha; repeat destruct Ha as [<-|Ha]; try destruct Ha; cbn; auto; discriminate.
  - intros [] [|[|i]] [|[|j]] a Hi Hj; cbn in *; try discriminate; try (destruct i; discriminate); try (destruct j; discriminate); congruence.
  - intros [] f Hf Hb; cbn in Hf; try destruct Hf as [<-|[]]; try destruct Hf; cbn in Hb; try congruence; auto.
  - intros n f i H. destruct f, i; cbn in H |- *; try lia; destruct H as [H|H]; congruence.
  - intros f i n Hp Ho. destruct n; cbn in Ho; repeat destruct Ho as [Ho|Ho]; try contradiction; try discriminate; injection Ho as <- <-; reflexivity.
  - intros []; cbn; auto.
  - reflexivity.
  - intros [] a Ha; cbn in Ha; repeat destruct Ha as [<-|Ha]; try destruct Ha; cbn; auto; discriminate.
  - intros [] f a Hf Hb Ha Hv; cbn in Hf; try contradiction; destruct Hf as [<-|[]]; try discriminate Hb; cbn in Ha; destruct Ha as [<-|[]]; try discriminate Hv.
    exists Src. split; [cbn; auto|]. right. right. exists 0. cbn. auto.
  - intros n f i a Hs Ha. left. destruct f, i; cbn in *; auto; discriminate.
  - discriminate.
  - intros n f i a Hs Ha. left. destruct f, i; cbn in *; auto; discriminate.
  - intros [] [|i]; reflexivity.
Qed.
Example copy_leaks : exists E K M k, taintRuns copyProg false (extTaint copyProg copyPol) Main true (I6, E, K, M, k) /\ leaksAt copyProg copyPol Snk I6 E M (V I5).
Proof.
  begin H copyProg false copyPol. op H copyProg I0 I1 0%Z. alloca H copyProg I1 I2. alloca H copyProg I2 I3.
  extern H copyProg I3 I4 (PInt 0, false) (write zeroM (LMem 0) (PInt 7, true)) ltac:(taints).
  call H copyProg I4 Fun [(PPtr (LMem 0), false); (PPtr (LMem 1), false)].
  load H copyProg I12 I13. store H copyProg I13 I14. op H copyProg I14 I15 0%Z.
  eapply ex_step in H; [|eapply (st_retvoid copyProg _ _ _ _ I15 I5); [reflexivity|cbn; auto]].
  load H copyProg I5 I6.
  eexists _, _, _, _. split; [exact H|]. split; [cbn; auto|]. exists 0. cbn. repeat split; eauto.
Qed.
(** beside the calls of copyProg: the source stays; both pointers go where the body is
    called; a sanitizer takes only what it cleans *)
Example copy_beside :
  callToRetFlow copyProg copyEnv I3 [Src] [V I2] = [V I2; V I1] /\ callToRetFlow copyProg copyEnv I4 [Fun] [V I1; V I5; V I2] = [V I5] /\
  callToRetFlow copyProg bodySan I4 [Fun] [V I1; V I5; V I2] = [V I5; V I2] /\ callToRetFlow copyProg bodySan I4 [Fun; Snk] [V I1; V I5] = [V I5].
Proof. vm_compute. auto. Qed.
Example copy_graph : InterMonoModel.exitPoints (monoICFG copyProg bt) Fun = [I15] /\ InterMonoModel.callersOf (monoICFG copyProg bt) Fun = [I4].
Proof. vm_compute. auto. Qed.
