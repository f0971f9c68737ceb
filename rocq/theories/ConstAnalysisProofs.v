(** Two writes of one location give the fact; the facts need two writes. *)
From Coq Require Import List Bool ZArith Arith Lia Relations.
From Verif Require Import Assoc TableModel IDESolverModel IDESpec IFDSModel IFDSSpec IFDSProofs
  IRProgramModel IRProgramSpec IRProgramProofs IRProgramSim LLVMFlowFunctionsModel UninitProofs TaintModel ConstAnalysisModel ConstAnalysisSpec.
Import ListNotations.

Section P.
  Context {N F : Type} {EN : EqDec N} {EF : EqDec F}.
  Local Notation value := (value N F).
  Variable p : prog N F.
  Variable alias : value -> list value.
  Variables vtable memIntrin heapCall : N -> bool.
  Local Notation generates := (generates p alias vtable memIntrin).
  Local Notation mark := (mark p alias vtable memIntrin).
  Local Notation decided := (decided p alias vtable memIntrin).
  Local Notation writeOp := (writeOp p vtable memIntrin).

  Lemma isInit_incl (ini ini' : list value) (v : value) : incl ini ini' -> isInit ini v = true -> isInit ini' v = true.
  Proof.
    unfold isInit. intros H. rewrite !orb_true_iff. intros [X|X]; [now left|right].
    apply existsb_exists in X as (y & Y1 & Y2). apply existsb_exists. exists y. auto.
  Qed.
  Lemma mark_incl ini n : incl ini (mark ini n).
  Proof. unfold ConstAnalysisModel.mark. destruct (writeOp n); [|apply incl_refl]. destruct (generates ini n); [apply incl_refl|apply incl_tl, incl_refl]. Qed.
  (** an initialised alias makes a later first request generate *)
  Lemma decided_init order ini n q a : In n order -> writeOp n = Some q -> In a (alias q) -> isInit ini a = true ->
    decided ini order n = true.
  Proof.
    intros Hn Hq Ha. revert ini. induction order as [|m order IH]; [destruct Hn|]. intros ini Hi. cbn.
    destruct (eqb m n) eqn:E.
    - apply eqb_eq in E. subst m. unfold ConstAnalysisModel.generates. rewrite Hq. apply existsb_exists. eauto.
    - destruct Hn as [->|Hn]; [now rewrite eqb_refl in E|]. apply IH; auto. eapply isInit_incl; [apply mark_incl|exact Hi].
  Qed.
  Lemma one_decided order ini n1 n2 q1 q2 : n1 <> n2 -> In n1 order -> In n2 order ->
    writeOp n1 = Some q1 -> writeOp n2 = Some q2 -> In q1 (alias q2) -> In q2 (alias q1) ->
    decided ini order n1 = true \/ decided ini order n2 = true.
  Proof.
    intros Hne H1 H2 Q1 Q2 A1 A2. revert ini. induction order as [|m order IH]; [destruct H1|]. intros ini. cbn.
    assert (X : forall n q, writeOp n = Some q -> generates ini n = true \/ isInit (mark ini n) q = true).
    { intros n q Hq. destruct (generates ini n) eqn:G; [now left|right]. unfold ConstAnalysisModel.mark. rewrite Hq, G.
      unfold isInit. cbn. rewrite eqb_refl. apply orb_true_r. }
    destruct (eqb m n1) eqn:E1.
    - apply eqb_eq in E1. subst m. destruct (X _ _ Q1) as [G|G]; [now left|].
      rewrite (proj2 (Assoc.eqb_false n1 n2) Hne). right.
      destruct H2 as [->|H2]; [now contradiction Hne|]. eapply decided_init; eauto.
    - destruct (eqb m n2) eqn:E2.
      + apply eqb_eq in E2. subst m. destruct (X _ _ Q2) as [G|G]; [now right|left].
        destruct H1 as [->|H1]; [now rewrite eqb_refl in E1|]. eapply decided_init; eauto.
      + destruct H1 as [->|H1]; [now rewrite eqb_refl in E1|]. destruct H2 as [->|H2]; [now rewrite eqb_refl in E2|]. auto.
  Qed.
  (** the other way: where an initialised alias comes from *)
  Lemma decided_from order ini n : decided ini order n = true ->
    exists q a, writeOp n = Some q /\ In a (alias q) /\
      (isGlobal a = true \/ In a ini \/ exists m, m <> n /\ In m order /\ writeOp m = Some a).
  Proof.
    revert ini. induction order as [|m order IH]; [discriminate|]. intros ini. cbn. destruct (eqb m n) eqn:E.
    - apply eqb_eq in E. subst m. unfold ConstAnalysisModel.generates. destruct (writeOp n) as [q|]; [|discriminate].
      intros H. apply existsb_exists in H as (a & H1 & H2). exists q, a. repeat split; auto.
      unfold isInit in H2. apply orb_true_iff in H2 as [H2|H2]; auto. apply existsb_exists in H2 as (y & Y1 & Y2). apply eqb_eq in Y2. subst y. auto.
    - intros H. apply IH in H as (q & a & H1 & H2 & H3). exists q, a. repeat split; auto.
      destruct H3 as [H3|[H3|(m' & A & B & C)]]; auto.
      + unfold ConstAnalysisModel.mark in H3. destruct (writeOp m) as [q'|] eqn:W; auto. destruct (generates ini m); auto.
        destruct H3 as [->|H3]; auto. right. right. exists m. split; [intros ->; now rewrite eqb_refl in E|]. split; [now left|auto].
      + right. right. exists m'. split; [exact A|]. split; [now right|auto].
  Qed.

  Variable order : list N.
  Variable main : F.
  Hypothesis WF : prog_wf p.
  Local Notation G := (irICFG p).
  Local Notation W := (constFlows p alias vtable memIntrin heapCall order).
  Local Notation valid := (valid G W (constSeeds p main)).
  Local Notation contextAliases := (contextAliases p alias vtable memIntrin heapCall).
  Local Notation constWrite := (constWrite p alias vtable memIntrin heapCall order).

  Lemma zeroed_zero (ff : value -> list value) : In VZero (zeroed ff VZero).
  Proof. now left. Qed.
  Lemma zeroed_In (ff : value -> list value) d d' : In d' (ff d) -> In d' (zeroed ff d).
  Proof. unfold zeroed. destruct (isZero d); cbn; auto. Qed.

  (** zero holds wherever an execution gets *)
  Lemma runs_zero ext c : runs p ext main c ->
    valid (stkOf (snd (fst (fst c)))) (stmt c) VZero /\
    forall x f, In (x, f) (stkOf (snd (fst (fst c)))) -> isCall p x = true.
  Proof.
    unfold runs. induction 1 as [sp E M Hs _ _|c c' _ [IH CS] Hs].
    - split; [|intros x f []]. cbn. eapply (v_zero G W) with (ds := [VZero]). unfold constSeeds. rewrite Hs. now left.
    - unfold stmt in *. destruct Hs; cbn in *.
      + split; auto. eapply v_normal; [exact IH|cbn; unfold isCall; now rewrite H|exact H0|apply zeroed_zero].
      + split; auto. eapply v_normal; [exact IH|cbn; unfold isCall; now rewrite H|exact H0|apply zeroed_zero].
      + split; auto. eapply v_normal; [exact IH|cbn; unfold isCall; now rewrite H|exact H0|apply zeroed_zero].
      + split; auto. eapply v_normal; [exact IH| |exact H0|apply zeroed_zero]. cbn. unfold isCall. inversion H; reflexivity.
      + split.
        * eapply v_call; [exact IH|cbn; unfold isCall; now rewrite H|cbn; unfold calleesAt; rewrite H; exact H0|reflexivity| |apply zeroed_zero].
          cbn. rewrite H1. now left.
        * intros x g [[= <- <-]|X]; [unfold isCall; now rewrite H|eauto].
      + split; auto. eapply v_ctr; [exact IH|cbn; unfold isCall; now rewrite H|exact H2|apply zeroed_zero].
      + split; [|eauto]. eapply v_ret; [exact IH|cbn; unfold isCall; now rewrite H|cbn; now rewrite H|exact H0|apply zeroed_zero].
      + split; [|eauto]. eapply v_ret; [exact IH|cbn; unfold isCall; now rewrite H|cbn; now rewrite H|exact H0|apply zeroed_zero].
  Qed.

  Lemma write_keeps n d : In d (constWrite n d).
  Proof. unfold ConstAnalysisModel.constWrite. destruct (_ && _); now left. Qed.
  Lemma valid_within stk n m d : within p n m -> valid stk n d -> valid stk m d.
  Proof.
    intros H. apply clos_rt_rt1n in H. induction H as [|n n' m Hs _ IH]; auto. intros V. apply IH.
    destruct (isCall p n) eqn:Hc.
    - eapply v_ctr; [exact V|exact Hc|exact Hs|]. apply zeroed_In. unfold constCtr. destruct (memIntrin n); [apply write_keeps|now left].
    - eapply v_normal; [exact V|exact Hc|exact Hs|]. apply zeroed_In. unfold constNormal.
      destruct (code p n); try (now left). apply write_keeps.
  Qed.
  Lemma valid_gen stk n n' x : valid stk n VZero -> In n' (succs p n) -> decided [] order n = true -> In x (contextAliases n) ->
    valid stk n' x.
  Proof.
    intros V Hs Hd Hx. unfold ConstAnalysisModel.contextAliases in Hx. destruct (writeOp n) as [q|] eqn:Q; [|destruct Hx].
    assert (X : In x (constWrite n VZero)).
    { unfold ConstAnalysisModel.constWrite. rewrite Hd. cbn [isZero andb]. right. unfold ConstAnalysisModel.contextAliases. now rewrite Q. }
    unfold ConstAnalysisModel.writeOp in Q. destruct (code p n) eqn:Hc; try discriminate.
    - eapply v_normal; [exact V|cbn; unfold isCall; now rewrite Hc|exact Hs|]. apply zeroed_In. unfold constNormal. now rewrite Hc.
    - destruct (memIntrin n) eqn:HM; [|discriminate].
      eapply v_ctr; [exact V|cbn; unfold isCall; now rewrite Hc|exact Hs|]. apply zeroed_In. unfold constCtr. now rewrite HM.
  Qed.

  Local Notation memLoc := (memLoc p heapCall).
  Lemma memLoc_bool x : memLoc x -> isAlloc p heapCall x || isGlobal x = true.
  Proof. intros [(n & -> & [[b H]|(H1 & b & fs & args & H)])|[g ->]]; cbn; rewrite ?H; auto. now rewrite H1. Qed.
  Lemma memLoc_relevant f x : memLoc x -> relevant p heapCall f x = true.
  Proof. intros H. apply memLoc_bool in H. destruct x; cbn in *; try discriminate; auto. rewrite orb_false_r in H. now rewrite H. Qed.

  Lemma writes_op c l : writes p memIntrin c l -> vtable (stmt c) = false -> exists q, writeOp (stmt c) = Some q /\ pointsTo c q l.
  Proof.
    intros (q & Hp & H) Hv. exists q. split; auto. unfold ConstAnalysisModel.writeOp. destruct H as [[v ->]|[Hm (b & fs & args & ->)]].
    - now rewrite Hv.
    - now rewrite Hm.
  Qed.

  Lemma op_writes n q : writeOp n = Some q -> writesTo p memIntrin n q.
  Proof.
    unfold ConstAnalysisModel.writeOp, writesTo. destruct (code p n) as [| | | | | | | | |b fs args|]; try discriminate.
    - destruct (vtable n); [discriminate|]. intros [= ->]. left. eauto.
    - destruct (memIntrin n); [|discriminate]. destruct args as [|a args]; [discriminate|]. intros [= ->]. right. eauto 6.
  Qed.

  Variable ext : N -> F -> list cval -> mem -> cval -> mem -> Prop.
  Lemma two_writes_valid c1 c2 c0 x l :
    aliasSound p ext main alias -> In (stmt c1) order -> In (stmt c2) order -> stmt c1 <> stmt c2 ->
    runs p ext main c1 -> later_ p ext c1 c2 -> writes p memIntrin c1 l -> writes p memIntrin c2 l ->
    vtable (stmt c1) = false -> vtable (stmt c2) = false ->
    runs p ext main c0 -> later_ p ext c0 c1 -> pointsTo c0 x l ->
    relevant p heapCall (fnOf p (stmt c1)) x = true -> relevant p heapCall (fnOf p (stmt c2)) x = true ->
    exists c, (c = c1 \/ c = c2) /\
      forall n' m, In n' (succs p (stmt c)) -> within p n' m -> valid (stkOf (snd (fst (fst c)))) m x.
  Proof.
    intros AS O1 O2 Hne R1 L12 W1 W2 V1 V2 R0 L01 Px C1 C2.
    assert (R2 : runs p ext main c2).
    { clear - R1 L12. apply clos_rt_rtn1 in L12. induction L12; auto. eapply ex_step; eauto. }
    destruct (writes_op _ _ W1 V1) as (q1 & Q1 & P1). destruct (writes_op _ _ W2 V2) as (q2 & Q2 & P2).
    destruct (AS _ _ _ _ _ R1 L12 P1 P2) as [A1 A2].
    destruct (AS _ _ _ _ _ R0 L01 Px P1) as [_ B1].
    destruct (AS _ _ _ _ _ R0 (rt_trans _ _ _ _ _ L01 L12) Px P2) as [_ B2].
    destruct (one_decided order [] _ _ _ _ Hne O1 O2 Q1 Q2 A2 A1) as [D|D].
    - exists c1. split; auto. intros n' m Hs Hw.
      eapply valid_within; [exact Hw|]. eapply valid_gen; [exact (proj1 (runs_zero _ _ R1))|exact Hs|exact D|].
      unfold ConstAnalysisModel.contextAliases. rewrite Q1. apply filter_In. auto.
    - exists c2. split; auto. intros n' m Hs Hw.
      eapply valid_within; [exact Hw|]. eapply valid_gen; [exact (proj1 (runs_zero _ _ R2))|exact Hs|exact D|].
      unfold ConstAnalysisModel.contextAliases. rewrite Q2. apply filter_In. auto.
  Qed.
  Lemma two_writes c1 c2 c0 x l :
    aliasSound p ext main alias -> In (stmt c1) order -> In (stmt c2) order -> stmt c1 <> stmt c2 ->
    runs p ext main c1 -> later_ p ext c1 c2 -> writes p memIntrin c1 l -> writes p memIntrin c2 l ->
    vtable (stmt c1) = false -> vtable (stmt c2) = false ->
    runs p ext main c0 -> later_ p ext c0 c1 -> pointsTo c0 x l -> memLoc x ->
    exists n, (n = stmt c1 \/ n = stmt c2) /\ forall n' m, In n' (succs p n) -> within p n' m -> exists stk, valid stk m x.
  Proof.
    intros AS O1 O2 Hne R1 L12 W1 W2 V1 V2 R0 L01 Px Mx.
    destruct (two_writes_valid c1 c2 c0 x l AS O1 O2 Hne R1 L12 W1 W2 V1 V2 R0 L01 Px (memLoc_relevant _ _ Mx) (memLoc_relevant _ _ Mx)) as (c & Hc & H).
    exists (stmt c). split; [destruct Hc as [->| ->]; auto|]. intros n' m A B. eauto.
  Qed.

  Lemma runs_inFun c : runs p ext main c -> inFun p (stkOf (snd (fst (fst c)))) (stmt c).
  Proof. intros R. eapply valid_inFun; [exact WF|exact (proj1 (runs_zero _ _ R))]. Qed.
  Lemma nth_combine (l1 l2 : list value) i a b : nth_error l1 i = Some a -> nth_error l2 i = Some b -> In (a, b) (List.combine l1 l2).
  Proof. revert l2 i. induction l1 as [|x l1 IH]; intros [|y l2] [|i]; cbn; try discriminate; eauto. intros [= ->] [= ->]. auto. Qed.
  Lemma nth_params f i : i < nparams p f -> nth_error (params p f) i = Some (VArg f i).
  Proof.
    intros H. unfold params. rewrite nth_error_map. assert (X : nth_error (seq 0 (nparams p f)) i = Some i).
    { rewrite nth_error_nth' with (d := 0) by now rewrite seq_length. now rewrite seq_nth. }
    now rewrite X.
  Qed.
  Lemma arity c f : length (argsAt p c) = nparams p f -> negb (arityOk (argsAt p c) (calleeOf p f)) = false.
  Proof. intros H. unfold arityOk. cbn [calleeOf cParams cVarArg]. unfold params. rewrite map_length, seq_length, H, Nat.leb_refl, Nat.eqb_refl. reflexivity. Qed.
  Lemma ret_param c f e i a : length (argsAt p c) = nparams p f -> fnOf p e = f -> nth_error (argsAt p c) i = Some a ->
    isPtr p (VArg f i) = true -> In a (constRet p c f e (VArg f i)).
  Proof.
    intros Ha He Hi Hp. unfold constRet, toCaller. rewrite He, (arity _ _ Ha). cbn [orNone isZero isConst andb app].
    apply in_or_app. left. apply in_flat_map. exists (VArg f i, a). split.
    - cbn [calleeOf cParams]. eapply nth_combine; [apply nth_params|exact Hi]. rewrite <- Ha. apply nth_error_Some. congruence.
    - cbn [fst snd]. rewrite eqb_refl. cbn [pointer andb]. rewrite Hp. now left.
  Qed.
  Lemma call_param c f i a : memIntrin c = false -> length (argsAt p c) = nparams p f -> entry p f <> None -> nth_error (argsAt p c) i = Some a ->
    (i = 0 -> sret p f = false) -> isPtr p a = true -> a <> VZero -> In (VArg f i) (constCall p memIntrin c f a).
  Proof.
    intros Hm Ha He Hi Hs Hp Hz. unfold constCall, toCallee. rewrite Hm. cbn [calleeOf cDecl cParams cSret cVarArg cVaLists].
    assert (De : decl p f = false) by (unfold decl; destruct (entry p f); congruence). rewrite De, (arity _ _ Ha). cbn [orNone].
    apply in_or_app. right. apply in_or_app. left. apply in_flat_map. exists (VArg f i, a).
    assert (Hl : i < nparams p f) by (rewrite <- Ha; apply nth_error_Some; congruence).
    assert (X : exists k, match params p f with [] => 0 | _ :: _ => if sret p f then 1 else 0 end = k /\ k <= i).
    { eexists. split; [reflexivity|]. destruct (params p f); [lia|]. destruct (sret p f); [|lia]. destruct i; [now specialize (Hs eq_refl)|lia]. }
    destruct X as (k & -> & Hk).
    assert (SK : forall (l : list value) j, nth_error (skipn k l) j = nth_error l (k + j)).
    { clear. induction k as [|k IH]; auto. intros [|x l] j; cbn; auto. destruct j; reflexivity. }
    split.
    - apply nth_combine with (i := i - k); rewrite SK; replace (k + (i - k)) with i by lia; auto. now apply nth_params.
    - cbn [fst snd]. match goal with |- context [eqb a (if ?b then a else a)] => replace (if b then a else a) with a by (destruct b; reflexivity) end.
      rewrite eqb_refl. assert (Y : pointer p a = true) by (destruct a; auto). rewrite Y. now left.
  Qed.

  (** a write whose alias set holds a global variable *)
  Lemma global_write c g x l :
    aliasSound p ext main alias -> In (stmt c) order -> runs p ext main c -> writes p memIntrin c l -> vtable (stmt c) = false ->
    l = LGlob g -> x = VGlob g -> forall n' m, In n' (succs p (stmt c)) -> within p n' m -> exists stk, valid stk m x.
  Proof.
    intros AS O R Wr V -> -> n' m Hs Hw. destruct (writes_op _ _ Wr V) as (q & Q & P).
    assert (PG : pointsTo c (VGlob g) (LGlob g)) by (exists false; reflexivity).
    destruct (AS _ _ _ _ _ R (rt_refl _ _ _) P PG) as [A _].
    exists (stkOf (snd (fst (fst c)))). eapply valid_within; [exact Hw|].
    eapply valid_gen; [exact (proj1 (runs_zero _ _ R))|exact Hs| |].
    - eapply decided_init with (a := VGlob g); eauto.
    - unfold ConstAnalysisModel.contextAliases. rewrite Q. apply filter_In. auto.
  Qed.

  Lemma const_covers follow st T stk n d : solved G (ifdsProblem W) follow (bottomSeeds (constSeeds p main)) st T ->
    valid stk n d -> In d (ifdsResultsAt T n).
  Proof.
    apply ir_covers; auto. intros m ds H. unfold constSeeds in H. destruct (entry p main) as [sp|] eqn:E; [|destruct H].
    destruct H as [[= <- _]|[]]. apply ir_isStart. now rewrite (pw_entry p WF _ _ E).
  Qed.

  Lemma removeAt_incl T f locs e x : In x (removeAt p heapCall T f locs e) -> In x locs.
  Proof. unfold removeAt. destruct (ifdsResultsAt T e); intros H; now apply filter_In in H as [H _]. Qed.
  Lemma removeAll_incl T f es locs x : In x (fold_left (removeAt p heapCall T f) es locs) -> In x locs.
  Proof. revert locs. induction es as [|e es IH]; cbn; auto. intros locs H. apply IH in H. now apply removeAt_incl in H. Qed.
  Lemma removeAll_gone T f es locs e x : In e es -> (In x locs -> ~ In x (removeAt p heapCall T f locs e) /\ forall locs', ~ In x (removeAt p heapCall T f locs' e)) ->
    ~ In x (fold_left (removeAt p heapCall T f) es locs).
  Proof.
    revert locs. induction es as [|e' es IH]; [intros _ []|]. intros locs [->|He] H Hx; cbn in Hx.
    - pose proof (removeAll_incl _ _ _ _ _ Hx) as Y. pose proof (removeAt_incl _ _ _ _ _ Y) as Z. now apply (proj1 (H Z)).
    - revert Hx. apply IH; auto. intros Z. apply removeAt_incl in Z. destruct (H Z) as [_ Q]. split; auto.
  Qed.
  Lemma immutable_incl T funs locs x : In x (immutable p heapCall T funs locs) -> In x locs.
  Proof.
    unfold immutable. revert locs. induction funs as [|f funs IH]; cbn; auto. intros locs H. apply IH in H. now apply removeAll_incl in H.
  Qed.
  Lemma immutable_gone T funs locs f e x : In f funs -> In e (exitsOf p f) -> In x (ifdsResultsAt T e) -> memLoc x ->
    ~ In x (immutable p heapCall T funs locs).
  Proof.
    intros Hf He Hx Hm. assert (Q : forall locs', ~ In x (removeAt p heapCall T f locs' e)).
    { intros locs' H. unfold removeAt in H. destruct (ifdsResultsAt T e) as [|d ds]; [destruct Hx|]. apply filter_In in H as [_ H].
      apply negb_true_iff, andb_false_iff in H as [H|H].
      - assert (X : existsb (eqb x) (d :: ds) = true); [|congruence]. apply existsb_exists. exists x. split; auto. apply eqb_refl.
      - rewrite (memLoc_bool _ Hm) in H. discriminate. }
    unfold immutable. revert locs. induction funs as [|g funs IH]; [destruct Hf|]. intros locs. cbn. destruct Hf as [->|Hf]; auto.
    intros H. assert (Y : In x (fold_left (removeAt p heapCall T f) (exitsOf p f) locs)).
    { revert H. generalize (fold_left (removeAt p heapCall T f) (exitsOf p f) locs). clear - EN EF. intros l H. now apply immutable_incl in H. }
    revert Y. eapply removeAll_gone; eauto.
  Qed.

  Lemma onlyZero :
    (forall f, ~ In VZero (valists p f)) ->
    (forall n q g, writesTo p memIntrin n q -> ~ In (VGlob g) (alias q)) ->
    (forall n1 n2 q1 q2, writesTo p memIntrin n1 q1 -> writesTo p memIntrin n2 q2 -> In q1 (alias q2) -> n1 = n2) ->
    forall stk n d, valid stk n d -> d = VZero.
  Proof.
    intros NV NG ONE. assert (ND : forall n, decided [] order n = false).
    { intros n. apply not_true_is_false. intros H. apply decided_from in H as (q & a & H1 & H2 & [H3|[[]|(m & A & B & C)]]).
      - destruct a; try discriminate H3. apply op_writes in H1. now apply (NG _ _ _ H1) in H2.
      - apply A. apply op_writes in H1. apply op_writes in C. eapply ONE; eauto. }
    induction 1 as [n ds d Hi Hd|n ds Hi|stk n d n' d' V IH H1 H2 H3|stk c d r d' V IH H1 H2 H3|stk c d callee sf r d' V IH H1 H2 H3 H4 H5
                   |stk c d callee sp d' V IH H1 H2 H3 H4 H5|stk c callee e d r d' V IH H1 H2 H3 H4].
    - unfold constSeeds in Hi. destruct (entry p main); [|destruct Hi]. destruct Hi as [[= _ <-]|[]]. destruct Hd as [<-|[]]. reflexivity.
    - reflexivity.
    - subst d. apply zeroed_inv in H3 as [H3|H3]; auto. unfold constNormal, ConstAnalysisModel.constWrite in H3. rewrite ND in H3.
      destruct (code p n); destruct H3 as [H3|[]]; auto.
    - subst d. apply zeroed_inv in H3 as [H3|H3]; auto. unfold constCtr, ConstAnalysisModel.constWrite in H3. rewrite ND in H3.
      destruct (memIntrin c); destruct H3 as [H3|[]]; auto.
    - discriminate H3.
    - subst d. apply zeroed_inv in H5 as [H5|H5]; auto. unfold constCall in H5. destruct (memIntrin c); [destruct H5|].
      unfold toCallee, orNone in H5. destruct (cDecl _); [destruct H5|]. destruct (negb _); [destruct H5|]. cbn [isZero isConst andb orb negb app] in H5.
      destruct H5 as [H5|H5]; auto. exfalso.
      assert (NA : forall a, In a (argsAt p c) -> eqb a (VZero : value) = false).
      { intros a Ha. apply Assoc.eqb_false. intros ->. apply (pw_nozero p WF c). unfold operands, argsAt in *. destruct (code p c); auto; destruct Ha. }
      apply in_app_iff in H5 as [H5|H5].
      + apply in_flat_map in H5 as ([a b] & X & Y). apply in_combine_r in X. cbn [fst snd] in Y. rewrite NA in Y; [destruct Y|].
        clear - X. revert X. match goal with |- In _ (skipn ?k _) -> _ => generalize k end. intros k. revert k. induction (argsAt p c); intros [|k]; cbn; eauto.
      + match type of H5 with In _ (if ?b then _ else _) => destruct b eqn:B; [|destruct H5] end.
        apply existsb_exists in B as (a & X & Y). rewrite NA in Y; [discriminate|].
        assert (SK : forall (l : list value) k, In a (skipn k l) -> In a l).
        { clear. intros l. induction l; intros [|k]; cbn; eauto. }
        eapply SK, SK, X.
    - subst d. apply zeroed_inv in H4 as [H4|H4]; auto. unfold constRet, toCaller, orNone in H4. destruct (negb _); [destruct H4|].
      cbn [isZero andb app] in H4. destruct H4 as [H4|H4]; auto. exfalso.
      apply in_app_iff in H4 as [H4|H4]; [|apply in_app_iff in H4 as [H4|H4]].
      + apply in_flat_map in H4 as ([a b] & X & Y). apply in_combine_l in X. cbn [fst snd calleeOf cParams] in X, Y.
        unfold params in X. apply in_map_iff in X as (i & <- & _). destruct (eqb _ _) eqn:E in Y; [apply eqb_eq in E; discriminate|destruct Y].
      + cbn [calleeOf cVaLists] in H4. match type of H4 with In _ (if ?b then _ else _) => destruct b eqn:B; [|destruct H4] end.
        apply existsb_exists in B as (a & X & Y). apply andb_true_iff in Y as [Y _]. apply eqb_eq in Y. subst a. eapply NV; eauto.
      + destruct (retVal p e) as [r0|] eqn:RV; [|destruct H4]. destruct (eqb r0 VZero) eqn:E; [|destruct H4]. apply eqb_eq in E. subst r0.
        apply (pw_nozero p WF e). unfold operands, retVal in *. destruct (code p e); try discriminate. subst. now left.
  Qed.

  Variable funs : list F.
  Hypothesis FU : forall f, In f funs.
  Definition constFacts : list value := irFacts p funs ++ flat_map contextAliases (nodes p).
  Lemma const_facts : facts_closed (constProblem p alias vtable memIntrin heapCall order) (bottomSeeds (constSeeds p main)) constFacts.
  Proof.
    assert (L : forall d, In d (irFacts p funs) -> In d constFacts) by (intros; apply in_or_app; now left).
    assert (Z : In VZero constFacts) by (apply L, fact_zero).
    assert (WR : forall n d d', In d constFacts -> In d' (constWrite n d) -> In d' constFacts).
    { intros n d d' Hd H. unfold ConstAnalysisModel.constWrite in H. destruct (_ && _); (destruct H as [<-|H]; [exact Hd|]); [|destruct H].
      apply in_or_app. right. apply in_flat_map. exists n. split; auto. apply (pw_nodes p WF). }
    assert (SK : forall (a : value) (l : list value) k, In a (skipn k l) -> In a l).
    { clear. intros a l. induction l; intros [|k]; cbn; eauto. }
    assert (VL : forall f d, In d (valists p f) -> In d constFacts).
    { intros f d H. apply L. right. apply in_or_app. right. apply in_flat_map. exists f. split; auto. apply in_or_app; auto. }
    split; cbn [zeroValue normalFF callFF retFF ctrFF sumFF constProblem ifdsProblem constFlows irFlows f_normal f_call f_ret f_ctr f_sum f_zero].
    - exact Z.
    - intros n facts d v H H'. unfold constSeeds, bottomSeeds in H. destruct (entry p main); [|destruct H]. destruct H as [[= _ <-]|[]].
      destruct H' as [[= <- _]|[]]. exact Z.
    - intros n n' d d' Hd H. apply zeroed_inv in H as [->|H]; [exact Z|]. unfold constNormal in H.
      destruct (code p n); try (destruct H as [<-|[]]; exact Hd). eauto.
    - intros c f d d' Hd H. apply zeroed_inv in H as [->|H]; [exact Z|]. unfold constCall in H. destruct (memIntrin c); [destruct H|].
      unfold toCallee, orNone in H. destruct (cDecl _); [destruct H|]. destruct (negb _); [destruct H|].
      apply in_app_iff in H as [H|H]; [match type of H with In _ (if ?b then _ else _) => destruct b; [|destruct H] end; destruct H as [<-|[]]; auto|].
      apply in_app_iff in H as [H|H].
      + apply in_flat_map in H as ([a b] & X & Y). apply in_combine_l in X. apply SK in X. cbn [fst snd calleeOf cParams] in X, Y.
        match type of Y with In _ (if ?b then _ else _) => destruct b; [|destruct Y] end. destruct Y as [<-|[]]. apply L, (fact_par p funs FU f), X.
      + match type of H with In _ (if ?b then _ else _) => destruct b; [|destruct H] end.
        rewrite map_id in H. exact (VL f d' H).
    - intros c f e r d d' Hd H. apply zeroed_inv in H as [->|H]; [exact Z|]. unfold constRet, toCaller, orNone in H. destruct (negb _); [destruct H|].
      apply in_app_iff in H as [H|H]; [destruct (true && isZero d); [destruct H as [<-|[]]; auto|destruct (true && isConst d); [|destruct H]; destruct H as [<-|[]]; auto]|].
      apply in_app_iff in H as [H|H]; [|apply in_app_iff in H as [H|H]].
      + apply in_flat_map in H as ([a b] & X & Y). apply in_combine_r in X. cbn [fst snd] in X, Y.
        match type of Y with In _ (if ?b then _ else _) => destruct b; [|destruct Y] end. destruct Y as [<-|[]].
        apply L, (fact_arg p funs (pw_nodes p WF) c), X.
      + match type of H with In _ (if ?b then _ else _) => destruct b; [|destruct H] end. rewrite map_id in H. apply SK in H.
        apply L, (fact_arg p funs (pw_nodes p WF) c), H.
      + destruct (retVal p e) as [r0|]; [|destruct H]. destruct (eqb r0 d); [|destruct H]. destruct H as [<-|[]]. apply L, fact_inst, (pw_nodes p WF).
    - intros c r d d' Hd H. apply zeroed_inv in H as [->|H]; [exact Z|]. unfold constCtr in H.
      destruct (memIntrin c); [eauto|]. destruct H as [<-|[]]. exact Hd.
    - discriminate.
  Qed.
End P.
