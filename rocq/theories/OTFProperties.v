(** C64: resolution of calls with alias information. *)
From Coq Require Import String List Bool Arith NArith Lia.
From Verif Require Import Assoc TypeHierarchyModel ResolverModel ResolverSpec ResolverProofs OTFModel OTFSpec OTFProofs.
Import ListNotations.
Open Scope nat_scope.

Section T.
  Variable kind : nat -> vkind.
  Variable fun_ : nat -> func.

  (** ** Function pointers *)
  (** The targets are the functions that the call can invoke and to which an alias
      of the called operand leads. *)
  Theorem C64_function_pointer fuel c aliases R : resolveFunctionPointer kind fun_ fuel c aliases = Some R ->
    forall f, In f R <-> function kind f /\ invokes c (fun_ f) /\ exists p, In p aliases /\ leadsTo kind p f.
  Proof.
    intros E f. rewrite (targets_ok kind fun_ fuel c aliases [] R E f). unfold ok. rewrite consistent_iff. cbn. tauto.
  Qed.
  (** The search ends, also for constants that mention each other. *)
  Theorem C64_terminates U c aliases : (forall a k ops, kind a = KAggregate k ops -> In a U) ->
    exists fuel, forall fuel', fuel <= fuel' -> exists R, resolveFunctionPointer kind fun_ fuel' c aliases = Some R.
  Proof.
    intros HU. destruct (targets_end kind fun_ U c aliases) as (fuel & H).
    { intros a A. unfold isAggregate in A. destruct (kind a) eqn:E; try discriminate. eauto. }
    exists fuel. intros fuel' L. specialize (H fuel' L []). unfold resolveFunctionPointer. destruct (pointerTargets kind fun_ fuel' c aliases []) as [R|]; [eauto|contradiction].
  Qed.
  (** A function that is itself in the alias set is found.  Missing: other constants
      that are its address (refuted below). *)
  Theorem C64_covers_partial fuel c aliases R f : resolveFunctionPointer kind fun_ fuel c aliases = Some R ->
    function kind f -> invokes c (fun_ f) -> In f aliases -> In f R.
  Proof. intros E F I A. apply (C64_function_pointer fuel c aliases R E). split; [exact F|]. split; [exact I|]. exists f. split; [exact A|]. left. reflexivity. Qed.
  (** No more targets than without alias information, if functions in constants have
      their address taken. *)
  Theorem C64_subset_of_naive fuel c aliases R fs : resolveFunctionPointer kind fun_ fuel c aliases = Some R ->
    (forall p f, In p aliases -> leadsTo kind p f -> function kind f -> In f fs /\ fnAddressTaken (fun_ f) = true) ->
    forall f, In f R -> In f (functionPointer fun_ fs c).
  Proof.
    intros E H f I. apply (C64_function_pointer fuel c aliases R E) in I. destruct I as (F & V & p & Ip & L). destruct (H p f Ip L F) as [X Y].
    assert (G : forall l s, In f (fold_left (fun s f => if fnAddressTaken (fun_ f) && isConsistentCall c (fun_ f) then sinsert f s else s) l s) <->
      In f s \/ (In f l /\ fnAddressTaken (fun_ f) = true /\ isConsistentCall c (fun_ f) = true)).
    { induction l as [|x l IH]; intros s; cbn [fold_left]; [cbn; tauto|]. rewrite IH. cbn [In].
      destruct (fnAddressTaken (fun_ x) && isConsistentCall c (fun_ x)) eqn:B.
      - rewrite In_sinsert. apply andb_true_iff in B. split; [intros [[->|Z]|Z]; intuition|]. intros [Z|([->|Z] & W)]; auto.
      - split; [intros [Z|Z]; intuition|]. intros [Z|([->|Z] & W1 & W2)]; [auto| |auto]. rewrite W1, W2 in B. discriminate. }
    unfold functionPointer. apply G. right. split; [exact X|]. split; [exact Y|]. apply consistent_iff. exact V.
  Qed.

  (** ** Virtual calls *)
  (** The targets are the entries at the index in the tables of all aliases, one
      table behind the other. *)
  Theorem C64_virtual_call c aliases :
    (forall p name b ops, In p aliases -> kind p = KGlobal (Some name) (Some b) -> prefix "_ZTV" name = true -> kind b = KAggregate AStruct ops ->
       exists ts, Forall2 (fun o t => exists h1 h2, kind o = KAggregate AArray (h1 :: h2 :: t)) ops ts) ->
    exists R, resolveVirtualCall kind fun_ c aliases = Some R /\
      forall f, In f R <-> fnName (fun_ f) <> ""%string /\ fnName (fun_ f) <> "__cxa_pure_virtual"%string /\ invokes c (fun_ f) /\
        exists i p ts, getVFTIndex c = Some i /\ In p aliases /\ tables kind p ts /\ entryIs kind (concat ts) i f.
  Proof.
    intros W. unfold resolveVirtualCall. destruct (getVFTIndex c) as [i|]; [|exists []; split; [reflexivity|]; intros f; split; [intros []|intros (_ & _ & _ & i & p & ts & X & _); discriminate]].
    assert (One : forall p, In p aliases -> exists l, virtualTarget kind fun_ c i p = Some l /\
      forall f, In f l <-> fnName (fun_ f) <> ""%string /\ fnName (fun_ f) <> "__cxa_pure_virtual"%string /\ invokes c (fun_ f) /\
        exists ts, tables kind p ts /\ entryIs kind (concat ts) i f).
    { intros p Ip.
      assert (No : (forall ts, ~ tables kind p ts) -> exists l, Some [] = Some l /\ forall f, In f l <-> fnName (fun_ f) <> ""%string /\ fnName (fun_ f) <> "__cxa_pure_virtual"%string /\ invokes c (fun_ f) /\
        exists ts, tables kind p ts /\ entryIs kind (concat ts) i f).
      { intros N. exists []. split; [reflexivity|]. intros f. split; [intros []|]. intros (_ & _ & _ & ts & T & _). destruct (N ts T). }
      unfold virtualTarget. destruct (kind p) as [|[name|] [b|]|x|x y z w|x y| |] eqn:E;
        try (apply No; intros ts (n & b' & ops & X & _); congruence).
      destruct (prefix "_ZTV" name) eqn:Pr; [|apply No; intros ts (n & b' & ops & X & Y & _); congruence].
      destruct (kind b) as [|? ?|x|x y z w|[| |] ops| |] eqn:Eb; try (apply No; intros ts (n & b' & ops' & X & Y & Z & _); congruence).
      destruct (W p name b ops Ip E Pr Eb) as (ts & F2). rewrite (vfVector_tables kind ops ts F2).
      assert (Un : forall ts', tables kind p ts' -> ts' = ts).
      { intros ts' (n & b' & ops' & X & _ & Z & F2'). assert (ops' = ops) as -> by congruence. clear -F2 F2'. revert ts' F2'.
        induction F2 as [|o t ops ts (h1 & h2 & H) F2 IH]; intros ts' F2'; inversion F2' as [|? t' ? ts'' (h1' & h2' & H') F2'']; subst; [reflexivity|].
        assert (t' = t) as -> by congruence. f_equal. apply IH. exact F2''. }
      assert (Ts : tables kind p ts) by (exists name, b, ops; auto).
      assert (Nt : forall f, (exists ts, tables kind p ts /\ entryIs kind (concat ts) i f) <-> nth_error (map (vfEntry kind) (concat ts)) i = Some (Some f)).
      { intros f. rewrite vfEntry_iff. split; [intros (ts' & T & X); rewrite (Un ts' T) in X; exact X|eauto]. }
      destruct (nth_error (map (vfEntry kind) (concat ts)) i) as [[g|]|] eqn:Eg.
      - destruct (eqb (fnName (fun_ g)) ""%string || eqb (fnName (fun_ g)) "__cxa_pure_virtual"%string || negb (isConsistentCall c (fun_ g))) eqn:B; eexists; (split; [reflexivity|]); intros f; rewrite Nt.
        + split; [intros []|]. intros (N1 & N2 & V & [= <-]). apply consistent_iff in V. rewrite V in B. rewrite !orb_true_iff in B.
          destruct B as [[B|B]|B]; [apply N1, eqb_eq, B|apply N2, eqb_eq, B|discriminate].
        + rewrite !orb_false_iff in B. destruct B as [[B1 B2] B3]. split.
          * intros [<-|[]]. split; [intros X; rewrite X in B1; discriminate|]. split; [intros X; rewrite X in B2; discriminate|]. split; [|reflexivity].
            apply consistent_iff. destruct (isConsistentCall c (fun_ g)); [reflexivity|discriminate].
          * intros (_ & _ & _ & [= <-]). left. reflexivity.
      - eexists; (split; [reflexivity|]); intros f; rewrite Nt. split; [intros []|]. intros (_ & _ & _ & X). discriminate.
      - eexists; (split; [reflexivity|]); intros f; rewrite Nt. split; [intros []|]. intros (_ & _ & _ & X). discriminate. }
    clear W. assert (G : forall as_ out, incl as_ aliases -> exists R, virtualTargets kind fun_ c i as_ out = Some R /\
      forall f, In f R <-> In f out \/ exists p, In p as_ /\ fnName (fun_ f) <> ""%string /\ fnName (fun_ f) <> "__cxa_pure_virtual"%string /\ invokes c (fun_ f) /\
        exists ts, tables kind p ts /\ entryIs kind (concat ts) i f).
    { induction as_ as [|p as_ IH]; intros out Inc; cbn [virtualTargets].
      - exists out. split; [reflexivity|]. intros f. split; [auto|]. intros [X|(p & [] & _)]. exact X.
      - destruct (One p (Inc p (or_introl eq_refl))) as (l & El & Hl). rewrite El.
        destruct (IH (fold_left (fun s f => sinsert f s) l out) (fun x I => Inc x (or_intror I))) as (R & ER & HR). exists R. split; [exact ER|].
        assert (Fl : forall (m s : list nat) (f : nat), In f (fold_left (fun s f => sinsert f s) m s) <-> In f s \/ In f m).
        { induction m as [|x m IHm]; intros s f; cbn [fold_left]; [cbn; tauto|]. rewrite IHm, In_sinsert. cbn. intuition. }
        intros f. rewrite HR, Fl, Hl. cbn [In]. split.
        + intros [[X|X]|(q & I & X)]; [auto| |]; right; [exists p|exists q]; auto.
        + intros [X|(q & [<-|I] & X)]; [auto|auto|]. right. exists q. auto. }
    destruct (G aliases [] (fun x I => I)) as (R & ER & HR). exists R. split; [exact ER|]. intros f. rewrite HR. split.
    - intros [[]|(p & Ip & N1 & N2 & V & ts & T & X)]. split; [exact N1|split; [exact N2|split; [exact V|]]]. exists i, p, ts. auto.
    - intros (N1 & N2 & V & j & p & ts & [= <-] & Ip & T & X). right. exists p. split; [exact Ip|split; [exact N1|split; [exact N2|split; [exact V|]]]]. exists ts. auto.
  Qed.
End T.
Print Assumptions C64_function_pointer.
Print Assumptions C64_terminates.
Print Assumptions C64_covers_partial.
Print Assumptions C64_subset_of_naive.
Print Assumptions C64_virtual_call.

(** ** Aliases of calls *)
(** Without inter-procedural information, exactly the pointers that are handed over
    and the pointers that are returned become aliases. *)
Theorem C64_call_aliases callSite actuals targets x y : In (x, y) (handlePossibleTargets false callSite actuals targets) <->
  exists t, In t targets /\ tDecl t = false /\ (handed actuals t x y \/ (x = callSite /\ tRetPtr t = true /\ In (Some y) (tExits t))).
Proof.
  assert (Or : forall fs as_, In (x, y) (ordinary as_ fs) <-> exists i, nth_error as_ i = Some (x, true) /\ nth_error fs i = Some (y, true)).
  { induction fs as [|[f pf] fs IH]; intros [|[a pa] as_]; cbn [ordinary].
    - split; [intros []|intros (i & X & _); destruct i; discriminate].
    - split; [intros []|intros (i & _ & X); destruct i; discriminate].
    - split; [intros []|intros (i & X & _); destruct i; discriminate].
    - rewrite in_app_iff, IH. split.
      + intros [X|(i & X & Y)]; [|exists (S i); auto]. exists 0. destruct pa, pf; try destruct X. injection H as <- <-. auto. destruct H.
      + intros ([|i] & X & Y); [|right; exists i; auto]. cbn in X, Y. injection X as -> ->. injection Y as -> ->. left. left. reflexivity. }
  assert (Sk : forall (n : nat) (l : list (nat * bool)) z, In z (skipn n l) <-> exists i, n <= i /\ nth_error l i = Some z).
  { induction n as [|n IH]; intros l z.
    - cbn. split; [intros I; apply In_nth_error in I; destruct I as (i & I); exists i; split; [lia|exact I]|]. intros (i & _ & X). apply nth_error_In in X. exact X.
    - destruct l as [|h l]; [split; [intros []|intros (i & _ & X); destruct i; discriminate]|]. cbn [skipn]. rewrite IH. split.
      + intros (i & L & X). exists (S i). split; [lia|exact X].
      + intros ([|i] & L & X); [lia|]. exists i. split; [lia|exact X]. }
  assert (Pa : forall t, In (x, y) (getActualFormalPointerPairs actuals t) <-> handed actuals t x y).
  { intros t. unfold getActualFormalPointerPairs, handed. rewrite in_app_iff, Or. apply or_iff_compat_l. destruct (tVarArg t); [|split; [intros []|intros [X _]; discriminate]].
    destruct (tVaLists t) as [|v r]; [split; [intros []|intros (_ & i & rest & _ & _ & X); discriminate]|]. rewrite in_flat_map. split.
    - intros ([a [|]] & I & X); cbn in X; [|destruct X]. destruct X as [[= <- <-]|[]]. apply Sk in I. destruct I as (i & L & N). split; [reflexivity|]. exists i, r. auto.
    - intros (_ & i & rest & L & N & [= -> _]). exists (x, true). split; [apply Sk; eauto|left; reflexivity]. }
  unfold handlePossibleTargets. rewrite in_flat_map. split; intros (t & It & X); exists t; (split; [exact It|]).
  - destruct (tDecl t); [destruct X|]. split; [reflexivity|]. apply in_app_iff in X. destruct X as [X|X]; [left; apply Pa; exact X|right].
    destruct (tRetPtr t); [|destruct X]. apply in_flat_map in X. destruct X as ([v|] & I & X); [|destruct X]. destruct X as [[= <- <-]|[]]. auto.
  - destruct X as (D & X). rewrite D. apply in_app_iff. destruct X as [X|(-> & Rt & I)]; [left; apply Pa; exact X|right]. rewrite Rt. apply in_flat_map. exists (Some y). split; [exact I|left; reflexivity].
Qed.
Print Assumptions C64_call_aliases.
Example call_aliases_ex : handlePossibleTargets false 9 [(1, true); (2, false); (3, true)] [mkT false [(4, true)] true [5; 6] true [Some 7; None]] = [(1, 4); (3, 5); (9, 7)].
Proof. reflexivity. Qed.

(** ** Examples, and what fails *)
Definition kindsOf (l : list vkind) (v : nat) : vkind := nth v l KOther.
Definition void : lty := TOther 0 0.
Definition aFun (v : nat) : func := mkFunc "f"%string [] void false true.
Definition aCall : call := mkCall [] false [] void OOperand.
Definition vCall (i : N) : call := mkCall [TPtr (TStruct 0)] false [TPtr (TStruct 0)] void (OLoadGep (Some i)).
Definition vFun (v : nat) : func := mkFunc "f"%string [TPtr (TStruct 0)] void false true.
Lemma aCall_ok f : invokes aCall (aFun f).
Proof. apply consistent_iff. reflexivity. Qed.

(** two tables that name each other: 0 = {f, &1}, 1 = {cast g, &0} *)
Definition cyclic := kindsOf [KGlobal (Some "t0"%string) (Some 2); KGlobal (Some "t1"%string) (Some 3); KAggregate AStruct [4; 1]; KAggregate AStruct [5; 0];
  KFunction; KExpr true true true [6]; KFunction; KConstant].
Example cyclic_ex : resolveFunctionPointer cyclic aFun 20 aCall [7; 0; 8] = Some [4; 6].
Proof. reflexivity. Qed.
Example cyclic_finite : forall a k ops, cyclic a = KAggregate k ops -> In a [2; 3].
Proof. intros a k ops E. unfold cyclic, kindsOf in E. do 8 (destruct a as [|a]; [cbn in E; try discriminate; cbn; auto|]). cbn in E. destruct a; discriminate. Qed.

(** A cast of a function in the alias set does not lead to the function, nor does a
    global alias of it. *)
Theorem C64_cast_refuted : exists kind fun_ c p f, denotes kind p f /\ invokes c (fun_ f) /\
  (exists ops, kind p = KExpr true true true ops) /\ resolveFunctionPointer kind fun_ 20 c [p] = Some [].
Proof.
  exists (kindsOf [KExpr true true true [1]; KFunction]), aFun, aCall, 0, 1.
  split; [eapply denotes_cast; [reflexivity|]; apply denotes_self; reflexivity|]. split; [apply aCall_ok|]. split; [exists [1]; reflexivity|reflexivity].
Qed.
Print Assumptions C64_cast_refuted.
Theorem C64_alias_refuted : exists kind fun_ c p a f, denotes kind p f /\ invokes c (fun_ f) /\
  kind p = KAlias a /\ resolveFunctionPointer kind fun_ 20 c [p] = Some [].
Proof.
  exists (kindsOf [KAlias 1; KFunction]), aFun, aCall, 0, 1, 1.
  split; [eapply denotes_alias; [reflexivity|]; apply denotes_self; reflexivity|]. split; [apply aCall_ok|]. split; reflexivity.
Qed.
Print Assumptions C64_alias_refuted.
(** A global pointer that is initialized with a function does not lead to it,
    other than a struct with this function. *)
Theorem C64_global_pointer_refuted : exists kind fun_ c g s f, initializedBy kind g f /\ function kind f /\ invokes c (fun_ f) /\
  resolveFunctionPointer kind fun_ 20 c [g] = Some [] /\ resolveFunctionPointer kind fun_ 20 c [s] = Some [f].
Proof.
  exists (kindsOf [KGlobal None (Some 2); KGlobal None (Some 3); KFunction; KAggregate AStruct [2]]), aFun, aCall, 0, 1, 2.
  split; [exists None; reflexivity|]. split; [reflexivity|]. split; [apply aCall_ok|]. split; reflexivity.
Qed.
Print Assumptions C64_global_pointer_refuted.
(** A table that a table points into (a getelementptr, or a cast) is not searched. *)
Theorem C64_inner_pointer_refuted : exists kind fun_ c g b e g' f, initializedBy kind g b /\ (exists k, kind b = KAggregate k [e]) /\
  (exists x y z, kind e = KExpr x y z [g']) /\ resolveFunctionPointer kind fun_ 20 c [g] = Some [] /\ resolveFunctionPointer kind fun_ 20 c [g'] = Some [f].
Proof.
  exists (kindsOf [KGlobal None (Some 1); KAggregate AStruct [2]; KExpr true false false [3]; KGlobal None (Some 4); KAggregate AArray [5]; KFunction]), aFun, aCall, 0, 1, 2, 3, 5.
  split; [exists None; reflexivity|]. split; [exists AStruct; reflexivity|]. split; [exists true, false, false; reflexivity|]. split; reflexivity.
Qed.
Print Assumptions C64_inner_pointer_refuted.

(** an object with two tables: f in the first, g in the second *)
Definition twoTables := kindsOf [KGlobal (Some "_ZTV1D"%string) (Some 1); KAggregate AStruct [2; 3]; KAggregate AArray [4; 4; 5; 5]; KAggregate AArray [4; 4; 6];
  KConstant; KExpr true true true [7]; KExpr true true true [8]; KFunction; KFunction].
Lemma twoTables_ok : tables twoTables 0 [[5; 5]; [6]].
Proof. exists "_ZTV1D"%string, 1, [2; 3]. repeat split. repeat constructor; exists 4, 4; reflexivity. Qed.
Example virtual_ex : resolveVirtualCall twoTables vFun (vCall 1) [0] = Some [7].
Proof. reflexivity. Qed.
(** A call through the second table gets the entry of the first. *)
Theorem C64_secondary_table_refuted : exists kind fun_ c g t1 t2 i f, tables kind g [t1; t2] /\ getVFTIndex c = Some i /\
  entryIs kind t2 i f /\ invokes c (fun_ f) /\ fnName (fun_ f) = "f"%string /\
  exists R, resolveVirtualCall kind fun_ c [g] = Some R /\ ~ In f R.
Proof.
  exists twoTables, vFun, (vCall 0), 0, [5; 5], [6], 0, 8. split; [exact twoTables_ok|]. split; [reflexivity|]. split.
  - exists 6, true, 8, []. split; [reflexivity|]. split; [exists true; reflexivity|]. split; [left; reflexivity|reflexivity].
  - split; [apply consistent_iff; reflexivity|]. split; [reflexivity|]. exists [7]. split; [reflexivity|]. intros [X|[]]. discriminate.
Qed.
Print Assumptions C64_secondary_table_refuted.
(** An array of fewer than two elements is read out of bounds. *)
Theorem C64_short_table_refuted : exists kind fun_ c g, resolveVirtualCall kind fun_ c [g] = None.
Proof. exists (kindsOf [KGlobal (Some "_ZTV1D"%string) (Some 1); KAggregate AStruct [2]; KAggregate AArray [3]; KConstant]), vFun, (vCall 0), 0. reflexivity. Qed.
Print Assumptions C64_short_table_refuted.
