(** C59: the model of the C runtime calls constructors, entry point and
    destructors in their order. *)
From Coq Require Import String List Bool Arith Sorted Permutation Lia.
From Verif Require Import Assoc GlobalModelModel GlobalModelSpec GlobalModelProofs.
Import ListNotations.

(** The function built calls the constructors by ascending priority, then the
    selected entry point and, if that is main, the destructors by descending
    priority and then what was registered, latest first, that of local statics
    before that of globals. *)
Theorem C59_calls_in_order : forall m entries, wellFormed m entries -> entries <> [] ->
  exists F cs ds gs ls, buildModel m [] entries = Some F /\
    inOrder lt (listed (mCtors m)) cs /\ inOrder gt (listed (mDtors m)) ds /\
    registered inInitializer (mUsers m) gs /\ registered (fun c => ~ inInitializer c) (mUsers m) ls /\
    forall sel e ev, selects entries sel e -> called m e ev -> forall t,
      execution F sel ModelName t <->
      t = callsOf cs ++ [ev] ++ (if String.eqb e "main" then callsOf ds ++ destroys m (gs ++ ls) else []).
Proof.
  intros m entries Wf Ne. destruct (model_built m entries Wf Ne) as [F [E [X _]]].
  exists F, (collectGlobalCtors m), (collectGlobalDtors m), (ofKind true (mUsers m)), (ofKind false (mUsers m)).
  split; [exact E|]. split; [apply lt_order|]. split; [apply gt_order|]. split; [exact (ofKind_registered true (mUsers m))|]. split; [exact (ofKind_registered false (mUsers m))|].
  intros sel e ev Hs Hc t. assert (T : trace m e = callsOf (collectGlobalCtors m) ++ [ev] ++
      (if String.eqb e "main" then callsOf (collectGlobalDtors m) ++ destroys m (ofKind true (mUsers m) ++ ofKind false (mUsers m)) else [])).
  { unfold trace, entryEvents. f_equal. f_equal. destruct Hc as [e Ha|Ha]; rewrite Ha; reflexivity. }
  specialize (X sel e Hs). rewrite T in X. split; [intros H; eapply execution_det; eauto|intros ->; exact X].
Qed.
Print Assumptions C59_calls_in_order.

(** The order is unique. *)
Theorem C59_order_is_unique : forall l l1 l2,
  (inOrder lt l l1 -> inOrder lt l l2 -> l1 = l2) /\ (inOrder gt l l1 -> inOrder gt l l2 -> l1 = l2).
Proof.
  assert (K : forall (before : nat -> nat -> Prop), (forall a b, a = b \/ before a b \/ before b a) -> forall l1 l2 : list (nat * string),
    StronglySorted (fun x y => ~ before (fst y) (fst x)) l1 -> StronglySorted (fun x y => ~ before (fst y) (fst x)) l2 ->
    (forall k, filter (fun x => fst x =? k) l1 = filter (fun x => fst x =? k) l2) -> l1 = l2).
  { intros before Tot l1. induction l1 as [|[k v] l1 IH]; intros l2 S1 S2 H.
    - destruct l2 as [|[k v] l2]; auto. specialize (H k). cbn in H. rewrite Nat.eqb_refl in H. discriminate.
    - destruct l2 as [|[k2 v2] l2]; [specialize (H k); cbn in H; rewrite Nat.eqb_refl in H; discriminate|].
      inversion S1 as [|? ? S1' A1]; subst. inversion S2 as [|? ? S2' A2]; subst. rewrite Forall_forall in A1, A2.
      assert (Ek : k = k2).
      { assert (I1 : In (k, v) ((k2, v2) :: l2)).
        { assert (X : In (k, v) (filter (fun x => fst x =? k) ((k, v) :: l1))) by (apply filter_In; split; [now left|apply Nat.eqb_refl]). rewrite H in X. apply filter_In in X. tauto. }
        assert (I2 : In (k2, v2) ((k, v) :: l1)).
        { assert (X : In (k2, v2) (filter (fun x => fst x =? k2) ((k2, v2) :: l2))) by (apply filter_In; split; [now left|apply Nat.eqb_refl]). rewrite <- H in X. apply filter_In in X. tauto. }
        destruct I1 as [[= -> _]|I1]; auto. destruct I2 as [[= -> _]|I2]; auto. specialize (A1 _ I2). specialize (A2 _ I1). cbn in A1, A2. destruct (Tot k k2) as [?|[?|?]]; tauto. }
      subst k2. pose proof (H k) as Hk. cbn in Hk. rewrite Nat.eqb_refl in Hk. injection Hk as -> Hk. f_equal. apply IH; auto.
      intros j. specialize (H j). cbn in H. destruct (Nat.eqb_spec k j) as [->|]; [now injection H|exact H]. }
  intros l l1 l2. split; intros [A1 B1] [A2 B2]; (eapply K; [|exact B1|exact B2|intros k; now rewrite A1, A2]); intros a b; unfold gt; lia.
Qed.
Print Assumptions C59_order_is_unique.

(** With several entry points, no execution for a selector outside of them. *)
Theorem C59_selector_is_valid : forall m entries, wellFormed m entries -> 1 < length entries ->
  exists F, buildModel m [] entries = Some F /\ forall sel, length entries <= sel -> forall t, ~ execution F sel ModelName t.
Proof.
  intros m entries Wf L. destruct (model_built m entries Wf) as [F [E [_ X]]]; [destruct entries; cbn in L; [lia|discriminate]|]. eauto.
Qed.
Print Assumptions C59_selector_is_valid.

(** Entry points: the definitions named, or all that can be called from outside. *)
Theorem C59_entry_functions : forall fs entries, NoDup (map fName fs) ->
  (entries <> ["__ALL__"%string] -> denoted fs entries (getEntryFunctions fs entries)) /\
  (forall f, In f (getEntryFunctions fs ["__ALL__"%string]) <-> In f fs /\ fDecl f = false /\ (fExternal f = true \/ fName f = "main"%string)) /\
  NoDup (map fName (getEntryFunctions fs ["__ALL__"%string])).
Proof.
  intros fs entries Nd. split; [|split].
  - intros Ne. unfold getEntryFunctions. assert (E : match entries with [e] => String.eqb e "__ALL__" | _ => false end = false).
    { destruct entries as [|e [|e2 es]]; auto. apply String.eqb_neq. congruence. }
    rewrite E. clear E Ne. induction entries as [|e es IH]; cbn; [constructor|]. unfold getFunctionDefinition, getFunction.
    destruct (find _ fs) as [f|] eqn:Ef.
    + apply find_some in Ef. destruct Ef as [Hf Ee]. apply String.eqb_eq in Ee. destruct (fDecl f) eqn:Ed; cbn.
      * apply den_skip; auto. intros f' Hf' E'. assert (f' = f); [|congruence].
        clear - Nd Hf Hf' E' Ee. induction fs as [|x fs IH]; [destruct Hf|]. inversion Nd as [|? ? N1 N2]; subst. destruct Hf as [->|Hf], Hf' as [->|Hf']; auto.
        -- destruct N1. rewrite <- E'. now apply in_map.
        -- destruct N1. rewrite E'. now apply in_map.
      * now apply den_take.
    + cbn. apply den_skip; auto. intros f Hf E. pose proof (find_none _ _ Ef f Hf) as X. cbn in X. apply String.eqb_neq in X. congruence.
  - intros f. change (getEntryFunctions fs ["__ALL__"%string]) with (filter (fun f => negb (fDecl f) && (fExternal f || String.eqb (fName f) "main"%string)) fs). rewrite filter_In, andb_true_iff, orb_true_iff, negb_true_iff, String.eqb_eq. tauto.
  - change (getEntryFunctions fs ["__ALL__"%string]) with (filter (fun f => negb (fDecl f) && (fExternal f || String.eqb (fName f) "main"%string)) fs). induction fs as [|f fs IH]; cbn; [constructor|]. inversion Nd as [|? ? N1 N2]; subst.
    destruct (_ && _); cbn; auto. constructor; auto. intros Hin. apply N1. apply in_map_iff in Hin. destruct Hin as [f' [E Hin]]. rewrite <- E. apply in_map. apply filter_In in Hin. tauto.
Qed.
Print Assumptions C59_entry_functions.

(** ** A concrete program *)
(** two constructors, two destructors, a global object and a local static *)
Definition example : module :=
  mkM [Struct (Some 200) (Some "late"%string); NotStruct; Struct (Some 100) (Some "early"%string); Struct (Some 200) (Some "last"%string)]
      [Struct (Some 1) (Some "fini1"%string); Struct (Some 5) (Some "fini5"%string)]
      [NotCall; Registers (Some "dtor"%string) 7 "f"%string; Registers (Some "dtor"%string) 8 "__cxx_global_var_init.2"%string]
      (fun f => if String.eqb f "main" then 2 else if String.eqb f "dtor" then 1 else if String.eqb f "three" then 3 else 0)
      (fun _ o => if o =? 7 then Castable else SameType) "a.ll"%string.
Ltac isNotMade := intros [M|[M|[M|M]]]; discriminate M.
Lemma example_wf entries : (forall e, In e entries -> e = "main"%string \/ e = "lib"%string \/ e = "three"%string) -> wellFormed example entries.
Proof.
  intros He. repeat split; intros; cbn in *;
    repeat match goal with H : _ \/ _ |- _ => destruct H as [H|H] end; try contradiction; try discriminate;
    try (match goal with H : (_, _) = (_, _) |- _ => injection H as <- <- end);
    try (match goal with H : Registers _ _ _ = Registers _ _ _ |- _ => injection H as <- <- <- end); try reflexivity; try isNotMade.
  match goal with H : In e entries |- _ => destruct (He e H) as [->|[-> | ->]]; isNotMade end.
Qed.
Example C59_example : wellFormed example ["lib"%string; "main"%string] /\ called example "main" ("main"%string, [Param 0; Param 1]) /\
  selects ["lib"%string; "main"%string] 1 "main" /\
  exists F, buildModel example [] ["lib"%string; "main"%string] = Some F /\
    execution F 1 ModelName [("early", []); ("late", []); ("last", []); ("main", [Param 0; Param 1]); ("fini5", []); ("fini1", []);
                             ("dtor", [CastObject 7]); ("dtor", [Object 8])]%string /\
    execution F 0 ModelName [("early", []); ("late", []); ("last", []); ("lib", [])]%string.
Proof.
  split; [apply example_wf; cbn; intuition|]. split; [now constructor|]. split; [right; split; [cbn; lia|reflexivity]|].
  destruct (model_built example ["lib"%string; "main"%string]) as [F [E [X _]]]; [apply example_wf; cbn; intuition|discriminate|].
  exists F. split; [exact E|]. split; [apply (X 1 "main"%string)|apply (X 0 "lib"%string)]; right; (split; [cbn; lia|reflexivity]).
Qed.

Example C59_entry_example :
  let fs := [mkF "main" false true; mkF "puts" true true; mkF "helper" false false; mkF "lib" false true]%string in
  NoDup (map fName fs) /\
  map fName (getEntryFunctions fs ["lib"; "puts"; "helper"; "none"]%string) = ["lib"; "helper"]%string /\
  map fName (getEntryFunctions fs ["__ALL__"%string]) = ["main"; "lib"]%string.
Proof. cbn. split; [repeat constructor; cbn; intuition discriminate|]. split; reflexivity. Qed.

(** ** Where it differs from the C runtime *)
(** main (argc, argv, envp) is not called (its destructors are), nor any other
    entry point with parameters *)
Theorem C59_entry_points_are_called_refuted : exists m entries,
  wellFormed m entries /\ In "main"%string entries /\ In "three"%string entries /\ exists F, buildModel m [] entries = Some F /\
  forall sel t, execution F sel ModelName t -> ~ exists a, In ("main"%string, a) t \/ In ("three"%string, a) t.
Proof.
  set (m := mkM [] [] [] (fun f => if String.eqb f "main" then 3 else if String.eqb f "three" then 3 else 0) (fun _ _ => SameType) "a.ll"%string).
  assert (Wf : wellFormed m ["main"%string; "three"%string]).
  { repeat split; intros; cbn in *; try contradiction. destruct H as [<-|[<-|[]]]; isNotMade. }
  exists m, ["main"%string; "three"%string]. split; [exact Wf|]. split; [now left|]. split; [right; now left|].
  destruct (model_built m ["main"%string; "three"%string] Wf) as [F [E [X Y]]]; [discriminate|]. exists F. split; [exact E|].
  intros sel t Ht [a Ha]. destruct (Nat.le_gt_cases 2 sel) as [L|L]; [apply (Y ltac:(cbn; lia) sel L t Ht)|].
  assert (T : t = []).
  { destruct sel as [|[|sel]]; [| |lia].
    - eapply execution_det; [exact Ht|]. apply (X 0 "main"%string). right. split; [cbn; lia|reflexivity].
    - eapply execution_det; [exact Ht|]. apply (X 1 "three"%string). right. split; [cbn; lia|reflexivity]. }
  subst t. destruct Ha as [[]|[]].
Qed.
Print Assumptions C59_entry_points_are_called_refuted.

(** registered destructors run after llvm.global_dtors, not before *)
Theorem C59_exit_order_refuted : exists m F t gs ds, wellFormed m ["main"%string] /\ buildModel m [] ["main"%string] = Some F /\
  registered inInitializer (mUsers m) gs /\ registered (fun c => ~ inInitializer c) (mUsers m) [] /\ inOrder gt (listed (mDtors m)) ds /\
  execution F 0 ModelName (("main"%string, [Param 0; Param 1]) :: t) /\ t <> atExit m gs ds /\ Permutation t (atExit m gs ds).
Proof.
  set (m := mkM [] [Struct (Some 5) (Some "fini5"%string)] [Registers (Some "dtor"%string) 8 "__cxx_global_var_init"%string]
      (fun f => if String.eqb f "main" then 2 else if String.eqb f "dtor" then 1 else 0) (fun _ _ => SameType) "a.ll"%string).
  assert (Wf : wellFormed m ["main"%string]).
  { repeat split; intros; cbn in *; repeat match goal with H : _ \/ _ |- _ => destruct H as [H|H] end; try contradiction;
      try (injection H as <- <-); try (injection H as <- <- <-); try reflexivity; try isNotMade. subst e. isNotMade. }
  destruct (model_built m ["main"%string] Wf) as [F [E [X _]]]; [discriminate|].
  exists m, F, [("fini5"%string, []); ("dtor"%string, [Object 8])], [("dtor"%string, 8)], [(5, "fini5"%string)].
  split; [exact Wf|]. split; [exact E|]. split; [exact (ofKind_registered true (mUsers m))|]. split; [exact (ofKind_registered false (mUsers m))|]. split; [exact (gt_order (mDtors m))|].
  split; [apply (X 0 "main"%string); now left|]. split; [discriminate|]. apply perm_swap.
Qed.
Print Assumptions C59_exit_order_refuted.

(** a local static made by a constructor is registered before a later global;
    the list is in the order of registration *)
Theorem C59_registration_order_refuted : exists m F t, wellFormed m ["main"%string] /\ buildModel m [] ["main"%string] = Some F /\
  (forall u, In u (mUsers m) -> exists o c, u = Registers (Some "dtor"%string) o c) /\ mDtors m = [] /\
  execution F 0 ModelName (("main"%string, [Param 0; Param 1]) :: t) /\
  t <> destroys m (map (fun u => match u with Registers (Some d) o _ => (d, o) | _ => (EmptyString, 0) end) (mUsers m)).
Proof.
  set (m := mkM [] [] [Registers (Some "dtor"%string) 7 "helper"%string; Registers (Some "dtor"%string) 8 "__cxx_global_var_init.1"%string]
      (fun f => if String.eqb f "main" then 2 else if String.eqb f "dtor" then 1 else 0) (fun _ _ => SameType) "a.ll"%string).
  assert (Wf : wellFormed m ["main"%string]).
  { repeat split; intros; cbn in *; repeat match goal with H : _ \/ _ |- _ => destruct H as [H|H] end; try contradiction;
      try (injection H as <- <-); try (injection H as <- <- <-); try reflexivity; try isNotMade. subst e. isNotMade. }
  destruct (model_built m ["main"%string] Wf) as [F [E [X _]]]; [discriminate|].
  exists m, F, [("dtor"%string, [Object 7]); ("dtor"%string, [Object 8])].
  split; [exact Wf|]. split; [exact E|]. split; [intros u [<-|[<-|[]]]; eauto|]. split; [reflexivity|]. split; [apply (X 0 "main"%string); now left|]. discriminate.
Qed.
Print Assumptions C59_registration_order_refuted.

(** Building a second model in the same module (assertions disabled) changes
    nothing: the blocks are added behind those of the first. *)
Theorem C59_second_model_refuted : exists m F F', wellFormed m ["main"%string] /\ wellFormed m ["lib"%string] /\
  buildModel m [] ["main"%string] = Some F /\ buildModel m F ["lib"%string] = Some F' /\
  forall sel t, execution F' sel ModelName t -> ~ In ("lib"%string, []) t.
Proof.
  set (m := mkM [] [] [] (fun f => 0) (fun _ _ => SameType) "a.ll"%string).
  assert (Wf : forall e, e = "main"%string \/ e = "lib"%string -> wellFormed m [e]).
  { intros e He. repeat split; intros; cbn in *; try contradiction. destruct H as [<-|[]]. destruct He as [->| ->]; isNotMade. }
  exists m. do 2 eexists. split; [apply Wf; auto|]. split; [apply Wf; auto|]. split; [reflexivity|]. split; [reflexivity|].
  intros sel t [b [bs [E H]]] Hin. cbv in E. injection E as <- <-. inversion H; subst; [|match goal with X : blocksOf _ _ = _ :: _ |- _ => cbv in X; discriminate X end].
  match goal with X : exec _ _ _ [ICall _ _; IRet] _ |- _ => inversion X; subst; [match goal with Y : blocksOf _ _ = [] |- _ => cbv in Y; discriminate Y end|] end.
  match goal with X : blocksOf _ _ = ?b :: ?bs |- _ => cbv in X; injection X as <- <- end.
  repeat match goal with X : exec _ _ _ [IRet] _ |- _ => inversion X; subst; clear X end. destruct Hin as [[= ]|[]].
Qed.
Print Assumptions C59_second_model_refuted.

(** the function that calls registered destructors is not recognised as made *)
Theorem C59_made_functions_are_recognised_refuted : exists m f, made m f /\ isPhasarGenerated f = false.
Proof. exists example, (dtorCallerName example). split; [unfold made, dtorCallerName; auto|reflexivity]. Qed.
Print Assumptions C59_made_functions_are_recognised_refuted.
(** all others are, and none of the program *)
Theorem C59_made_functions_are_recognised_partial : forall m f, f <> dtorCallerName m -> f <> DtorsCallerName ->
  (isPhasarGenerated f = true <-> made m f).
Proof.
  intros m f N1 N2. unfold isPhasarGenerated, made. rewrite existsb_exists. split.
  - intros [x [Hx E]]. apply String.eqb_eq in E. subst x. cbn in Hx. intuition (subst; tauto).
  - intros [->|[->|[->|E]]]; [| | |now destruct N1]; eexists; (split; [|apply String.eqb_refl]); cbn; tauto.
Qed.
Print Assumptions C59_made_functions_are_recognised_partial.
