(** C58: the constraints of conditional branches say when the branch is taken. *)
From Coq Require Import String List Bool Arith ZArith Lia Permutation Sorted.
From Verif Require Import Assoc DFAMinimizerModel DFAMinimizerSpec PathDagModel PathDagSpec PathFilterModel PathFilterSpec PathFilterProperties
  BranchConstraintModel BranchConstraintSpec BranchCacheProofs BranchConstraintProofs BranchVariableProofs.
Import ListNotations.

Lemma table_sound P c : table P c ->
  sound (pDefs P) (pVar P) (pGepName P) (pFn P) (pRet P) c.
Proof.
  induction 1 as [|c fuel from to r c' _ IH E]; [apply sound_nil|]. unfold edge, getConstraintAndVariablesFromEdge in E.
  destruct (internalGetConstraintAndVariablesFromEdge _ _ _ _ _ _ _ _ _ fuel from to c) as [| | | |[x c1]] eqn:Ei; cbn in E; try discriminate.
  injection E as _ <-. now destruct (edge_back _ _ _ _ _ _ _ _ _ fuel from to c IH x c1 Ei).
Qed.
(** with the Variables made unique *)
Definition unique1 (r : option cav) : option cav := match r with Some (e, vs) => Some (e, nodup Nat.eq_dec vs) | None => None end.
Lemma edge_pure P c fuel from to : table P c -> forall r,
  pEdge (pDefs P) (pDbg P) (pBlock P) (pInsts P) (pVar P) (pGepName P) (pFn P) (pRet P) (pIgnore P) fuel from to = ORet r ->
  exists c', edge P fuel from to c = ORet (unique1 r, c').
Proof.
  intros T r E. pose proof (edge_agree (pDefs P) (pDbg P) (pBlock P) (pInsts P) (pVar P) (pGepName P) (pFn P) (pRet P) (pIgnore P) fuel from to c (table_sound P c T)) as X.
  rewrite E in X. destruct X as [c' [X _]]. exists c'. unfold edge, getConstraintAndVariablesFromEdge. rewrite X. destruct r as [[e vs]|]; reflexivity.
Qed.
Lemma edge_pure_back P c fuel from to r c' : table P c -> edge P fuel from to c = ORet (r, c') -> exists m r',
  r = unique1 r' /\ forall m', m <= m' ->
  pEdge (pDefs P) (pDbg P) (pBlock P) (pInsts P) (pVar P) (pGepName P) (pFn P) (pRet P) (pIgnore P) m' from to = ORet r'.
Proof.
  intros T E. unfold edge, getConstraintAndVariablesFromEdge in E.
  destruct (internalGetConstraintAndVariablesFromEdge _ _ _ _ _ _ _ _ _ fuel from to c) as [| | | |[x c1]] eqn:Ei; cbn in E; try discriminate.
  destruct (edge_back _ _ _ _ _ _ _ _ _ fuel from to c (table_sound P c T) x c1 Ei) as [_ [m M]]. exists m, x. split; auto.
  injection E as <- _. destruct x as [[e vs]|]; reflexivity.
Qed.

(** The table of expressions changes nothing: a constraint does not depend on
    which ones were asked for before. *)
Theorem C58_table_is_transparent : forall P c1 c2 fuel1 fuel2 from to r1 r2 c1' c2',
  table P c1 -> table P c2 -> edge P fuel1 from to c1 = ORet (r1, c1') -> edge P fuel2 from to c2 = ORet (r2, c2') -> r1 = r2.
Proof.
  intros P c1 c2 fuel1 fuel2 from to r1 r2 c1' c2' T1 T2 E1 E2.
  destruct (edge_pure_back _ _ _ _ _ _ _ T1 E1) as [m1 [x1 [-> M1]]]. destruct (edge_pure_back _ _ _ _ _ _ _ T2 E2) as [m2 [x2 [-> M2]]].
  specialize (M1 (max m1 m2) ltac:(lia)). specialize (M2 (max m1 m2) ltac:(lia)). congruence.
Qed.
Print Assumptions C58_table_is_transparent.

(** The Variables are those whose constants occur in the constraint, each once. *)
Theorem C58_variables_of_constraint : forall P c fuel from to e vs c',
  table P c -> edge P fuel from to c = ORet (Some (e, vs), c') ->
  NoDup vs /\ (forall n, In n (names e) -> n = "PHI"%string \/ exists v, In v vs /\ variable P n v) /\
  (forall v, In v vs -> exists n, In n (names e) /\ variable P n v).
Proof.
  intros P c fuel from to e vs c' T E. destruct (edge_pure_back _ _ _ _ _ _ _ T E) as [m [[[e' vs']|] [Ex M]]]; [|discriminate]. cbn in Ex. injection Ex as -> ->.
  destruct (good_edge P m from to _ (M m (le_n _))) as [A B]. cbn in A, B. split; [apply NoDup_nodup|]. split.
  - intros n Hn. destruct (A n Hn) as [?|[v [Hv K]]]; [now left|]. right. exists v. split; auto. now apply nodup_In.
  - intros v Hv. apply B. now apply nodup_In in Hv.
Qed.
Print Assumptions C58_variables_of_constraint.

(** An understood condition gets a constraint on both edges, which holds exactly
    if the edge is taken, whenever the assignment gives the variables the values
    that were read from them and the operations are exact. *)
Theorem C58_constraint_says_when_taken_partial : forall P br c t f to, separate P -> placed P to ->
  pDefs P br = DBr c t f -> t <> f -> understood P c ->
  exists n, forall fuel tbl, n <= fuel -> table P tbl ->
    (pBlock P to = t -> exists e vs tbl', edge P fuel br to tbl = ORet (Some (e, vs), tbl') /\
       forall I rho, coherent (pDefs P) rho -> assigns P I rho -> exact (pDefs P) rho c -> (holdsIn I e <-> rho c <> 0%Z)) /\
    (pBlock P to = f -> exists e vs tbl', edge P fuel br to tbl = ORet (Some (e, vs), tbl') /\
       forall I rho, coherent (pDefs P) rho -> assigns P I rho -> exact (pDefs P) rho c -> (holdsIn I e <-> rho c = 0%Z)) /\
    (pBlock P to <> t -> pBlock P to <> f -> exists tbl', edge P fuel br to tbl = ORet (None, tbl')).
Proof.
  intros P br c t f to Sp Pl Ed Ne Un.
  destruct (edge_condition_ok (pDefs P) (pDbg P) (pBlock P) (pInsts P) (pVar P) (pGepName P) (pFn P) (pRet P) (pIgnore P) Sp br c t f to Ed Ne Un Pl) as [n Hn].
  exists n. intros fuel tbl L T. destruct (Hn fuel L) as [H1 [H2 H3]]. split; [|split].
  - intros E. destruct (H1 E) as [e [vs [X Y]]]. destruct (edge_pure P tbl fuel br to T _ X) as [tbl' Z]. exists e, (nodup Nat.eq_dec vs), tbl'. auto.
  - intros E. destruct (H2 E) as [e [vs [X Y]]]. destruct (edge_pure P tbl fuel br to T _ X) as [tbl' Z]. exists e, (nodup Nat.eq_dec vs), tbl'. auto.
  - intros E1 E2. destruct (edge_pure P tbl fuel br to T _ (H3 E1 E2)) as [tbl' Z]. eauto.
Qed.
Print Assumptions C58_constraint_says_when_taken_partial.

(** A path that is executed satisfies its constraints under one assignment, if
    every variable keeps the value that the assignment gives it (and so do all
    variables of its name, and all results of a function).  Besides understood
    conditions: phis, and truncated booleans that are true. *)
Definition plainBranch (P : program) (rho : nat -> Z) (c : nat) : Prop :=
  (understood P c /\ exact (pDefs P) rho c) \/ (exists t ins, pDefs P c = DPhi t ins) \/
  (exists a p n, pDefs P c = DCast (Trunc 1) a /\ pDefs P a = DLoad p /\
     reads (pDefs P) (pVar P) (pGepName P) (pFn P) (pRet P) a n SInt /\ rho c <> 0%Z).
Theorem C58_executed_paths_are_taken_partial : forall P run I fuel, separate P -> execution P run ->
  (forall a rho c t f, In (a, rho) run -> pDefs P a = DBr c t f -> t <> f /\ assigns P I rho /\ plainBranch P rho c) ->
  taken holdsIn (constraintOf P fuel) I (map fst run).
Proof.
  intros P run I fuel Sp [Al Co] Hb. induction run as [|[a rho] run IH]; [exact Logic.I|].
  destruct run as [|[b rho'] run]; [exact Logic.I|]. destruct Al as [A1 A2].
  split; [|apply IH; [exact A2|intros; apply Co; now right|intros; eapply Hb; eauto; now right]].
  clear IH. intros e vs He. unfold constraintOf in He. cbn [fst] in He. destruct (edge P fuel a b []) as [| | | |[r c']] eqn:Ee; try discriminate. subst r.
  destruct (edge_pure_back _ _ _ _ _ _ _ (table_new P) Ee) as [m [x [Ex M]]]. destruct x as [[e' vs']|]; [|discriminate]. cbn in Ex. injection Ex as -> ->.
  destruct (Co a rho (or_introl eq_refl)) as [_ Hc]. destruct (Co b rho' (or_intror (or_introl eq_refl))) as [Pb _].
  destruct (pDefs P a) as [| | | | | | | | | | | | |c t f| |] eqn:Ed; try (specialize (M m (le_n _)); unfold pEdge in M; rewrite Ed in M; discriminate).
  destruct (Hb a rho c t f (or_introl eq_refl) Ed) as [Ntf [Ha [[Un Hx]|Hp]]].
  - destruct (edge_condition_ok (pDefs P) (pDbg P) (pBlock P) (pInsts P) (pVar P) (pGepName P) (pFn P) (pRet P) (pIgnore P) Sp a c t f b Ed Ntf Un Pb) as [n Hn].
    destruct (Hn (max n m) ltac:(lia)) as [H1 [H2 H3]]. specialize (M (max n m) ltac:(lia)). unfold target in A1. rewrite Ed in A1. specialize (A1 _ eq_refl).
    destruct (Z.eqb_spec (rho c) 0) as [E|E].
    + destruct (H2 A1) as [e1 [vs1 [X Y]]]. rewrite X in M. injection M as -> ->. now apply (Y I rho Hc Ha Hx).
    + destruct (H1 A1) as [e1 [vs1 [X Y]]]. rewrite X in M. injection M as -> ->. now apply (Y I rho Hc Ha Hx).
  - specialize (M m (le_n _)). rewrite (edge_ok _ _ _ _ _ _ _ _ _ Sp a c t f b Ed Ntf Pb) in M. destruct (_ || _); [|discriminate].
    destruct (pCondBr _ _ _ _ _ _ _ _ m c t f _) as [| | | |y] eqn:Ey; cbn in M; try discriminate. injection M as ->.
    destruct Hp as [[pt [ins Ep]]|[a' [p [n [Ec [Ea [Hr Hn]]]]]]].
    + unfold pCondBr in Ey. rewrite Ep in Ey. now apply (phi_true _ _ _ _ _ _ _ _ Ey I).
    + refine (trunc_true _ _ _ _ _ _ _ _ m c a' p t f _ n (e', vs') Ec Ea Hr Ey I rho Hc Ha Hn).
Qed.
Print Assumptions C58_executed_paths_are_taken_partial.

(** Together with the path filters: such a path is in the answer, if it is in
    the graph. *)
Theorem C58_executed_paths_are_reported_partial : forall P run I cfuel unsat isCall isRet isTerm definedCall rest succFronts sort isFalse
    addr fuel (G : pgraph nat) leaf final,
  separate P -> execution P run ->
  (forall a rho c t f, In (a, rho) run -> pDefs P a = DBr c t f -> t <> f /\ assigns P I rho /\ plainBranch P rho c) ->
  (forall a b, addr a = addr b -> a = b) -> sorts addr sort -> soundFalse holdsIn isFalse -> decidingSolver holdsIn unsat ->
  wellBlocked isTerm rest -> (forall a, isCall a = true -> isRet a = true -> False) ->
  oneEnd G leaf final -> isRet final = false -> constraintOf P cfuel final final = None -> size G + 1 < fuel ->
  (exists r, In r (roots G) /\ leads G leaf r (map fst run)) -> realizable isCall isRet definedCall rest succFronts (map fst run) ->
  exists ps, pathsIn (constraintOf P cfuel) unsat isCall isRet isTerm definedCall rest succFronts sort isFalse fuel None None final G = Ok ps /\
    In (map fst run) (map fst ps).
Proof.
  intros P run I cfuel unsat isCall isRet isTerm definedCall rest succFronts sort isFalse addr fuel G leaf final Sp Ex Hb Inj So Ff Dc Wb Dj O Nr Nl Hf Hl Hr.
  destruct (C57_paths_are_exact_partial holdsIn (constraintOf P cfuel) unsat isCall isRet isTerm definedCall rest succFronts sort isFalse addr fuel None G leaf final
    Inj So Ff Dc Wb Dj O Nr Nl Hf) as [ps [X [_ [Y _]]]].
  exists ps. split; auto. apply Y. split; auto. split; auto. exists I. split; [discriminate|].
  now apply C58_executed_paths_are_taken_partial.
Qed.
Print Assumptions C58_executed_paths_are_reported_partial.

(** ** Concrete programs *)
(** [code defs blocks names]: values are numbered, 20 is a function f *)
Definition position (blocks : list (list nat)) (i : nat) : nat :=
  (fix go bs k := match bs with [] => 99 | b :: bs => if existsb (Nat.eqb i) b then k else go bs (S k) end) blocks 0.
Definition code (ds : list def) (blocks : list (list nat)) (names : nat -> string) (dbg : list nat) : program :=
  mkP (fun v => nth v ds DValue) (fun v => existsb (Nat.eqb v) dbg) (position blocks) (fun b => nth b blocks []) names (fun _ => "gep"%string)
    (fun f => if f =? 20 then Some "f"%string else None) (fun _ => TInt 32) true.
Definition values (l : list Z) (v : nat) : Z := nth v l 0%Z.
(** all edges of a path have an answer *)
Fixpoint answered (P : program) (fuel : nat) (l : list nat) : bool :=
  match l with
  | a :: ((b :: _) as l') => match edge P fuel a b [] with ORet _ => answered P fuel l' | _ => false end
  | _ => true
  end.
(** no assignment satisfies the constraints of the path, from some fuel on *)
Definition lost (P : program) (run : list (nat * (nat -> Z))) : Prop :=
  exists n, forall fuel, n <= fuel -> forall I, ~ taken holdsIn (constraintOf P fuel) I (map fst run).
Lemma answered_settles P f0 l : answered P f0 l = true ->
  exists n, forall fuel I, n <= fuel -> taken holdsIn (constraintOf P fuel) I l -> taken holdsIn (constraintOf P f0) I l.
Proof.
  induction l as [|a l IH]; [exists 0; auto|]. destruct l as [|b l]; [exists 0; auto|]. intros H. cbn [answered] in H.
  destruct (edge P f0 a b []) as [| | | |[r c']] eqn:Ee; try discriminate. destruct (IH H) as [n Hn].
  destruct (edge_pure_back _ _ _ _ _ _ _ (table_new P) Ee) as [m [x [-> M]]]. exists (max n m). intros fuel I L [T1 T2].
  split; [|apply (Hn fuel I ltac:(lia) T2)]. intros c vs E. apply (T1 c vs).
  destruct (edge_pure P [] fuel a b (table_new P) x (M fuel ltac:(lia))) as [c2 X].
  unfold constraintOf in *. rewrite Ee in E. now rewrite X.
Qed.
Lemma lost_at P f0 run : answered P f0 (map fst run) = true -> (forall I, ~ taken holdsIn (constraintOf P f0) I (map fst run)) -> lost P run.
Proof. intros A H. destruct (answered_settles _ _ _ A) as [n Hn]. exists n. intros fuel L I T. apply (H I). eauto. Qed.

Ltac each v := do 16 (destruct v as [|v]; [cbn; try exact Logic.I; try reflexivity; try (intros ? [= <-]; reflexivity)|]); try (destruct v; exact Logic.I).
Ltac isSeparate := split; [intros b i; do 6 (destruct b as [|b]; [cbn; intuition (subst; reflexivity)|]); destruct b; intros []
                          |intros _ b i l; do 6 (destruct b as [|b]; [intros [= <- _] || discriminate; reflexivity|]); destruct b; discriminate].
Ltac isExecution := split; [cbn; repeat split; intros ? [= <-]; reflexivity
                           |intros a r Hin; cbn in Hin; repeat destruct Hin as [[= <- <-]|Hin]; try destruct Hin;
                            (split; [split; [cbn; tauto|reflexivity]|intros v; each v])].
Ltac isOperand := first [eapply operand_term; isTerm | eapply operand_cast; [reflexivity|isTerm]]
with isTerm := first [eapply term_int; reflexivity | eapply term_null; reflexivity
                     |eapply term_read; first [eapply reads_var; [reflexivity|reflexivity|apply for_int; discriminate]|eapply reads_call; [reflexivity|reflexivity|apply for_int; discriminate]]
                     |eapply term_arith; [reflexivity|exact Logic.I|isOperand|isOperand]].
Ltac isUnderstood := eapply cond_cmp with (s := SInt); [reflexivity|isOperand|isOperand|discriminate].
Ltac isExact := first [apply exact_leaf; exact Logic.I
                      |eapply exact_cmp; [reflexivity|isExact|isExact|cbn; unfold fits; cbn; try exact Logic.I; lia]
                      |eapply exact_bin; [reflexivity|isExact|isExact|cbn; unfold fits; cbn; lia]
                      |eapply exact_cast; [reflexivity|isExact|reflexivity]].
Ltac isPlainRun := intros a r c t f Hin Ed; cbn in Hin; repeat destruct Hin as [[= <- <-]|Hin]; try destruct Hin; try discriminate Ed;
                   injection Ed as <- <- <-; (split; [lia|(split; [isUnderstood|isExact])]).
Ltac isAssigned := intros v n s R; destruct R as [p t s Ed Ep Hs|p t ops s Ed Ep Hs|g ops n s Ed En Hs];
                   (do 16 (destruct v as [|v]; [cbn in Ed; try discriminate Ed; injection Ed; intros; subst; cbn in *; try discriminate;
                      try (injection Ep as <-); try (injection En as <-); inversion Hs; subst; try reflexivity; congruence|])); destruct v; discriminate.
Ltac isLost f0 := apply (lost_at _ f0); [vm_compute; reflexivity|intros I T].

Notation i32 := (TInt 32).
Definition xy (v : nat) : string := if v =? 1 then "x"%string else if v =? 11 then "y"%string else ""%string.

(** if (x > 0) if (x + y < 0) …: the constraints, and an execution *)
Definition example : program :=
  code [DValue; DAlloca i32; DInt 32 0; DLoad 1; DCmp 32 SGT 3 2; DBr 4 1 3; DLoad 11; DBin 32 Add 3 6; DCmp 32 SLT 7 2; DBr 8 2 3; DInst []; DAlloca i32; DInst []]
    [[1; 11; 3; 4; 5]; [6; 7; 8; 9]; [10]; [12]] xy [].
Definition example_rho : nat -> Z := values [0; 0; 0; 3; -1; 0; -5; -2; -1; 0; 0; 0; 0]%Z.
Definition example_run : list (nat * (nat -> Z)) := [(5, example_rho); (6, example_rho); (9, example_rho); (10, example_rho)].
Definition example_interp (x y : Z) : interp := mkI (fun n s => if String.eqb n "x" then x else y) (fun z => z) (fun z => z) (fun z => z).
Example C58_example_constraints :
  constraintOf example 20 5 6 = Some (ERel RGt (EVar "x" SInt) (EInt 0), [1]) /\
  constraintOf example 20 9 10 = Some (ERel RLt (EArith Plus (EVar "x" SInt) (EVar "y" SInt)) (EInt 0), [1; 11]) /\
  constraintOf example 20 9 12 = Some (ENot (ERel RLt (EArith Plus (EVar "x" SInt) (EVar "y" SInt)) (EInt 0)), [1; 11]) /\
  constraintOf example 20 6 9 = None.
Proof. vm_compute. repeat split; reflexivity. Qed.
Example C58_example_separate : separate example. Proof. isSeparate. Qed.
Example C58_example_execution : execution example example_run. Proof. isExecution. Qed.
Example C58_example_plain : plainRun example example_run. Proof. isPlainRun. Qed.
Example C58_example_assigns : forall a rho, In (a, rho) example_run -> assigns example (example_interp 3 (-5)) rho.
Proof.
  intros a rho Hin. assert (E : rho = example_rho) by (cbn in Hin; repeat destruct Hin as [[= <- <-]|Hin]; try destruct Hin; reflexivity).
  subst rho. clear Hin. isAssigned.
Qed.
Example C58_example_taken : taken holdsIn (constraintOf example 20) (example_interp 3 (-5)) (map fst example_run).
Proof.
  apply C58_executed_paths_are_taken_partial; [exact C58_example_separate|exact C58_example_execution|].
  intros a rho c t f Hin Ed. destruct (C58_example_plain a rho c t f Hin Ed) as [A [B C]]. split; auto. split; [exact (C58_example_assigns a rho Hin)|left; auto].
Qed.
(** the other edge of the second branch would not have been taken *)
Example C58_example_not_taken : ~ taken holdsIn (constraintOf example 20) (example_interp 3 (-5)) [5; 6; 9; 12].
Proof. intros [_ [_ [T _]]]. specialize (T _ _ eq_refl). now apply T. Qed.

(** ** Executed paths whose constraints nothing satisfies *)
(** a path of two branches *)
Definition two (allocas e1 e2 : list nat) (ds : list def) : program :=
  code ([DValue; DAlloca i32; DInt 32 0; DBr 8 1 3; DBr 10 2 3; DInst []; DInst []] ++ ds) [allocas ++ [7] ++ e1 ++ [8; 3]; [9] ++ e2 ++ [10; 4]; [5]; [6]] (fun _ => "x"%string) [].
Definition uniqueNames (P : program) : Prop := forall p q t t', pDefs P p = DAlloca t -> pDefs P q = DAlloca t' -> pVar P p = pVar P q -> p = q.
(** every variable has one value *)
Definition keeps (P : program) (rho : nat -> Z) : Prop := forall v w p, pDefs P v = DLoad p -> pDefs P w = DLoad p -> rho v = rho w.

(** if (x > 0) { x = 0; if (!(x > 0)) … }: a variable is reassigned *)
Theorem C58_reassigned_variable_refuted : exists P run,
  separate P /\ execution P run /\ plainRun P run /\ uniqueNames P /\ lost P run.
Proof.
  exists (two [1] [] [] [DLoad 1; DCmp 32 SGT 7 2; DLoad 1; DCmp 32 SGT 9 2]).
  pose (rho := values [0; 0; 0; 0; 0; 0; 0; 1; -1; 0; 0]%Z). exists [(3, rho); (4, rho); (6, rho)].
  split; [isSeparate|]. split; [isExecution|]. split; [isPlainRun|]. split.
  - assert (K : forall p t, nth p (([DValue; DAlloca i32; DInt 32 0; DBr 8 1 3; DBr 10 2 3; DInst []; DInst []] ++ [DLoad 1; DCmp 32 SGT 7 2; DLoad 1; DCmp 32 SGT 9 2])) DValue = DAlloca t -> p = 1).
    { intros p t. do 11 (destruct p as [|p]; [try discriminate; try reflexivity|]). destruct p; discriminate. }
    intros p q t t' Ep Eq _. cbn in Ep, Eq. rewrite (K p t Ep). now rewrite (K q t' Eq).
  - isLost 20. destruct T as [T1 [T2 _]]. specialize (T1 _ _ eq_refl). specialize (T2 _ _ eq_refl). apply T2. cbn in *. unfold holdsIn in *. cbn in *.
    destruct (0 <? var I "x" SInt)%Z; cbn in *; congruence.
Qed.
Print Assumptions C58_reassigned_variable_refuted.

(** if (x > 0) { int x = -1; if (!(x > 0)) … }: two variables of one name (in
    IR without debug information and value names: any two variables) *)
Theorem C58_same_name_refuted : exists P run,
  separate P /\ execution P run /\ plainRun P run /\ (forall a rho, In (a, rho) run -> keeps P rho) /\ lost P run.
Proof.
  exists (two [1; 11] [] [] [DLoad 1; DCmp 32 SGT 7 2; DLoad 11; DCmp 32 SGT 9 2; DAlloca i32]).
  pose (rho := values [0; 0; 0; 0; 0; 0; 0; 1; -1; -1; 0]%Z). exists [(3, rho); (4, rho); (6, rho)].
  split; [isSeparate|]. split; [isExecution|]. split; [isPlainRun|]. split.
  - intros a r Hin. assert (E : r = rho) by (cbn in Hin; repeat destruct Hin as [[= _ <-]|Hin]; try destruct Hin; reflexivity). subst r. clear Hin.
    intros v w p Ev Ew.
    do 12 (destruct v as [|v]; [try discriminate Ev; do 12 (destruct w as [|w]; [try discriminate Ew; try reflexivity; cbn in Ev, Ew; congruence|]); destruct w; discriminate|]).
    destruct v; discriminate.
  - isLost 20. destruct T as [T1 [T2 _]]. specialize (T1 _ _ eq_refl). specialize (T2 _ _ eq_refl). apply T2. cbn in *. unfold holdsIn in *. cbn in *.
    destruct (0 <? var I "x" SInt)%Z; cbn in *; congruence.
Qed.
Print Assumptions C58_same_name_refuted.

(** if (f() > 0) if (!(f() > 0)): two calls of one function *)
Theorem C58_two_calls_refuted : exists P run,
  separate P /\ execution P run /\ plainRun P run /\ (forall v p, pDefs P v <> DLoad p) /\ lost P run.
Proof.
  exists (two [] [] [] [DCall (Some 20) []; DCmp 32 SGT 7 2; DCall (Some 20) []; DCmp 32 SGT 9 2]).
  pose (rho := values [0; 0; 0; 0; 0; 0; 0; 1; -1; -1; 0]%Z). exists [(3, rho); (4, rho); (6, rho)].
  split; [isSeparate|]. split; [isExecution|]. split; [isPlainRun|]. split.
  - intros v p. do 12 (destruct v as [|v]; [discriminate|]). destruct v; discriminate.
  - isLost 20. destruct T as [T1 [T2 _]]. specialize (T1 _ _ eq_refl). specialize (T2 _ _ eq_refl). apply T2. cbn in *. unfold holdsIn in *. cbn in *.
    destruct (0 <? var I "f" SInt)%Z; cbn in *; congruence.
Qed.
Print Assumptions C58_two_calls_refuted.

(** The rest: all variables keep their values. *)
Definition assigned (P : program) (run : list (nat * (nat -> Z))) : Prop := exists I, forall a rho, In (a, rho) run -> assigns P I rho.
Definition understoodRun (P : program) (run : list (nat * (nat -> Z))) : Prop :=
  forall a rho c t f, In (a, rho) run -> pDefs P a = DBr c t f -> t <> f /\ understood P c.
Ltac isUnderstoodRun := intros a r c t f Hin Ed; cbn in Hin; repeat destruct Hin as [[= <- <-]|Hin]; try destruct Hin; try discriminate Ed;
                        injection Ed as <- <- <-; (split; [lia|isUnderstood]).
Ltac isAssignedRun rho z := exists (example_interp z z); intros a r Hin;
  assert (Er : r = rho) by (cbn in Hin; repeat destruct Hin as [[= _ <-]|Hin]; try destruct Hin; reflexivity); subst r; clear Hin; isAssigned.

(** x + 1 < x *)
Theorem C58_overflow_refuted : exists P run,
  separate P /\ execution P run /\ understoodRun P run /\ assigned P run /\ lost P run.
Proof.
  exists (two [1] [12] [] [DLoad 1; DCmp 32 SLT 12 7; DLoad 1; DCmp 32 SGT 9 2; DInt 32 1; DBin 32 Add 7 11]).
  pose (rho := values [0; 0; 0; 0; 0; 0; 0; 2147483647; -1; 2147483647; -1; 1; -2147483648]%Z). exists [(3, rho); (4, rho)].
  split; [isSeparate|]. split; [isExecution|]. split; [isUnderstoodRun|]. split; [isAssignedRun rho 2147483647%Z|].
  isLost 20. destruct T as [T1 _]. specialize (T1 _ _ eq_refl). unfold holdsIn in T1. cbn in T1.
  destruct (Z.ltb_spec (var I "x" SInt + 1) (var I "x" SInt)); cbn in *; lia.
Qed.
Print Assumptions C58_overflow_refuted.

(** (unsigned) x > 10 and x < 0 *)
Theorem C58_unsigned_refuted : exists P run,
  separate P /\ execution P run /\ understoodRun P run /\ assigned P run /\ lost P run.
Proof.
  exists (two [1] [] [] [DLoad 1; DCmp 32 UGT 7 11; DLoad 1; DCmp 32 SLT 9 2; DInt 32 10]).
  pose (rho := values [0; 0; 0; 0; 0; 0; 0; -1; -1; -1; -1; 10]%Z). exists [(3, rho); (4, rho); (5, rho)].
  split; [isSeparate|]. split; [isExecution|]. split; [isUnderstoodRun|]. split; [isAssignedRun rho (-1)%Z|].
  isLost 20. destruct T as [T1 [T2 _]]. specialize (T1 _ _ eq_refl). specialize (T2 _ _ eq_refl). unfold holdsIn in *. cbn in T1, T2.
  destruct (Z.ltb_spec 10 (var I "x" SInt)), (Z.ltb_spec (var I "x" SInt) 0); cbn in *; lia.
Qed.
Print Assumptions C58_unsigned_refuted.

(** x / 2 == -3 and x == -7 *)
Theorem C58_signed_division_refuted : exists P run,
  separate P /\ execution P run /\ understoodRun P run /\ assigned P run /\ lost P run.
Proof.
  exists (two [1] [13] [] [DLoad 1; DCmp 32 EQ 13 11; DLoad 1; DCmp 32 EQ 9 12; DInt 32 (-3); DInt 32 (-7); DBin 32 SDiv 7 14; DInt 32 2]).
  pose (rho := values [0; 0; 0; 0; 0; 0; 0; -7; -1; -7; -1; -3; -7; -3; 2]%Z). exists [(3, rho); (4, rho); (5, rho)].
  split; [isSeparate|]. split; [isExecution|]. split; [isUnderstoodRun|]. split; [isAssignedRun rho (-7)%Z|].
  isLost 20. destruct T as [T1 [T2 _]]. specialize (T1 _ _ eq_refl). specialize (T2 _ _ eq_refl). unfold holdsIn in *. cbn in T1, T2.
  destruct (Z.eqb_spec (var I "x" SInt) (-7)) as [E|E]; cbn in T2; [|lia]. rewrite E in T1. now apply T1.
Qed.
Print Assumptions C58_signed_division_refuted.

(** (int) (unsigned char) c > 100 and c < 0 *)
Theorem C58_zero_extension_refuted : exists P run,
  separate P /\ execution P run /\ understoodRun P run /\ assigned P run /\ lost P run.
Proof.
  exists (two [1] [12] [13] [DLoad 1; DCmp 32 SGT 12 11; DLoad 1; DCmp 32 SLT 13 2; DInt 32 100; DCast (ZExt 8) 7; DCast SExt 9]).
  pose (rho := values [0; 0; 0; 0; 0; 0; 0; -1; -1; -1; -1; 100; 255; -1]%Z). exists [(3, rho); (4, rho); (5, rho)].
  split; [isSeparate|]. split; [isExecution|]. split; [isUnderstoodRun|]. split; [isAssignedRun rho (-1)%Z|].
  isLost 20. destruct T as [T1 [T2 _]]. specialize (T1 _ _ eq_refl). specialize (T2 _ _ eq_refl). unfold holdsIn in *. cbn in T1, T2.
  destruct (Z.ltb_spec 100 (var I "x" SInt)), (Z.ltb_spec (var I "x" SInt) 0); cbn in *; lia.
Qed.
Print Assumptions C58_zero_extension_refuted.

(** bool x; if (!x) if (x == 0): the edge for false gets the constraint x % 2 == 1 *)
Theorem C58_truncated_boolean_refuted : exists P run,
  separate P /\ execution P run /\ assigned P run /\ lost P run.
Proof.
  exists (code [DValue; DAlloca (TInt 8); DInt 8 0; DBr 8 2 1; DBr 10 2 3; DInst []; DInst []; DLoad 1; DCast (Trunc 1) 7; DLoad 1; DCmp 8 EQ 9 2]
     [[1; 7; 8; 3]; [9; 10; 4]; [5]; [6]] (fun _ => "x"%string) []).
  pose (rho := values [0; 0; 0; 0; 0; 0; 0; 0; 0; 0; -1]%Z). exists [(3, rho); (4, rho); (5, rho)].
  split; [isSeparate|]. split; [isExecution|]. split; [isAssignedRun rho 0%Z|].
  isLost 20. destruct T as [T1 [T2 _]]. specialize (T1 _ _ eq_refl). specialize (T2 _ _ eq_refl). unfold holdsIn in *. cbn in T1, T2.
  destruct (Z.eqb_spec (var I "x" SInt) 0) as [E|E]; cbn in T2; [|lia]. rewrite E in T1. now apply T1.
Qed.
Print Assumptions C58_truncated_boolean_refuted.

(** both edges to one block: constraint of the edge for true *)
Theorem C58_equal_targets_refuted : exists P run,
  separate P /\ execution P run /\ assigned P run /\
  (forall a rho c t f, In (a, rho) run -> pDefs P a = DBr c t f -> understood P c /\ exact (pDefs P) rho c) /\ lost P run.
Proof.
  exists (code [DValue; DAlloca i32; DInt 32 0; DBr 8 1 1; DBr 10 2 3; DInst []; DInst []; DLoad 1; DCmp 32 SGT 7 2; DLoad 1; DCmp 32 SGT 9 2]
     [[1; 7; 8; 3]; [9; 10; 4]; [5]; [6]] (fun _ => "x"%string) []).
  pose (rho := values [0; 0; 0; 0; 0; 0; 0; 0; 0; 0; 0]%Z). exists [(3, rho); (4, rho); (6, rho)].
  split; [isSeparate|]. split; [isExecution|]. split; [isAssignedRun rho 0%Z|]. split.
  - intros a r c t f Hin Ed; cbn in Hin; repeat destruct Hin as [[= <- <-]|Hin]; try destruct Hin; try discriminate Ed;
      injection Ed as <- <- <-; (split; [isUnderstood|isExact]).
  - isLost 20. destruct T as [T1 [T2 _]]. specialize (T1 _ _ eq_refl). specialize (T2 _ _ eq_refl). apply T2. unfold holdsIn in *. cbn in *.
    destruct (0 <? var I "x" SInt)%Z; cbn in *; congruence.
Qed.
Print Assumptions C58_equal_targets_refuted.

(** if (p != NULL) if ( *p == NULL): a pointer and what it points to *)
Theorem C58_loaded_pointer_refuted : exists P run,
  separate P /\ execution P run /\ (forall a rho, In (a, rho) run -> keeps P rho) /\ lost P run.
Proof.
  exists (code [DValue; DAlloca TPtr; DNull; DBr 8 1 3; DBr 11 2 3; DInst []; DInst []; DLoad 1; DCmp 64 NE 7 2; DLoad 1; DLoad 9; DCmp 64 EQ 10 2]
     [[1; 7; 8; 3]; [9; 10; 11; 4]; [5]; [6]] (fun _ => "p"%string) []).
  pose (rho := values [0; 0; 0; 0; 0; 0; 0; 4096; -1; 4096; 0; -1]%Z). exists [(3, rho); (4, rho); (5, rho)].
  split; [isSeparate|]. split; [isExecution|]. split.
  - intros a r Hin. assert (E : r = rho) by (cbn in Hin; repeat destruct Hin as [[= _ <-]|Hin]; try destruct Hin; reflexivity). subst r. clear Hin.
    intros v w p Ev Ew.
    do 12 (destruct v as [|v]; [try discriminate Ev; do 12 (destruct w as [|w]; [try discriminate Ew; try reflexivity; cbn in Ev, Ew; congruence|]); destruct w; discriminate|]).
    destruct v; discriminate.
  - isLost 20. destruct T as [T1 [T2 _]]. specialize (T1 _ _ eq_refl). specialize (T2 _ _ eq_refl). unfold holdsIn in *. cbn in T1, T2.
    destruct (var I "p" SBV =? 0)%Z; cbn in *; congruence.
Qed.
Print Assumptions C58_loaded_pointer_refuted.

(** Conditions that end in an error: !(x > 0) as xor, a comparison of a
    zero-extended boolean *)
Definition one (ds : list def) : program :=
  code ([DValue; DAlloca i32; DInt 32 0; DBr 8 1 2; DInst []; DInst []; DInst []] ++ ds) [[1; 7; 3]; [4]; [5]] (fun _ => "x"%string) [].
Theorem C58_conditions_have_constraints_refuted :
  (exists P br c t f to, separate P /\ placed P to /\ pDefs P br = DBr c t f /\ t <> f /\ pBlock P to = t /\
     (exists x y, pDefs P c = DBin 1 Xor x y /\ understood P x) /\ forall fuel, 3 <= fuel -> edge P fuel br to [] = OFatal) /\
  (exists P br c t f to, separate P /\ placed P to /\ pDefs P br = DBr c t f /\ t <> f /\ pBlock P to = t /\
     (exists x y z, pDefs P c = DCmp 32 EQ x y /\ pDefs P x = DCast (ZExt 1) z /\ exists n, reads (pDefs P) (pVar P) (pGepName P) (pFn P) (pRet P) z n SBool) /\
     forall fuel, 3 <= fuel -> edge P fuel br to [] = OClash).
Proof.
  split.
  - exists (one [DLoad 1; DBin 1 Xor 9 10; DCmp 32 SGT 7 2; DInt 1 (-1)]), 3, 8, 1, 2, 4.
    split; [isSeparate|]. split; [split; [cbn; tauto|reflexivity]|]. split; [reflexivity|]. split; [lia|]. split; [reflexivity|]. split.
    + exists 9, 10. split; [reflexivity|isUnderstood].
    + intros fuel L. do 3 (destruct fuel as [|fuel]; [lia|]). reflexivity.
  - exists (one [DLoad 9; DCmp 32 EQ 10 2; DAlloca (TInt 1); DCast (ZExt 1) 7]), 3, 8, 1, 2, 4.
    split; [isSeparate|]. split; [split; [cbn; tauto|reflexivity]|]. split; [reflexivity|]. split; [lia|]. split; [reflexivity|]. split.
    + exists 10, 2, 7. split; [reflexivity|]. split; [reflexivity|]. eexists. eapply reads_var; [reflexivity|reflexivity|constructor].
    + intros fuel L. do 3 (destruct fuel as [|fuel]; [lia|]). reflexivity.
Qed.
Print Assumptions C58_conditions_have_constraints_refuted.

(** while ( *p) p = *p: the search for the variable behind a load goes in circles *)
Definition circle : nat -> def := fun v => nth v [DValue; DNull; DPhi TPtr [6; 3]; DLoad 2; DCmp 64 NE 3 1; DBr 4 0 1; DValue; DInst []] DValue.
Lemma circle_track fuel : forall w c, track circle (fun _ => ""%string) (fun _ => "gep"%string) fuel (3 :: w) c = ONoFuel /\
                                      track circle (fun _ => ""%string) (fun _ => "gep"%string) fuel (2 :: w) c = ONoFuel.
Proof. induction fuel as [|fuel IH]; intros w c; [split; reflexivity|]. split; cbn [track circle nth]; apply IH. Qed.
Theorem C58_search_ends_refuted : exists P br c t f to,
  separate P /\ placed P to /\ pDefs P br = DBr c t f /\ t <> f /\ pBlock P to = t /\ forall fuel, edge P fuel br to [] = ONoFuel.
Proof.
  exists (code [DValue; DNull; DPhi TPtr [6; 3]; DLoad 2; DCmp 64 NE 3 1; DBr 4 0 1; DValue; DInst []] [[2; 3; 4; 5]; [7]] (fun _ => ""%string) []), 5, 4, 0, 1, 2.
  split; [isSeparate|]. split; [split; [cbn; tauto|reflexivity]|]. split; [reflexivity|]. split; [lia|]. split; [reflexivity|].
  intros fuel. destruct fuel as [|fuel]; [reflexivity|]. pose proof (proj1 (circle_track (S fuel) [] [])) as K.
  unfold edge, getConstraintAndVariablesFromEdge, internalGetConstraintAndVariablesFromEdge. cbn -[track]. unfold byEdge, handleCmpInst, handleOperand, getLoadInstAsZ3. cbn -[track].
  change (track _ _ _ (S fuel) [3] []) with (track circle (fun _ => ""%string) (fun _ => "gep"%string) (S fuel) [3] []). rewrite K. reflexivity.
Qed.
Print Assumptions C58_search_ends_refuted.

(** Precision: no constraint at a block that starts with a debug instruction,
    and none (a tautology) for a phi, although the edge is never taken. *)
Theorem C58_untaken_edges_are_excluded_refuted :
  (exists P br c t f to, pDefs P br = DBr c t f /\ t <> f /\ understood P c /\ placed P to /\ pBlock P to = t /\
     pInsts P t <> [] /\ (forall b i, In i (pInsts P b) -> pBlock P i = b) /\ forall fuel tbl, edge P fuel br to tbl = ORet (None, tbl)) /\
  (exists P br c t f to v e vs, separate P /\ placed P to /\ pDefs P br = DBr c t f /\ t <> f /\ pBlock P to = f /\
     pDefs P c = DPhi (TInt 1) [v] /\ pDefs P v = DInt 1 (-1) /\ constraintOf P 20 br to = Some (e, vs) /\ forall I, holdsIn I e).
Proof.
  split.
  - exists (code [DValue; DAlloca i32; DInt 32 0; DLoad 1; DCmp 32 SGT 3 2; DBr 4 1 2; DCall None []; DInst []; DInst []] [[1; 3; 4; 5]; [6; 7]; [8]] (fun _ => "x"%string) [6]), 5, 4, 1, 2, 7.
    split; [reflexivity|]. split; [lia|]. split; [isUnderstood|]. split; [split; [cbn; tauto|reflexivity]|]. split; [reflexivity|]. split; [discriminate|]. split.
    + intros b i; do 6 (destruct b as [|b]; [cbn; intuition (subst; reflexivity)|]); destruct b; intros [].
    + intros fuel tbl. reflexivity.
  - exists (code [DValue; DInt 1 (-1); DPhi (TInt 1) [1]; DBr 2 1 2; DInst []; DInst []] [[2; 3]; [4]; [5]] (fun _ => "x"%string) []), 3, 2, 1, 2, 5, 1. do 2 eexists.
    split; [isSeparate|]. split; [split; [cbn; tauto|reflexivity]|]. split; [reflexivity|]. split; [lia|]. split; [reflexivity|]. split; [reflexivity|]. split; [reflexivity|].
    split; [vm_compute; reflexivity|]. intros I. unfold holdsIn. cbn. lia.
Qed.
Print Assumptions C58_untaken_edges_are_excluded_refuted.
