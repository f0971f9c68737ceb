(** C36-C38: LLVMAliasSet. *)
From Coq Require Import List Bool Arith Lia Permutation.
From Verif Require Import Assoc UtilitiesModel AliasSetModel AliasSetSpec AliasSetProofs AliasSetModuleProofs AliasSetMergeProofs AliasSetSafeProofs AliasSetJsonProofs.
Import ListNotations.

Definition okFresh (fresh : list nat -> nat) : Prop := forall l, ~ In (fresh l) l.
Definition okIter (iter : list nat -> list nat) : Prop := forall l, Permutation (iter l) l.

Section P.
  Variable asserts : bool.
  Variable fresh : list nat -> nat.
  Variable iter : list nat -> list nat.
  Variables isPtr isNull isInst isFunc isGlob decl : nat -> bool.
  Variable castOp : nat -> option nat.
  Variable globalsOf : nat -> list nat.
  Variable fnInstrs : nat -> list instr.
  Variable fnArgs : nat -> list nat.
  Variable ty : nat -> nat.
  Variable may : nat -> nat -> nat -> bool.
  Variable users : nat -> list user.
  Variable fnOf : nat -> option nat.
  Notation wf := (wfModule isPtr isNull isInst decl fnInstrs users).
  Notation run := (run asserts fresh iter isPtr isNull isInst isFunc isGlob decl castOp globalsOf fnInstrs fnArgs ty may users fnOf).
  Notation doOp := (doOp asserts fresh iter isPtr isNull isInst isFunc isGlob decl castOp globalsOf fnInstrs fnArgs ty may users fnOf).
  Notation computeValue := (computeValue asserts fresh iter isPtr isNull isInst isFunc isGlob decl castOp globalsOf fnInstrs fnArgs ty may users fnOf).
  Notation alias := (alias asserts fresh iter isPtr isNull isInst isFunc isGlob decl castOp globalsOf fnInstrs fnArgs ty may users fnOf).
  Notation getAliasSet := (getAliasSet asserts fresh iter isPtr isNull isInst isFunc isGlob decl castOp globalsOf fnInstrs fnArgs ty may users fnOf).
  Notation allocationSites := (allocationSites asserts fresh iter isPtr isNull isInst isFunc isGlob decl castOp globalsOf fnInstrs fnArgs ty may users fnOf).
  Notation isAllocationSite := (isAllocationSite asserts fresh iter isPtr isNull isInst isFunc isGlob decl castOp globalsOf fnInstrs fnArgs ty may users fnOf).
  Notation construct := (construct asserts fresh iter isPtr isNull isInst isFunc isGlob decl castOp globalsOf fnInstrs fnArgs ty may users fnOf).
  Notation must := (must isPtr isNull isFunc isGlob decl castOp fnInstrs users).
  Notation mayL := (mayL isPtr isNull isInst isFunc decl globalsOf fnInstrs fnArgs may).
  Notation equivMay := (equivMay isPtr isNull isInst isFunc globalsOf fnInstrs fnArgs may).
  Notation queried := (queried isPtr isNull).
  Notation interesting := (interesting isPtr isNull).
  Notation Good := (Good isPtr isNull isInst isFunc decl castOp globalsOf fnInstrs fnArgs may).

  (** Every history of queries, introductions and function analyses succeeds. The relation of the
      alias sets is an equivalence on the known values, contains the aliases introduced, those of
      stored functions and of global objects, and nothing beyond the equivalence generated by these
      and the LLVM alias analysis. *)
  Theorem C36_equivalence_partial : okFresh fresh -> okIter iter -> wf -> forall ops,
    exists s, run ops emptyA = Some s
      /\ (forall v, queried ops v -> known s v)
      /\ (forall v, known s v -> aliased s v v)
      /\ (forall v w, aliased s v w -> aliased s w v)
      /\ (forall u v w, aliased s u v -> aliased s v w -> aliased s u w)
      /\ (forall v w, must ops (analyzed s) v w -> aliased s v w)
      /\ (forall v w, aliased s v w -> conn (known s) (fun a b => must ops (analyzed s) a b \/ mayL (analyzed s) a b) v w)
      /\ (forall f, In (OFunction f) ops -> In f (analyzed s)).
  Proof.
    intros Hf Hi WF ops. destruct (history asserts fresh iter Hf Hi isPtr isNull isInst isFunc isGlob decl castOp globalsOf fnInstrs fnArgs ty may users fnOf WF ops) as [s [R [G [P [U [Q F]]]]]].
    pose proof (g_inv _ _ _ _ _ _ _ _ _ _ s G) as I. exists s. split; [exact R|]. split; [exact Q|]. split; [intros v K; exact (aliased_refl s v I K)|]. split; [intros v w H; exact (aliased_sym s v w I H)|].
    split; [intros u v w H1 H2; exact (aliased_trans s u v w I H1 H2)|]. auto.
  Qed.

  (** It is exactly that equivalence if the LLVM alias analysis gives an equivalence on the pointers of each analysed function. *)
  Theorem C36_exact_partial : okFresh fresh -> okIter iter -> wf -> forall ops s, run ops emptyA = Some s ->
    (forall f, In f (analyzed s) -> decl f = false -> equivMay f) ->
    forall v w, aliased s v w <-> conn (known s) (fun a b => must ops (analyzed s) a b \/ mayL (analyzed s) a b) v w.
  Proof.
    intros Hf Hi WF ops s R HE v w. destruct (history asserts fresh iter Hf Hi isPtr isNull isInst isFunc isGlob decl castOp globalsOf fnInstrs fnArgs ty may users fnOf WF ops) as [s' [R' [G [P [U [Q F]]]]]].
    rewrite R in R'. injection R' as <-. pose proof (g_inv _ _ _ _ _ _ _ _ _ _ s G) as I. split; [apply U|]. induction 1 as [v K|v w [H|[f [H1 [H2 H3]]]]|v w _ IH|u v w _ IH1 _ IH2].
    - exact (aliased_refl s v I K).
    - exact (P v w H).
    - exact (g_may _ _ _ _ _ _ _ _ _ _ s G f v w H1 H2 (HE f H1 H2) H3).
    - exact (aliased_sym s v w I IH).
    - exact (aliased_trans s u v w I IH1 IH2).
  Qed.

  (** the constructor is such a history *)
  Theorem C36_constructor : forall globals functions lazy, construct globals functions lazy =
    run (map OCompute globals ++ map OCompute functions ++ if lazy then [] else map OFunction (filter (fun f => negb (decl f)) functions)) emptyA.
  Proof.
    intros globals functions lazy. unfold AliasSetModel.construct, AliasSetModel.run, optFold. rewrite !fold_left_app.
    assert (X : forall l s, fold_left (fun acc x => match acc with Some s => computeValue x s | None => None end) l s = fold_left (fun acc o => match acc with Some s => doOp o s | None => None end) (map OCompute l) s).
    { induction l as [|x l IH]; intro s; cbn [map fold_left]; [reflexivity|]. rewrite IH. reflexivity. }
    assert (N : forall l, fold_left (fun acc o => match acc with Some s => doOp o s | None => None end) l None = None) by (induction l; auto).
    rewrite X. destruct (fold_left _ (map OCompute globals) (Some emptyA)) as [s|]; [|rewrite !N; reflexivity]. rewrite X. destruct (fold_left _ (map OCompute functions) (Some s)) as [s'|]; [|rewrite N; reflexivity].
    destruct lazy; [reflexivity|].
    assert (Y : forall l s, fold_left (fun acc x => match acc with Some s => computeFunction asserts fresh iter isPtr isNull isInst isFunc decl castOp globalsOf fnInstrs fnArgs ty may x s | None => None end) l s = fold_left (fun acc o => match acc with Some s => doOp o s | None => None end) (map OFunction l) s).
    { induction l as [|x l IH]; intro t; cbn [map fold_left]; [reflexivity|]. rewrite IH. reflexivity. }
    apply Y.
  Qed.

  Lemma run_app a b s : run (a ++ b) s = match run a s with Some s' => run b s' | None => None end.
  Proof.
    unfold AliasSetModel.run. rewrite fold_left_app. destruct (fold_left _ a (Some s)); [reflexivity|]. assert (N : forall l, fold_left (fun acc o => match acc with Some s => doOp o s | None => None end) l None = None) by (induction l; auto). apply N.
  Qed.

  (** alias(v, w) answers this relation; it is false for values that are no interesting pointers *)
  Theorem C36_alias : okFresh fresh -> okIter iter -> wf -> forall ops s v w, run ops emptyA = Some s ->
    exists r s', alias v w s = Some (r, s') /\
      (if interesting v && interesting w then run (ops ++ [OCompute v; OCompute w]) emptyA = Some s' /\ (r = true <-> aliased s' v w) else r = false /\ s' = s).
  Proof.
    intros Hf Hi WF ops s v w R. unfold AliasSetModel.alias. destruct (interesting v && interesting w) eqn:Q; [|exists false, s; auto]. apply andb_true_iff in Q. destruct Q as [Iv Iw].
    destruct (history asserts fresh iter Hf Hi isPtr isNull isInst isFunc isGlob decl castOp globalsOf fnInstrs fnArgs ty may users fnOf WF (ops ++ [OCompute v; OCompute w])) as [s2 [R2 [G [_ [_ [K _]]]]]].
    pose proof R2 as R3. rewrite run_app, R in R3. unfold AliasSetModel.run in R3. cbn [fold_left AliasSetModel.doOp] in R3. destruct (computeValue v s) as [s1|]; [|discriminate]. rewrite R3.
    pose proof (g_inv _ _ _ _ _ _ _ _ _ _ s2 G) as I.
    destruct (K v) as [b Eb]; [split; [exact Iv|left; apply in_app_iff; right; left; reflexivity]|]. rewrite Eb. destruct (i_val s2 I v b Eb) as [a [l [E1 [E2 _]]]]. unfold deref. rewrite E1, E2. exists (mem w l), s2. split; [reflexivity|]. split; [exact R2|].
    rewrite mem_true. split.
    - intro H. exists b, l. unfold deref. rewrite E1. auto.
    - intros [b' [l' [F1 [F2 F3]]]]. unfold deref in F2. replace b' with b in F2 by congruence. rewrite E1 in F2. congruence.
  Qed.

  (** getAliasSet(v) is v's class, and the box returned stays v's class whatever happens later *)
  Theorem C36_getAliasSet : okFresh fresh -> okIter iter -> wf -> forall ops s v, run ops emptyA = Some s -> interesting v = true ->
    exists b s', getAliasSet v s = Some (Some b, s') /\ run (ops ++ [OCompute v]) emptyA = Some s'
      /\ forall later s2, run later s' = Some s2 -> exists l, deref s2 b = Some l /\ NoDup l /\ forall w, In w l <-> aliased s2 v w.
  Proof.
    intros Hf Hi WF ops s v R Iv. unfold AliasSetModel.getAliasSet. rewrite Iv.
    destruct (history asserts fresh iter Hf Hi isPtr isNull isInst isFunc isGlob decl castOp globalsOf fnInstrs fnArgs ty may users fnOf WF (ops ++ [OCompute v])) as [s1 [R1 [G1 [_ [_ [K _]]]]]].
    pose proof R1 as R3. rewrite run_app, R in R3. unfold AliasSetModel.run in R3. cbn [fold_left AliasSetModel.doOp] in R3. rewrite R3.
    destruct (K v) as [b Eb]; [split; [exact Iv|left; apply in_app_iff; right; left; reflexivity]|]. exists b, s1. rewrite Eb. split; [reflexivity|]. split; [exact R1|]. intros later s2 R2.
    destruct (run_steps asserts fresh iter Hf Hi isPtr isNull isInst isFunc isGlob decl castOp globalsOf fnInstrs fnArgs ty may users fnOf WF later s1 G1) as [s2' [R2' [G2 [[[X _] _] _]]]].
    rewrite R2 in R2'. injection R2' as <-. pose proof (X v b Eb) as Eb2. pose proof (g_inv _ _ _ _ _ _ _ _ _ _ s2 G2) as I. destruct (i_val s2 I v b Eb2) as [a [l [E1 [E2 _]]]]. exists l. unfold deref. rewrite E1. split; [exact E2|]. split; [apply (i_nd s2 I a l E2)|].
    intro w. split.
    - intro H. exists b, l. unfold deref. rewrite E1. auto.
    - intros [b' [l' [F1 [F2 F3]]]]. unfold deref in F2. replace b' with b in F2 by congruence. rewrite E1 in F2. congruence.
  Qed.

  (** isInReachableAllocationSites answers membership in getReachableAllocationSites: the allocation sites in v's class *)
  Theorem C36_allocation_sites : okFresh fresh -> okIter iter -> wf -> forall ops s v site, run ops emptyA = Some s -> interesting v = true ->
    exists sites s', allocationSites site v s = Some (sites, s') /\ (forall p, In p sites <-> aliased s' v p /\ site v p = true)
      /\ forall p, exists r, isAllocationSite site v p s = Some (r, s') /\ (r = true <-> In p sites).
  Proof.
    intros Hf Hi WF ops s v site R Iv. unfold AliasSetModel.allocationSites, AliasSetModel.isAllocationSite. rewrite Iv.
    destruct (history asserts fresh iter Hf Hi isPtr isNull isInst isFunc isGlob decl castOp globalsOf fnInstrs fnArgs ty may users fnOf WF (ops ++ [OCompute v])) as [s1 [R1 [G1 [_ [_ [K _]]]]]].
    pose proof R1 as R3. rewrite run_app, R in R3. unfold AliasSetModel.run in R3. cbn [fold_left AliasSetModel.doOp] in R3. rewrite R3.
    destruct (K v) as [b Eb]; [split; [exact Iv|left; apply in_app_iff; right; left; reflexivity]|]. rewrite Eb. pose proof (g_inv _ _ _ _ _ _ _ _ _ _ s1 G1) as I. destruct (i_val s1 I v b Eb) as [a [l [E1 [E2 _]]]].
    assert (D : deref s1 b = Some l) by (unfold deref; rewrite E1; exact E2). rewrite D. exists (filter (site v) (iter l)), s1. split; [reflexivity|].
    assert (C : forall p, In p (filter (site v) (iter l)) <-> In p l /\ site v p = true) by (intro p; rewrite filter_In, (in_iter iter Hi); reflexivity).
    split.
    - intro p. rewrite C. split; intros [H1 H2]; (split; [|exact H2]).
      + exists b, l. auto.
      + destruct H1 as [b' [l' [F1 [F2 F3]]]]. congruence.
    - intro p. destruct (site v p) eqn:Q; [exists (mem p l)|exists false]; (split; [reflexivity|]); rewrite C.
      + rewrite mem_true. tauto.
      + split; [discriminate|]. intros [_ H]. congruence.
  Qed.

  (** ** C37: the states reachable by operations and merges *)
  Inductive reach : ast -> Prop :=
  | r_empty : reach emptyA
  | r_op s o s' : reach s -> doOp o s = Some s' -> reach s'
  | r_merge s o es s' : reach s -> reach o -> Permutation es (entriesOf iter o) -> mergeWith fresh es (analyzed o) s = Some s' -> reach s'.

  Theorem C37_memory_safe_partial : okFresh fresh -> okIter iter -> wf -> forall s, reach s ->
    (forall v b, afind v (sets s) = Some b -> exists l, deref s b = Some l /\ In v l)
    /\ NoDup (akeys (heap s))
    /\ (forall o, exists s', doOp o s = Some s' /\ forall v b, afind v (sets s) = Some b -> afind v (sets s') = Some b)
    /\ (forall o es, reach o -> Permutation es (entriesOf iter o) -> exists s', mergeWith fresh es (analyzed o) s = Some s' /\ forall v b, afind v (sets s) = Some b -> afind v (sets s') = Some b).
  Proof.
    intros Hf Hi WF.
    assert (SF : forall s, reach s -> Safe isPtr isNull isInst isFunc decl globalsOf fnInstrs fnArgs s).
    { intros s R. induction R as [|s o s' R IH E|s o es s' R IH R2 IH2 P E].
      - apply safe_empty; assumption.
      - destruct (op_w asserts fresh iter Hf Hi isPtr isNull isInst isFunc isGlob decl castOp globalsOf fnInstrs fnArgs ty may users fnOf WF s o IH) as [s1 [R1 [S1 _]]]. congruence.
      - destruct (merge_w fresh iter Hf Hi isPtr isNull isInst isFunc isGlob decl castOp globalsOf fnInstrs fnArgs ty may fnOf s o es IH IH2 P) as [s1 [R1 [S1 _]]]. congruence. }
    intros s R. pose proof (SF s R) as S. split; [|split; [exact (w_heap s (proj1 S))|split]].
    - intros v b E. destruct (w_val s (proj1 S) v b E) as [a [l [E1 [E2 E3]]]]. exists l. unfold deref. rewrite E1. auto.
    - intro o. destruct (op_w asserts fresh iter Hf Hi isPtr isNull isInst isFunc isGlob decl castOp globalsOf fnInstrs fnArgs ty may users fnOf WF s o S) as [s1 [R1 [_ X]]]. exists s1. split; [exact R1|apply X].
    - intros o es Ro P. destruct (merge_w fresh iter Hf Hi isPtr isNull isInst isFunc isGlob decl castOp globalsOf fnInstrs fnArgs ty may fnOf s o es S (SF o Ro) P) as [s1 [R1 [_ X]]]. exists s1. split; [exact R1|apply X].
  Qed.

  (** ** C38 *)
  Theorem C38_merge_partial : okFresh fresh -> okIter iter -> wf -> forall ops ops' s o es,
    run ops emptyA = Some s -> run ops' emptyA = Some o -> Permutation es (entriesOf iter o) ->
    exists t, mergeWith fresh es (analyzed o) s = Some t
      /\ (forall v, known t v <-> known s v \/ known o v)
      /\ (forall f, In f (analyzed t) <-> In f (analyzed s) \/ In f (analyzed o))
      /\ (forall v w, aliased s v w -> aliased t v w)
      /\ (forall v w, aliased t v w -> conn (fun v => known s v \/ known o v) (fun v w => aliased s v w \/ aliased o v w) v w)
      /\ ((forall v w, aliased o v w -> known s v -> known s w -> aliased s v w) ->
          forall v w, aliased t v w <-> conn (fun v => known s v \/ known o v) (fun v w => aliased s v w \/ aliased o v w) v w).
  Proof.
    intros Hf Hi WF ops ops' s o es Rs Ro P.
    assert (GI : forall ops s, run ops emptyA = Some s -> Inv s).
    { intros l t R. destruct (history asserts fresh iter Hf Hi isPtr isNull isInst isFunc isGlob decl castOp globalsOf fnInstrs fnArgs ty may users fnOf WF l) as [s' [R' [G _]]]. rewrite R in R'. injection R' as <-. exact (g_inv _ _ _ _ _ _ _ _ _ _ t G). }
    pose proof (GI ops s Rs) as Is. pose proof (GI ops' o Ro) as Io. pose proof (entries_wf iter o Hi Io) as WE.
    destruct (merge_ok fresh Hf s Is (entriesOf iter o) WE es (analyzed o) P) as [t [R [K [_ [M [U [_ [A J]]]]]]]]. exists t. split; [exact R|].
    assert (CE : forall v w, conn (fun v => known s v \/ knownE (entriesOf iter o) v) (fun v w => aliased s v w \/ aliasedE (entriesOf iter o) v w) v w <->
                             conn (fun v => known s v \/ known o v) (fun v w => aliased s v w \/ aliased o v w) v w).
    { intros v w. split; induction 1 as [x [H|H]|x y [H|H]|x y _ IH|x y z _ IH1 _ IH2];
        first [exact (c_sym _ _ _ _ IH)|exact (c_trans _ _ _ _ _ IH1 IH2)|apply c_refl; left; exact H|apply c_link; left; exact H|apply c_refl; right; apply (entries_known iter o); exact H|apply c_link; right; apply (entries_aliased iter o x y Hi Io); exact H]. }
    split; [intro v; rewrite K, (entries_known iter o v); reflexivity|]. split; [exact A|]. split; [exact M|]. split; [intros v w H; apply CE, U; exact H|].
    intros H v w. split; [intro Q; apply CE, U; exact Q|]. intro Q. apply J; [|apply CE; exact Q]. intros x y Hxy. apply H. apply (entries_aliased iter o x y Hi Io). exact Hxy.
  Qed.

  (** ** JSON: the alias sets of the values with an id survive *)
  Theorem C36_json_partial : okFresh fresh -> okIter iter -> wf -> forall ops s hasId jss fns, run ops emptyA = Some s ->
    Permutation jss (fst (getAsJson iter hasId s)) -> Permutation fns (snd (getAsJson iter hasId s)) -> jss <> [] -> fns <> [] ->
    exists t, loadJson fresh jss fns = Some t /\ (forall u v, aliased t u v <-> aliased s u v /\ hasId u = true /\ hasId v = true) /\ (forall f, In f (analyzed t) <-> In f (analyzed s)).
  Proof.
    intros Hf Hi WF ops s hasId jss fns R P Pf Ne Nf.
    destruct (history asserts fresh iter Hf Hi isPtr isNull isInst isFunc isGlob decl castOp globalsOf fnInstrs fnArgs ty may users fnOf WF ops) as [s' [R' [G _]]]. rewrite R in R'. injection R' as <-.
    destruct (json_ok fresh iter Hf Hi hasId s jss fns (g_inv _ _ _ _ _ _ _ _ _ _ s G) P Pf Ne Nf) as [t [E [_ H]]]. exists t. auto.
  Qed.
End P.
(** addSingletonAliasSet and mergeAliasSets alone: exactly the equivalence generated by the introduced pairs *)
Theorem C36_generated : forall asserts fresh iter os, okFresh fresh -> okIter iter ->
  exists s, fold_left (ownerOp asserts fresh iter) os (Some emptyA) = Some s /\ (forall v, known s v <-> mentioned os v)
    /\ (forall v w, aliased s v w <-> conn (mentioned os) (fun a b => In (inr (a, b)) os) v w).
Proof. intros asserts fresh iter os Hf Hi. destruct (owner_ok asserts fresh iter os Hf Hi) as [s [R [_ H]]]. exists s. auto. Qed.
Print Assumptions C36_generated.
Print Assumptions C36_equivalence_partial.
Print Assumptions C36_exact_partial.
Print Assumptions C36_constructor.
Print Assumptions C36_alias.
Print Assumptions C36_getAliasSet.
Print Assumptions C36_allocation_sites.
Print Assumptions C36_json_partial.
Print Assumptions C37_memory_safe_partial.
Print Assumptions C38_merge_partial.

(** ** a module: globals @g = 1, @h = 7, @fun = 4; function 10 has %a = 2, %p = load @g = 3, store @fun -> @g = 5, null = 6 *)
Definition xfresh (l : list nat) : nat := S (list_max l).
Lemma xfresh_ok : okFresh xfresh.
Proof. intros l H. pose proof (proj1 (list_max_le l (list_max l)) (le_n _)) as Q. rewrite Forall_forall in Q. specialize (Q _ H). unfold xfresh in Q. lia. Qed.
Definition xiter (l : list nat) : list nat := rev l.
Lemma xiter_ok : okIter xiter.
Proof. intro l. apply Permutation_sym, Permutation_rev. Qed.
Definition is (l : list nat) (v : nat) : bool := existsb (Nat.eqb v) l.
Definition xInstrs (f : nat) : list instr := if f =? 10 then [mkI 2 [] None None; mkI 3 [1] None None; mkI 5 [4; 1] (Some (4, 1)) None] else [].
Definition xUsers (g : nat) : list user := if g =? 1 then [mkU 3 (Some 10) None; mkU 5 (Some 10) (Some (4, 1))] else if g =? 4 then [mkU 5 (Some 10) (Some (4, 1))] else [].
Definition xGlobs (o : nat) : list nat := if is [1; 4; 7] o then [o] else [].
Definition xmay (f v w : nat) : bool := (v =? w) || (is [2; 3] v && is [2; 3] w).
Definition xfnOf (v : nat) : option nat := if is [2; 3] v then Some 10 else None.
Notation xrun ops := (run true xfresh xiter (is [1;2;3;4;6;7]) (is [6]) (is [2;3;5]) (is [4]) (is [1;4;7]) (fun _ => false) (fun _ => None) xGlobs xInstrs (fun _ => []) (fun v => v mod 2) xmay xUsers xfnOf ops).
Notation xconn ops s := (conn (known s) (fun a b => must (is [1;2;3;4;6;7]) (is [6]) (is [4]) (is [1;4;7]) (fun _ => false) (fun _ => None) xInstrs xUsers ops (analyzed s) a b \/ mayL (is [1;2;3;4;6;7]) (is [6]) (is [2;3;5]) (is [4]) (fun _ => false) xGlobs xInstrs (fun _ => []) xmay (analyzed s) a b)).
Lemma xwf : wfModule (is [1;2;3;4;6;7]) (is [6]) (is [2;3;5]) (fun _ => false) xInstrs xUsers.
Proof.
  constructor.
  - intros g u f Hu E. split; [reflexivity|]. unfold xUsers in Hu. destruct (g =? 1); [|destruct (g =? 4); [|destruct Hu]]; cbn in Hu.
    + destruct Hu as [<- |[<- |[]]]; injection E as <-; [exists (mkI 3 [1] None None)|exists (mkI 5 [4; 1] (Some (4, 1)) None)]; cbn; auto 10.
    + destruct Hu as [<- |[]]; injection E as <-. exists (mkI 5 [4; 1] (Some (4, 1)) None). cbn. auto 10.
  - intros f i svo spo Hi E. unfold xInstrs in Hi. destruct (f =? 10); [|destruct Hi]. destruct Hi as [<- |[<- |[<- |[]]]]; try discriminate. injection E as <- <-. cbn. auto.
  - intros f i o Hi Ho Q. unfold xInstrs in Hi. destruct (f =? 10); [|destruct Hi]. destruct Hi as [<- |[<- |[<- |[]]]]; cbn in Ho; [destruct Ho|destruct Ho as [<- |[]]; discriminate|destruct Ho as [<- |[<- |[]]]; discriminate].
Qed.
Definition xops : list op := [OCompute 1; OIntroduce 7 2].
Example C36_case : exists s, xrun xops emptyA = Some s
  /\ map (fun v => match afind v (sets s) with Some b => deref s b | None => None end) [1;2;3;4;7] = repeat (Some [1;4;3;2;7]) 5
  /\ heap s = [(1, [1;4;3;2;7])] /\ length (boxes s) = 4 /\ analyzed s = [10].
Proof. eexists. split; [vm_compute; reflexivity|]. vm_compute. auto. Qed.
Example C36_exact_case : exists s, xrun xops emptyA = Some s /\ forall v w, aliased s v w <-> xconn xops s v w.
Proof.
  destruct (C36_equivalence_partial true xfresh xiter _ _ _ (is [4]) (is [1;4;7]) _ (fun _ => None) xGlobs _ (fun _ => []) (fun v => v mod 2) xmay _ xfnOf xfresh_ok xiter_ok xwf xops) as [s [R _]].
  exists s. split; [exact R|]. intros v w. apply (C36_exact_partial true xfresh xiter _ _ _ (is [4]) (is [1;4;7]) _ (fun _ => None) xGlobs _ (fun _ => []) (fun v => v mod 2) xmay _ xfnOf xfresh_ok xiter_ok xwf xops s R).
  intros f _ _. unfold equivMay, mayLink, xmay. split; [intros x _; rewrite Nat.eqb_refl; reflexivity|]. split.
  - intros x y [_ [_ M]]. rewrite Nat.eqb_sym, andb_comm. exact M.
  - intros x y z [_ [_ M1]] [_ [_ M2]]. apply orb_true_iff in M1, M2. apply orb_true_iff. destruct M1 as [M1|M1]; [apply Nat.eqb_eq in M1; subst y; exact M2|]. destruct M2 as [M2|M2]; [apply Nat.eqb_eq in M2; subst z; auto|].
    right. apply andb_true_iff in M1, M2. apply andb_true_iff. tauto.
Qed.
Example C37_case : exists s o t, xrun [OCompute 1] emptyA = Some s /\ xrun [OIntroduce 2 7] emptyA = Some o
  /\ mergeWith xfresh (entriesOf xiter o) (analyzed o) s = Some t /\ aliased t 7 1 /\ map snd (heap s) = [[1;4;3;2]] /\ map snd (heap o) = [[2;3;7];[1;4]] /\ map snd (heap t) = [[1;4;3;2;7]].
Proof.
  do 3 eexists. split; [vm_compute; reflexivity|]. split; [vm_compute; reflexivity|]. split; [vm_compute; reflexivity|].
  split; [do 2 eexists; split; [reflexivity|]; split; [reflexivity|]; cbn; auto 10|]. repeat split.
Qed.

(** a may-alias of the LLVM alias analysis is lost when that relation is not transitive: 1-2 and 2-3 may alias, 2 and 3 get different sets *)
Theorem C36_may_alias_lost_refuted : exists (may : nat -> nat -> nat -> bool) fnInstrs s,
  wfModule (is [1;2;3]) (is []) (is [1;2;3]) (fun _ => false) fnInstrs (fun _ => [])
  /\ (forall f v w, may f v w = may f w v) /\ (forall f v, may f v v = true)
  /\ run true xfresh xiter (is [1;2;3]) (is []) (is [1;2;3]) (is []) (is []) (fun _ => false) (fun _ => None) (fun _ => []) fnInstrs (fun _ => []) (fun _ => 0) may (fun _ => []) (fun _ => Some 10) [OCompute 1] emptyA = Some s
  /\ mayLink (is [1;2;3]) (is []) (is [1;2;3]) (is []) (fun _ => []) fnInstrs (fun _ => []) may 10 2 3 /\ In 10 (analyzed s) /\ ~ aliased s 2 3.
Proof.
  exists (fun _ v w => (v =? w) || (is [1;2] v && is [1;2] w) || (is [2;3] v && is [2;3] w)), (fun f => if f =? 10 then [mkI 1 [] None None; mkI 2 [] None None; mkI 3 [] None None] else []).
  eexists. split; [constructor|].
  - intros g u f [].
  - intros f i svo spo Hi E. destruct (f =? 10); [|destruct Hi]. destruct Hi as [<- |[<- |[<- |[]]]]; discriminate.
  - intros f i o Hi Ho. destruct (f =? 10); [|destruct Hi]. destruct Hi as [<- |[<- |[<- |[]]]]; destruct Ho.
  - split; [intros f v w; rewrite (Nat.eqb_sym v w), (andb_comm (is [1;2] v)), (andb_comm (is [2;3] v)); reflexivity|]. split; [intros f v; rewrite Nat.eqb_refl; reflexivity|].
    split; [vm_compute; reflexivity|]. split; [|split; [cbn; auto|]].
    + split; [|split; [|reflexivity]]; left; cbn; [exists (mkI 2 [] None None)|exists (mkI 3 [] None None)]; cbn; auto.
    + intros [b [l [E1 [E2 E3]]]]. cbn in E1. injection E1 as <-. cbn in E2. injection E2 as <-. cbn in E3. destruct E3 as [E3|[E3|[]]]; discriminate.
Qed.
Print Assumptions C36_may_alias_lost_refuted.

(** computeValuesAliasSet, line 179: "it is always an interesting pointer" — `store ptr @g, ptr null` makes mergeAliasSets look up null (line 217) *)
Theorem C37_store_to_null_refuted :
  let fnInstrs f := if f =? 10 then [mkI 5 [1; 6] (Some (1, 6)) None] else [] in
  let users g := if g =? 1 then [mkU 5 (Some 10) (Some (1, 6))] else [] in
  computeValue true xfresh xiter (is [1;6]) (is [6]) (is [5]) (is []) (is [1]) (fun _ => false) (fun _ => None) (fun _ => []) fnInstrs (fun _ => []) (fun _ => 0) (fun _ _ _ => true) users (fun _ => None) 1 emptyA = None.
Proof. reflexivity. Qed.
Print Assumptions C37_store_to_null_refuted.

(** after loading from JSON the values without an id are missing although their function counts as analysed: a query dereferences a null alias set *)
Theorem C37_after_json_refuted : exists s t, xrun [OCompute 1] emptyA = Some s
  /\ loadJson xfresh (fst (getAsJson xiter (fun v => negb (v =? 4)) s)) (snd (getAsJson xiter (fun v => negb (v =? 4)) s)) = Some t
  /\ aliased s 1 4 /\ ~ aliased t 1 4 /\ xrun [OCompute 1] t = None.
Proof.
  do 2 eexists. split; [vm_compute; reflexivity|]. split; [vm_compute; reflexivity|]. split; [|split].
  - exists 0. eexists. split; [reflexivity|]. split; [reflexivity|]. cbn. auto.
  - intros [b [l [E1 [E2 E3]]]]. cbn in E1. injection E1 as <-. cbn in E2. injection E2 as <-. cbn in E3. repeat (destruct E3 as [E3|E3]; [discriminate|]). exact E3.
  - vm_compute. reflexivity.
Qed.
Print Assumptions C37_after_json_refuted.

(** merging {1,2},{3} with {2,3}: 1 aliases 3 but 3 does not alias 1, and 3 does not alias 2 *)
Notation yrun ops := (run true xfresh xiter (is [1;2;3]) (is []) (is []) (is []) (is []) (fun _ => false) (fun _ => None) (fun _ => []) (fun _ => []) (fun _ => []) (fun _ => 0) (fun _ _ _ => false) (fun _ => []) (fun _ => None) ops).
Theorem C38_merge_refuted : exists s o t, yrun [OIntroduce 1 2; OCompute 3] emptyA = Some s /\ yrun [OIntroduce 3 2] emptyA = Some o
  /\ mergeWith xfresh (entriesOf (fun l => l) o) (analyzed o) s = Some t
  /\ aliased o 3 2 /\ ~ aliased t 3 2 /\ aliased t 1 3 /\ ~ aliased t 3 1.
Proof.
  do 3 eexists. split; [vm_compute; reflexivity|]. split; [vm_compute; reflexivity|]. split; [vm_compute; reflexivity|].
  split; [do 2 eexists; split; [reflexivity|]; split; [reflexivity|]; cbn; auto|].
  split; [intros [b [l [E1 [E2 E3]]]]; cbn in E1; injection E1 as <-; cbn in E2; injection E2 as <-; cbn in E3; repeat (destruct E3 as [E3|E3]; [discriminate|]); exact E3|].
  split; [do 2 eexists; split; [reflexivity|]; split; [reflexivity|]; cbn; auto|].
  intros [b [l [E1 [E2 E3]]]]; cbn in E1; injection E1 as <-; cbn in E2; injection E2 as <-; cbn in E3; repeat (destruct E3 as [E3|E3]; [discriminate|]); exact E3.
Qed.
Print Assumptions C38_merge_refuted.
(** the hypothesis of the exact part of C38_merge_partial holds for {1,2} and {2,3} *)
Example C38_case : exists s o t, yrun [OIntroduce 1 2] emptyA = Some s /\ yrun [OIntroduce 3 2] emptyA = Some o
  /\ mergeWith xfresh (entriesOf xiter o) (analyzed o) s = Some t /\ (forall v w, aliased o v w -> known s v -> known s w -> aliased s v w) /\ aliased t 3 1.
Proof.
  do 3 eexists. split; [vm_compute; reflexivity|]. split; [vm_compute; reflexivity|]. split; [vm_compute; reflexivity|]. split.
  - intros v w _ [b K] [b' K']. apply afind_In in K. apply afind_In in K'. cbn in K, K'. destruct K as [K|[K|[]]], K' as [K'|[K'|[]]]; injection K as <- <-; injection K' as <- <-; do 2 eexists; (split; [reflexivity|]); (split; [reflexivity|]); cbn; auto.
  - do 2 eexists. split; [reflexivity|]. split; [reflexivity|]. cbn. auto.
Qed.
