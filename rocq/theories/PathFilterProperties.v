(** C57: the filters for paths. *)
From Coq Require Import List Bool Arith Lia Relations Permutation Sorted.
From Verif Require Import Assoc DFAMinimizerModel DFAMinimizerSpec ExplodedSuperGraphModel ExplodedSuperGraphSpec
  PathDagModel PathDagSpec PathDagGraphs PathDagResults PathDagProperties
  PathFilterModel PathFilterSpec PathFilterProofs PathFlattenProofs PathFilterResults.
Import ListNotations.

Notation reaches G := (clos_refl_trans _ (arc G)).

(** ** Removing edges *)

(** Whatever the solver refutes is really unsatisfiable: then the graph that is
    left is a part of the given one and has all paths that can be taken under
    some assignment. *)
Theorem C57_feasible_paths_are_kept :
  forall {N A V E} `{EqDec N} (sat : E -> A -> Prop) (ec : N -> N -> option (A * list V)) unsat add (G : pgraph N) leaf fuel,
    wf G -> acyclic G -> (forall v, v < size G -> tagOf G v <> []) -> outEdges G leaf = [] -> soundSolver sat unsat ->
    NoDup (roots G) -> size G + 1 < fuel ->
    exists c G', filterOutUnreachableNodes ec unsat fuel add leaf G = Ok (c, G') /\
      nodes G' = nodes G /\ (forall v u, arc G' v u -> arc G v u) /\ incl (roots G') (roots G) /\
      forall r l, In r (roots G) -> leads G leaf r l -> feasible sat ec add l -> In r (roots G') /\ leads G' leaf r l.
Proof.
  intros N A V E EN sat ec unsat add G leaf fuel W Ac Tg Lf Sd Nd Hf.
  destruct (filterOut_ok sat ec unsat add G leaf W Ac Tg Lf Sd fuel Nd Hf) as
    [c [G' [X [F1 [F2 [F3 [F4 [F5 [F6 [F7 _]]]]]]]]]].
  exists c, G'. split; auto. split; auto. split; auto. split; auto. intros r l Hr Hl Hfe. split; [eapply F7; eauto|].
  destruct Hfe as [e [X1 X2]]. eapply F6; eauto. apply (proj2 (proj2 W)); auto.
Qed.
Print Assumptions C57_feasible_paths_are_kept.

(** With a solver that decides: every edge left that a root reaches is the
    first one of a path to the leaf that can be taken, and only the leaf has no
    successors. *)
Theorem C57_edges_left_are_feasible :
  forall {N A V E} `{EqDec N} (sat : E -> A -> Prop) (ec : N -> N -> option (A * list V)) unsat add (G : pgraph N) leaf fuel,
    wf G -> acyclic G -> (forall v, v < size G -> tagOf G v <> []) -> outEdges G leaf = [] -> decidingSolver sat unsat ->
    NoDup (roots G) -> size G + 1 < fuel ->
    exists c G', filterOutUnreachableNodes ec unsat fuel add leaf G = Ok (c, G') /\
      (forall r v u, In r (roots G') -> reaches G' r v -> arc G' v u ->
         exists l, leads G' leaf u l /\ feasible sat ec add (rev (tagOf G v) ++ l)) /\
      (forall r x, In r (roots G') -> reaches G' r x -> x = leaf \/ outEdges G' x <> []).
Proof.
  intros N A V E EN sat ec unsat add G leaf fuel W Ac Tg Lf Dc Nd Hf.
  assert (Sd : soundSolver sat unsat) by (intros l Hl; specialize (Dc l); rewrite Hl in Dc; exact Dc).
  destruct (filterOut_ok sat ec unsat add G leaf W Ac Tg Lf Sd fuel Nd Hf) as
    [c [G' [X [_ [_ [_ [_ [_ [_ [_ [F8 [F9 _]]]]]]]]]]]].
  exists c, G'. split; auto. split; [exact (F9 Dc)|exact (F8 Dc)].
Qed.
Print Assumptions C57_edges_left_are_feasible.

(** The formula returned says that some path can be taken. *)
Theorem C57_formula_is_some_path :
  forall {N A V E} `{EqDec N} (sat : E -> A -> Prop) (ec : N -> N -> option (A * list V)) unsat add (G : pgraph N) leaf fuel,
    wf G -> acyclic G -> (forall v, v < size G -> tagOf G v <> []) -> outEdges G leaf = [] -> soundSolver sat unsat ->
    NoDup (roots G) -> size G + 1 < fuel ->
    exists c G', filterOutUnreachableNodes ec unsat fuel add leaf G = Ok (c, G') /\
      forall e, admits sat add e -> (holds sat e c <-> exists r l, In r (roots G) /\ leads G leaf r l /\ taken sat ec e l).
Proof.
  intros N A V E EN sat ec unsat add G leaf fuel W Ac Tg Lf Sd Nd Hf.
  destruct (filterOut_ok sat ec unsat add G leaf W Ac Tg Lf Sd fuel Nd Hf) as
    [c [G' [X [_ [_ [_ [_ [_ [_ [_ [_ [_ [F10 F11]]]]]]]]]]]]].
  exists c, G'. split; auto. intros e Had. split; auto. intros [r [l [Hr [Hl Ht]]]]. eauto.
Qed.
Print Assumptions C57_formula_is_some_path.

(** ** Enumerating paths *)

(** Without a threshold, the paths of a graph with one end that pass both
    filters are returned, each once and with a constraint that holds exactly
    when it is taken.  The instruction asked for is neither a return nor a
    branch to itself. *)
Theorem C57_paths_are_exact_partial :
  forall {N A V E} `{EqDec N} `{EqDec V} (sat : E -> A -> Prop) (ec : N -> N -> option (A * list V)) unsat
    isCall isRet isTerm definedCall (rest succFronts : N -> list N) sort isFalse addr fuel add (G : pgraph N) leaf final,
    (forall a b, addr a = addr b -> a = b) -> sorts addr sort -> soundFalse sat isFalse -> decidingSolver sat unsat ->
    wellBlocked isTerm rest -> (forall a, isCall a = true -> isRet a = true -> False) ->
    oneEnd G leaf final -> isRet final = false -> ec final final = None -> size G + 1 < fuel ->
    exists ps, pathsIn ec unsat isCall isRet isTerm definedCall rest succFronts sort isFalse fuel add None final G = Ok ps /\
      NoDup (map fst ps) /\
      (forall p, In p (map fst ps) <-> (exists r, In r (roots G) /\ leads G leaf r p) /\
         realizable isCall isRet definedCall rest succFronts p /\ feasible sat ec add p) /\
      (forall p c e, In (p, c) ps -> (holds sat e c <-> admits sat add e /\ taken sat ec e p)).
Proof.
  intros N A V E EN EV sat ec unsat isCall isRet isTerm definedCall rest succFronts sort isFalse addr fuel add G leaf final
    Inj Sorts Ff Dc W Dj O Nr Nl Hf.
  destruct (pathsIn_ok sat ec unsat isCall isRet isTerm definedCall rest succFronts sort isFalse addr Inj Sorts Ff W Dj
    fuel add None G leaf final O Dc Nr Nl Hf) as [ps [X [P1 [P2 P3]]]].
  exists ps. split; auto. split; auto. split.
  - intros p. split.
    + intros Hp. apply in_map_iff in Hp. destruct Hp as [[p' c] [Ep Hp]]. cbn in Ep. subst p'. destruct (P2 p c Hp) as [Y [Z [Z' _]]]. auto.
    + intros [[r [Hr Hl]] [Y Z]]. destruct (P3 eq_refl r p Hr Hl Y Z) as [c Hc]. apply in_map_iff. exists (p, c). auto.
  - intros p c e Hp. apply (P2 p c Hp).
Qed.
Print Assumptions C57_paths_are_exact_partial.

(** With a threshold, a subset of them; when they are fewer than the threshold
    before duplicates are removed, all of them.  A solver that does not decide
    may return infeasible ones, but loses none. *)
Theorem C57_threshold_partial :
  forall {N A V E} `{EqDec N} `{EqDec V} (sat : E -> A -> Prop) (ec : N -> N -> option (A * list V)) unsat
    isCall isRet isTerm definedCall (rest succFronts : N -> list N) fuel add max (G : pgraph N) leaf final,
    wellBlocked isTerm rest -> (forall a, isCall a = true -> isRet a = true -> False) ->
    wf G -> acyclic G -> (forall v, v < size G -> tagOf G v <> []) -> outEdges G leaf = [] -> soundSolver sat unsat ->
    (forall r x, In r (roots G) -> reaches G r x -> x = leaf \/ outEdges G x <> []) ->
    hd_error (tagOf G leaf) = Some final -> isRet final = false -> ec final final = None -> size G <= fuel ->
    exists ps, filterAndFlattenRevDag ec unsat isCall isRet isTerm definedCall rest succFronts fuel add G leaf final max = Ok ps /\
      (forall p c, In (p, c) ps -> (exists r, In r (roots G) /\ leads G leaf r p) /\
         realizable isCall isRet definedCall rest succFronts p /\ (decidingSolver sat unsat -> feasible sat ec add p)) /\
      ((exists m, max = Some m /\ m <= length ps) \/
       forall r p, In r (roots G) -> leads G leaf r p -> realizable isCall isRet definedCall rest succFronts p ->
         feasible sat ec add p -> exists c, In (p, c) ps).
Proof.
  intros. destruct (enumerate_ok sat ec unsat isCall isRet isTerm definedCall rest succFronts G leaf final) with
    (fuel := fuel) (max := max) (add := add) as [ps [X [P1 P2]]]; auto.
  exists ps. split; auto. split; auto. intros p c Hp. destruct (P1 p c Hp) as [Y [Z [Z' _]]]. auto.
Qed.
Print Assumptions C57_threshold_partial.

(** Removing duplicates keeps one path of each kind. *)
Theorem C57_duplicates_are_removed :
  forall {N A} `{EqDec N} (addr : N -> nat) (sort : list (flowPath N A) -> list (flowPath N A)) l,
    (forall a b, addr a = addr b -> a = b) -> sorts addr sort ->
    NoDup (map fst (deduplicatePaths sort l)) /\ incl (deduplicatePaths sort l) l /\
    forall p, In p (map fst l) <-> In p (map fst (deduplicatePaths sort l)).
Proof. intros. now apply (dedup_ok addr). Qed.
Print Assumptions C57_duplicates_are_removed.

(** Whether an instruction comes after a call in its function. *)
Theorem C57_successor_check :
  forall {N} `{EqDec N} isTerm definedCall (rest succFronts : N -> list N), wellBlocked isTerm rest ->
    forall b a, isDirectSuccessorOf isTerm definedCall rest succFronts b a = true <-> follows definedCall rest succFronts b a.
Proof. intros. apply (direct_follows (A := unit) (V := unit) (fun _ _ => None)); auto. Qed.
Print Assumptions C57_successor_check.

(** ** From the search to the paths *)

(** What pathsTo returns for a fact are paths back from it, or the instruction
    alone if it has none, that pass the filters; and those are all of the paths
    that avoid cycles of the exploded supergraph and pass them. *)
Theorem C57_pathsTo_partial :
  forall {N D A V E} `{EqDec N} `{EqDec D} `{EqDec V} (g : esg N D) (sat : E -> A -> Prop) (ec : N -> N -> option (A * list V)) unsat
    isCall isRet isTerm definedCall (rest succFronts : N -> list N) sort isFalse addr add mini inst fact cf f R,
    (forall a b, addr a = addr b -> a = b) -> sorts addr sort -> soundFalse sat isFalse -> decidingSolver sat unsat ->
    wellBlocked isTerm rest -> (forall a, isCall a = true -> isRet a = true -> False) ->
    isRet inst = false -> ec inst inst = None ->
    pathsDagToAll g never never cf f inst [fact] (mkConfig None mini) = Paths R ->
    forall fuel, f <= fuel -> size R + 1 < fuel ->
    exists ps, pathsTo ec unsat isCall isRet isTerm definedCall rest succFronts sort isFalse cf fuel g add None
                 (mkConfig None mini) inst fact = Some (Ok ps) /\
      NoDup (map fst ps) /\
      (forall p, In p (map fst ps) -> exists vtx t, getNodeOrNull g inst fact = Some vtx /\ p = rev (inst :: t) /\
         (t = [] \/ traceOf g vtx t) /\
         realizable isCall isRet definedCall rest succFronts p /\ feasible sat ec add p) /\
      (forall vtx s vs t, getNodeOrNull g inst fact = Some vtx -> start g vtx s -> btrace g never never s vs ->
         spelled g s vs t -> (forall x, In x (s :: vs) -> ~ onCycle g x) ->
         realizable isCall isRet definedCall rest succFronts (rev (inst :: t)) -> feasible sat ec add (rev (inst :: t)) ->
         In (rev (inst :: t)) (map fst ps)).
Proof.
  intros N D A V E EN ED EV g sat ec unsat isCall isRet isTerm definedCall rest succFronts sort isFalse addr add mini inst fact cf f R
    Inj Sorts Ff Dc W Dj Nr Nl Hs fuel Hfu Hsz.
  assert (Hs' : pathsDagToAll g never never cf fuel inst [fact] (mkConfig None mini) = Paths R).
  { replace cf with (cf + 0) by lia. replace fuel with (f + (fuel - f)) by lia. now apply paths_more. }
  destruct (result_oneEnd g never never cf fuel inst fact (mkConfig None mini) R eq_refl Hs') as [leaf O].
  destruct (C57_paths_are_exact_partial sat ec unsat isCall isRet isTerm definedCall rest succFronts sort isFalse addr fuel add R leaf inst
    Inj Sorts Ff Dc W Dj O Nr Nl Hsz) as [ps [X [P1 [P2 _]]]].
  exists ps. split.
  { unfold pathsTo. change (fun (_ : nat) (_ : option nat) => false) with never. rewrite Hs', X. reflexivity. }
  split; auto. split.
  - intros p Hp. apply P2 in Hp. destruct Hp as [[r [Hr Hl]] [Y Z]].
    apply (leads_spells R leaf inst O) in Hl; [|apply (proj2 (proj2 (o_wf _ _ _ O))); auto].
    destruct (result_sound g never never cf fuel inst [fact] _ R Hs' r p Hr Hl) as [d [vtx [t [rest' [[<-|[]] [D2 [D3 [D4 D5]]]]]]]].
    rewrite (D5 eq_refl), app_nil_r in D4. exists vtx, t. split; auto. split; auto. split; auto.
    destruct D4 as [|D4]; auto. right. now apply traced_never.
  - intros vtx s vs t G1 G2 G3 G4 G5 Hre Hfe. apply P2. split; auto.
    destruct (result_complete g never never cf fuel inst [fact] (mkConfig None mini) R Hs' (never_decisive g)) with
      (d := fact) (vtx := vtx) (s := s) (vs := vs) (t := t) as [r [Hr Hl]]; auto.
    { cbn. discriminate. } { left; auto. }
    exists r. split; auto. apply (leads_spells R leaf inst O); auto. apply (proj2 (proj2 (o_wf _ _ _ O))); auto.
Qed.
Print Assumptions C57_pathsTo_partial.

(** ** Examples *)

(** Sorting by insertion meets the contract. *)
Fixpoint lexLessb (l m : list nat) : bool :=
  match l, m with
  | _, [] => false
  | [], _ :: _ => true
  | a :: l', b :: m' => (a <? b) || ((a =? b) && lexLessb l' m')
  end.
Definition pathLessb (p q : flowPath nat bool) : bool :=
  (length (fst p) <? length (fst q)) || ((length (fst p) =? length (fst q)) && lexLessb (fst p) (fst q)).
Fixpoint insertPath (p : flowPath nat bool) (l : list (flowPath nat bool)) : list (flowPath nat bool) :=
  match l with [] => [p] | q :: l' => if pathLessb q p then q :: insertPath p l' else p :: q :: l' end.
Definition sortPaths (l : list (flowPath nat bool)) : list (flowPath nat bool) := fold_right insertPath [] l.
Definition ident (n : nat) : nat := n.
Lemma lexLessb_ok : forall l m, lexLessb l m = true <-> lexLess ident l m.
Proof.
  induction l as [|a l IH]; intros [|b m]; cbn [lexLessb lexLess]; try (split; [discriminate|tauto]); [split; auto|].
  rewrite orb_true_iff, andb_true_iff, Nat.ltb_lt, Nat.eqb_eq, IH. reflexivity.
Qed.
Lemma pathLessb_ok p q : pathLessb p q = true <-> pathLess ident p q.
Proof. unfold pathLessb, pathLess. rewrite orb_true_iff, andb_true_iff, Nat.ltb_lt, Nat.eqb_eq, lexLessb_ok. reflexivity. Qed.
Lemma sortPaths_ok : sorts ident sortPaths.
Proof.
  assert (Pi : forall p l, Permutation (p :: l) (insertPath p l)).
  { intros p. induction l as [|q l IH]; cbn; auto. destruct (pathLessb q p); auto. eapply perm_trans; [apply perm_swap|]. now constructor. }
  assert (Tr : forall x p q : flowPath nat bool, ~ pathLess ident x q -> ~ pathLess ident q p -> ~ pathLess ident x p).
  { intros x p q X Y Z. destruct (less_total ident (fun a b E => E) p q) as [E|[E|E]]; [|apply X; eapply less_trans; eauto|contradiction].
    apply X. unfold pathLess in *. rewrite <- E. exact Z. }
  intros l. unfold sortPaths. induction l as [|p l [IH1 IH2]]; cbn; [split; constructor|]. split.
  - eapply perm_trans; [|apply Pi]. now constructor.
  - clear IH1. induction IH2 as [|q m S1 IH F1]; cbn; [repeat constructor|]. destruct (pathLessb q p) eqn:El.
    + apply pathLessb_ok in El. constructor; auto. apply Forall_forall. intros x Hx. apply (Permutation_in _ (Permutation_sym (Pi p m))) in Hx.
      rewrite Forall_forall in F1. destruct Hx as [<-|Hx]; auto. intros Z. apply (less_irrefl ident q q eq_refl). eapply less_trans; eauto.
    + assert (Nl : ~ pathLess ident q p) by (intros Z; apply pathLessb_ok in Z; congruence). constructor; [constructor; auto|].
      constructor; auto. eapply Forall_impl; [|exact F1]. intros x Hx. cbn in Hx. eapply Tr; eauto.
Qed.

(** Constraints on one variable; they are decided by trying both values. *)
Definition satB (e a : bool) : Prop := e = a.
Fixpoint holdsb (e : bool) (f : form bool) : bool :=
  match f with
  | FTrue => true
  | FFalse => false
  | FAtom a => Bool.eqb e a
  | FAnd f g => holdsb e f && holdsb e g
  | FOr f g => holdsb e f || holdsb e g
  end.
Definition unsatB (l : list (form bool)) : bool := negb (forallb (holdsb true) l || forallb (holdsb false) l).
Lemma holdsb_ok e f : holdsb e f = true <-> holds satB e f.
Proof.
  induction f as [| |a|f IHf g IHg|f IHf g IHg]; cbn; try tauto; [split; discriminate || tauto| | |].
  - unfold satB. destruct e, a; cbn; split; congruence || auto.
  - rewrite andb_true_iff. tauto.
  - rewrite orb_true_iff. tauto.
Qed.
Lemma unsatB_ok : decidingSolver satB unsatB.
Proof.
  intros l. unfold unsatB, satisfiable.
  assert (K : forall e, forallb (holdsb e) l = true <-> Forall (holds satB e) l).
  { intros e. rewrite forallb_forall, Forall_forall. split; intros X x Hx; apply holdsb_ok; auto. }
  destruct (forallb (holdsb true) l) eqn:E1; cbn [orb negb]; [exists true; now apply K|].
  destruct (forallb (holdsb false) l) eqn:E2; cbn [negb]; [exists false; now apply K|].
  intros [e He]. apply K in He. destruct e; congruence.
Qed.
Definition isFalseB (f : form bool) : bool := match f with FFalse => true | _ => false end.
Lemma isFalseB_ok : soundFalse satB isFalseB.
Proof. intros f e. destruct f; cbn; try discriminate. auto. Qed.

(** 0: start; 1: call of 10, 11 (return); 2; 3: branch to 4 or 5; 6: branch to 7
    or 8, on the same condition; 20 is another call of 10, followed by 21.
    30 is a branch to itself or elsewhere. *)
Definition restB (n : nat) : list nat :=
  match n with 0 => [1; 2; 3] | 1 => [2; 3] | 2 => [3] | 10 => [11] | 20 => [21] | _ => [] end.
Definition isTermB (n : nat) : bool := match restB n with [] => true | _ => false end.
Definition isCallB (n : nat) : bool := (n =? 1) || (n =? 20).
Definition isRetB (n : nat) : bool := n =? 11.
Definition succB (n : nat) : list nat :=
  match n with 3 => [4; 5; 30] | 4 | 5 => [6] | 6 => [7; 8] | 7 => [8] | 30 => [30; 31] | _ => [] end.
Definition ecB (a b : nat) : option (bool * list nat) :=
  match a, b with
  | 3, 4 | 6, 7 | 30, 30 => Some (true, [0])
  | 3, 5 | 6, 8 | 3, 30 => Some (false, [0])
  | _, _ => None
  end.
Lemma wellBlockedB : wellBlocked isTermB restB.
Proof.
  split.
  - intros a pre x post. do 21 (destruct a as [|a]; [cbn; intros X;
      repeat (destruct pre as [|? pre]; [try discriminate X; injection X as <- <-; reflexivity|try discriminate X; injection X as _ X]); destruct pre; discriminate X|]).
    cbn. destruct pre; discriminate.
  - intros x. unfold isTermB. destruct (restB x); split; congruence.
Qed.
Lemma disjointB a : isCallB a = true -> isRetB a = true -> False.
Proof. unfold isCallB, isRetB. intros X Y. apply Nat.eqb_eq in Y. subst a. discriminate. Qed.
Notation pathsInB := (pathsIn ecB unsatB isCallB isRetB isTermB isCallB restB succB sortPaths isFalseB).
Notation realizableB := (realizable isCallB isRetB isCallB restB succB).

(** arcs go up and end in the graph *)
Definition upward (G : pgraph nat) : bool :=
  (length (nodes G) =? length (adj G)) &&
  forallb (fun v => forallb (fun e => (v <? snd e) && (snd e <? size G)) (outEdges G v)) (seq 0 (size G)) &&
  forallb (fun r => r <? size G) (roots G) && forallb (fun t => negb (length t =? 0)) (nodes G).
Lemma upward_ok G : upward G = true -> wf G /\ acyclic G /\ forall v, v < size G -> tagOf G v <> [].
Proof.
  unfold upward. rewrite !andb_true_iff, !forallb_forall, Nat.eqb_eq. intros [[[L U] R] T].
  assert (K : forall v u, arc G v u -> v < u /\ u < size G).
  { intros v u Ha. pose proof (arc_lt _ _ _ Ha) as Hv. specialize (U v ltac:(apply in_seq; lia)). rewrite forallb_forall in U.
    specialize (U _ Ha). cbn [snd] in U. apply andb_true_iff in U. rewrite !Nat.ltb_lt in U. exact U. }
  split; [split; [exact L|split]|split].
  - intros v [] u Hu. apply (K v u Hu).
  - intros r Hr. apply Nat.ltb_lt. auto.
  - intros v Hv. assert (X : forall a b, clos_trans _ (arc G) a b -> a < b) by (induction 1; [apply K; auto|lia]). specialize (X _ _ Hv). lia.
  - intros v Hv. unfold tagOf, node. destruct (nth_error (nodes G) v) as [t|] eqn:En.
    + apply nth_error_In, T in En. intros ->. discriminate.
    + apply nth_error_None in En. unfold size in Hv. lia.
Qed.
Definition branchG : pgraph nat :=
  mkGraph [[3; 2; 11; 10; 1; 0]; [3; 2; 11; 10; 20]; [4]; [5]; [6]; [7]; [8]]
    [[(tt, 2); (tt, 3)]; [(tt, 2); (tt, 3)]; [(tt, 4)]; [(tt, 4)]; [(tt, 5); (tt, 6)]; [(tt, 6)]; []] [0; 1].
Definition returnG : pgraph nat := mkGraph [[1]; [11; 10]] [[(tt, 1)]; []] [0].
Definition loopG : pgraph nat := mkGraph [[3]; [30]] [[(tt, 1)]; []] [0].
Definition shortG : pgraph nat := mkGraph [[0]; [2]; [8]] [[(tt, 1); (tt, 2)]; [(tt, 2)]; []] [0].
Ltac oneEnd_tac := match goal with |- oneEnd ?G _ _ =>
  let W := fresh in let Ac := fresh in let T := fresh in destruct (upward_ok G eq_refl) as [W [Ac T]];
  apply mkOneEnd; [exact W|exact Ac|exact T| |unfold size; cbn; lia|reflexivity| |reflexivity]; clear W Ac T;
  [cbn [roots branchG returnG loopG shortG]; repeat (apply NoDup_cons; [cbn; intuition discriminate|]); apply NoDup_nil
  |let v := fresh "v" in let B := fresh in let D := fresh in intros v B D;
   do 8 (try (destruct v as [|v]; [reflexivity || (exfalso; vm_compute in D; discriminate D)|])); exfalso; unfold size in B; cbn in B; lia] end.

(** Of the eight paths only those over 1 whose two branches agree are returned. *)
Example C57_branches :
  pathsInB 10 None None 8 branchG =
    Ok [([0; 1; 10; 11; 2; 3; 5; 6; 8], FAnd (FAnd FTrue (FAtom false)) (FAtom false));
        ([0; 1; 10; 11; 2; 3; 4; 6; 7; 8], FAnd (FAnd FTrue (FAtom true)) (FAtom true))] /\
  pathsInB 10 (Some (FAtom true)) None 8 branchG =
    Ok [([0; 1; 10; 11; 2; 3; 4; 6; 7; 8], FAnd (FAnd (FAtom true) (FAtom true)) (FAtom true))].
Proof. split; vm_compute; reflexivity. Qed.
Example C57_branches_hypotheses :
  (forall a b, ident a = ident b -> a = b) /\ sorts ident sortPaths /\ soundFalse satB isFalseB /\ decidingSolver satB unsatB /\
  wellBlocked isTermB restB /\ (forall a, isCallB a = true -> isRetB a = true -> False) /\
  oneEnd branchG 6 8 /\ isRetB 8 = false /\ ecB 8 8 = None /\ size branchG + 1 < 10 /\ soundSolver satB unsatB.
Proof.
  split; [auto|]. split; [exact sortPaths_ok|]. split; [exact isFalseB_ok|]. split; [exact unsatB_ok|]. split; [exact wellBlockedB|].
  split; [exact disjointB|]. split; [oneEnd_tac|]. repeat split; auto.
  intros l Hl. pose proof (unsatB_ok l) as X. rewrite Hl in X. exact X.
Qed.
(** for the enumeration alone, of a graph that has nothing to remove *)
Example C57_threshold_hypotheses :
  (forall r x, In r (roots branchG) -> reaches branchG r x -> x = 6 \/ outEdges branchG x <> []) /\
  hd_error (tagOf branchG 6) = Some 8 /\
  exists ps, filterAndFlattenRevDag ecB unsatB isCallB isRetB isTermB isCallB restB succB 10 None branchG 6 8 (Some 1) = Ok ps /\ length ps = 1.
Proof.
  split; [|split; [reflexivity|eexists; split; vm_compute; reflexivity]].
  intros r x Hr Hx. assert (K : x < 7).
  { apply clos_rt_rtn1 in Hx. destruct Hx as [|y z Ha _]; [destruct Hr as [<-|[<-|[]]]; lia|].
    destruct (upward_ok branchG eq_refl) as [[_ [W _]] _]. exact (W _ _ _ Ha). }
  do 7 (destruct x as [|x]; [auto; right; discriminate|]). lia.
Qed.
(** the search and the filters together *)
Definition ecS (a b : nat) : option (bool * list nat) :=
  match a, b with 1, 2 => Some (true, [0]) | 1, 3 => Some (false, [0]) | _, _ => None end.
Definition blockS (n : nat) : list nat := match n with 0 => [1] | 4 => [5] | _ => [] end.
Example C57_search :
  pathsTo ecS unsatB (fun _ => false) (fun _ => false) (fun n => match blockS n with [] => true | _ => false end) (fun _ => false)
    blockS (fun _ => []) sortPaths isFalseB 30 30 branchESG (Some (FAtom true)) None (mkConfig None true) 5 0 =
    Some (Ok [([0; 1; 2; 4; 5], FAnd (FAtom true) (FAtom true))]) /\
  ecS 5 5 = None /\ wellBlocked (fun n => match blockS n with [] => true | _ => false end) blockS /\
  (exists R, pathsDagToAll branchESG never never 30 30 5 [0] (mkConfig None true) = Paths R /\ size R + 1 < 30) /\
  (forall x, ~ onCycle branchESG x).
Proof.
  split; [vm_compute; reflexivity|]. split; [reflexivity|]. split; [split|split].
  - intros a pre x post. do 5 (destruct a as [|a]; [cbn; intros X;
      repeat (destruct pre as [|? pre]; [try discriminate X; injection X as <- <-; reflexivity|try discriminate X; injection X as _ X]); destruct pre; discriminate X|]).
    cbn. destruct pre; discriminate.
  - intros x. destruct (blockS x); split; congruence.
  - eexists. split; [vm_compute; reflexivity|]. vm_compute. lia.
  - apply C55_branch.
Qed.

(** ** What is false of the code *)

(** For a return as the instruction asked for, the path through the call of its
    function is dropped: the call is taken to return to the return itself. *)
Theorem C57_returns_have_paths_refuted : exists (G : pgraph nat) leaf final p,
  oneEnd G leaf final /\ ecB final final = None /\
  (exists r, In r (roots G) /\ leads G leaf r p) /\ realizableB p /\ feasible satB ecB None p /\
  forall fuel, size G + 1 < fuel -> pathsInB fuel None None final G = Ok [].
Proof.
  exists returnG, 1, 11, [1; 10; 11]. split; [oneEnd_tac|]. split; [reflexivity|].
  split; [exists 0; split; [left; auto|]; apply (leads_on returnG 1 0 1 [1] [10; 11]); [reflexivity|left; auto|apply (leads_end returnG 1 [11; 10]); reflexivity]|].
  split.
  - apply (runStack_realizable (fun _ _ => @None (unit * list unit)) _ _ _ _ _ _ wellBlockedB disjointB). exists [1]. vm_compute. reflexivity.
  - split; [exists true; split; [intros f; discriminate|cbn; repeat split; intros; discriminate]|].
    intros fuel Hf. cbn in Hf. destruct fuel as [|[|[|[|fuel]]]]; try lia. vm_compute. reflexivity.
Qed.
Print Assumptions C57_returns_have_paths_refuted.

(** For a branch to itself as the instruction asked for, the condition for
    another iteration is required of the path to it. *)
Theorem C57_loops_have_paths_refuted : exists (G : pgraph nat) leaf final p,
  oneEnd G leaf final /\ isRetB final = false /\
  (exists r, In r (roots G) /\ leads G leaf r p) /\ realizableB p /\ feasible satB ecB None p /\
  forall fuel, size G + 1 < fuel -> pathsInB fuel None None final G = Ok [].
Proof.
  exists loopG, 1, 30, [3; 30]. split; [oneEnd_tac|]. split; [reflexivity|].
  split; [exists 0; split; [left; auto|]; apply (leads_on loopG 1 0 1 [3] [30]); [reflexivity|left; auto|apply (leads_end loopG 1 [30]); reflexivity]|].
  split.
  - apply (runStack_realizable (fun _ _ => @None (unit * list unit)) _ _ _ _ _ _ wellBlockedB disjointB). exists []. vm_compute. reflexivity.
  - split; [exists false; split; [intros f; discriminate|cbn; repeat split; intros c vs [= <- _]; reflexivity]|].
    intros fuel Hf. cbn in Hf. destruct fuel as [|[|[|[|fuel]]]]; try lia. vm_compute. reflexivity.
Qed.
Print Assumptions C57_loops_have_paths_refuted.

(** More paths than the threshold: it is not checked at the end of a path. *)
Theorem C57_threshold_is_a_bound_refuted : exists (G : pgraph nat) leaf final m ps,
  oneEnd G leaf final /\ isRetB final = false /\ ecB final final = None /\ 0 < m < length ps /\
  forall fuel, size G + 1 < fuel -> pathsInB fuel None (Some m) final G = Ok ps.
Proof.
  exists shortG, 2, 8, 1. eexists. split; [oneEnd_tac|]. split; [reflexivity|]. split; [reflexivity|]. split.
  2:{ intros fuel Hf. cbn in Hf. destruct fuel as [|[|[|[|[|fuel]]]]]; try lia. vm_compute. reflexivity. }
  cbn. lia.
Qed.
Print Assumptions C57_threshold_is_a_bound_refuted.
