(** How the paths of a filtered graph are enumerated. *)
From Coq Require Import List Bool Arith Lia Relations.
From Verif Require Import Assoc DFAMinimizerModel DFAMinimizerSpec PathDagModel PathDagSpec PathDagGraphs PathDagReverse
  PathFilterModel PathFilterSpec PathFilterProofs.
Import ListNotations.

Section Fl.
  Context {N A V E : Type} `{EqDec N} `{EqDec V}.
  Variable sat : E -> A -> Prop.
  Variable ec : N -> N -> option (A * list V).
  Variable unsat : list (form A) -> bool.
  Variable isCall isRet isTerm definedCall : N -> bool.
  Variable rest succFronts : N -> list N.
  Notation direct := (isDirectSuccessorOf isTerm definedCall rest succFronts).
  Notation follows := (follows definedCall rest succFronts).

  (** ** isDirectSuccessorOf *)
  Lemma scan_follows b : forall l a, (forall p x q, l = p ++ x :: q -> isTerm x = true <-> q = []) ->
    scan isTerm definedCall succFronts b a l = true <->
    (exists pre post, l = pre ++ b :: post /\ Forall (fun x => definedCall x = false) pre) \/
    (exists pre t, a :: l = pre ++ [t] /\ Forall (fun x => definedCall x = false) (tl pre) /\ In b (succFronts t)).
  Proof.
    induction l as [|x l IH]; intros a Ht; cbn [scan].
    - split.
      + intros X. apply mem_true in X. right. exists [], a. cbn. auto.
      + intros [[pre [post [X _]]]|[pre [t [X [_ Y]]]]]; [destruct pre; discriminate|].
        destruct pre as [|y [|z pre]]; try discriminate. injection X as ->. apply mem_true; auto.
    - assert (Tx : isTerm x = true <-> l = []) by (apply (Ht [] x l); auto).
      assert (Hl : forall p y q, l = p ++ y :: q -> isTerm y = true <-> q = []) by (intros p y q ->; apply (Ht (x :: p)); auto).
      destruct (eqb x b) eqn:Ex.
      + apply eqb_eq in Ex. subst x. split; auto. intros _. left. exists [], l. auto.
      + apply Assoc.eqb_false in Ex. destruct (isTerm x) eqn:Et.
        * assert (l = []) by (apply Tx; auto). subst l. split.
          -- intros X. apply mem_true in X. right. exists [a], x. cbn. auto.
          -- intros [[pre [post [X _]]]|[pre [t [X [_ Y]]]]].
             ++ destruct pre as [|y [|]]; try discriminate. injection X as -> _. congruence.
             ++ destruct pre as [|y [|z [|]]]; try discriminate. injection X as -> ->. apply mem_true; auto.
        * assert (Nl : l <> []) by (intros X; apply Tx in X; congruence).
          destruct (definedCall x) eqn:Ed.
          -- split; [discriminate|]. intros [[pre [post [X Y]]]|[pre [t [X [Y _]]]]].
             ++ destruct pre as [|y pre]; injection X as -> _; [congruence|]. inversion Y; congruence.
             ++ destruct pre as [|y [|z pre]]; try discriminate.
                ** injection X as _ _ X. congruence.
                ** injection X as _ -> X. cbn in Y. inversion Y; congruence.
          -- rewrite (IH x Hl). split; intros [[pre [post [X Y]]]|[pre [t [X [Y Z]]]]].
             ++ left. exists (x :: pre), post. rewrite X. split; auto.
             ++ right. exists (a :: pre), t. cbn. rewrite X. split; auto. split; auto.
                destruct pre as [|y pre]; [constructor|]. injection X as -> _. cbn in Y. constructor; auto.
             ++ destruct pre as [|y pre]; injection X as -> X; [congruence|]. left. exists pre, post. inversion Y. auto.
             ++ destruct pre as [|y pre]; [discriminate|]. injection X as -> X. right. exists pre, t. split; auto. split; auto.
                cbn in Y. destruct pre; [constructor|]. inversion Y; auto.
  Qed.
  Lemma direct_follows : wellBlocked isTerm rest -> forall b a, direct b a = true <-> follows b a.
  Proof.
    intros [W1 W2] b a. unfold isDirectSuccessorOf, PathFilterSpec.follows. apply scan_follows. intros p x q E0. rewrite W2, (W1 _ _ _ _ E0). tauto.
  Qed.

  (** ** The stack of calls *)
  Definition ostep (o : option (list N)) (a b : N) : option (list N) :=
    match o with
    | None => None
    | Some stk =>
        if isCall a && negb (direct b a) then Some (a :: stk)
        else if isRet a then match stk with [] => Some [] | c :: stk' => if direct b c then Some stk' else None end
        else Some stk
    end.
  Fixpoint runStack (o : option (list N)) (l : list N) : option (list N) :=
    match l with
    | a :: ((b :: _) as l') => runStack (ostep o a b) l'
    | _ => o
    end.
  Lemma runStack_None l : runStack None l = None.
  Proof. induction l as [|a [|b l] IH]; cbn in *; auto. Qed.
  Lemma runStack_app p l' : forall l o, runStack o (l ++ p :: l') = runStack (runStack o (l ++ [p])) (p :: l').
  Proof. induction l as [|a [|b l] IH]; intros o; [reflexivity|cbn; reflexivity|]. exact (IH (ostep o a b)). Qed.

  Inductive runs : list N -> list (step (N := N)) -> list N -> Prop :=
  | runs_nil stk : runs stk [] stk
  | runs_call a stk ss stk' : runs (a :: stk) ss stk' -> runs stk (SCall a :: ss) stk'
  | runs_ret b c stk ss stk' : follows b c -> runs stk ss stk' -> runs (c :: stk) (SRet b :: ss) stk'
  | runs_free b ss stk' : runs [] ss stk' -> runs [] (SRet b :: ss) stk'
  | runs_go stk ss stk' : runs stk ss stk' -> runs stk (SGo :: ss) stk'.

  Notation stepsOf := (stepsOf isCall isRet definedCall rest succFronts).
  Notation stepOf := (stepOf isCall isRet definedCall rest succFronts).
  Notation balanced := (balanced definedCall rest succFronts).
  Notation returning := (returning definedCall rest succFronts).
  Notation calling := (calling definedCall rest succFronts).
  Notation realizable := (realizable isCall isRet definedCall rest succFronts).

  Lemma runs_app s1 s2 stk stk' stk'' : runs stk s1 stk' -> runs stk' s2 stk'' -> runs stk (s1 ++ s2) stk''.
  Proof. induction 1; cbn; intros; auto; constructor; auto. Qed.
  Lemma balanced_runs s : balanced s -> forall stk, runs stk s stk.
  Proof.
    induction 1 as [|s _ IH|a b s s' _ IH F _ IH']; intros stk; [constructor|constructor; auto|].
    constructor. eapply runs_app; [apply IH|]. constructor; auto.
  Qed.
  Lemma returning_runs s : returning s -> runs [] s [].
  Proof.
    induction 1 as [|s b s' B _ IH]; [constructor|]. eapply runs_app; [apply balanced_runs; auto|]. constructor; auto.
  Qed.
  Lemma calling_runs s : calling s -> forall stk, exists stk', runs stk s stk'.
  Proof.
    induction 1 as [s B|s a s' B _ IH]; intros stk; [exists stk; now apply balanced_runs|].
    destruct (IH (a :: stk)) as [stk' R]. exists stk'. eapply runs_app; [apply balanced_runs; auto|]. constructor; auto.
  Qed.
  Lemma balanced_app s s' : balanced s -> balanced s' -> balanced (s ++ s').
  Proof.
    intros B B'. induction B as [|s _ IH|a b s s1 X1 _ X2 _ X3]; cbn; auto; [constructor; auto|].
    rewrite <- app_assoc. cbn. constructor; auto.
  Qed.
  Lemma calling_app s s' : balanced s -> calling s' -> calling (s ++ s').
  Proof.
    intros B C. destruct C as [s' B'|s' a s'' B' C]; [constructor; now apply balanced_app|]. rewrite app_assoc. apply call_more; auto using balanced_app.
  Qed.
  Fixpoint shape (stk : list N) (ss : list (step (N := N))) : Prop :=
    match stk with
    | [] => exists s1 s2, ss = s1 ++ s2 /\ returning s1 /\ calling s2
    | c :: stk' => calling ss \/ exists s b s', ss = s ++ SRet b :: s' /\ balanced s /\ follows b c /\ shape stk' s'
    end.
  Lemma calling_shape stk ss : calling ss -> shape stk ss.
  Proof. destruct stk; cbn; auto. intros C. exists [], ss. split; auto. split; auto. constructor. Qed.
  Lemma shape_app stk s ss : balanced s -> shape stk ss -> shape stk (s ++ ss).
  Proof.
    intros B. destruct stk as [|c stk]; cbn.
    - intros [s1 [s2 [-> [R C]]]]. destruct R as [|s1 b s1' B' R].
      + exists [], (s ++ s2). cbn. split; auto. split; [constructor|]. now apply calling_app.
      + exists ((s ++ s1) ++ SRet b :: s1'), s2. rewrite <- !app_assoc. split; auto. split; auto. rewrite app_assoc. constructor; auto using balanced_app.
    - intros [C|[s1 [b [s' [-> [B' [F Sh]]]]]]]; [left; now apply calling_app|].
      right. exists (s ++ s1), b, s'. rewrite app_assoc. auto using balanced_app.
  Qed.
  Lemma runs_shape stk ss stk' : runs stk ss stk' -> shape stk ss.
  Proof.
    induction 1 as [stk|a stk ss stk' _ IH|b c stk ss stk' F _ IH|b ss stk' _ IH|stk ss stk' _ IH].
    - apply calling_shape. constructor. constructor.
    - cbn in IH. destruct IH as [C|[s [b [s' [-> [B [F Sh]]]]]]].
      + apply calling_shape. apply (call_more _ _ _ [] a ss); auto. constructor.
      + change (shape stk ((SCall a :: s) ++ ([SRet b] ++ s'))). rewrite app_assoc. apply shape_app; auto. cbn.
        constructor; auto. constructor.
    - right. exists [], b, ss. split; auto. split; auto. constructor.
    - destruct IH as [s1 [s2 [-> [R C]]]]. exists (SRet b :: s1), s2. split; auto. split; auto. apply (ret_more _ _ _ [] b s1); auto. constructor.
    - apply (shape_app stk [SGo] ss); auto. constructor. constructor.
  Qed.
  Lemma runs_spec ss : (exists stk, runs [] ss stk) <-> exists s1 s2, ss = s1 ++ s2 /\ returning s1 /\ calling s2.
  Proof.
    split.
    - intros [stk R]. apply (runs_shape _ _ _ R).
    - intros [s1 [s2 [-> [R C]]]]. destruct (calling_runs s2 C []) as [stk X]. exists stk. eapply runs_app; eauto using returning_runs.
  Qed.

  Lemma ostep_spec : wellBlocked isTerm rest -> (forall a, isCall a = true -> isRet a = true -> False) ->
    forall a b stk stk2 ss stk', (exists s, stepOf a b s /\ ss = s :: stk2 /\ runs stk ss stk') <->
      exists stk1 s, ostep (Some stk) a b = Some stk1 /\ stepOf a b s /\ ss = s :: stk2 /\ runs stk1 stk2 stk'.
  Proof.
    intros W Dj a b stk stk2 ss stk'. pose proof (direct_follows W) as DF. unfold ostep. split.
    - intros [s [S1 [-> R]]]. destruct S1 as [C Nf|Rt|Rt G].
      + exists (a :: stk), (SCall a). rewrite C. destruct (direct b a) eqn:Ed; [apply DF in Ed; contradiction|]. cbn.
        split; auto. split; [now constructor|]. split; auto. inversion R; auto.
      + destruct (isCall a) eqn:C; [exfalso; eauto|]. cbn. rewrite Rt. inversion R as [| |b' c stk0 ss0 stk0' F R'|b' ss0 stk0' R'|]; subst.
        * exists stk0, (SRet b). destruct (direct b c) eqn:Ed; [|apply DF in F; congruence]. repeat split; auto. now constructor.
        * exists [], (SRet b). repeat split; auto. now constructor.
      + exists stk, SGo. rewrite Rt. replace (isCall a && negb (direct b a)) with false.
        * split; auto. split; [now constructor|]. split; auto. inversion R; auto.
        * destruct G as [->|F]; auto. apply DF in F. rewrite F. now rewrite andb_false_r.
    - intros [stk1 [s [O [S1 [-> R]]]]]. exists s. split; auto. split; auto. destruct S1 as [C Nf|Rt|Rt G].
      + rewrite C in O. destruct (direct b a) eqn:Ed; [apply DF in Ed; contradiction|]. cbn in O. injection O as <-. constructor; auto.
      + destruct (isCall a) eqn:C; [exfalso; eauto|]. cbn in O. rewrite Rt in O. destruct stk as [|c stk].
        * injection O as <-. now constructor.
        * destruct (direct b c) eqn:Ed; [|discriminate]. injection O as <-. constructor; auto. now apply DF.
      + rewrite Rt in O. replace (isCall a && negb (direct b a)) with false in O.
        * injection O as <-. constructor; auto.
        * destruct G as [->|F]; auto. apply DF in F. rewrite F. now rewrite andb_false_r.
  Qed.
  Lemma stepOf_total : wellBlocked isTerm rest -> forall a b, exists s, stepOf a b s.
  Proof.
    intros W a b. pose proof (direct_follows W b a) as DF. destruct (isRet a) eqn:Rt; [exists (SRet b); now constructor|].
    destruct (isCall a) eqn:C; [|exists SGo; constructor; auto]. destruct (direct b a) eqn:Ed.
    - exists SGo. constructor; auto. right. now apply DF.
    - exists (SCall a). constructor; auto. intros F. apply DF in F. congruence.
  Qed.
  Lemma runStack_spec : wellBlocked isTerm rest -> (forall a, isCall a = true -> isRet a = true -> False) ->
    forall l stk stk', runStack (Some stk) l = Some stk' <-> exists ss, stepsOf l ss /\ runs stk ss stk'.
  Proof.
    intros W Dj. induction l as [|a l IH]; intros stk stk'.
    - cbn. split; [intros [= <-]; exists []; split; auto; constructor|]. intros [ss [-> R]]. inversion R; auto.
    - destruct l as [|b l].
      + cbn. split; [intros [= <-]; exists []; split; auto; constructor|]. intros [ss [-> R]]. inversion R; auto.
      + change (runStack (Some stk) (a :: b :: l)) with (runStack (ostep (Some stk) a b) (b :: l)).
        change (forall ss, stepsOf (a :: b :: l) ss) with
          (forall ss, match ss with s :: ss' => stepOf a b s /\ stepsOf (b :: l) ss' | [] => False end).
        split.
        * intros R. destruct (ostep (Some stk) a b) as [stk1|] eqn:O; [|rewrite runStack_None in R; discriminate].
          apply IH in R. destruct R as [ss [S1 R]]. destruct (stepOf_total W a b) as [s Hs]. exists (s :: ss). split; [split; auto|].
          destruct (proj2 (ostep_spec W Dj a b stk ss (s :: ss) stk')) as [s' [_ [_ X]]]; auto. exists stk1, s. auto.
        * intros [[|s ss] [S1 R]]; [destruct S1|]. destruct S1 as [S0 S1].
          destruct (proj1 (ostep_spec W Dj a b stk ss (s :: ss) stk')) as [stk1 [s' [O [_ [_ X]]]]]; [exists s; auto|].
          rewrite O. apply IH. exists ss. auto.
  Qed.
  Lemma runStack_realizable : wellBlocked isTerm rest -> (forall a, isCall a = true -> isRet a = true -> False) ->
    forall l, realizable l <-> exists stk, runStack (Some []) l = Some stk.
  Proof.
    intros W Dj l. split.
    - intros [ss [s1 [s2 [S1 [Eq [R C]]]]]]. destruct (proj2 (runs_spec ss)) as [stk X]; [exists s1, s2; auto|].
      exists stk. apply (runStack_spec W Dj). exists ss. auto.
    - intros [stk X]. apply (runStack_spec W Dj) in X. destruct X as [ss [S1 R]].
      destruct (proj1 (runs_spec ss)) as [s1 [s2 X]]; [exists stk; auto|]. exists ss, s1, s2. tauto.
  Qed.

  (** ** What is saved along a path *)
  Definition optL (o : option N) : list N := match o with Some x => [x] | None => [] end.
  Fixpoint lastO (o : option N) (l : list N) : option N := match l with [] => o | x :: l' => lastO (Some x) l' end.
  Definition edgeList (a b : N) : list (form A) := match ec a b with Some (c, _) => [FAtom c] | None => [] end.
  Fixpoint edgesOf (l : list N) : list (form A) :=
    match l with
    | a :: ((b :: _) as l') => edgeList a b ++ edgesOf l'
    | _ => []
    end.
  Lemma edgesOf_app p l' : forall l, edgesOf (l ++ p :: l') = edgesOf (l ++ [p]) ++ edgesOf (p :: l').
  Proof.
    induction l as [|a [|b l] IH]; [reflexivity|cbn; now rewrite app_nil_r|].
    change (edgeList a b ++ edgesOf ((b :: l) ++ p :: l') = (edgeList a b ++ edgesOf ((b :: l) ++ [p])) ++ edgesOf (p :: l')).
    now rewrite IH, app_assoc.
  Qed.
  Lemma edgesOf_taken e : forall l, Forall (holds sat e) (edgesOf l) <-> taken sat ec e l.
  Proof.
    induction l as [|a [|b l] IH]; [cbn; split; auto|cbn; split; auto|].
    change (Forall (holds sat e) (edgeList a b ++ edgesOf (b :: l)) <->
            (forall c vs, ec a b = Some (c, vs) -> sat e c) /\ taken sat ec e (b :: l)).
    rewrite Forall_app, IH. unfold edgeList. destruct (ec a b) as [[c vs]|].
    - split; intros [X Y]; split; auto.
      + intros c' vs' [= <- <-]. inversion X; auto.
      + repeat constructor. cbn. eauto.
    - split; intros [X Y]; split; auto. intros c vs; discriminate.
  Qed.
  Lemma last_split o l : l <> [] -> exists x p, optL o ++ l = x ++ [p] /\ lastO o l = Some p.
  Proof.
    intros Hl. assert (X : forall l o, lastO o l = match rev l with [] => o | p :: _ => Some p end).
    { clear. induction l as [|a l IH]; intros o; auto. cbn [lastO]. rewrite IH. cbn [rev]. destruct (rev l); auto. }
    destruct (exists_last Hl) as [y [p ->]]. exists (optL o ++ y), p. rewrite app_assoc. split; auto. rewrite X, rev_app_distr. auto.
  Qed.
  Lemma lastO_app o l l' : lastO o (l ++ l') = lastO (lastO o l) l'.
  Proof. revert o. induction l; cbn; auto. Qed.

  (** the linked nodes are this stack *)
  Fixpoint stackOf (ns : list (option nat * N)) (t : option nat) (stk : list N) : Prop :=
    match stk with
    | [] => t = None
    | c :: stk' => exists k p, t = Some k /\ nth_error ns k = Some (p, c) /\ stackOf ns p stk'
    end.
  Lemma stackOf_app ns x : forall stk t, stackOf ns t stk -> stackOf (ns ++ x) t stk.
  Proof.
    induction stk as [|c stk IH]; cbn; auto. intros t [k [p [-> [Nk S1]]]]. exists k, p. split; auto. split; auto.
    rewrite nth_error_app1; auto. apply nth_error_Some. congruence.
  Qed.
  Definition holdsStack (s : cstate N) (o : option (list N)) : Prop :=
    match o with
    | Some stk => valid s = true /\ stackOf (stackNodes s) (tos s) stk
    | None => valid s = false
    end.
  Lemma csSaveEdge_ok s o a b : holdsStack s o -> exists s', csSaveEdge isCall isRet isTerm definedCall rest succFronts s a b = Ok s' /\
    holdsStack s' (ostep o a b) /\ safe s' = safe s /\ exists x, stackNodes s' = stackNodes s ++ x.
  Proof.
    unfold csSaveEdge, holdsStack. destruct o as [stk|].
    - intros [Hv Hs]. rewrite Hv. cbn [negb ostep]. destruct (isCall a && negb (direct b a)).
      + eexists. split; [reflexivity|]. cbn [pushCS valid stackNodes tos safe]. split; [|split; eauto]. split; auto.
        exists (length (stackNodes s)), (tos s). split; auto. split; [|now apply stackOf_app].
        rewrite nth_error_app2 by lia. rewrite Nat.sub_diag. auto.
      + assert (Nx : exists x, stackNodes s = stackNodes s ++ x) by (exists []; now rewrite app_nil_r).
        destruct (isRet a).
        * destruct stk as [|c stk].
          -- cbn in Hs. rewrite Hs. exists s. rewrite Hv. repeat split; auto.
          -- destruct Hs as [k [p [-> [Nk Hs]]]]. unfold popCS. rewrite Nk. cbn [bind]. eexists. split; [reflexivity|].
             cbn [valid stackNodes tos safe]. split; [|split; auto]. destruct (direct b c); auto.
        * exists s. repeat split; auto.
    - intros Hv. rewrite Hv. cbn. exists s. repeat split; auto. exists []. now rewrite app_nil_r.
  Qed.
  Lemma kSaveEdge_scopes (s : kstate A V) a b top old : scopes s = top :: old ->
    scopes (kSaveEdge ec s a b) = (top ++ edgeList a b) :: old.
  Proof.
    unfold kSaveEdge, edgeList. intros Es. destruct (ec a b) as [[c vs]|]; cbn; rewrite Es; cbn; auto. now rewrite app_nil_r.
  Qed.
  Notation saveEdges := (saveEdges ec isCall isRet isTerm definedCall rest succFronts).
  Lemma saveEdges_ok : forall l (t : trav N A V) o top old, holdsStack (cs t) o -> scopes (ks t) = top :: old ->
    exists t', saveEdges l t = Ok t' /\ cur t' = cur t ++ l /\ prev t' = lastO (prev t) l /\ ret t' = ret t /\ completed t' = completed t /\
      safe (cs t') = safe (cs t) /\ (exists x, stackNodes (cs t') = stackNodes (cs t) ++ x) /\
      scopes (ks t') = (top ++ edgesOf (optL (prev t) ++ l)) :: old /\ holdsStack (cs t') (runStack o (optL (prev t) ++ l)).
  Proof.
    induction l as [|i l IH]; intros t o top old Hs Hk.
    - exists t. cbn. split; auto. rewrite !app_nil_r. repeat split; auto.
      + exists []. now rewrite app_nil_r.
      + destruct (prev t); cbn; rewrite app_nil_r; auto.
      + destruct (prev t); cbn; auto.
    - cbn [PathFilterModel.saveEdges]. destruct (prev t) as [p|] eqn:Ep.
      + destruct (csSaveEdge_ok (cs t) o p i Hs) as [c [-> [C1 [C2 [x C3]]]]]. cbn [bind].
        destruct (IH (mkT c (kSaveEdge ec (ks t) p i) (cur t ++ [i]) (Some i) (ret t) (completed t)) (ostep o p i) (top ++ edgeList p i) old) as
          [t' [T1 [T2 [T3 [T4 [T5 [T6 [[y T7] [T8 T9]]]]]]]]]; cbn [cs ks cur prev ret completed] in *.
        { auto. } { now apply kSaveEdge_scopes. }
        exists t'. rewrite T1, T2, T3, T4, T5, T6, T7, T8. rewrite <- app_assoc. split; auto. split; auto. split; auto. split; auto. split; auto.
        split; auto. split; [rewrite C3; exists (x ++ y); now rewrite app_assoc|]. split; [|auto].
        rewrite <- app_assoc. auto.
      + destruct (IH (mkT (cs t) (ks t) (cur t ++ [i]) (Some i) (ret t) (completed t)) o top old) as
          [t' [T1 [T2 [T3 [T4 [T5 [T6 [T7 [T8 T9]]]]]]]]]; cbn [cs ks cur prev ret completed] in *; auto.
        exists t'. rewrite T1, T2, T3, T4, T5, T6, T8. rewrite <- app_assoc. repeat split; auto.
  Qed.

  Lemma kIsValid_ok (s : kstate A V) ok s' : kIsValid unsat s = (ok, s') -> scopes s' = scopes s /\
    (ok = false -> unsat (assertions s) = true) /\ (need s = true -> ok = negb (unsat (assertions s)) /\ (ok = true -> model s' = true)).
  Proof.
    unfold kIsValid, checkLocalAtomsOverlap. destruct ((length (locals s) =? 0) && negb (need s)) eqn:Ec.
    - intros [= <- <-]. split; auto. split; [discriminate|]. intros Hn. rewrite Hn, andb_false_r in Ec. discriminate.
    - destruct (need s) eqn:En.
      + cbn. intros [= <- <-]. cbn. split; auto. split; [intros X; now apply negb_false_iff in X|]. intros _. split; auto.
        intros ->. auto.
      + match goal with |- context [negb (negb ?b)] => destruct b eqn:Eb end; cbn.
        * intros [= <- <-]. cbn. split; auto. split; discriminate.
        * intros [= <- <-]. cbn. split; auto. split; [|discriminate]. intros X. apply negb_false_iff in X. exact X.
  Qed.
  Definition conjAll (l : list (form A)) : form A := match l with [] => FTrue | f :: l' => fold_left FAnd l' f end.

  (** ** The enumeration *)
  Variable final : N.
  Definition finalOk (stk : list N) (p : N) : bool :=
    if isRet p then match stk with [] => true | c :: _ => direct final c end else true.
  (** the last edge leaves the path as it is when it stays at [final] *)
  Definition accepts (o : option (list N)) (p0 : option N) (l : list N) : Prop :=
    exists stk p, runStack o (optL p0 ++ l) = Some stk /\ lastO p0 l = Some p /\ finalOk stk p = true.
  Definition allEdges (p0 : option N) (l : list N) : list (form A) :=
    edgesOf (optL p0 ++ l) ++ match lastO p0 l with Some p => edgeList p final | None => [] end.

  Lemma accepts_app o p0 l l' : l <> [] -> accepts o p0 (l ++ l') <-> accepts (runStack o (optL p0 ++ l)) (lastO p0 l) l'.
  Proof.
    intros Hl. destruct (last_split p0 l Hl) as [x [p [X Y]]]. unfold accepts. rewrite lastO_app, app_assoc, X, Y. cbn [optL].
    rewrite <- app_assoc. cbn [app]. rewrite runStack_app. reflexivity.
  Qed.
  Lemma allEdges_app p0 l l' : l <> [] -> allEdges p0 (l ++ l') = edgesOf (optL p0 ++ l) ++ allEdges (lastO p0 l) l'.
  Proof.
    intros Hl. destruct (last_split p0 l Hl) as [x [p [X Y]]]. unfold allEdges. rewrite lastO_app, app_assoc, X, Y. cbn [optL].
    rewrite <- app_assoc. cbn [app]. rewrite edgesOf_app. now rewrite app_assoc.
  Qed.

  Variable G : pgraph N.
  Variable leaf : nat.
  Variable max : option nat.
  Hypothesis Sound : soundSolver sat unsat.
  Notation leads := (leads G leaf).
  Notation flatten := (flatten ec unsat isCall isRet isTerm definedCall rest succFronts).
  Notation reach := (clos_refl_trans _ (arc G)).

  (** [news] are the paths continuing what [t] has *)
  Definition yields (o : option (list N)) (t : trav N A V) (starts : nat -> Prop) (news : list (flowPath N A)) : Prop :=
    forall q, In q news -> exists v l, starts v /\ leads v l /\ fst q = cur t ++ l /\ accepts o (prev t) l /\
      unsat (assertions (ks t) ++ allEdges (prev t) l) = false /\ snd q = conjAll (assertions (ks t) ++ allEdges (prev t) l).
  Definition misses (o : option (list N)) (t : trav N A V) (starts : nat -> Prop) (news : list (flowPath N A)) : Prop :=
    forall v l, starts v -> leads v l -> accepts o (prev t) l -> satisfiable sat (assertions (ks t) ++ allEdges (prev t) l) ->
      In (cur t ++ l, conjAll (assertions (ks t) ++ allEdges (prev t) l)) news.
  Definition post (o : option (list N)) (starts : nat -> Prop) (t t' : trav N A V) : Prop :=
    cs t' = cs t /\ scopes (ks t') = scopes (ks t) /\ cur t' = cur t /\ prev t' = prev t /\
    exists news, ret t' = ret t ++ news /\ completed t' = completed t + length news /\ yields o t starts news /\
      (enough max (completed t') = true \/ misses o t starts news).
  Definition flok (rec : nat -> trav N A V -> res (trav N A V)) (o : option (list N)) (v : nat) : Prop :=
    forall t, holdsStack (cs t) o -> scopes (ks t) <> [] -> exists t', rec v t = Ok t' /\ post o (eq v) t t'.

  Lemma enough_le a b : a <= b -> enough max a = true -> enough max b = true.
  Proof. unfold enough. destruct max; auto. rewrite !Nat.leb_le. lia. Qed.

  Lemma flattenAll_ok rec o : forall es t, (forall e, In e es -> flok rec o (snd e)) -> holdsStack (cs t) o -> scopes (ks t) <> [] ->
    exists t', flattenAll rec es t = Ok t' /\ post o (fun v => In (tt, v) es) t t'.
  Proof.
    induction es as [|[[] v] es IH]; intros t Hr Hs Hk; cbn [flattenAll].
    - exists t. split; auto. unfold post. split; auto. split; auto. split; auto. split; auto. exists []. cbn. rewrite app_nil_r, Nat.add_0_r.
      split; auto. split; auto. split; [intros q []|]. right. intros v l [].
    - cbn [snd]. destruct (Hr (tt, v) (or_introl eq_refl) t Hs Hk) as [t1 [R1 [P1 [P2 [P3 [P4 [n1 [P5 [P6 [P7 P8]]]]]]]]]]. cbn [snd] in *. rewrite R1. cbn [bind].
      destruct (IH t1) as [t2 [R2 [Q1 [Q2 [Q3 [Q4 [n2 [Q5 [Q6 [Q7 Q8]]]]]]]]]].
      { intros e He. apply Hr. right; auto. } { now rewrite P1. } { now rewrite P2. }
      exists t2. split; auto. split; [congruence|]. split; [congruence|]. split; [congruence|]. split; [congruence|].
      exists (n1 ++ n2). rewrite Q5, P5, Q6, P6, app_length. split; [now rewrite app_assoc|]. split; [lia|].
      unfold yields, misses in *. unfold assertions in *. rewrite P2, P3, P4 in *. split.
      + intros q Hq. apply in_app_iff in Hq. destruct Hq as [Hq|Hq].
        * destruct (P7 q Hq) as [v' [l [<- X]]]. exists v, l. split; [left; auto|auto].
        * destruct (Q7 q Hq) as [v' [l [Hv X]]]. exists v', l. split; [right; auto|auto].
      + rewrite P6 in P8. rewrite Q6, P6 in Q8. destruct P8 as [P8|P8]; [left; eapply enough_le; [|eauto]; lia|].
        destruct Q8 as [Q8|Q8]; [left; exact Q8|]. right. intros v' l Hv Hl Ha Hsat. apply in_app_iff.
        destruct Hv as [[= <-]|Hv]; [left; eapply P8; eauto|right; eapply Q8; eauto].
  Qed.

  Lemma csRestore_ok (s0 s : cstate N) : valid s0 = true -> safe s = safe (csSave s0) -> (exists x, stackNodes s = stackNodes (csSave s0) ++ x) ->
    csRestore s = Ok s0.
  Proof.
    intros Hv Hs [x Hx]. unfold csRestore. rewrite Hs, Hx. cbn. rewrite app_length.
    destruct (length (stackNodes s0) <=? length (stackNodes s0) + length x) eqn:El; [|apply Nat.leb_gt in El; lia].
    rewrite firstn_app, firstn_all, Nat.sub_diag. cbn. rewrite app_nil_r, <- Hv. destruct s0; auto.
  Qed.

  Hypothesis Wf : wf G.
  Hypothesis Ac : acyclic G.
  Hypothesis Tags : forall v, v < size G -> tagOf G v <> [].
  Hypothesis LeafOut : outEdges G leaf = [].

  Lemma tagOf_node v : v < size G -> node G v = Some (tagOf G v).
  Proof.
    intros Hv. unfold tagOf, node. destruct (nth_error (nodes G) v) eqn:En; auto. apply nth_error_None in En.
    destruct Wf as [W _]. unfold size in Hv. lia.
  Qed.
  Lemma arc_range' v u : arc G v u -> v < size G /\ u < size G.
  Proof. intros Ha. split; [eapply arc_lt; eauto|]. exact (proj1 (proj2 Wf) _ _ _ Ha). Qed.

  Lemma assertions_scopes (s : kstate A V) x old : scopes s = x :: old -> assertions s = concat (rev old) ++ x.
  Proof. intros Es. unfold assertions. rewrite Es. cbn [rev]. rewrite concat_app. cbn. now rewrite app_nil_r. Qed.

  Lemma atLeaf_ok (t : trav N A V) o x old p : holdsStack (cs t) o -> cur t <> [] -> prev t = Some p -> scopes (ks t) = x :: old ->
    exists m, atLeaf ec unsat isRet isTerm definedCall rest succFronts final t = Ok m /\
      safe (cs m) = safe (cs t) /\ stackNodes (cs m) = stackNodes (cs t) /\ tl (scopes (ks m)) = old /\
      let f := concat (rev old) ++ x ++ edgeList p final in
      exists news, ret m = ret t ++ news /\ completed m = completed t + length news /\
        (forall q, In q news -> q = (cur t, conjAll f) /\ (exists stk, o = Some stk /\ finalOk stk p = true) /\ unsat f = false) /\
        ((exists stk, o = Some stk /\ finalOk stk p = true) -> unsat f = false -> In (cur t, conjAll f) news).
  Proof.
    intros Hs Hc Hp Hk. unfold atLeaf. destruct (length (cur t) =? 0) eqn:E0; [apply Nat.eqb_eq, length_zero_iff_nil in E0; contradiction|].
    assert (X : exists c, csSaveFinalEdge isRet isTerm definedCall rest succFronts (cs t) (prev t) final =
                  Ok (match o with Some stk => finalOk stk p | None => false end, c) /\ safe c = safe (cs t) /\ stackNodes c = stackNodes (cs t)).
    { unfold csSaveFinalEdge. rewrite Hp. destruct o as [stk|]; cbn in Hs.
      - destruct Hs as [Hv Hs]. rewrite Hv. cbn [negb]. unfold finalOk. destruct (isRet p); [|eauto].
        destruct stk as [|c stk]; cbn in Hs; [rewrite Hs; eauto|]. destruct Hs as [k [p' [-> [Nk _]]]]. unfold popCS. rewrite Nk. cbn. eauto.
      - rewrite Hs. cbn. eauto. }
    destruct X as [c [-> [Sc Nc]]]. cbn [bind].
    match goal with |- context [negb ?b] => set (ok := b) end. destruct ok eqn:Eok; subst ok; cbn [negb].
    - rewrite Hp. unfold kSaveFinalEdge.
      match goal with |- context [kIsValid unsat ?a] => set (k0 := a) end.
      assert (Ek0 : scopes k0 = (x ++ edgeList p final) :: old) by (unfold k0; cbn [scopes]; now apply kSaveEdge_scopes).
      assert (Ea : assertions k0 = concat (rev old) ++ x ++ edgeList p final) by (now apply assertions_scopes).
      destruct (kIsValid unsat k0) as [ok' k] eqn:Ek. apply kIsValid_ok in Ek. destruct Ek as [K1 [_ K3]].
      destruct (K3 eq_refl) as [K4 K5]. rewrite Ea in K4.
      assert (Ho : exists stk, o = Some stk /\ finalOk stk p = true) by (destruct o as [stk|]; [eauto|discriminate]).
      destruct ok'; cbn [negb].
      + rewrite (K5 eq_refl). eexists. split; [reflexivity|]. cbn [cs ks ret completed]. split; auto. split; auto. split; [rewrite K1, Ek0; auto|].
        exists [(cur t, conjAll (concat (rev old) ++ x ++ edgeList p final))].
        assert (Egp : getPathConstraints k = conjAll (concat (rev old) ++ x ++ edgeList p final)).
        { unfold getPathConstraints, assertions. rewrite K1. fold (assertions k0). rewrite Ea. reflexivity. }
        rewrite Egp. split; auto. split; [cbn; lia|]. split; [|intros; left; auto].
        intros q [<-|[]]. split; auto. split; auto. symmetry in K4. now apply negb_true_iff in K4.
      + eexists. split; [reflexivity|]. cbn [cs ks ret completed]. split; auto. split; auto. split; [rewrite K1, Ek0; auto|].
        exists []. rewrite app_nil_r, Nat.add_0_r. split; auto. split; auto. split; [intros q []|]. intros _ Hu. rewrite Hu in K4. discriminate.
    - eexists. split; [reflexivity|]. cbn [cs ks ret completed]. split; auto. split; auto. split; [rewrite Hk; auto|].
      exists []. rewrite app_nil_r, Nat.add_0_r. split; auto. split; auto. split; [intros q []|].
      intros [stk [-> Hf]]. congruence.
  Qed.

  Lemma leads_leaf l : leads leaf l -> l = rev (tagOf G leaf).
  Proof.
    assert (X : forall v, leads v l -> v = leaf -> l = rev (tagOf G leaf)); [|eauto].
    intros v Hl Ev. destruct Hl as [t Ht|v u t l Ht Ha _].
    - unfold tagOf. now rewrite Ht.
    - subst v. unfold arc in Ha. rewrite LeafOut in Ha. destruct Ha.
  Qed.
  Lemma leads_inv v l : leads v l -> v <> leaf -> exists u l', arc G v u /\ leads u l' /\ l = rev (tagOf G v) ++ l'.
  Proof.
    intros Hl Nv. destruct Hl as [t Ht|v u t l Ht Ha Hl]; [contradiction|]. exists u, l. unfold tagOf. rewrite Ht. auto.
  Qed.

  Lemma flatten_ok : forall fuel v P stk, (forall x, reach v x -> x = leaf \/ outEdges G x <> []) -> v < size G ->
    NoDup (v :: P) -> (forall p, In p P -> clos_trans _ (arc G) p v) -> size G <= fuel + length P ->
    flok (flatten fuel G leaf final max) (Some stk) v.
  Proof.
    induction fuel as [|f IH]; intros v P stk Alive Hv Nd HP Hf t0 Hs Hk.
    - exfalso. assert (incl (v :: P) (seq 0 (size G))).
      { intros x [<-|Hx]; apply in_seq; [lia|]. pose proof (HP x Hx) as C. apply clos_trans_t1n in C.
        assert (x < size G) by (inversion C; eapply arc_lt; eauto). lia. }
      apply NoDup_incl_length in H1; auto. rewrite seq_length in H1. cbn in H1. lia.
    - cbn [PathFilterModel.flatten]. destruct (scopes (ks t0)) as [|y old0] eqn:Ek0; [congruence|]. set (old := y :: old0) in *.
      destruct (saveEdges_ok (rev (tagOf G v)) (mkT (csSave (cs t0)) (kSave (ks t0)) (cur t0) (prev t0) (ret t0) (completed t0)) (Some stk) [] old) as
        [t [-> [T2 [T3 [T4 [T5 [T6 [[x T7] [T8 T9]]]]]]]]].
      { cbn [cs]. exact Hs. } { cbn. now rewrite Ek0. }
      cbn [cs ks cur prev ret completed bind app] in *.
      set (rt := rev (tagOf G v)) in *.
      assert (Nrt : rt <> []).
      { intros X. apply (Tags v Hv). rewrite <- (rev_involutive (tagOf G v)). fold rt. now rewrite X. }
      set (o1 := runStack (Some stk) (optL (prev t0) ++ rt)) in *. set (ed := edgesOf (optL (prev t0) ++ rt)) in *.
      destruct (last_split (prev t0) rt Nrt) as [pre [p [Ep1 Ep2]]].
      assert (Ea : assertions (ks t) = assertions (ks t0) ++ ed).
      { rewrite (assertions_scopes _ _ _ T8). unfold assertions. now rewrite Ek0. }
      (* enough about what happens before the restoration *)
      match goal with |- exists t', bind ?M _ = _ /\ _ => cut (exists m, M = Ok m /\
            safe (cs m) = safe (cs t) /\ stackNodes (cs m) = stackNodes (cs t) /\ tl (scopes (ks m)) = old /\
            exists news, ret m = ret t0 ++ news /\ completed m = completed t0 + length news /\ yields (Some stk) t0 (eq v) news /\
              (enough max (completed m) = true \/ misses (Some stk) t0 (eq v) news)) end.
      { intros [m [-> [M1 [M2 [M3 M4]]]]]. cbn [bind]. unfold restore.
        rewrite (csRestore_ok (cs t0) (cs m)); [|apply Hs|congruence|rewrite M2, T7; eauto]. cbn [bind].
        eexists. split; [reflexivity|]. unfold post. cbn [cs ks cur prev ret completed kRestore scopes]. rewrite M3, Ek0. auto. }
      destruct (v =? leaf) eqn:Ev.
      + apply Nat.eqb_eq in Ev. subst v.
        destruct (atLeaf_ok t o1 ed old p) as [m [-> [M1 [M2 [M3 [news [M4 [M5 [M6 M7]]]]]]]]]; auto.
        { rewrite T2. intros X. apply app_eq_nil in X. tauto. } { congruence. }
        exists m. split; auto. split; auto. split; auto. split; auto. exists news. rewrite M4, M5, T4, T5. split; auto. split; auto.
        assert (Ef : concat (rev old) ++ ed ++ edgeList p final = assertions (ks t0) ++ allEdges (prev t0) rt).
        { unfold allEdges. rewrite Ep2. unfold assertions. now rewrite Ek0. }
        cbn zeta in *. rewrite Ef in *.
        assert (Acc : (exists stk1, o1 = Some stk1 /\ finalOk stk1 p = true) <-> accepts (Some stk) (prev t0) rt).
        { unfold accepts. fold o1. rewrite Ep2. split; [intros [s1 [X Y]]; exists s1, p; auto|intros [s1 [p1 [X [[= <-] Y]]]]; exists s1; auto]. }
        split.
        * intros q Hq. destruct (M6 q Hq) as [-> [X Y]]. exists leaf, rt. split; auto. split; [constructor; apply tagOf_node; auto|].
          cbn [fst snd]. split; auto. split; [apply Acc; auto|]. auto.
        * right. intros v' l <- Hl Hacc Hsat. apply leads_leaf in Hl. change (rev (tagOf G leaf)) with rt in Hl. rewrite Hl in Hacc, Hsat |- *. rewrite <- T2. apply M7; [apply Acc; auto|].
          destruct (unsat _) eqn:Eu; auto. apply Sound in Eu. contradiction.
      + apply Nat.eqb_neq in Ev. destruct (Alive v (rt_refl _ _ _)) as [|Ho]; [contradiction|].
        destruct (length (outEdges G v) =? 0) eqn:E0; [apply Nat.eqb_eq, length_zero_iff_nil in E0; contradiction|].
        assert (Skip : (forall l', accepts o1 (prev t) l' -> satisfiable sat (assertions (ks t) ++ allEdges (prev t) l') -> False) ->
                  misses (Some stk) t0 (eq v) []).
        { intros No v' l <- Hl Hacc Hsat. destruct (leads_inv _ _ Hl Ev) as [u [l' [_ [_ ->]]]]. fold rt in Hl, Hacc, Hsat |- *.
          exfalso. apply (No l'); rewrite T3; [apply accepts_app; auto|]. rewrite Ea, <- app_assoc. unfold ed. rewrite <- allEdges_app; auto. }
        destruct (enough max (completed t)) eqn:Een.
        { exists t. split; auto. split; auto. split; auto. split; [rewrite T8; auto|]. exists []. rewrite app_nil_r, Nat.add_0_r.
          split; auto. split; auto. split; [intros q []|]. auto. }
        destruct (valid (cs t)) eqn:Evl; cbn [negb].
        2:{ exists t. split; auto. split; auto. split; auto. split; [rewrite T8; auto|]. exists []. rewrite app_nil_r, Nat.add_0_r.
          split; auto. split; auto. split; [intros q []|]. right. apply Skip. intros l' [s1 [p1 [X _]]] _.
          destruct o1 as [s2|]; [cbn in T9; destruct T9; congruence|]. rewrite runStack_None in X. discriminate. }
        destruct o1 as [stk1|] eqn:Eo1; [|cbn in T9; congruence].
        destruct (kIsValid unsat (ks t)) as [ok k] eqn:Ek. apply kIsValid_ok in Ek. destruct Ek as [K1 [K2 _]].
        cbn zeta. destruct ok; cbn [negb].
        2:{ eexists. split; [reflexivity|]. cbn [cs ks ret completed]. split; auto. split; auto. split; [rewrite K1, T8; auto|].
          exists []. rewrite app_nil_r, Nat.add_0_r. split; auto. split; auto. split; [intros q []|]. right. apply Skip.
          intros l' _ [e He]. apply (Sound _ (K2 eq_refl)). exists e. apply Forall_app in He. tauto. }
        destruct (flattenAll_ok (flatten f G leaf final max) (Some stk1) (outEdges G v) (mkT (cs t) k (cur t) (prev t) (ret t) (completed t))) as
          [m [-> [M1 [M2 [M3 [M4 [news [M5 [M6 [M7 M8]]]]]]]]]]; cbn [cs ks cur prev ret completed] in *.
        { intros [[] u] Hu. cbn [snd]. assert (Hau : arc G v u) by exact Hu. apply (IH u (v :: P) stk1).
          - intros z Hz. apply Alive. eapply rt_trans; [apply rt_step; exact Hau|exact Hz].
          - apply (arc_range' v u Hau).
          - constructor; auto. intros [X|X].
            + subst u. apply (Ac v). now apply t_step.
            + apply (Ac u). eapply t_trans; [apply HP; auto|now apply t_step].
          - intros q [<-|Hq]; [now apply t_step|]. eapply t_trans; [apply HP; auto|now apply t_step].
          - cbn. lia. }
        { exact T9. } { rewrite K1, T8. discriminate. }
        exists m. split; auto. split; [congruence|]. split; [congruence|]. split; [rewrite M2, K1, T8; auto|].
        exists news. split; [congruence|]. split; [congruence|].
        assert (Ek : assertions k = assertions (ks t0) ++ ed) by (rewrite <- Ea; unfold assertions; now rewrite K1).
        unfold yields, misses in *. cbn [cs ks cur prev ret completed] in *. rewrite Ek, T3, T2 in *. split.
        * intros q Hq. destruct (M7 q Hq) as [u [l [Hu [Hl [Hq1 [Ha1 [Hu1 Hc1]]]]]]]. exists v, (rt ++ l). split; auto.
          split; [econstructor; eauto using tagOf_node|]. rewrite allEdges_app, app_assoc by auto. fold ed.
          rewrite <- app_assoc, Hq1. rewrite <- !app_assoc in *. split; auto. split; [|auto]. apply accepts_app; auto. fold o1. rewrite Eo1. auto.
        * destruct M8 as [M8|M8]; [auto|]. right. intros v' l <- Hl Hacc Hsat. destruct (leads_inv _ _ Hl Ev) as [u [l' [Hau [Hl' ->]]]]. fold rt in Hl, Hacc, Hsat |- *.
          apply accepts_app in Hacc; auto. fold o1 in Hacc. rewrite Eo1 in Hacc. rewrite allEdges_app in * by auto. fold ed in Hsat |- *.
          pose proof (M8 u l' Hau Hl' Hacc) as M9. rewrite <- !app_assoc in *. auto.
  Qed.
End Fl.
