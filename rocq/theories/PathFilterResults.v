(** The paths that pathsTo returns: proofs that put the search, the removal of
    edges, the enumeration and the removal of duplicates together. *)
From Coq Require Import List Bool Arith Lia Relations Permutation Sorted.
From Verif Require Import Assoc DFAMinimizerModel DFAMinimizerSpec DFAMinimizerProofs ExplodedSuperGraphModel
  ExplodedSuperGraphSpec PathDagModel PathDagSpec PathDagGraphs PathDagProofs PathDagReverse PathDagResults
  PathFilterModel PathFilterSpec PathFilterProofs PathFlattenProofs.
Import ListNotations.

(** ** Duplicates *)
Section Duplicates.
  Context {N A : Type} `{EqDec N}.
  Variable addr : N -> nat.
  Hypothesis Inj : forall a b, addr a = addr b -> a = b.
  Notation less := (@pathLess N A addr).

  Lemma lexLess_irrefl l : ~ lexLess addr l l.
  Proof. induction l as [|a l IH]; cbn; [tauto|]. intros [X|[_ X]]; [lia|auto]. Qed.
  Lemma lexLess_trans : forall l m n, lexLess addr l m -> lexLess addr m n -> lexLess addr l n.
  Proof.
    induction l as [|a l IH]; intros [|b m] [|c n]; cbn; try tauto. intros [X|[X X']] [Y|[Y Y']]; try (left; lia).
    right. split; [lia|eauto].
  Qed.
  Lemma lexLess_total : forall l m, length l = length m -> l = m \/ lexLess addr l m \/ lexLess addr m l.
  Proof.
    induction l as [|a l IH]; intros [|b m]; cbn; intros E; try discriminate; auto. injection E as E.
    destruct (lt_eq_lt_dec (addr a) (addr b)) as [[X|X]|X]; auto. apply Inj in X. subst b.
    destruct (IH m E) as [->|[X|X]]; auto.
  Qed.
  Lemma less_trans p q r : less p q -> less q r -> less p r.
  Proof.
    unfold pathLess. intros [X|[X X']] [Y|[Y Y']]; try (left; lia). right. split; [lia|eapply lexLess_trans; eauto].
  Qed.
  Lemma less_irrefl p q : fst p = fst q -> ~ less p q.
  Proof. unfold pathLess. intros ->. intros [X|[_ X]]; [lia|]. exact (lexLess_irrefl _ X). Qed.
  Lemma less_total (p q : list N * form A) : fst p = fst q \/ less p q \/ less q p.
  Proof.
    unfold pathLess. destruct (lt_eq_lt_dec (length (fst p)) (length (fst q))) as [[X|X]|X]; auto.
    destruct (lexLess_total _ _ X) as [|[|]]; auto.
  Qed.

  Lemma uniqueFrom_ok : forall l (p : list N * form A), StronglySorted (fun p q => ~ less q p) (p :: l) ->
    exists r, uniqueFrom p l = p :: r /\ StronglySorted less (p :: r) /\ incl (p :: r) (p :: l) /\
      (forall q, In q (p :: l) -> exists q', In q' (p :: r) /\ fst q' = fst q).
  Proof.
    induction l as [|q l IH]; intros p Hs; cbn [uniqueFrom].
    - exists []. split; auto. split; [repeat constructor|]. split; [apply incl_refl|]. intros q Hq. eauto.
    - inversion Hs as [|x y S1 F1]; subst. inversion F1 as [|x y F2 F3]; subst. inversion S1 as [|x y S2 F4]; subst.
      destruct (eqb (fst p) (fst q)) eqn:Eq.
      + apply eqb_eq in Eq. destruct (IH p) as [r [R1 [R2 [R3 R4]]]]; [constructor; auto|].
        exists r. split; auto. split; auto. split.
        * intros z Hz. apply R3 in Hz. destruct Hz as [|Hz]; [left; auto|right; right; auto].
        * intros z [<-|[<-|Hz]]; [exists p; split; [left|]; auto|exists p; split; [left|]; auto|apply R4; right; auto].
      + apply Assoc.eqb_false in Eq. destruct (IH q S1) as [r [R1 [R2 [R3 R4]]]]. rewrite R1. exists (q :: r). split; auto.
        assert (Hpq : less p q) by (destruct (less_total p q) as [|[|]]; [contradiction|auto|contradiction]).
        split; [constructor; auto; constructor; auto|].
        * inversion R2 as [|x y _ F5]; subst. eapply Forall_impl; [|exact F5]. intros z Hz. eapply less_trans; eauto.
        * split.
          -- intros z [<-|Hz]; [left; auto|right; auto].
          -- intros z [<-|Hz]; [exists p; split; [left|]; auto|]. destruct (R4 z Hz) as [z' [X Y]]. exists z'. split; [right|]; auto.
  Qed.
  Variable sort : list (list N * form A) -> list (list N * form A).
  Hypothesis Sorts : sorts addr sort.
  Lemma sorted_NoDup l : StronglySorted less l -> NoDup (map fst l).
  Proof.
    induction 1 as [|p l S1 IH F1]; cbn; constructor; auto. intros X. apply in_map_iff in X. destruct X as [q [E Hq]].
    rewrite Forall_forall in F1. apply (less_irrefl p q); auto.
  Qed.
  Lemma dedup_ok (l : list (flowPath N A)) : let r := deduplicatePaths sort l in
    NoDup (map fst r) /\ incl r l /\ (forall p, In p (map fst l) <-> In p (map fst r)).
  Proof.
    intros r. unfold r, deduplicatePaths. destruct (Sorts l) as [P S1]. destruct (sort l) as [|p l'] eqn:El.
    - apply Permutation_sym, Permutation_nil in P. subst l. cbn. split; [constructor|]. split; [intros x []|tauto].
    - cbn [unique]. destruct (uniqueFrom_ok l' p S1) as [r' [-> [R2 [R3 R4]]]].
      split; [now apply sorted_NoDup|]. split; [intros x Hx; eapply Permutation_in; [apply Permutation_sym; exact P|auto]|].
      intros z. split; intros Hz; apply in_map_iff in Hz; destruct Hz as [q [<- Hq]].
      + apply (Permutation_in _ P), R4 in Hq. destruct Hq as [q' [X Y]]. rewrite <- Y. now apply in_map.
      + apply in_map. eapply Permutation_in; [apply Permutation_sym; exact P|auto].
  Qed.
End Duplicates.

(** ** From a graph to its paths *)
Section Graph.
  Context {N A V E : Type} `{EqDec N} `{EqDec V}.
  Variable sat : E -> A -> Prop.
  Variable ec : N -> N -> option (A * list V).
  Variable unsat : list (form A) -> bool.
  Variable isCall isRet isTerm definedCall : N -> bool.
  Variable rest succFronts : N -> list N.
  Notation realizable := (realizable isCall isRet definedCall rest succFronts).
  Notation enumerate := (filterAndFlattenRevDag ec unsat isCall isRet isTerm definedCall rest succFronts).
  Notation runStack := (runStack isCall isRet isTerm definedCall rest succFronts).
  Notation taken := (taken sat ec).
  Notation reach G := (clos_refl_trans _ (arc G)).

  Lemma conjAll_holds e (l : list (form A)) : holds sat e (conjAll l) <-> Forall (holds sat e) l.
  Proof.
    destruct l as [|f l]; cbn; [split; auto|].
    assert (K : forall l f, holds sat e (fold_left FAnd l f) <-> holds sat e f /\ Forall (holds sat e) l).
    { clear. induction l as [|g l IH]; intros f; cbn; [split; [auto|tauto]|]. rewrite IH. cbn. rewrite Forall_cons_iff. tauto. }
    rewrite K, Forall_cons_iff. tauto.
  Qed.

  Section Enum.
    Variable G : pgraph N.
    Variable leaf : nat.
    Variable final : N.
    Hypothesis Wf : wf G.
    Hypothesis Ac : acyclic G.
    Hypothesis Tags : forall v, v < size G -> tagOf G v <> [].
    Hypothesis LeafOut : outEdges G leaf = [].
    Hypothesis Sound : soundSolver sat unsat.
    Hypothesis Alive : forall r x, In r (roots G) -> reach G r x -> x = leaf \/ outEdges G x <> [].
    Hypothesis Final : hd_error (tagOf G leaf) = Some final.
    Hypothesis NotRet : isRet final = false.
    Hypothesis NoLoop : ec final final = None.

    Lemma leads_last v l : leads G leaf v l -> lastO None l = Some final.
    Proof.
      assert (K : forall (m : list N) o x, lastO o (m ++ [x]) = Some x) by (induction m; cbn; auto).
      assert (X : exists t, tagOf G leaf = final :: t) by (destruct (tagOf G leaf); [discriminate|injection Final as ->; eauto]).
      destruct X as [t0 Et]. assert (K2 : forall t, node G leaf = Some t -> t = final :: t0).
      { intros t Ht. unfold tagOf in Et. rewrite Ht in Et. auto. }
      generalize (@None N). intros o Hl. revert o. induction Hl as [t Ht|v u t l Ht Ha Hl IH]; intros o.
      - rewrite (K2 t Ht). cbn. apply K.
      - rewrite lastO_app. apply IH.
    Qed.
    Lemma allEdges_path l : lastO None l = Some final -> allEdges ec final None l = edgesOf ec l.
    Proof. intros El. unfold allEdges. rewrite El. unfold edgeList. rewrite NoLoop. cbn. apply app_nil_r. Qed.
    Lemma accepts_path l : lastO None l = Some final ->
      accepts isCall isRet isTerm definedCall rest succFronts final (Some []) None l <-> exists stk, runStack (Some []) l = Some stk.
    Proof.
      intros El. unfold accepts. rewrite El. cbn [optL app]. unfold finalOk. split.
      - intros [stk [p [X _]]]. eauto.
      - intros [stk X]. exists stk, final. rewrite NotRet. auto.
    Qed.

    Variable add : option (form A).
    Let addF : form A := match add with Some f => f | None => FTrue end.
    Lemma addF_admits e : holds sat e addF <-> admits sat add e.
    Proof. unfold addF, admits. destruct add as [f|]; [split; [intros X g [= <-]; auto|auto]|cbn]. split; [discriminate|auto]. Qed.
    Lemma edges_feasible e l : Forall (holds sat e) (addF :: edgesOf ec l) <-> admits sat add e /\ taken e l.
    Proof. rewrite Forall_cons_iff, addF_admits, edgesOf_taken. tauto. Qed.

    Lemma enumerate_ok fuel max : wellBlocked isTerm rest -> (forall a, isCall a = true -> isRet a = true -> False) -> size G <= fuel ->
      exists ps, enumerate fuel add G leaf final max = Ok ps /\
        (forall p c, In (p, c) ps -> (exists r, In r (roots G) /\ leads G leaf r p) /\ realizable p /\
           (decidingSolver sat unsat -> feasible sat ec add p) /\
           forall e, holds sat e c <-> admits sat add e /\ taken e p) /\
        ((exists m, max = Some m /\ m <= length ps) \/
         forall r p, In r (roots G) -> leads G leaf r p -> realizable p -> feasible sat ec add p -> exists c, In (p, c) ps).
    Proof.
      intros W Dj Hf. unfold filterAndFlattenRevDag. fold addF.
      set (t0 := mkT (@emptyCS N) (@initK A V addF) [] None [] 0).
      destruct (flattenAll_ok sat ec unsat isCall isRet isTerm definedCall rest succFronts final G leaf max
        (flatten ec unsat isCall isRet isTerm definedCall rest succFronts fuel G leaf final max) (Some [])
        (map (pair tt) (roots G)) t0) as [t [-> [_ [_ [_ [_ [news [P5 [P6 [P7 P8]]]]]]]]]].
      - intros e He. apply in_map_iff in He. destruct He as [r [<- Hr]]. cbn [snd].
        apply (flatten_ok sat ec unsat isCall isRet isTerm definedCall rest succFronts final G leaf max Sound Wf Ac Tags LeafOut fuel r []).
        + intros x Hx. eapply Alive; eauto.
        + apply (proj2 (proj2 Wf)); auto.
        + constructor; auto. constructor.
        + intros p [].
        + cbn. lia.
      - cbn. auto.
      - cbn. discriminate.
      - cbn [bind]. rewrite P5. cbn [ret t0 app completed] in *. exists news. split; auto.
        assert (Ea : assertions (ks t0) = [addF]) by reflexivity.
        unfold yields, misses in *. rewrite Ea in *. cbn [cur prev t0 app] in *. split.
        + intros p c Hp. destruct (P7 (p, c) Hp) as [r [l [Hr [Hl [E1 [Hacc [Hu Ec]]]]]]]. cbn [fst snd] in *. subst p.
          apply in_map_iff in Hr. destruct Hr as [r' [[= ->] Hr]]. pose proof (leads_last _ _ Hl) as El.
          rewrite (allEdges_path l El) in *. apply (accepts_path l El), (runStack_realizable ec _ _ _ _ _ _ W Dj) in Hacc.
          split; eauto. split; auto. split.
          * intros Dc. specialize (Dc (addF :: edgesOf ec l)). rewrite Hu in Dc. destruct Dc as [e He]. exists e. now apply edges_feasible.
          * intros e. rewrite Ec. change (holds sat e (conjAll (addF :: edgesOf ec l)) <-> admits sat add e /\ taken e l).
            rewrite conjAll_holds. apply edges_feasible.
        + destruct P8 as [P8|P8].
          * left. rewrite P6 in P8. unfold enough in P8. destruct max as [m|]; [|discriminate]. apply Nat.leb_le in P8. eauto.
          * right. intros r p Hr Hl Hre [e [F1 F2]]. pose proof (leads_last _ _ Hl) as El. eexists. apply (P8 r p); auto.
            -- now apply in_map.
            -- apply (accepts_path p El). now apply (runStack_realizable ec _ _ _ _ _ _ W Dj).
            -- rewrite (allEdges_path p El). exists e. now apply edges_feasible.
    Qed.
  End Enum.

  Lemma findLeaf_ok (G : pgraph N) leaf final : oneEnd G leaf final -> findLeaf G = Some leaf.
  Proof.
    intros O. unfold findLeaf. destruct (find _ _) as [v|] eqn:Ef.
    - apply find_some in Ef. destruct Ef as [Hv He]. apply in_seq in Hv. apply Nat.eqb_eq, length_zero_iff_nil in He.
      f_equal. apply (o_only _ _ _ O); auto. lia.
    - exfalso. pose proof (find_none _ _ Ef leaf) as X. cbn beta in X. rewrite (o_out _ _ _ O) in X. cbn in X.
      assert (Hi : In leaf (seq 0 (size G))) by (apply in_seq; pose proof (o_leaf _ _ _ O); lia). specialize (X Hi). discriminate.
  Qed.

  Lemma leads_sub (G G' : pgraph N) leaf : nodes G' = nodes G -> (forall v u, arc G' v u -> arc G v u) ->
    forall v l, leads G' leaf v l -> leads G leaf v l.
  Proof.
    intros En Ha v l. unfold node in *. induction 1 as [t Ht|v u t l Ht Hu Hl IH]; unfold node in *.
    - constructor. unfold node. congruence.
    - econstructor; eauto. unfold node. congruence.
  Qed.

  Section In.
    Variable sort : list (flowPath N A) -> list (flowPath N A).
    Variable isFalse : form A -> bool.
    Variable addr : N -> nat.
    Hypothesis Inj : forall a b, addr a = addr b -> a = b.
    Hypothesis Sorts : sorts addr sort.
    Hypothesis False_ok : soundFalse sat isFalse.
    Hypothesis W : wellBlocked isTerm rest.
    Hypothesis Dj : forall a, isCall a = true -> isRet a = true -> False.

    Lemma pathsIn_ok fuel add max (G : pgraph N) leaf final : oneEnd G leaf final -> decidingSolver sat unsat ->
      isRet final = false -> ec final final = None -> size G + 1 < fuel ->
      exists ps, pathsIn ec unsat isCall isRet isTerm definedCall rest succFronts sort isFalse fuel add max final G = Ok ps /\
        NoDup (map fst ps) /\
        (forall p c, In (p, c) ps -> (exists r, In r (roots G) /\ leads G leaf r p) /\ realizable p /\ feasible sat ec add p /\
           forall e, holds sat e c <-> admits sat add e /\ taken e p) /\
        (max = None -> forall r p, In r (roots G) -> leads G leaf r p -> realizable p -> feasible sat ec add p -> exists c, In (p, c) ps).
    Proof.
      intros O Dc NotRet NoLoop Hf. unfold pathsIn. rewrite (findLeaf_ok _ _ _ O).
      assert (Sound : soundSolver sat unsat) by (intros l Hl; specialize (Dc l); rewrite Hl in Dc; exact Dc).
      destruct (filterOut_ok sat ec unsat add G leaf (o_wf _ _ _ O) (o_acyclic _ _ _ O) (o_tags _ _ _ O) (o_out _ _ _ O) Sound fuel (o_roots _ _ _ O) Hf) as
        [c [G' [-> [F1 [F2 [F3 [F4 [F5 [F6 [F7 [F8 [_ [_ F11]]]]]]]]]]]]]. cbn [bind fst snd].
      destruct (isFalse c) eqn:Ef.
      - exists []. split; auto. split; [constructor|]. split; [intros p c' []|]. intros _ r p Hr Hl _ [e [Had Ht]].
        exfalso. apply (False_ok c e Ef). eapply F11; eauto.
      - assert (W' : wf G').
        { destruct (o_wf _ _ _ O) as [X [Y Z]]. unfold size in *. split; [congruence|]. split.
          - intros v [] t Ht. unfold size. rewrite F2. apply (Y v tt t). apply F3. exact Ht.
          - intros r Hr. unfold size. rewrite F2. auto. }
        assert (Sz : size G' = size G) by exact F2.
        assert (Tg : forall v, tagOf G' v = tagOf G v) by (intros v; unfold tagOf, node; now rewrite F1).
        destruct (enumerate_ok G' leaf final W') with (fuel := fuel) (max := max) (add := add) as [ps [-> [P1 P2]]]; auto.
        + intros x Hx. apply (o_acyclic _ _ _ O x). 
          assert (K : forall a b, clos_trans _ (arc G') a b -> clos_trans _ (arc G) a b) by (induction 1; [apply t_step; auto|eapply t_trans; eauto]).
          auto.
        + intros v Hv. rewrite Tg. apply (o_tags _ _ _ O). lia.
        + destruct (outEdges G' leaf) as [|[[] u] es] eqn:Eo; auto. assert (X : arc G leaf u) by (apply F3; unfold arc; rewrite Eo; left; auto).
          unfold arc in X. rewrite (o_out _ _ _ O) in X. destruct X.
        + intros r x Hr Hx. apply (F8 Dc r x); auto.
        + rewrite Tg. apply (o_final _ _ _ O).
        + lia.
        + cbn [bind]. exists (deduplicatePaths sort ps). split; auto.
          destruct (dedup_ok addr Inj sort Sorts ps) as [D1 [D2 D3]]. split; auto. split.
          * intros p c' Hp. apply D2 in Hp. destruct (P1 p c' Hp) as [[r [Hr Hl]] [X [Y Z]]]. split; [|auto].
            exists r. split; auto. eapply leads_sub; eauto.
          * intros -> r p Hr Hl Hre Hfe. destruct P2 as [[m [X _]]|P2]; [discriminate|].
            destruct (P2 r p) as [c' Hc]; auto.
            -- eapply F7; eauto.
            -- destruct Hfe as [e [X Y]]. eapply F6; eauto. apply (proj2 (proj2 (o_wf _ _ _ O))); auto.
            -- assert (Hm : In p (map fst ps)) by (apply in_map_iff; exists (p, c'); auto).
               apply D3, in_map_iff in Hm. destruct Hm as [[p' c''] [Ep Hin]]. cbn in Ep. subst p'. eauto.
    Qed.
  End In.

  (** ** The graph of the paths back from one fact has one end *)
  Lemma leads_spells (G : pgraph N) leaf final : oneEnd G leaf final -> forall v l, v < size G -> leads G leaf v l <-> spellsBack G v l.
  Proof.
    intros O v l Hv. split.
    - intros Hl. clear Hv. induction Hl as [t Ht|v u t l Ht Ha Hl [n [ws [Hr ->]]]].
      + exists t, []. cbn. rewrite app_nil_r. split; auto. split; auto. apply (o_out _ _ _ O).
      + exists t, ((tt, n) :: ws). split; [|reflexivity]. cbn [readsAll]. split; auto. exists u. split; auto.
    - intros [n [ws [Hr ->]]]. revert v n Hv Hr. induction ws as [|[[] n'] ws IH]; intros v n Hv Hr; cbn [readsAll] in Hr; destruct Hr as [Hn Hr].
      + assert (v = leaf) by (apply (o_only _ _ _ O); auto). subst v. cbn. rewrite app_nil_r. constructor; auto.
      + destruct Hr as [u [Hu Hr]]. cbn [map concat snd]. eapply leads_on; eauto. apply (IH u n'); auto.
        exact (proj1 (proj2 (o_wf _ _ _ O)) _ _ _ Hu).
  Qed.
End Graph.

Section Shape.
  Lemma reverse_roots {T} (G : pgraph T) : NoDup (roots (reverseGraph G)).
  Proof.
    unfold reverseGraph. set (R0 := fold_left _ (nodes G) emptyGraph).
    assert (E0 : roots R0 = []).
    { unfold R0. assert (K : forall l (R : pgraph T), roots (fold_left (fun R l => snd (addNode R (Some l))) l R) = roots R).
      { induction l as [|x l IH]; intros R; cbn [fold_left]; auto. rewrite IH. reflexivity. }
      rewrite K. reflexivity. }
    assert (K : forall vs R, NoDup vs -> NoDup (roots R) -> (forall v, In v vs -> ~ In v (roots R)) ->
                NoDup (roots (fold_left (reverseAt G) vs R))).
    { induction vs as [|v vs IH]; intros R Nv Nr Hd; cbn [fold_left]; auto. inversion Nv as [|x y N1 N2]; subst.
      assert (Er : forall es R1, roots (fold_left (fun R e => addEdge R (snd e) (fst e, v)) es R1 : pgraph T) = roots R1).
      { induction es as [|e es IHe]; intros R1; cbn [fold_left]; auto. rewrite IHe. reflexivity. }
      unfold reverseAt at 2. destruct (length (outEdges G v) =? 0).
      - apply IH; auto; cbn [addRoot roots]; rewrite Er.
        + apply Permutation_NoDup with (l := v :: roots R); [apply Permutation_cons_append|]. constructor; auto. apply Hd. left; auto.
        + intros x Hx X. apply in_app_iff in X. destruct X as [X|[->|[]]]; [apply (Hd x); [right|]; auto|contradiction].
      - apply IH; auto; rewrite Er; auto. intros x Hx. apply Hd. right; auto. }
    apply K; [apply seq_NoDup|rewrite E0; constructor|]. intros v _. rewrite E0. auto.
  Qed.

  Lemma minimized_roots {N W} `{EqDec N} `{EqDec W} (G : graph N W) fuel M : wf G -> minimized fuel G = Some M -> NoDup (roots M).
  Proof.
    intros Wf. unfold minimized. destruct (minimizeGraph G) as [ec|]; [|discriminate]. unfold createEquivalentGraphFrom.
    destruct (explore fuel G (compress ec) _) as [b|] eqn:Ex; [|discriminate]. cbn. intros [= <-]. cbn [dedupAll roots].
    set (eq := compress ec) in *. set (b0 := fold_left _ (roots G) _) in Ex.
    assert (R0 : NoDup (roots (DFAMinimizerModel.ret b0))).
    { unfold b0. assert (K : forall rs b, (forall r, In r rs -> r < size G) -> NoDup (roots (DFAMinimizerModel.ret b)) -> (forall r, In r (roots (DFAMinimizerModel.ret b)) -> r < length (nodes (DFAMinimizerModel.ret b))) ->
        NoDup (roots (DFAMinimizerModel.ret (fold_left (addRt G eq) rs b)))).
      { induction rs as [|r rs IH]; intros b1 Hr Nd Hl; cbn [fold_left]; auto.
        assert (Hn : exists x, node G r = Some x).
        { unfold node. destruct (nth_error (nodes G) r) eqn:En; eauto. apply nth_error_None in En. destruct Wf as [Wl _].
          specialize (Hr r (or_introl eq_refl)). unfold size in Hr. lia. }
        destruct Hn as [x Hx]. apply IH; [intros; apply Hr; right; auto| |]; unfold addRt; destruct (afind _ _); cbn [DFAMinimizerModel.ret]; auto; rewrite Hx; cbn.
        - apply Permutation_NoDup with (l := length (nodes (DFAMinimizerModel.ret b1)) :: roots (DFAMinimizerModel.ret b1)); [apply Permutation_cons_append|].
          constructor; auto. intros X. apply Hl in X. lia.
        - intros y Hy. rewrite app_length. cbn. apply in_app_iff in Hy. destruct Hy as [Hy|[<-|[]]]; [apply Hl in Hy|]; lia. }
      apply K; cbn; [apply (proj2 (proj2 Wf))|constructor|intros r []]. }
    assert (Ko : forall nw es b, roots (DFAMinimizerModel.ret (fold_left (addOut G eq nw) es b)) = roots (DFAMinimizerModel.ret b)).
    { intros nw. induction es as [|e es IH]; intros b1; cbn [fold_left]; auto. rewrite IH. unfold addOut.
      destruct (afind _ _); cbn; auto. destruct (node G (snd e)); auto. }
    clearbody b0. revert b0 R0 Ex. induction fuel as [|f IH]; intros b0 R0; cbn [explore]; [discriminate|].
    destruct (worklist b0) as [|v wl]; [intros [= <-]; auto|]. destruct (afind _ _) as [nw|]; [|discriminate].
    apply IH. rewrite Ko. auto.
  Qed.

  Context {N D : Type} `{EqDec N} `{EqDec D}.
  Variable g : esg N D.
  Variable isEnd isErr : nat -> option nat -> bool.
  Lemma reversed_oneEnd inst fact c : traces g isEnd isErr inst [fact] c ->
    exists rt, roots (dag c) = [rt] /\ oneEnd (reverseGraph (dag c)) rt inst /\ roots (reverseGraph (dag c)) <> [].
  Proof.
    intros T. pose proof (traces_wf _ _ _ _ _ _ T) as W. pose proof (t_inv _ _ _ _ _ _ T) as I.
    pose proof (t_asked _ _ _ _ _ _ T) as Q. inversion Q as [|x rt y l' [vtx [_ Hq]] Q2 X1 X2]; subst. inversion Q2; subst.
    symmetry in X2. exists rt. split; auto. destruct (reverseGraph_spec (dag c) W) as [R1 [R2 [R3 [R4 R5]]]].
    assert (Hrt : In rt (roots (dag c))) by (rewrite X2; left; auto).
    assert (Src : forall v, outEdges (reverseGraph (dag c)) v = [] <-> forall w, ~ arc (dag c) w v).
    { intros v. split.
      - intros Eo w Hw. apply R3 in Hw. unfold arc in Hw. rewrite Eo in Hw. destruct Hw.
      - intros Hn. destruct (outEdges (reverseGraph (dag c)) v) as [|[[] u] es] eqn:Eo; auto. exfalso. apply (Hn u). apply R3.
        unfold arc. rewrite Eo. left; auto. }
    assert (Tg : forall v, tagOf (reverseGraph (dag c)) v = tagOf (dag c) v) by (intros v; unfold tagOf, node; now rewrite R2).
    split.
    2:{ destruct (goes_on (dag c) W (i_acyclic _ _ _ _ _ I) rt (i_roots _ _ _ _ _ I rt Hrt)) as [p [ts [P1 [P2 [P3 [P4 P5]]]]]].
        assert (Hi : In (last p 0) (roots (reverseGraph (dag c)))); [|intros X; rewrite X in Hi; destruct Hi].
        apply R4. split; auto. assert (Sz : sized (dag c)) by apply W. apply (tagged_lt _ _ _ _ Sz P4).
        destruct (exists_last P1) as [p' [z ->]]; rewrite last_last; apply in_app_iff; right; left; auto. }
    constructor; auto.
    - intros x Hx. apply (i_acyclic _ _ _ _ _ I x).
      assert (K : forall a b, clos_trans _ (arc (reverseGraph (dag c))) a b -> clos_trans _ (arc (dag c)) b a).
      { induction 1 as [a b Hab|a b d _ IH1 _ IH2]; [apply t_step, R3; auto|eapply t_trans; eauto]. }
      auto.
    - intros v Hv. rewrite Tg. rewrite R1 in Hv. destruct (i_vertex _ _ _ _ _ I v Hv) as [Hi|[k Hk]].
      + rewrite X2 in Hi. destruct Hi as [<-|[]]. unfold tagOf. rewrite (q_node _ _ _ _ _ Hq). discriminate.
      + destruct (i_done _ _ _ _ _ I k v Hk) as [_ [_ B]]. rewrite (t_path _ _ _ _ _ _ T) in B.
        destruct B as [[]|(ws & prev & l & _ & En & Sp & _)]. unfold tagOf. rewrite En. inversion Sp. discriminate.
    - apply reverse_roots.
    - rewrite R1. apply (i_roots _ _ _ _ _ I rt Hrt).
    - apply Src. intros w. exact (roots_are_sources _ _ _ _ _ _ _ T Hrt w).
    - intros v Hv Eo. rewrite R1 in Hv. pose proof (sources_are_roots _ _ _ _ _ _ _ T Hv (proj1 (Src v) Eo)) as Hi.
      rewrite X2 in Hi. destruct Hi as [|[]]; auto.
    - rewrite Tg. unfold tagOf. rewrite (q_node _ _ _ _ _ Hq). reflexivity.
  Qed.

  Lemma minimized_oneEnd (R : pgraph N) leaf inst fuel M : oneEnd R leaf inst -> roots R <> [] -> minimized fuel R = Some M -> exists leaf', oneEnd M leaf' inst.
  Proof.
    intros O Rne Em. destruct (minimized_ok R (o_wf _ _ _ O)) as (f0 & ec & M' & B & _ & _ & C0 & C1 & C2 & C3 & C4 & C5 & _ & _ & _ & C9).
    assert (M' = M) as ->.
    { specialize (C0 (fuel + f0) ltac:(lia)). rewrite (minimized_more _ _ f0 _ Em) in C0. congruence. }
    destruct (minimized_acyclic R fuel M (o_wf _ _ _ O) (o_acyclic _ _ _ O) Em) as [_ [Am _]].
    assert (Tg : forall v u, B v u -> tagOf M u = tagOf R v /\ (outEdges R v = [] <-> outEdges M u = [])).
    { intros v u Hb. destruct (C2 v u Hb) as [Hv [Hu [S1 S2]]]. pose proof (tagOf_node R (o_wf _ _ _ O) v Hv) as En.
      assert (Em' : node M u = Some (tagOf R v)) by (apply (proj1 (S1 (tagOf R v) [])); split; auto; constructor).
      unfold tagOf at 1. rewrite Em'. split; auto. split; intros Eo.
      - apply (proj1 (S2 (tagOf R v) [])). split; auto.
      - apply (proj2 (S2 (tagOf R v) [])). split; auto. }
    assert (Back : forall u, u < size M -> outEdges M u = [] -> B leaf u).
    { intros u Hu Eo. destruct (C5 u Hu) as [v Hb]. replace leaf with v; auto. apply (o_only _ _ _ O); [apply (C2 v u Hb)|].
      apply (Tg v u Hb); auto. }
    assert (Ex : exists u, B leaf u).
    { (* a root, followed to the end *)
      assert (Hs : exists u, u < size M).
      { destruct (roots R) as [|r rs] eqn:Er; [congruence|]. destruct (C3 r (or_introl eq_refl)) as [u [_ Hu]]. exists u. apply (C2 r u Hu). }
      destruct Hs as [u Hu]. destruct (goes_on M C1 Am u Hu) as [p [ts [P1 [P2 [P3 [P4 P5]]]]]].
      exists (last p 0). apply Back; auto. assert (Sz : sized M) by apply C1. apply (tagged_lt _ _ _ _ Sz P4).
      destruct (exists_last P1) as [p' [z ->]]; rewrite last_last; apply in_app_iff; right; left; auto. }
    destruct Ex as [u Hb]. exists u. constructor; auto.
    - intros w Hw. destruct (C5 w Hw) as [v Hv]. destruct (Tg v w Hv) as [-> _]. apply (o_tags _ _ _ O). apply (C2 v w Hv).
    - apply (minimized_roots R fuel M (o_wf _ _ _ O) Em).
    - apply (C2 _ _ Hb).
    - apply (Tg _ _ Hb). apply (o_out _ _ _ O).
    - intros w Hw Eo. apply (C9 leaf); auto.
    - destruct (Tg _ _ Hb) as [-> _]. apply (o_final _ _ _ O).
  Qed.

  Lemma result_oneEnd cf fuel inst fact conf R : depthThreshold conf = None ->
    pathsDagToAll g isEnd isErr cf fuel inst [fact] conf = Paths R -> exists leaf, oneEnd R leaf inst.
  Proof.
    intros Ed. unfold pathsDagToAll. destruct (tracePaths g isEnd isErr cf fuel inst [fact] emptyCtx) as [o|c] eqn:Et.
    - intros ->. exfalso.
      assert (X : forall facts c o, tracePaths g isEnd isErr cf fuel inst facts c = inl o -> o = NoNode \/ o = OutOfFuel).
      { clear. induction facts as [|d facts IH]; intros c o; cbn [tracePaths]; [discriminate|]. destruct (getNodeOrNull g inst d) as [v|]; [|intros [= <-]; auto].
        destruct (pathsToImpl g isEnd isErr cf fuel inst v c) as [[rt c']|]; [apply IH|intros [= <-]; auto]. }
      destruct (X _ _ _ Et); discriminate.
    - pose proof (tracePaths_ok g isEnd isErr cf fuel inst [fact] [] _ _ (traces_empty g isEnd isErr inst) Et) as T. cbn [app] in T.
      destruct (checked_paths (dag c) fuel (i_acyclic _ _ _ _ _ (t_inv _ _ _ _ _ _ T))) as [-> | ->]; [|discriminate].
      rewrite Ed. destruct (reversed_oneEnd inst fact c T) as [rt [_ [O Rne]]].
      destruct (minimizeDAG conf); [|intros [= <-]; eauto].
      destruct (minimized fuel (reverseGraph (dag c))) as [M|] eqn:Em; [|discriminate].
      destruct (minimized_oneEnd _ _ _ _ _ O Rne Em) as [leaf Om].
      destruct (checked_paths M fuel (o_acyclic _ _ _ Om)) as [-> | ->]; [intros [= <-]; eauto|discriminate].
  Qed.
End Shape.
