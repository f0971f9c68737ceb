(** The result of pathsDagToAll: proofs that put the search, the cycle check,
    the reversal and the minimisation together. *)
From Coq Require Import List Bool Arith Lia Relations.
From Verif Require Import Assoc DFAMinimizerModel DFAMinimizerSpec DFAMinimizerProofs ExplodedSuperGraphModel
  ExplodedSuperGraphSpec ExplodedSuperGraphProofs PathDagModel PathDagSpec PathDagGraphs PathDagProofs PathDagReverse.
Import ListNotations.

(** ** More fuel does not change a result *)
Section Fuel.
  Lemma explore_more {N W} `{EqDec N} `{EqDec W} (G : graph N W) eq : forall f k b x, explore f G eq b = Some x -> explore (f + k) G eq b = Some x.
  Proof.
    induction f as [|f IH]; intros k b x; cbn [explore Nat.add]; [discriminate|]. destruct (worklist b); auto.
    destruct (afind _ _); auto.
  Qed.
  Lemma minimized_more {N W} `{EqDec N} `{EqDec W} (G : graph N W) f k M : minimized f G = Some M -> minimized (f + k) G = Some M.
  Proof.
    unfold minimized. destruct (minimizeGraph G) as [ec|]; [|discriminate]. unfold createEquivalentGraphFrom.
    destruct (explore f G _ _) as [b|] eqn:E; [|discriminate]. rewrite (explore_more _ _ _ _ _ _ E). auto.
  Qed.
  Lemma doAssert_more {T} (G : pgraph T) : forall f k path vis v x, doAssertIsDAG f G path vis v = Some x ->
    doAssertIsDAG (f + k) G path vis v = Some x.
  Proof.
    induction f as [|f IH]; intros k path vis v x; [discriminate|]. cbn [Nat.add]. rewrite !doAssert_S.
    destruct (mem v path); auto. destruct (mem v vis); auto. generalize (v :: vis). induction (outEdges G v) as [|e es IHe]; intros vis1; cbn [succsOf]; auto.
    destruct (doAssertIsDAG f G (v :: path) vis1 (snd e)) as [[b vis2]|] eqn:E; [|discriminate]. rewrite (IH k _ _ _ _ E).
    destruct b; auto.
  Qed.
  Lemma assertIsDAG_more {T} (G : pgraph T) f k b : assertIsDAG f G = Some b -> assertIsDAG (f + k) G = Some b.
  Proof.
    unfold assertIsDAG. generalize (@nil nat). induction (roots G) as [|r rs IH]; intros vis; cbn [assertRoots]; auto.
    destruct (doAssertIsDAG f G [] vis r) as [[b' vis']|] eqn:E; [|discriminate]. rewrite (doAssert_more _ _ k _ _ _ _ E).
    destruct b'; auto.
  Qed.
  Lemma checked_more {T} (G : pgraph T) f k x : checked f G = Paths x -> checked (f + k) G = Paths x.
  Proof.
    unfold checked. destruct (assertIsDAG f G) as [b|] eqn:E; [|discriminate]. rewrite (assertIsDAG_more _ _ k _ E). auto.
  Qed.

  Context {N D : Type} `{EqDec N} `{EqDec D}.
  Variable g : esg N D.
  Variable isEnd isErr : nat -> option nat -> bool.
  Lemma chain_more : forall cf k v tags x, chain g isEnd isErr cf v tags = Some x -> chain g isEnd isErr (cf + k) v tags = Some x.
  Proof.
    induction cf as [|cf IH]; intros k v tags x; cbn [chain Nat.add]; [discriminate|].
    destruct (nodeAt g v) as [nd|]; auto. destruct (pred nd) as [p|]; auto. destruct (_ || _); auto.
    destruct (nodeAt g p) as [pd|]; auto. destruct (_ =? 0); auto.
  Qed.
  Definition moreThan (r r' : nat -> ctx N -> option (option nat * ctx N)) : Prop := forall v c x, r v c = Some x -> r' v c = Some x.
  Lemma traverse_more r r' ret q c x : moreThan r r' -> traverseNext r ret q c = Some x -> traverseNext r' ret q c = Some x.
  Proof. intros M. unfold traverseNext. destruct (r q c) as [y|] eqn:E; [|discriminate]. rewrite (M _ _ _ E). auto. Qed.
  Lemma traverseAll_more r r' ret prev : moreThan r r' -> forall nbs e c x, traverseAll isEnd isErr r ret prev nbs e c = Some x ->
    traverseAll isEnd isErr r' ret prev nbs e c = Some x.
  Proof.
    intros M. induction nbs as [|q nbs IH]; intros e c x; cbn [traverseAll]; auto.
    destruct (isErr prev (Some q)); auto. destruct (isEnd prev (Some q)); auto.
    destruct (traverseNext r ret q c) as [c'|] eqn:E; [|discriminate]. rewrite (traverse_more _ _ _ _ _ _ M E). auto.
  Qed.
  Lemma la_more cf k : forall f j, moreThan (pathsToImplLA g isEnd isErr cf f) (pathsToImplLA g isEnd isErr (cf + k) (f + j)).
  Proof.
    induction f as [|f IH]; intros j v c x; cbn [pathsToImplLA Nat.add]; [discriminate|].
    destruct (afind v (cache c)); auto. destruct (addNode (dag c) (Some [])) as [ret G]. unfold pathsToImplLAInvoke.
    destruct (chain g isEnd isErr cf v []) as [y|] eqn:E; [|discriminate]. rewrite (chain_more _ k _ _ _ E).
    destruct y as [[[[tags prev] nxt] e] r]. destruct nxt as [p|]; auto.
    destruct (mem ret _); auto.
    match goal with |- context [if e || r then Some ?c2 else _] => set (c2' := c2) end.
    destruct (if e || r then Some c2' else traverseNext (pathsToImplLA g isEnd isErr cf f) ret p c2') as [c3|] eqn:E3; [|discriminate].
    assert (E3' : (if e || r then Some c2' else traverseNext (pathsToImplLA g isEnd isErr (cf + k) (f + j)) ret p c2') = Some c3).
    { destruct (e || r); auto. eapply traverse_more; [apply IH|exact E3]. }
    rewrite E3'. destruct (traverseAll isEnd isErr (pathsToImplLA g isEnd isErr cf f) _ _ _ _ _) as [y|] eqn:E4; [|discriminate].
    rewrite (traverseAll_more _ _ _ _ (IH j) _ _ _ _ E4). auto.
  Qed.
  Lemma linkAll_more cf k f j ret : forall vs c x, linkAll g isEnd isErr cf f ret vs c = Some x ->
    linkAll g isEnd isErr (cf + k) (f + j) ret vs c = Some x.
  Proof.
    induction vs as [|v vs IH]; intros c x; cbn [linkAll]; auto.
    destruct (pathsToImplLA g isEnd isErr cf f v c) as [[r c']|] eqn:E; [|discriminate]. rewrite (la_more _ k _ j _ _ _ E).
    destruct r; auto.
  Qed.
  Lemma tracePaths_more cf k f j inst : forall facts c x, tracePaths g isEnd isErr cf f inst facts c = inr x ->
    tracePaths g isEnd isErr (cf + k) (f + j) inst facts c = inr x.
  Proof.
    induction facts as [|d facts IH]; intros c x; cbn [tracePaths]; auto.
    destruct (getNodeOrNull g inst d) as [vtx|]; [|discriminate]. unfold pathsToImpl.
    destruct (addNode (dag c) (Some [inst])) as [ret G].
    destruct (linkAll g isEnd isErr cf f ret _ _) as [c'|] eqn:E; [|discriminate]. rewrite (linkAll_more _ k _ j _ _ _ _ E). auto.
  Qed.
  Lemma paths_more cf k f j inst facts conf R : pathsDagToAll g isEnd isErr cf f inst facts conf = Paths R ->
    pathsDagToAll g isEnd isErr (cf + k) (f + j) inst facts conf = Paths R.
  Proof.
    unfold pathsDagToAll. destruct (tracePaths g isEnd isErr cf f inst facts emptyCtx) as [o|c] eqn:E; [intros ->|].
    - exfalso. revert E. clear. intros E.
      assert (X : forall facts c R, tracePaths g isEnd isErr cf f inst facts c <> inl (Paths R)); [|exact (X _ _ _ E)].
      induction facts0 as [|d facts0 IH]; intros c R0; cbn [tracePaths]; [discriminate|]. destruct (getNodeOrNull g inst d); [|discriminate].
      destruct (pathsToImpl g isEnd isErr cf f inst n c) as [[rt c']|]; [apply IH|discriminate].
    - rewrite (tracePaths_more _ k _ j _ _ _ _ E).
      destruct (checked f (dag c)) as [| | |G] eqn:Ec; try discriminate. rewrite (checked_more _ _ j _ Ec).
      destruct (minimizeDAG conf); auto.
      destruct (minimized f _) as [M|] eqn:Em; [|discriminate]. rewrite (minimized_more _ _ j _ Em). apply checked_more.
  Qed.
End Fuel.

Section Results.
  Context {N D : Type} `{EqDec N} `{EqDec D}.
  Variable g : esg N D.
  Variable isEnd isErr : nat -> option nat -> bool.
  Notation traces := (traces g isEnd isErr).

  Lemma traces_wf inst facts c : traces inst facts c -> wf (dag c).
  Proof.
    intros T. pose proof (t_inv _ _ _ _ _ _ T) as I. split; [apply I|]. split; [|apply I].
    intros v [] t Ht. destruct (i_arcs _ _ _ _ _ I v t Ht) as [_ [k Hk]]. apply (i_done _ _ _ _ _ I k t Hk).
  Qed.
  Lemma roots_are_sources inst facts c rt : traces inst facts c -> In rt (roots (dag c)) -> forall w, ~ arc (dag c) w rt.
  Proof.
    intros T Hr w Hw. pose proof (t_inv _ _ _ _ _ _ T) as I. destruct (i_arcs _ _ _ _ _ I w rt Hw) as [_ [k Hk]].
    apply (i_done _ _ _ _ _ I) in Hk. tauto.
  Qed.
  Lemma sources_are_roots inst facts c v : traces inst facts c -> v < size (dag c) -> (forall w, ~ arc (dag c) w v) -> In v (roots (dag c)).
  Proof. intros T Hv Hn. destruct (t_linked _ _ _ _ _ _ T v Hv) as [|[w Hw]]; auto. destruct (Hn _ Hw). Qed.

  (** no more vertices than nodes and queries *)
  Lemma dag_size inst facts c : traces inst facts c -> size (dag c) <= length (owner g) + length facts.
  Proof.
    intros T. pose proof (t_inv _ _ _ _ _ _ T) as I.
    set (vs := flat_map (fun k => match afind k (cache c) with Some (Some v) => [v] | _ => [] end) (seq 0 (length (owner g)))).
    assert (L1 : length vs <= length (owner g)).
    { unfold vs. assert (L0 : forall l, length (flat_map (fun k => match afind k (cache c) with Some (Some v) => [v] | _ => [] end) l) <= length l).
      { induction l as [|x l IH]; cbn [flat_map length]; auto. rewrite app_length. destruct (afind x (cache c)) as [[v|]|]; cbn [length]; lia. }
      specialize (L0 (seq 0 (length (owner g)))). rewrite seq_length in L0. exact L0. }
    assert (Inc : incl (seq 0 (size (dag c))) (roots (dag c) ++ vs)).
    { intros v Hv. apply in_seq in Hv. apply in_app_iff. destruct (i_vertex _ _ _ _ _ I v) as [|[k Hk]]; [lia|auto|]. right.
      apply in_flat_map. exists k. rewrite Hk. split; [|left; auto]. apply in_seq.
      destruct (i_done _ _ _ _ _ I k v Hk) as [_ [_ B]]. rewrite (t_path _ _ _ _ _ _ T) in B.
      destruct B as [[]|(ws & prev & l & _ & _ & Sp & _)]. inversion Sp as [|x y z1 z2 [nd [Hn _]] _]; subst.
      assert (k < length (owner g)) by (apply nth_error_Some; unfold nodeAt in Hn; congruence). lia. }
    pose proof (NoDup_incl_length (seq_NoDup _ _) Inc) as Hl. rewrite seq_length, app_length in Hl.
    assert (Lr : length (roots (dag c)) = length facts) by (generalize (t_asked _ _ _ _ _ _ T); clear; induction 1; cbn; auto). lia.
  Qed.

  (** every path goes on to a vertex without successors *)
  Lemma goes_on {T} (G : pgraph T) : wf G -> acyclic G -> forall v, v < size G ->
    exists p ts, p <> [] /\ hd 0 p = v /\ consec (arc G) p /\ tagged G p ts /\ outEdges G (last p 0) = [].
  Proof.
    intros W Ac.
    assert (Wf : well_founded (fun u v => arc G v u)).
    { apply (acyclic_wf _ (size G)).
      - intros u v Hu. exact (proj1 (proj2 W) _ _ _ Hu).
      - intros x Hx. apply (Ac x). assert (K : forall a b, clos_trans _ (fun u v => arc G v u) a b -> clos_trans _ (arc G) b a)
          by (induction 1; [apply t_step|eapply t_trans]; eauto). auto. }
    intros v. induction v as [v IH] using (well_founded_ind Wf). intros Hv.
    assert (Hn : exists l, node G v = Some l).
    { unfold node. destruct (nth_error (nodes G) v) eqn:En; eauto. apply nth_error_None in En. destruct W as [W _]. unfold size in Hv. lia. }
    destruct Hn as [l Hl]. destruct (outEdges G v) as [|[[] u] es] eqn:Eo.
    - exists [v], [l]. refine (conj _ (conj eq_refl (conj Logic.I (conj _ Eo)))); [discriminate|]. repeat constructor; auto.
    - assert (Ha : arc G v u) by (unfold arc; rewrite Eo; left; auto).
      destruct (IH u Ha) as [p [ts [P1 [P2 [P3 [P4 P5]]]]]]; [exact (proj1 (proj2 W) _ _ _ Ha)|].
      destruct p as [|u' p]; [congruence|]. cbn in P2. subst u'. exists (v :: u :: p), (l :: ts).
      refine (conj _ (conj eq_refl (conj (conj Ha P3) (conj _ P5)))); [discriminate|]. constructor; auto.
  Qed.
  Lemma consec_app R : forall p q, consec R p -> consec R (last p 0 :: q) -> p <> [] -> consec R (p ++ q).
  Proof.
    induction p as [|x p IH]; intros q Hp Hq Hn; [congruence|]. destruct p as [|y p]; [exact Hq|].
    destruct Hp as [Hp1 Hp2]. split; auto. apply IH; auto. discriminate.
  Qed.
  Lemma extends {T} (G : pgraph T) p ts : wf G -> acyclic G -> p <> [] -> consec (arc G) p -> tagged G p ts ->
    exists rest, spells G (hd 0 p) (concat ts ++ rest).
  Proof.
    intros W Ac P1 P2 P3.
    assert (Lin : In (last p 0) p) by (destruct (exists_last P1) as [p' [z ->]]; rewrite last_last; apply in_app_iff; right; left; auto).
    assert (Sz : sized G) by apply W.
    destruct (goes_on G W Ac (last p 0) (tagged_lt _ _ _ _ Sz P3 Lin)) as [q [us [Q1 [Q2 [Q3 [Q4 Q5]]]]]].
    destruct q as [|z q]; [congruence|]. cbn in Q2. subst z. inversion Q4 as [|z t q' us' A B]; subst.
    exists (concat us'). apply spells_paths. exists (p ++ q), (ts ++ us').
    refine (conj _ (conj _ (conj _ (conj _ (conj _ _))))).
    - destruct p; [congruence|discriminate].
    - destruct p; [congruence|reflexivity].
    - apply consec_app; auto.
    - apply Forall2_app; auto.
    - destruct q as [|y q]; [rewrite app_nil_r; exact Q5|]. rewrite <- Q5. f_equal.
      change (last (last p 0 :: y :: q) 0) with (last (y :: q) 0).
      destruct (@exists_last _ (y :: q)) as [q0 [z E]]; [discriminate|]. rewrite E, app_assoc, !last_last. reflexivity.
    - symmetry. apply concat_app.
  Qed.

  (** ** What the reversal and the minimisation keep *)
  Record represents (inst : N) (facts : list D) (c : ctx N) (conf : config) (R : pgraph N) : Prop := mkRepr {
    e_wf : wf R;
    e_acyclic : acyclic R;
    e_sound : forall r l, In r (roots R) -> spellsBack R r l -> exists rt rest, In rt (roots (dag c)) /\
      spells (dag c) rt (rev l ++ rest) /\ (exists p ts, p <> [] /\ hd 0 p = rt /\ tagged (dag c) p ts /\ rev l = concat ts) /\
      (depthThreshold conf = None -> rest = []);
    e_complete : (forall m, depthThreshold conf = Some m -> size (dag c) <= m) -> forall rt l, In rt (roots (dag c)) ->
      spells (dag c) rt (rev l) -> exists r, In r (roots R) /\ spellsBack R r l }.

  Lemma represents_reversed inst facts c conf : traces inst facts c ->
    represents inst facts c conf (match depthThreshold conf with Some m => reverseDAG (dag c) m | None => reverseGraph (dag c) end).
  Proof.
    intros T. pose proof (traces_wf _ _ _ T) as W. pose proof (i_acyclic _ _ _ _ _ (t_inv _ _ _ _ _ _ T)) as Ac.
    assert (Hd : forall p ts, p <> [] -> tagged (dag c) p ts -> hd 0 p < size (dag c)).
    { intros p ts P1 P2. assert (Sz : sized (dag c)) by apply W. apply (tagged_lt _ _ _ _ Sz P2). destruct p; [congruence|left; auto]. }
    destruct (depthThreshold conf) as [m|] eqn:Em.
    - destruct (reverseDAG_ok (dag c) W m) as [s [dn [cut Rv]]]. constructor.
      + eapply reversed_wf; eauto.
      + eapply reversed_acyclic; eauto.
      + intros r l Hr Hl. destruct (reversed_sound _ _ _ _ _ _ _ _ Rv Hl) as [p [ts [P1 [P2 [P3 [P4 P5]]]]]].
        destruct (extends (dag c) p ts W Ac P1 P3 P4) as [rest Hs]. exists (hd 0 p), rest. rewrite P5.
        refine (conj P2 (conj Hs (conj _ _))); [exists p, ts; auto|congruence].
      + intros Hm rt l Hr Hl. eapply reversed_complete; eauto. eapply roots_are_sources; eauto.
    - destruct (reverseGraph_spec (dag c) W) as [R1 [R2 [R3 [R4 R5]]]]. constructor; auto.
      + intros x Hx. apply (Ac x). assert (K : forall a b, clos_trans _ (arc (reverseGraph (dag c))) a b -> clos_trans _ (arc (dag c)) b a).
        { induction 1 as [a b Hab|a b d _ IH1 _ IH2]; [apply t_step, R3; auto|eapply t_trans; eauto]. }
        auto.
      + intros r l Hr Hl. destruct (proj1 (reverseGraph_reads (dag c) l W)) as [v [Hv Hs]]; [exists r; auto|].
        exists v, []. rewrite app_nil_r. pose proof Hs as Hs'. apply spells_paths in Hs'.
        destruct Hs' as [p [ts [P1 [P2 [P3 [P4 [P5 P6]]]]]]].
        refine (conj _ (conj Hs (conj _ (fun _ => eq_refl)))); [|exists p, ts; auto].
        eapply sources_are_roots; eauto. subst v. eauto.
      + intros _ rt l Hr Hl. apply (reverseGraph_reads (dag c) l W). exists rt. split; auto. eapply roots_are_sources; eauto.
  Qed.

  Lemma minimized_acyclic {T} `{EqDec T} (R : pgraph T) fuel M : wf R -> acyclic R -> minimized fuel R = Some M ->
    wf M /\ acyclic M /\ (forall r, In r (roots R) -> exists r', In r' (roots M) /\ sameReadings R r M r') /\
    (forall r', In r' (roots M) -> exists r, In r (roots R) /\ sameReadings R r M r').
  Proof.
    intros W Ac Em. destruct (minimized_ok R W) as (f0 & ec & M' & B & _ & _ & C0 & C1 & C2 & C3 & C4 & C5 & _).
    assert (M' = M) as ->.
    { specialize (C0 (fuel + f0) ltac:(lia)). rewrite (minimized_more _ _ f0 _ Em) in C0. congruence. }
    refine (conj C1 (conj _ (conj _ _))).
    - intros x Hx. assert (Sz : sized M) by apply C1. destruct (cycle_reads M Sz (size R) x Hx) as [n [ws [E Hr]]].
      assert (Lx : x < size M) by (apply clos_trans_t1n in Hx; inversion Hx; eapply arc_lt; eauto).
      destruct (C5 x Lx) as [v Hb]. destruct (C2 _ _ Hb) as [_ [_ [Sm _]]]. apply Sm in Hr.
      assert (SzR : sized R) by apply W. pose proof (reads_bound R SzR Ac _ _ _ Hr). lia.
    - intros r Hr. destruct (C3 r Hr) as [r' [A D']]. exists r'. split; auto. apply C2; auto.
    - intros r Hr. destruct (C4 r Hr) as [r' [A D']]. exists r'. split; auto. apply C2; auto.
  Qed.
  Lemma same_spellsBack {T} (R M : pgraph T) r r' l : sameReadings R r M r' -> spellsBack R r l <-> spellsBack M r' l.
  Proof. intros [_ A]. unfold spellsBack. split; intros [n [ws [B C]]]; exists n, ws; split; auto; apply A; auto. Qed.

  Lemma represents_minimized inst facts c conf R fuel M : represents inst facts c conf R -> minimized fuel R = Some M ->
    represents inst facts c conf M.
  Proof.
    intros [E1 E2 E3 E4] Em. destruct (minimized_acyclic R fuel M E1 E2 Em) as [W [Ac [A B]]]. constructor; auto.
    - intros r l Hr Hl. destruct (B r Hr) as [r0 [Hr0 Sm]]. apply (E3 r0); auto. apply (same_spellsBack _ _ _ _ _ Sm); auto.
    - intros Hm rt l Hr Hl. destruct (E4 Hm rt l Hr Hl) as [r [Hr' Hl']]. destruct (A r Hr') as [r' [Hi Sm]].
      exists r'. split; auto. apply (same_spellsBack _ _ _ _ _ Sm); auto.
  Qed.

  Lemma assertIsDAG_false {T} (G : pgraph T) fuel : assertIsDAG fuel G = Some false -> exists x, clos_trans _ (arc G) x x.
  Proof.
    unfold assertIsDAG. generalize (@nil nat). induction (roots G) as [|r rs IH]; intros vis; cbn [assertRoots]; [discriminate|].
    destruct (doAssertIsDAG fuel G [] vis r) as [[[] vis']|] eqn:E; [apply IH| |discriminate]. intros _.
    destruct (assert_false G fuel [] vis r vis' (fun p Hp => match Hp with end) E) as [x [_ X]]. eauto.
  Qed.
  Lemma checked_paths {T} (G : pgraph T) fuel : acyclic G -> checked fuel G = Paths G \/ checked fuel G = OutOfFuel.
  Proof.
    intros Ac. unfold checked. destruct (assertIsDAG fuel G) as [[]|] eqn:E; auto. exfalso.
    destruct (assertIsDAG_false _ _ E) as [x Hx]. exact (Ac x Hx).
  Qed.
  Lemma checked_ends {T} (G : pgraph T) fuel : acyclic G -> wf G -> size G < fuel -> checked fuel G = Paths G.
  Proof.
    intros Ac W Hf. destruct (checked_paths G fuel Ac) as [E|E]; auto. exfalso. unfold checked in E.
    destruct (assertIsDAG_ok G fuel W Hf) as [b [Eb _]]. rewrite Eb in E. destruct b; discriminate.
  Qed.

  Lemma result_cases cf fuel inst facts conf :
    match pathsDagToAll g isEnd isErr cf fuel inst facts conf with
    | Circle => False
    | Paths R => exists c, tracePaths g isEnd isErr cf fuel inst facts emptyCtx = inr c /\ traces inst facts c /\ represents inst facts c conf R
    | _ => True
    end.
  Proof.
    unfold pathsDagToAll. destruct (tracePaths g isEnd isErr cf fuel inst facts emptyCtx) as [o|c] eqn:Et.
    - assert (X : forall facts c o, tracePaths g isEnd isErr cf fuel inst facts c = inl o -> o = NoNode \/ o = OutOfFuel).
      { clear. induction facts as [|d facts IH]; intros c o; cbn [tracePaths]; [discriminate|]. destruct (getNodeOrNull g inst d) as [v|]; [|intros [= <-]; auto].
        destruct (pathsToImpl g isEnd isErr cf fuel inst v c) as [[rt c']|]; [apply IH|intros [= <-]; auto]. }
      destruct (X _ _ _ Et) as [->| ->]; exact Logic.I.
    - pose proof (tracePaths_ok g isEnd isErr cf fuel inst facts [] _ _ (traces_empty g isEnd isErr inst) Et) as T. cbn [app] in T.
      pose proof (i_acyclic _ _ _ _ _ (t_inv _ _ _ _ _ _ T)) as Ac.
      destruct (checked_paths (dag c) fuel Ac) as [-> | ->]; [|exact Logic.I].
      pose proof (represents_reversed inst facts c conf T) as Rp.
      set (R := match depthThreshold conf with Some m => reverseDAG (dag c) m | None => reverseGraph (dag c) end) in *.
      destruct (minimizeDAG conf); [|exists c; auto].
      destruct (minimized fuel R) as [M|] eqn:Em; [|exact Logic.I].
      pose proof (represents_minimized _ _ _ _ _ _ _ Rp Em) as Rm.
      destruct (checked_paths M fuel (e_acyclic _ _ _ _ _ Rm)) as [-> | ->]; [exists c; auto|exact Logic.I].
  Qed.

  Lemma asked_root inst facts c rt : traces inst facts c -> In rt (roots (dag c)) ->
    exists d vtx, In d facts /\ getNodeOrNull g inst d = Some vtx /\ asked g inst vtx rt c.
  Proof.
    intros T Hr. pose proof (t_asked _ _ _ _ _ _ T) as Ha. clear T. revert Hr. induction Ha as [|d r fs rs A B IH]; [intros []|].
    intros [<-|Hi]; [destruct A as [vtx [A1 A2]]; exists d, vtx; split; [left|]; auto|].
    destruct (IH Hi) as [d' [vtx [X1 X2]]]. exists d', vtx. split; [right|]; auto.
  Qed.
  Lemma fact_root inst facts c d : traces inst facts c -> In d facts ->
    exists vtx rt, In rt (roots (dag c)) /\ getNodeOrNull g inst d = Some vtx /\ asked g inst vtx rt c.
  Proof.
    intros T Hr. pose proof (t_asked _ _ _ _ _ _ T) as Ha. clear T. revert Hr. induction Ha as [|d' r fs rs A B IH]; [intros []|].
    intros [<-|Hi]; [destruct A as [vtx [A1 A2]]; exists vtx, r; split; [left|]; auto|].
    destruct (IH Hi) as [vtx [rt [X1 X2]]]. exists vtx, rt. split; [right|]; auto.
  Qed.

  (** ** The main statements *)
  Lemma result_sound cf fuel inst facts conf R : pathsDagToAll g isEnd isErr cf fuel inst facts conf = Paths R ->
    forall r l, In r (roots R) -> spellsBack R r l -> exists d vtx t rest,
      In d facts /\ getNodeOrNull g inst d = Some vtx /\ l = rev (inst :: t) /\
      (t = [] \/ traced g isEnd isErr vtx (t ++ rest)) /\ (depthThreshold conf = None -> rest = []).
  Proof.
    intros E r l Hr Hl. pose proof (result_cases cf fuel inst facts conf) as X. rewrite E in X. destruct X as [c [_ [T Rp]]].
    destruct (e_sound _ _ _ _ _ Rp r l Hr Hl) as [rt [rest [H1 [H2 [[p [ts [P1 [P2 [P3 P4]]]]] H4]]]]].
    destruct (asked_root _ _ _ _ T H1) as [d [vtx [D1 [D2 D3]]]]. destruct H2 as [n [ws [Hw Ec]]].
    destruct (root_sound _ _ _ _ _ _ _ _ _ _ T D3 Hw) as [-> Hc]. cbn [concat map app] in Ec.
    assert (Et : exists t, rev l = inst :: t).
    { destruct P3 as [|x t0 p ts A B]; [congruence|]. cbn in P2. subst x.
      rewrite (q_node _ _ _ _ _ D3) in A. injection A as <-. rewrite P4. cbn. eauto. }
    destruct Et as [t Et]. exists d, vtx, t, rest. refine (conj D1 (conj D2 (conj _ (conj _ H4)))).
    - rewrite <- Et. symmetry. apply rev_involutive.
    - rewrite Et in Ec. cbn in Ec. injection Ec as Ec. destruct Hc as [[-> Ho]|Hc].
      + left. cbn in Ec. destruct t; [auto|discriminate].
      + right. rewrite Ec. exact Hc.
  Qed.

  Lemma big_enough inst facts c (conf : config) : traces inst facts c ->
    (forall m, depthThreshold conf = Some m -> length (owner g) + length facts <= m) ->
    forall m, depthThreshold conf = Some m -> size (dag c) <= m.
  Proof. intros T Hm m Em. pose proof (dag_size _ _ _ T). specialize (Hm m Em). lia. Qed.

  Lemma result_complete cf fuel inst facts conf R : pathsDagToAll g isEnd isErr cf fuel inst facts conf = Paths R ->
    decisive g isEnd isErr -> (forall m, depthThreshold conf = Some m -> length (owner g) + length facts <= m) ->
    forall d vtx s vs t, In d facts -> getNodeOrNull g inst d = Some vtx -> start g vtx s -> btrace g isEnd isErr s vs ->
      spelled g s vs t -> (forall x, In x (s :: vs) -> ~ onCycle g x) ->
      exists r, In r (roots R) /\ spellsBack R r (rev (inst :: t)).
  Proof.
    intros E Hd Hm d vtx s vs t D1 D2 Hs Hb Ht Hc. pose proof (result_cases cf fuel inst facts conf) as X. rewrite E in X.
    destruct X as [c [_ [T Rp]]]. destruct (fact_root _ _ _ _ T D1) as [vtx' [rt [R1 [R2 R3]]]]. rewrite D2 in R2. injection R2 as <-.
    apply (e_complete _ _ _ _ _ Rp (big_enough _ _ _ _ T Hm) rt); auto. rewrite rev_involutive.
    destruct (q_handled _ _ _ _ _ R3 s Hs) as [x [X1 X2]].
    destruct (node_complete _ _ _ _ _ _ T Hd (S (length vs)) vs s x (Nat.lt_succ_diag_r _) Hb Hc X1) as (v & n & ws & -> & V1 & V2).
    destruct X2 as [X2|[u [X2 X3]]]; [discriminate|]. injection X2 as <-.
    assert (t = concat (n :: map snd ws)) as ->.
    { clear - Ht V2. unfold spelled in *. revert Ht V2. generalize (s :: vs) (concat (n :: map snd ws)). intros ks. revert t.
      induction ks as [|k ks IH]; intros t u A B; inversion A as [|x y xs ys A1 A2]; inversion B as [|x' y' xs' ys' B1 B2]; subst; auto.
      f_equal; [|apply IH; auto]. destruct A1 as [nd [Q1 Q2]], B1 as [nd' [Q3 Q4]]. congruence. }
    exists [inst], ((tt, n) :: ws). split; [|reflexivity]. cbn [readsAll]. split; [exact (q_node _ _ _ _ _ R3)|]. exists v. auto.
  Qed.

  Lemma result_found cf fuel inst facts conf R : pathsDagToAll g isEnd isErr cf fuel inst facts conf = Paths R ->
    (forall m, depthThreshold conf = Some m -> length (owner g) + length facts <= m) ->
    forall d vtx t, In d facts -> getNodeOrNull g inst d = Some vtx -> traced g isEnd isErr vtx t ->
    exists d' vtx' t' r, In d' facts /\ getNodeOrNull g inst d' = Some vtx' /\ traced g isEnd isErr vtx' t' /\
      In r (roots R) /\ spellsBack R r (rev (inst :: t')).
  Proof.
    intros E Hm d vtx t D1 D2 [s [vs [Hs [Hb Ht]]]]. pose proof (result_cases cf fuel inst facts conf) as X. rewrite E in X.
    destruct X as [c [_ [T Rp]]]. pose proof (traces_wf _ _ _ T) as W.
    pose proof (i_acyclic _ _ _ _ _ (t_inv _ _ _ _ _ _ T)) as Ac.
    destruct (Forall_Exists_dec (fun rt => outEdges (dag c) rt = []) ltac:(intros x; cbn beta; destruct (outEdges (dag c) x); [left; auto|right; intros X; discriminate X])
      (roots (dag c))) as [Hf|Hx].
    - exfalso. rewrite Forall_forall in Hf. destruct (fact_root _ _ _ _ T D1) as [vtx' [rt [R1 [R2 R3]]]]. rewrite D2 in R2. injection R2 as <-.
      destruct (q_handled _ _ _ _ _ R3 s Hs) as [x [X1 X2]].
      exact (nothing_traced _ _ _ _ _ _ T Hf (S (length vs)) vs s x (Nat.lt_succ_diag_r _) X1 Hb).
    - apply Exists_exists in Hx. destruct Hx as [rt [Hr Ho]]. destruct (asked_root _ _ _ _ T Hr) as [d' [vtx' [Q1 [Q2 Q3]]]].
      destruct (goes_on (dag c) W Ac rt (proj2 (proj2 W) rt Hr)) as [p [ts [P1 [P2 [P3 [P4 P5]]]]]].
      assert (Sp : spells (dag c) rt (concat ts)) by (apply spells_paths; exists p, ts; auto 7).
      destruct Sp as [n [ws [Hw Ec]]]. destruct (root_sound _ _ _ _ _ _ _ _ _ _ T Q3 Hw) as [-> [[-> Ho']|Hc]]; [destruct (Ho Ho')|].
      exists d', vtx', (concat (map snd ws)).
      destruct (e_complete _ _ _ _ _ Rp (big_enough _ _ _ _ T Hm) rt (rev (inst :: concat (map snd ws))) Hr) as [r [R1 R2]].
      { rewrite rev_involutive. exists [inst], ws. auto. }
      exists r. auto.
  Qed.

  Lemma result_ends inst facts conf : inRange g -> (forall k, k < length (owner g) -> settles g k) ->
    (forall d, In d facts -> getNodeOrNull g inst d <> None) ->
    exists cf0 fuel0 R, forall cf fuel, cf0 <= cf -> fuel0 <= fuel -> pathsDagToAll g isEnd isErr cf fuel inst facts conf = Paths R.
  Proof.
    intros Hr Hs Hd. destruct (chain_uniform g isEnd isErr Hr Hs) as [cf0 Hcf].
    set (f1 := S (length (owner g) + length facts)).
    destruct (tracePaths_term g isEnd isErr Hr cf0 f1 inst ltac:(intros k tags Hk; apply Hcf; lia) ltac:(unfold f1; lia) facts emptyCtx Hd) as [c Et].
    pose proof (tracePaths_ok g isEnd isErr cf0 f1 inst facts [] _ _ (traces_empty g isEnd isErr inst) Et) as T. cbn [app] in T.
    pose proof (i_acyclic _ _ _ _ _ (t_inv _ _ _ _ _ _ T)) as Ac. pose proof (traces_wf _ _ _ T) as W.
    pose proof (dag_size _ _ _ T) as Sz. pose proof (represents_reversed inst facts c conf T) as Rp.
    set (R0 := match depthThreshold conf with Some m => reverseDAG (dag c) m | None => reverseGraph (dag c) end) in *.
    assert (X : exists fuel1 R, pathsDagToAll g isEnd isErr cf0 fuel1 inst facts conf = Paths R).
    { destruct (minimized_ok R0 (e_wf _ _ _ _ _ Rp)) as (f2 & ec & M & B & _ & _ & C0 & C1 & _).
      exists (f1 + f2 + S (size M)).
      unfold pathsDagToAll. replace cf0 with (cf0 + 0) by lia. replace (f1 + f2 + S (size M)) with (f1 + (f2 + S (size M))) by lia.
      rewrite (tracePaths_more g isEnd isErr _ 0 _ (f2 + S (size M)) _ _ _ _ Et).
      rewrite checked_ends; auto; [|unfold f1; lia]. fold R0. destruct (minimizeDAG conf); [|eauto].
      pose proof (C0 (f1 + (f2 + S (size M))) ltac:(lia)) as Em. rewrite Em.
      pose proof (represents_minimized _ _ _ _ _ _ _ Rp Em) as Rm. exists M. apply checked_ends; [apply Rm|apply Rm|lia]. }
    destruct X as [fuel1 [R HR]]. exists cf0, fuel1, R. intros cf fuel H1 H2.
    replace cf with (cf0 + (cf - cf0)) by lia. replace fuel with (fuel1 + (fuel - fuel1)) by lia. apply paths_more. exact HR.
  Qed.
End Results.

(** ** Graphs that were built by saveEdges *)
Section Built.
  Context {N D B : Type} `{EqDec N} `{EqDec D} `{EqDec B}.
  Variable blockOf : N -> B.
  Variable zero : D.

  Lemma inRange_saved g predId m e s d b g' : inRange g -> (forall p, predId = Some p -> p < length (owner g)) ->
    saved blockOf zero g predId m e s d b g' -> inRange g' /\ length (owner g) <= length (owner g').
  Proof.
    intros [R1 R2] Hp Sv.
    assert (New : forall pr M, (forall p, pr = Some p -> p < length (owner g)) ->
      (forall x k, afind x M = Some k -> k <= length (owner g)) ->
      inRange (mkESG (owner g ++ [mkNode d m pr []]) M)).
    { intros pr M Hpr Hm. split; cbn [owner]; rewrite app_length; cbn [length].
      - intros k nd Hk. rewrite nodeAt_snoc in Hk. destruct (k =? length (owner g)).
        + injection Hk as <-. cbn [pred neighbors]. split; [intros p E; specialize (Hpr p E); lia|intros q []].
        + destruct (R1 k nd Hk) as [A C]. split; intros x Hx; [specialize (A x Hx)|specialize (C x Hx)]; lia.
      - intros n d' k Hk. unfold getNodeOrNull in Hk. cbn [vertexMap] in Hk. specialize (Hm _ _ Hk). lia. }
    assert (Old : forall x k, afind x (vertexMap g) = Some k -> k <= length (owner g)).
    { intros [n d'] k Hk. specialize (R2 n d' k Hk). lia. }
    assert (Set1 : forall (M : list ((N * D) * nat)) x, (forall x k, afind x M = Some k -> k <= length (owner g)) ->
      forall y k, afind y (aset x (length (owner g)) M) = Some k -> k <= length (owner g)).
    { intros M x Hm y k. rewrite afind_aset. destruct (eq_dec _ _); [intros [= <-]; lia|apply Hm]. }
    destruct Sv as [p _ _|p k _ _|p nd Ep _ Hn _ _ _|_|k _ _|k nd Hk Hn Hpn _|k nd q _ _ _ _ _|k nd q Hk Hn Hq _].
    - split; [|cbn [owner]; rewrite app_length; lia]. apply New; [discriminate|]. apply Set1, Old.
    - split; [split|]; auto.
    - split; [|cbn; lia]. split; [exact R1|]. intros n d' k Hk. unfold getNodeOrNull, setVertex in Hk. cbn [vertexMap] in Hk.
      rewrite afind_aset in Hk. cbn [setVertex owner]. destruct (eq_dec _ _); [injection Hk as <-; auto|apply (R2 n d' k Hk)].
    - split; [|cbn [owner]; rewrite app_length; lia]. apply New; auto. apply Set1. destruct predId; [exact Old|apply Set1, Old].
    - split; [split|]; auto.
    - split; [|cbn [owner]; rewrite length_updAt; lia]. split; cbn [owner]; rewrite length_updAt.
      + intros i nd' Hi. unfold nodeAt in Hi. cbn [owner] in Hi. rewrite nth_updAt in Hi. destruct (i =? k); [|apply (R1 i nd' Hi)].
        destruct (nth_error (owner g) i) as [nd0|] eqn:E; [|discriminate]. injection Hi as <-. cbn [pred neighbors].
        split; auto. apply (R1 i nd0 E).
      + exact R2.
    - split; [split|]; auto.
    - assert (X : inRange (mkESG (owner g ++ [mkNode d m predId []])
        (match predId with None => aset (m, e) (length (owner g)) (vertexMap g) | Some _ => vertexMap g end))).
      { apply New; auto. destruct predId; [exact Old|apply Set1, Old]. }
      split; [|cbn [owner]; rewrite length_updAt, app_length; lia].
      destruct X as [X1 X2]. cbn [owner] in X1, X2. split; cbn [owner]; rewrite length_updAt; [|exact X2].
      intros i nd' Hi. unfold nodeAt in Hi. cbn [owner] in Hi. rewrite nth_updAt in Hi. destruct (i =? k); [|apply (X1 i nd' Hi)].
      destruct (nth_error (owner g ++ _) i) as [nd0|] eqn:E; [|discriminate]. injection Hi as <-. cbn [pred neighbors].
      destruct (X1 i nd0 E) as [A C]. split; auto. intros x Hx. apply in_app_iff in Hx. destruct Hx as [Hx|[<-|[]]]; auto.
      rewrite app_length. cbn. lia.
  Qed.
  Lemma inRange_saveAll predId m e s sk : forall ds g g', inRange g -> (forall p, predId = Some p -> p < length (owner g)) ->
    saveAll blockOf zero g predId m e s ds sk = Some g' -> inRange g'.
  Proof.
    induction ds as [|d ds IH]; intros g g' R Hp; cbn [saveAll]; [intros [= <-]; auto|].
    destruct (saveEdge _ _ _ _ _ _ _ _ _) as [g1|] eqn:E; [|discriminate]. apply saveEdge_saved in E.
    destruct (inRange_saved _ _ _ _ _ _ _ _ R Hp E) as [R1 L1]. apply IH; auto. intros p Ep. specialize (Hp p Ep). lia.
  Qed.
  Lemma inRange_build : forall cs g g', inRange g -> build blockOf zero g cs = Some g' -> inRange g'.
  Proof.
    induction cs as [|c cs IH]; intros g g' R; cbn [build]; [intros [= <-]; auto|].
    destruct (saveEdges _ _ _ _) as [g1|] eqn:E; [|discriminate]. apply IH. unfold saveEdges in E.
    apply inRange_saveAll in E; auto. intros p Hp. exact (proj2 R _ _ _ Hp).
  Qed.
  Lemma inRange_built cs g : build blockOf zero emptyESG cs = Some g -> inRange g.
  Proof.
    apply inRange_build. split; [intros [|k] nd; discriminate|intros n d k; discriminate].
  Qed.
End Built.

(** ** Without filter *)
Definition never (k : nat) (q : option nat) : bool := false.
Section NoFilter.
  Context {N D : Type}.
  Variable g : esg N D.

  Lemma never_decisive : decisive g never never.
  Proof.
    intros k q [nd [Hn Hm]] [[nd' [p [Hn' [Hp _]]]] _]. rewrite Hn in Hn'. injection Hn' as <-. rewrite Hp in Hm.
    destruct Hm as [Hm|[pd [q' [_ [_ [_ Hm]]]]]]; discriminate.
  Qed.
  Lemma btrace_trace : forall vs k l, btrace g never never k vs -> spelled g k vs l -> trace g k l.
  Proof.
    induction vs as [|q vs IH]; intros k l Hb Hs; inversion Hs as [|x y xs ys [nd [Hn Hsr]] Hs']; subst.
    - inversion Hs'; subst. destruct Hb as [nd' [Hn' Hm]]. rewrite Hn in Hn'. injection Hn' as <-. destruct (pred nd) as [p|] eqn:Ep.
      + destruct Hm as [Hm|[pd [q [_ [_ [_ Hm]]]]]]; discriminate.
      + apply (trace_end g k nd); auto.
    - destruct Hb as [[[nd' [p [Hn' [Hp Hq]]]] _] Hb]. rewrite Hn in Hn'. injection Hn' as <-.
      destruct Hq as [->|[pd [Hpd Hq]]]; [apply (trace_pred g k nd p)|apply (trace_neighbor g k nd p pd q)]; auto.
  Qed.
  Lemma trace_btrace k l : trace g k l -> exists vs, btrace g never never k vs /\ spelled g k vs l.
  Proof.
    induction 1 as [k nd Hk Hp|k nd p l Hk Hp Ht [vs [A C]]|k nd p pd q l Hk Hp Hpd Hq Ht [vs [A C]]].
    - exists []. split; [exists nd; rewrite Hp; auto|]. repeat constructor. exists nd. auto.
    - exists (p :: vs). split; [split; auto; refine (conj _ (conj eq_refl eq_refl)); exists nd, p; auto|].
      constructor; auto. exists nd. auto.
    - exists (q :: vs). split; [split; auto; refine (conj _ (conj eq_refl eq_refl)); exists nd, p; eauto 7|].
      constructor; auto. exists nd. auto.
  Qed.
  Lemma traced_never k l : traced g never never k l <-> traceOf g k l.
  Proof.
    split.
    - intros [s [vs [[->|[nd [Hn Hs]]] [Hb Hl]]]]; [left|right; exists nd, s; refine (conj Hn (conj Hs _))]; eapply btrace_trace; eauto.
    - intros [Ht|[nd [q [Hn [Hq Ht]]]]]; destruct (trace_btrace _ _ Ht) as [vs [A C]]; [exists k, vs|exists q, vs];
        refine (conj _ (conj A C)); [left; auto|right; eauto].
  Qed.
End NoFilter.
