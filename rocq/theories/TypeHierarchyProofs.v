(** Proofs about the type hierarchy model. *)
From Coq Require Import String List Bool Arith Lia Relations Permutation.
From Verif Require Import Assoc TypeHierarchyModel TypeHierarchySpec.
Import ListNotations.

Definition edge (e : list (nat * nat)) (a b : nat) : Prop := In (a, b) e.

Lemma compose_In k e i j : In (i, j) (compose k e) <-> In (i, k) e /\ In (k, j) e.
Proof.
  unfold compose. rewrite in_flat_map. split.
  - intros [[a b] [H1 H2]]. cbn [fst snd] in H2. destruct (eqb b k) eqn:E; [|now elim H2].
    apply eqb_eq in E. subst b. apply in_map_iff in H2. destruct H2 as [[c d] [X Y]]. cbn in X.
    apply filter_In in Y. destruct Y as [Y1 Y2]. apply eqb_eq in Y2. cbn in Y2. subst c. injection X as -> ->. auto.
  - intros [H1 H2]. exists (i, k). split; [exact H1|]. cbn [fst snd]. rewrite eqb_refl. apply in_map_iff.
    exists (k, j). split; [reflexivity|]. apply filter_In. split; [exact H2|]. apply eqb_refl.
Qed.

Lemma ct_iff (R R' : nat -> nat -> Prop) : (forall a b, R a b <-> R' a b) -> forall x y, clos_trans nat R x y <-> clos_trans nat R' x y.
Proof.
  intros H x y. split; intros K; induction K; try (eapply t_trans; eassumption); apply t_step; now apply H.
Qed.

Definition through (k : nat) (e : list (nat * nat)) : Prop :=
  forall i j, In (i, k) e -> In (k, j) e -> In (i, j) e.

Lemma warshall_incl vs e p : In p e -> In p (warshall vs e).
Proof.
  unfold warshall. revert e. induction vs as [|k vs IH]; intros e H; cbn [fold_left]; [exact H|].
  apply IH. apply in_or_app. now left.
Qed.

Lemma through_step k m e : through m e -> through m (e ++ compose k e).
Proof.
  intros T i j H1 H2. apply in_app_or in H1. apply in_app_or in H2. apply in_or_app.
  rewrite compose_In in *.
  destruct H1 as [H1|[H1 H1']]; destruct H2 as [H2|[H2 H2']].
  - left. eapply T; eauto.
  - right. split; [eapply T; eauto|exact H2'].
  - right. split; [exact H1|eapply T; eauto].
  - right. auto.
Qed.

Lemma through_self k e : through k (e ++ compose k e).
Proof.
  intros i j H1 H2. apply in_app_or in H1. apply in_app_or in H2. apply in_or_app.
  rewrite compose_In in *. right. split; [destruct H1 as [H1|[H1 _]]|destruct H2 as [H2|[_ H2]]]; assumption.
Qed.

Lemma warshall_through vs e m : In m vs \/ through m e -> through m (warshall vs e).
Proof.
  unfold warshall. revert e. induction vs as [|k vs IH]; intros e H; cbn [fold_left].
  - destruct H as [[]|H]; exact H.
  - apply IH. destruct H as [[-> |H]|H].
    + right. apply through_self.
    + now left.
    + right. now apply through_step.
Qed.

Lemma warshall_sound vs e i j : In (i, j) (warshall vs e) -> clos_trans nat (edge e) i j.
Proof.
  unfold warshall.
  assert (G : forall vs e', (forall i j, In (i, j) e' -> clos_trans nat (edge e) i j) ->
     forall i j, In (i, j) (fold_left (fun e k => e ++ compose k e) vs e') -> clos_trans nat (edge e) i j).
  { clear. intros vs. induction vs as [|k vs IH]; intros e' He i j H; cbn [fold_left] in H; [now apply He|].
    apply (IH (e' ++ compose k e')); [|exact H]. intros a b Hab. apply in_app_or in Hab. destruct Hab as [Hab|Hab]; [now apply He|].
    apply compose_In in Hab. destruct Hab. eapply t_trans; eauto. }
  apply G. intros a b H. now apply t_step.
Qed.

Lemma warshall_ok vs e (HV : forall a b, In (a, b) e -> In b vs) i j :
  In (i, j) (warshall vs e) <-> clos_trans nat (edge e) i j.
Proof.
  split; [apply warshall_sound|].
  intros H. apply clos_trans_tn1 in H. induction H as [b H|b c H _ IH].
  - now apply warshall_incl.
  - destruct (in_dec Nat.eq_dec b vs) as [V|V].
    + apply (warshall_through vs e b (or_introl V)); [exact IH|]. now apply warshall_incl.
    + assert (B : In b vs); [|now elim V].
      clear - IH HV. apply warshall_sound in IH. apply clos_trans_tn1 in IH. destruct IH; eauto.
Qed.

(** maps filled by a loop *)
Lemma fold_aset_find {A V} (key : A -> string) (val : A -> V) (test : A -> bool) l k v m0 :
  afind k (fold_left (fun m x => if test x then aset (key x) (val x) m else m) l m0) = Some v ->
  afind k m0 = Some v \/ exists x, In x l /\ test x = true /\ key x = k /\ val x = v.
Proof.
  revert m0. induction l as [|x l IH]; intros m0 H; cbn [fold_left] in H; [now left|].
  apply IH in H. destruct H as [H|[y [Y1 Y2]]]; [|right; exists y; split; [now right|exact Y2]].
  destruct (test x) eqn:T; [|now left]. rewrite afind_aset in H. destruct (eq_dec k (key x)) as [->|N].
  - right. exists x. injection H as <-. split; [now left|auto].
  - now left.
Qed.

Lemma fold_aset_has {A V} (key : A -> string) (val : A -> V) (test : A -> bool) l x m0 :
  (forall y, In y l -> test y = true -> key y = key x -> val y = val x) ->
  In x l -> test x = true ->
  afind (key x) (fold_left (fun m x => if test x then aset (key x) (val x) m else m) l m0) = Some (val x).
Proof.
  intros HU HI HT.
  assert (G : forall l m0, (forall y, In y l -> test y = true -> key y = key x -> val y = val x) ->
    (In x l \/ afind (key x) m0 = Some (val x)) ->
    afind (key x) (fold_left (fun m x => if test x then aset (key x) (val x) m else m) l m0) = Some (val x)).
  { clear - HT. induction l as [|y l IH]; intros m0 HU H; cbn [fold_left].
    - destruct H as [[]|H]; exact H.
    - apply IH; [intros z Hz; apply HU; now right|]. destruct H as [[-> |H]|H].
      + right. rewrite HT. apply afind_aset_eq.
      + now left.
      + right. destruct (test y) eqn:T; [|exact H]. rewrite afind_aset.
        destruct (eq_dec (key x) (key y)) as [E|N]; [|exact H]. f_equal. apply HU; auto. now left. }
  apply G; auto.
Qed.

(** vertices *)
Lemma addVertices ts h : (forall t, In t (tVerts h) -> afind t (tReach h) = Some [t]) ->
  let h' := fold_left addVertex ts h in
  (forall t, In t (tVerts h') <-> In t (tVerts h) \/ In t ts)
  /\ tEdges h' = tEdges h
  /\ (forall t, In t (tVerts h') -> afind t (tReach h') = Some [t])
  /\ (NoDup (tVerts h) -> NoDup (tVerts h')).
Proof.
  revert h. induction ts as [|t ts IH]; intros h H; cbn [fold_left].
  - cbn. split; [intros; tauto|]. auto.
  - assert (H' : forall x, In x (tVerts (addVertex h t)) -> afind x (tReach (addVertex h t)) = Some [x]).
    { unfold addVertex. destruct (mem t (tVerts h)) eqn:M; [exact H|]. cbn [tVerts tReach]. intros x X.
      rewrite afind_aset. destruct (eq_dec x t) as [->|N]; [reflexivity|]. apply H. apply in_app_or in X.
      destruct X as [X|[->|[]]]; [exact X|now elim N]. }
    destruct (IH _ H') as [I1 [I2 [I3 I4]]]. cbn zeta. split; [|split; [|split; [exact I3|]]].
    + intros x. rewrite I1. unfold addVertex. destruct (mem t (tVerts h)) eqn:M.
      * apply mem_true in M. cbn [In]. split; [intros [X|X]; auto|intros [X|[<-|X]]; auto].
      * cbn [tVerts In]. rewrite in_app_iff. cbn [In]. tauto.
    + rewrite I2. unfold addVertex. now destruct (mem t (tVerts h)).
    + intros ND. apply I4. unfold addVertex. destruct (mem t (tVerts h)) eqn:M; [exact ND|]. cbn [tVerts].
      apply mem_false in M. now apply NoDup_app_single.
Qed.

Lemma addEdge_fold t bs h :
  let h' := fold_left (fun h b => addEdge b t h) bs h in
  (forall u v, In (u, v) (tEdges h') <-> In (u, v) (tEdges h) \/ (v = t /\ In u bs))
  /\ tVerts h' = tVerts h /\ tReach h' = tReach h.
Proof.
  revert h. induction bs as [|b bs IH]; intros h; cbn [fold_left].
  - cbn. split; [intros; tauto|auto].
  - destruct (IH (addEdge b t h)) as [I1 [I2 I3]]. cbn zeta. split; [|rewrite I2, I3; auto].
    intros u v. rewrite I1. unfold addEdge. cbn [tEdges In]. rewrite In_sinsert. split.
    + intros [[X|X]|[X Y]]; [injection X as -> ->; auto|auto|auto].
    + intros [X|[-> [->|X]]]; auto.
Qed.

(** cached reachable types *)
Lemma addReach_In v t r x y : In y (afindd [] x (addReach v t r)) <-> In y (afindd [] x r) \/ (x = v /\ y = t).
Proof.
  unfold addReach, afindd. rewrite afind_aset. destruct (eq_dec x v) as [->|N].
  - rewrite In_sinsert. destruct (afind v r); cbn; tauto.
  - split; [auto|intros [H|[H _]]; [exact H|now elim N]].
Qed.

Lemma reach_inner v tc r x y : In y (afindd [] x (fold_left (fun r e => if eqb (fst e) v then addReach v (snd e) r else r) tc r))
  <-> In y (afindd [] x r) \/ (x = v /\ In (v, y) tc).
Proof.
  revert r. induction tc as [|[a b] tc IH]; intros r; cbn [fold_left]; [cbn; tauto|].
  rewrite IH. cbn [fst snd]. destruct (eqb a v) eqn:E.
  - apply eqb_eq in E. subst a. rewrite addReach_In. cbn [In]. split.
    + intros [[H|[-> ->]]|[-> H]]; auto.
    + intros [H|[-> [H|H]]]; [auto| |auto]. injection H as ->. auto.
  - apply eqb_false in E. cbn [In]. split.
    + intros [H|[-> H]]; auto.
    + intros [H|[-> [H|H]]]; [auto| |auto]. injection H as -> _. now elim E.
Qed.

Lemma reach_outer tc vs r x y : In y (afindd [] x (fold_left (fun r v => fold_left (fun r e => if eqb (fst e) v then addReach v (snd e) r else r) tc r) vs r))
  <-> In y (afindd [] x r) \/ (In x vs /\ In (x, y) tc).
Proof.
  revert r. induction vs as [|v vs IH]; intros r; cbn [fold_left]; [cbn; tauto|].
  rewrite IH, reach_inner. cbn [In]. split.
  - intros [[H|[-> H]]|[H K]]; auto.
  - intros [H|[[<-|H] K]]; auto.
Qed.

Lemma reach_keys tc vs r : NoDup (akeys r) -> NoDup (akeys (fold_left (fun r v => fold_left (fun r e => if eqb (fst e) v then addReach v (snd e) r else r) tc r) vs r)).
Proof.
  revert r. induction vs as [|v vs IH]; intros r H; cbn [fold_left]; [exact H|]. apply IH. clear - H.
  revert r H. induction tc as [|e tc IH]; intros r H; cbn [fold_left]; [exact H|]. apply IH.
  destruct (eqb (fst e) v); [|exact H]. now apply NoDup_aset.
Qed.

Section P.
  Variable nm : nat -> string.
  Variable demangle : string -> string.
  Notation typeMap := (typeMap nm).
  Notation tiMap := (tiMap demangle).
  Notation clearType := (clearType nm).
  Notation clearTI := (clearTI demangle).
  Notation referencedTypes := (referencedTypes nm demangle).
  Notation constructHierarchy := (constructHierarchy nm demangle).
  Notation build := (build nm demangle).

  Lemma typeMap_eq ts : typeMap ts = fold_left (fun m t => if (fun _ => true) t then aset (clearType t) t m else m) ts [].
  Proof. reflexivity. Qed.

  Lemma typeMap_find ts n t : afind n (typeMap ts) = Some t -> In t ts /\ clearType t = n.
  Proof.
    rewrite typeMap_eq. intros H. apply (fold_aset_find clearType (fun t => t) (fun _ => true)) in H.
    destruct H as [H|[x [H1 [_ [H2 <-]]]]]; [discriminate|auto].
  Qed.

  Lemma typeMap_has ts t : (forall u, In u ts -> clearType u = clearType t -> u = t) -> In t ts -> afind (clearType t) (typeMap ts) = Some t.
  Proof.
    intros U H. rewrite typeMap_eq. apply (fold_aset_has clearType (fun t => t) (fun _ => true)); auto.
  Qed.

  Lemma tiMap_find gs n g : afind n (tiMap gs) = Some g -> In g gs /\ isEmpty (gName g) = false /\ isTypeInfo demangle (gName g) = true /\ clearTI (gName g) = n.
  Proof.
    intros H. apply (fold_aset_find (fun g => clearTI (gName g)) (fun g => g) (fun g => negb (isEmpty (gName g)) && isTypeInfo demangle (gName g))) in H.
    destruct H as [H|[x [H1 [H2 [H3 <-]]]]]; [discriminate|]. apply andb_true_iff in H2. destruct H2 as [H2 H4].
    apply negb_true_iff in H2. auto.
  Qed.

  Lemma tiMap_has gs g : isEmpty (gName g) = false -> isTypeInfo demangle (gName g) = true ->
    (forall y, In y gs -> isTypeInfo demangle (gName y) = true -> clearTI (gName y) = clearTI (gName g) -> y = g) ->
    In g gs -> afind (clearTI (gName g)) (tiMap gs) = Some g.
  Proof.
    intros E I U H. apply (fold_aset_has (fun g => clearTI (gName g)) (fun g => g) (fun g => negb (isEmpty (gName g)) && isTypeInfo demangle (gName g))); auto.
    - intros y Y T. apply andb_true_iff in T. destruct T. now apply U.
    - now rewrite E, I.
  Qed.

  Lemma addEdges_fold tm im ts h :
    let h' := fold_left (addEdges nm demangle tm im) ts h in
    (forall u v, In (u, v) (tEdges h') <-> In (u, v) (tEdges h) \/ (In v ts /\ In u (referencedTypes tm im v)))
    /\ tVerts h' = tVerts h /\ tReach h' = tReach h.
  Proof.
    revert h. induction ts as [|t ts IH]; intros h; cbn [fold_left].
    - cbn. split; [intros; tauto|auto].
    - destruct (IH (addEdges nm demangle tm im h t)) as [I1 [I2 I3]]. unfold addEdges in *.
      destruct (addEdge_fold t (referencedTypes tm im t) h) as [J1 [J2 J3]]. cbn zeta. split; [|split; congruence].
      intros u v. rewrite I1, J1. cbn [In]. split.
      + intros [[X|[-> X]]|[X Y]]; auto.
      + intros [X|[[<-|X] Y]]; auto.
  Qed.

  Lemma construct_ok m : let h := constructHierarchy m (mkTH [] [] []) in
    (forall t, In t (tVerts h) <-> In t (mTypes m))
    /\ (forall u v, In (u, v) (tEdges h) <-> In v (mTypes m) /\ In u (referencedTypes (typeMap (mTypes m)) (tiMap (mGlobals m)) v))
    /\ (forall t, In t (tVerts h) -> afind t (tReach h) = Some [t])
    /\ NoDup (tVerts h).
  Proof.
    unfold TypeHierarchyModel.constructHierarchy. cbn zeta.
    destruct (addVertices (mTypes m) (mkTH [] [] [])) as [A1 [A2 [A3 A4]]]; [intros t []|]. cbn zeta in *.
    destruct (addEdges_fold (typeMap (mTypes m)) (tiMap (mGlobals m)) (mTypes m) (fold_left addVertex (mTypes m) (mkTH [] [] []))) as [B1 [B2 B3]]. cbn zeta in *.
    split; [|split; [|split]].
    - intros t. rewrite B2, A1. cbn. tauto.
    - intros u v. rewrite B1, A2. cbn. tauto.
    - intros t. rewrite B2, B3. apply A3.
    - rewrite B2. apply A4. constructor.
  Qed.

  Lemma referenced_types ts im t u : In u (referencedTypes (typeMap ts) im t) -> In u ts.
  Proof.
    unfold TypeHierarchyModel.referencedTypes. destruct (afind (clearType t) im) as [g|]; [|intros []].
    destruct (gInit g) as [|ops|]; [intros []| |intros []]. rewrite in_flat_map. intros [o [_ H]].
    unfold operandType in H. destruct o as [[v|]|]; [|destruct H|destruct H].
    destruct (negb _ && _); [|destruct H]. destruct (afind _ (typeMap ts)) eqn:E; [|destruct H].
    destruct H as [<-|[]]. now apply typeMap_find in E.
  Qed.

  (** The computed hierarchy, in terms of the names found in the module. *)
  Definition refE (m : modul) (b d : nat) : Prop :=
    In d (mTypes m) /\ In b (referencedTypes (typeMap (mTypes m)) (tiMap (mGlobals m)) d).

  Lemma build_verts m t : In t (tVerts (build m)) <-> In t (mTypes m).
  Proof. destruct (construct_ok m) as [A _]. unfold TypeHierarchyModel.build, cacheReachable. cbn [tVerts]. apply A. Qed.

  Lemma build_sub m t s : In t (mTypes m) -> (In s (getSubTypes (build m) t) <-> clos_refl_trans nat (refE m) t s).
  Proof.
    intros Ht. destruct (construct_ok m) as [A [B [C D]]]. cbn zeta in *. unfold getSubTypes.
    rewrite (proj2 (mem_true t (tVerts (build m)))) by now apply build_verts.
    unfold TypeHierarchyModel.build, cacheReachable. cbn [tReach tVerts tEdges].
    set (h := constructHierarchy m (mkTH [] [] [])) in *.
    rewrite reach_outer, warshall_ok.
    - assert (R : clos_trans nat (edge (tEdges h)) t s <-> clos_trans nat (refE m) t s).
      { apply ct_iff. intros a b. unfold edge, refE. apply B. }
      rewrite R. unfold afindd. rewrite C by now apply A. cbn [In]. split.
      + intros [[<-|[]]|[_ H]]; [apply rt_refl|clear - H; induction H; [now apply rt_step|eapply rt_trans; eassumption]].
      + intros H. apply clos_rt_rt1n in H. destruct H as [|y z H H']; [now left; left|]. right.
        split; [now apply A|]. apply clos_rt1n_rt in H'. clear - H H'. apply clos_rt_rtn1 in H'. induction H' as [|a b Ha _ IH].
        * now apply t_step.
        * eapply t_trans; [exact IH|now apply t_step].
    - intros a b H. apply A. now apply B in H.
  Qed.

  Lemma build_unknown m t : ~ In t (mTypes m) -> getSubTypes (build m) t = [].
  Proof.
    intros H. unfold getSubTypes. rewrite (proj2 (mem_false t (tVerts (build m)))); [reflexivity|]. now rewrite build_verts.
  Qed.

  Lemma prefix_nonempty n : prefix "_ZTI" n = true -> isEmpty n = false.
  Proof. destruct n; [discriminate|reflexivity]. Qed.

  Lemma prefix_contains n : prefix "_ZTI" n = true -> containsStr "_ZTI" n = true.
  Proof.
    unfold containsStr. intros H. destruct n as [|a n]; [discriminate|]. cbn [index]. now rewrite H.
  Qed.

  (** Under the naming scheme the references are the direct bases. *)
  Lemma refE_direct m cls (N : named nm demangle m cls) b d : refE m b d <-> directBase m cls b d.
  Proof.
    destruct N as [NT NG NC NI NU NTI NTU NO]. unfold refE, directBase.
    assert (TI : forall g, In g (mGlobals m) -> isTypeInfo demangle (gName g) = true -> prefix "_ZTI" (gName g) = true).
    { intros g Hg H. unfold isTypeInfo in H. apply orb_true_iff in H. destruct H as [H|H]; [exact H|]. apply NTI; [now apply in_map|exact H]. }
    assert (GU : forall g g', In g (mGlobals m) -> In g' (mGlobals m) -> gName g = gName g' -> g = g').
    { clear - NG. revert NG. induction (mGlobals m) as [|x l IH]; intros ND g g' H1 H2 E; [destruct H1|].
      inversion_clear ND as [|? ? ND1 ND2]. destruct H1 as [-> |H1]; destruct H2 as [-> |H2]; auto.
      - elim ND1. rewrite E. now apply in_map.
      - elim ND1. rewrite <- E. now apply in_map. }
    split.
    - intros [Hd H]. unfold TypeHierarchyModel.referencedTypes in H. destruct (afind (clearType d) (tiMap (mGlobals m))) as [g|] eqn:F; [|destruct H].
      apply tiMap_find in F. destruct F as [F1 [F2 [F3 F4]]].
      assert (FP := TI g F1 F3). destruct (gInit g) as [|ops|] eqn:GI; [destruct H| |destruct H]. apply in_flat_map in H. destruct H as [o [Ho H]].
      unfold operandType in H. destruct o as [[v|]|]; [|destruct H|destruct H].
      destruct (negb (isEmpty (cname v)) && containsStr TypeInfoPrefix (cname v)) eqn:Q; [|destruct H].
      apply andb_true_iff in Q. destruct Q as [Q1 Q2]. destruct (afind (clearTI (cname v)) (typeMap (mTypes m))) eqn:E; [|destruct H].
      destruct H as [<-|[]]. apply typeMap_find in E. destruct E as [E1 E2].
      destruct (NO g ops v F1 GI FP Ho) as [bn [-> [B1 B2]]].
      { intros X. rewrite X in Q1. discriminate. } { exact Q2. }
      cbn [cname] in *.
      assert (CB : cls bn = Some n) by (apply NI; auto).
      exists g, bn. split; [exact F1|]. split; [apply NI; auto; now apply in_map|]. split; [|exact CB].
      exists ops. split; [exact GI|]. split; [exact Ho|]. congruence.
    - intros [g [bn [Hg [CG [[ops [GI [Ho _]]] CB]]]]].
      destruct (NC _ _ CG) as [D1 [D2 D3]]. destruct (NC _ _ CB) as [B1 [B2 B3]]. split; [exact D1|].
      assert (F : afind (clearType d) (tiMap (mGlobals m)) = Some g).
      { assert (EQ : clearTI (gName g) = clearType d) by exact D3. rewrite <- EQ.
        apply tiMap_has; auto.
        - now apply prefix_nonempty.
        - unfold isTypeInfo. change TypeInfoPrefix with "_ZTI"%string. now rewrite D2.
        - intros y Hy Ty Ey. apply GU; auto. apply NTU; auto; try (now apply in_map). }
      unfold TypeHierarchyModel.referencedTypes. rewrite F, GI. apply in_flat_map. exists (OElt (EBitCast (VGlobal bn))). split; [exact Ho|].
      unfold operandType. cbn [cname]. change TypeInfoPrefix with "_ZTI"%string.
      rewrite (prefix_nonempty bn B2), (prefix_contains bn B2). cbn [negb andb].
      assert (EQ : clearTI bn = clearType b) by exact B3. rewrite EQ. rewrite typeMap_has; [now left| |exact B1].
      intros u Hu E. now apply NU.
  Qed.

  Lemma rt_iff (R R' : nat -> nat -> Prop) : (forall a b, R a b <-> R' a b) -> forall x y, clos_refl_trans nat R x y <-> clos_refl_trans nat R' x y.
  Proof.
    intros H x y. split; intros K; induction K; try (now apply rt_refl); try (eapply rt_trans; eassumption); apply rt_step; now apply H.
  Qed.
End P.
