(** Proofs about the cycle check and the two ways to reverse a graph in
    PathDagModel. *)
From Coq Require Import List Bool Arith Lia Relations.
From Verif Require Import Assoc DFAMinimizerModel DFAMinimizerSpec PathDagModel PathDagSpec PathDagGraphs.
Import ListNotations.

Section G.
  Context {T : Type}.
  Implicit Types G : pgraph T.
  Notation wf := (@wf (list T) unit).

  Lemma Forall2_mono {A B} (P Q : A -> B -> Prop) l l' : (forall x y, P x y -> Q x y) -> Forall2 P l l' -> Forall2 Q l l'.
  Proof. intros Hi. induction 1; constructor; auto. Qed.

  (** ** assertIsDAG *)
  Definition succsOf (rec : list nat -> nat -> option (bool * list nat)) : list (unit * nat) -> list nat -> option (bool * list nat) :=
    fix succs es visited :=
      match es with
      | [] => Some (true, visited)
      | e :: es' => match rec visited (snd e) with Some (true, visited') => succs es' visited' | r => r end
      end.
  Lemma doAssert_S f G path visited v : doAssertIsDAG (S f) G path visited v =
    if mem v path then Some (false, visited)
    else if mem v visited then Some (true, visited)
    else succsOf (fun vis u => doAssertIsDAG f G (v :: path) vis u) (outEdges G v) (v :: visited).
  Proof. reflexivity. Qed.

  Definition black (vis path : list nat) (x : nat) : Prop := In x vis /\ ~ In x path.
  Record clean G (vis path : list nat) : Prop := mkClean {
    c_closed : forall x y, black vis path x -> arc G x y -> black vis path y;
    c_acyclic : forall x, black vis path x -> ~ clos_trans _ (arc G) x x;
    c_path : forall x, In x path -> In x vis }.

  Lemma closed_trans G vis path x y : clean G vis path -> black vis path x -> clos_trans _ (arc G) x y -> black vis path y.
  Proof. intros C Hx Hy. induction Hy as [x y Hxy|x y z _ IH1 _ IH2]; auto. eapply c_closed; eauto. Qed.

  Lemma assert_false G : forall f path vis v vis', (forall p, In p path -> clos_trans _ (arc G) p v) ->
    doAssertIsDAG f G path vis v = Some (false, vis') -> exists x, clos_refl_trans _ (arc G) v x /\ clos_trans _ (arc G) x x.
  Proof.
    induction f as [|f IH]; intros path vis v vis' Hp; [discriminate|]. rewrite doAssert_S.
    destruct (mem v path) eqn:Em; [apply mem_true in Em; intros _; exists v; split; [apply rt_refl|auto]|].
    destruct (mem v vis) eqn:Ev; [discriminate|]. generalize (v :: vis). clear vis Ev.
    assert (Hs : forall e, In e (outEdges G v) -> arc G v (snd e)) by (intros [[] u] He; exact He).
    revert Hs. generalize (outEdges G v). induction l as [|e l IHl]; intros Hs vis; cbn [succsOf]; [discriminate|].
    destruct (doAssertIsDAG f G (v :: path) vis (snd e)) as [[[] vis1]|] eqn:Ed; [| |discriminate].
    - apply IHl. intros; apply Hs; right; auto.
    - intros _. assert (He : arc G v (snd e)) by (apply Hs; left; auto).
      assert (Hp' : forall p, In p (v :: path) -> clos_trans _ (arc G) p (snd e)).
      { intros p [<-|Hi]; [apply t_step; auto|]. eapply t_trans; [apply Hp; auto|apply t_step; auto]. }
      destruct (IH _ _ _ _ Hp' Ed) as [x [X1 X2]].
      exists x. split; auto. eapply rt_trans; [apply rt_step; exact He|exact X1].
  Qed.
  Lemma assert_true G : forall f path vis v vis', clean G vis path ->
    doAssertIsDAG f G path vis v = Some (true, vis') -> clean G vis' path /\ incl vis vis' /\ black vis' path v.
  Proof.
    induction f as [|f IH]; intros path vis v vis' C; [discriminate|]. rewrite doAssert_S.
    destruct (mem v path) eqn:Em; [discriminate|]. apply mem_false in Em.
    destruct (mem v vis) eqn:Ev.
    { apply mem_true in Ev. intros E. injection E as <-. split; auto. split; [apply incl_refl|split; auto]. }
    apply mem_false in Ev.
    assert (Eq : forall x, black (v :: vis) (v :: path) x <-> black vis path x).
    { intros x. unfold black. cbn. split.
      - intros [[<-|A] B]; [destruct B; auto|]. split; auto.
      - intros [A B]. split; auto. intros [<-|Hi]; auto. }
    assert (C1 : clean G (v :: vis) (v :: path)).
    { destruct C as [A1 A2 A3]. constructor.
      - intros x y Hx Hy. apply Eq. apply Eq in Hx. eauto.
      - intros x Hx. apply Eq in Hx. eauto.
      - intros x [<-|Hx]; [left|right]; auto. }
    assert (K : forall es vis1 vis2, clean G vis1 (v :: path) ->
      succsOf (fun vis u => doAssertIsDAG f G (v :: path) vis u) es vis1 = Some (true, vis2) ->
      clean G vis2 (v :: path) /\ incl vis1 vis2 /\ forall e, In e es -> black vis2 (v :: path) (snd e)).
    { induction es as [|e es IHe]; intros vis1 vis2 C2; cbn [succsOf].
      - intros E. injection E as <-. split; auto. split; [apply incl_refl|intros e []].
      - destruct (doAssertIsDAG f G (v :: path) vis1 (snd e)) as [[[] vis3]|] eqn:Ed; try discriminate. intros E.
        destruct (IH _ _ _ _ C2 Ed) as [D1 [D2 D3]]. destruct (IHe _ _ D1 E) as [F1 [F2 F3]].
        split; auto. split; [eapply incl_tran; eauto|]. intros e' [<-|He]; auto.
        destruct D3 as [D3 D4]. split; auto. }
    intros E. destruct (K _ _ _ C1 E) as [F1 [F2 F3]].
    assert (Bv : black vis' path v) by (split; [apply F2; left; auto|auto]).
    assert (Up : forall x, black vis' (v :: path) x -> black vis' path x).
    { intros x [A B]. split; auto. intros Hi. apply B. right; auto. }
    assert (Down : forall x, black vis' path x -> x = v \/ black vis' (v :: path) x).
    { intros x [A B]. destruct (Nat.eq_dec x v); auto. right. split; auto. intros [<-|Hi]; auto. }
    assert (Cl : forall x y, black vis' path x -> arc G x y -> black vis' (v :: path) y).
    { intros x y Hx Hy. destruct (Down x Hx) as [->|Hx']; [exact (F3 _ Hy)|]. eapply c_closed; eauto. }
    split; [|split; auto].
    - constructor.
      + intros x y Hx Hy. apply Up. eauto.
      + intros x Hx Hc.
        assert (K1 : forall a b, clos_trans _ (arc G) a b -> black vis' path a -> black vis' (v :: path) b).
        { induction 1 as [a b Hab|a b c _ IH1 _ IH2]; intros Ha; [eapply Cl; eauto|]. apply IH2, Up, IH1, Ha. }
        pose proof (K1 _ _ Hc Hx) as Hb. exact (c_acyclic _ _ _ F1 x Hb Hc).
      + intros x Hx. apply (c_path _ _ _ F1). right; auto.
    - intros x Hx. apply F2. right; auto.
  Qed.

  Definition unvisited G (vis : list nat) : nat := length (filter (fun x => negb (mem x vis)) (seq 0 (size G))).
  Lemma unvisited_le G vis vis' : incl vis vis' -> unvisited G vis' <= unvisited G vis.
  Proof.
    intros Hi. unfold unvisited. induction (seq 0 (size G)) as [|x l IH]; cbn; auto.
    destruct (mem x vis) eqn:E; cbn; [|destruct (negb _); cbn; lia].
    apply mem_true in E. apply Hi, mem_true in E. rewrite E. cbn. auto.
  Qed.
  Lemma unvisited_lt G vis v : v < size G -> ~ In v vis -> unvisited G (v :: vis) < unvisited G vis.
  Proof.
    intros Hv Hn. unfold unvisited. destruct (in_split v (seq 0 (size G))) as [l1 [l2 E]]; [apply in_seq; lia|].
    rewrite E, !filter_app, !app_length. cbn [filter].
    assert (E1 : mem v vis = false) by (apply mem_false; auto).
    assert (E2 : mem v (v :: vis) = true) by (apply mem_true; left; auto). rewrite E1, E2. cbn [negb length].
    assert (X : forall l, length (filter (fun x => negb (mem x (v :: vis))) l) <= length (filter (fun x => negb (mem x vis)) l)).
    { induction l as [|x l IH]; cbn; auto. destruct (mem x vis) eqn:Ex; cbn.
      - apply mem_true in Ex. assert (Ey : mem x (v :: vis) = true) by (apply mem_true; right; auto). rewrite Ey. cbn. auto.
      - destruct (negb _); cbn; lia. }
    pose proof (X l1). pose proof (X l2). lia.
  Qed.
  Lemma assert_term G : wf G -> forall f path vis v, v < size G -> unvisited G vis < f ->
    exists b vis', doAssertIsDAG f G path vis v = Some (b, vis') /\ incl vis vis'.
  Proof.
    intros W. induction f as [|f IH]; intros path vis v Hv Hu; [lia|]. rewrite doAssert_S.
    destruct (mem v path) eqn:Em; [exists false, vis; split; auto; apply incl_refl|].
    destruct (mem v vis) eqn:Ev; [exists true, vis; split; auto; apply incl_refl|]. apply mem_false in Ev.
    pose proof (unvisited_lt G vis v Hv Ev) as Hl.
    assert (K : forall es vis1, (forall e, In e es -> snd e < size G) -> unvisited G vis1 < f ->
      exists b vis2, succsOf (fun vis u => doAssertIsDAG f G (v :: path) vis u) es vis1 = Some (b, vis2) /\ incl vis1 vis2).
    { induction es as [|e es IHe]; intros vis1 He Hu1; cbn [succsOf]; [exists true, vis1; split; auto; apply incl_refl|].
      destruct (IH (v :: path) vis1 (snd e) (He e (or_introl eq_refl)) Hu1) as [b [vis2 [-> I1]]].
      destruct b; [|exists false, vis2; auto]. pose proof (unvisited_le G _ _ I1).
      destruct (IHe vis2 ltac:(intros; apply He; right; auto) ltac:(lia)) as [b [vis3 [E I2]]].
      exists b, vis3. split; auto. eapply incl_tran; eauto. }
    destruct (K (outEdges G v) (v :: vis)) as [b [vis' [E I]]].
    - intros [w t] He. exact (proj1 (proj2 W) _ _ _ He).
    - lia.
    - exists b, vis'. split; auto. intros x Hx. apply I. right; auto.
  Qed.

  (** The check terminates and answers whether a cycle can be reached. *)
  Lemma assertIsDAG_ok G fuel : wf G -> size G < fuel -> exists b, assertIsDAG fuel G = Some b /\
    (b = true <-> forall r x, In r (roots G) -> clos_refl_trans _ (arc G) r x -> ~ clos_trans _ (arc G) x x).
  Proof.
    intros W Hf.
    assert (K : forall rs vis, (forall r, In r rs -> r < size G) -> clean G vis [] ->
      exists b, assertRoots fuel G vis rs = Some b /\
        (b = true <-> forall r x, In r rs -> clos_refl_trans _ (arc G) r x -> ~ clos_trans _ (arc G) x x)).
    { induction rs as [|r rs IH]; intros vis Hr C; cbn [assertRoots].
      - exists true. split; auto. split; [intros _ r x []|auto].
      - assert (Hu : unvisited G vis < fuel).
        { unfold unvisited. assert (X : forall l, length (filter (fun x => negb (mem x vis)) l) <= length l)
            by (induction l as [|y l IHl]; cbn; auto; destruct (negb _); cbn; lia).
          specialize (X (seq 0 (size G))). rewrite seq_length in X. lia. }
        destruct (assert_term G W fuel [] vis r (Hr r (or_introl eq_refl)) Hu) as [b [vis' [E I]]]. rewrite E.
        destruct b.
        + destruct (assert_true G _ _ _ _ _ C E) as [C1 [_ B1]].
          destruct (IH vis' ltac:(intros; apply Hr; right; auto) C1) as [b [E2 Hb]]. exists b. split; auto.
          rewrite Hb. split; [|intros Hx r' x Hr'; apply Hx; right; auto].
          intros Hx r' x [<-|Hr'] Hp; [|eapply Hx; eauto].
          apply (c_acyclic _ _ _ C1). clear - Hp C1 B1.
          induction Hp as [a b Hab| |a b c _ IH1 _ IH2]; auto. eapply c_closed; eauto.
        + exists false. split; auto. split; [discriminate|]. intros Hx.
          destruct (assert_false G fuel [] vis r vis' (fun p Hp => match Hp with end) E) as [x [X1 X2]].
          exfalso. exact (Hx r x (or_introl eq_refl) X1 X2). }
    apply K; [apply W|]. constructor; [intros x y [[] _]|intros x [[] _]|intros x []].
  Qed.

  (** ** Paths as lists of vertices *)
  Fixpoint consec (R : nat -> nat -> Prop) (p : list nat) : Prop :=
    match p with
    | x :: ((y :: _) as p') => R x y /\ consec R p'
    | _ => True
    end.
  Definition tagged G (p : list nat) (ts : list (list T)) : Prop := Forall2 (fun v t => node G v = Some t) p ts.

  Lemma consec_snoc R x y : forall p, consec R (p ++ [x; y]) <-> consec R (p ++ [x]) /\ R x y.
  Proof.
    induction p as [|a p IH]; cbn; [tauto|]. destruct p as [|b p]; cbn in *; [tauto|]. rewrite IH. tauto.
  Qed.
  Lemma consec_rev (R : nat -> nat -> Prop) : forall p, consec R p -> consec (fun x y => R y x) (rev p).
  Proof.
    induction p as [|x p IH]; cbn; auto. destruct p as [|y p]; cbn; auto. intros [A B]. rewrite <- app_assoc. cbn.
    apply consec_snoc. split; auto.
  Qed.
  Lemma consec_impl (R R' : nat -> nat -> Prop) : (forall x y, R x y -> R' x y) -> forall p, consec R p -> consec R' p.
  Proof. intros Hi. induction p as [|x p IH]; cbn; auto. destruct p; auto. intros [A B]. auto. Qed.
  Lemma concat_map_rev (ts : list (list T)) : concat (map (@rev T) ts) = rev (concat (rev ts)).
  Proof.
    induction ts as [|t ts IH]; cbn; auto. rewrite concat_app, rev_app_distr, IH. cbn. now rewrite app_nil_r.
  Qed.
  Lemma last_rev (p : list nat) : p <> [] -> last (rev p) 0 = hd 0 p.
  Proof. destruct p as [|x p]; [congruence|]. intros _. cbn. apply last_last. Qed.
  Lemma hd_rev (p : list nat) : p <> [] -> hd 0 (rev p) = last p 0.
  Proof. intros Hp. rewrite <- (rev_involutive p) at 2. rewrite last_rev; auto. intros E. apply Hp. rewrite <- (rev_involutive p), E. auto. Qed.
  Lemma rev_nonempty (p : list nat) : p <> [] -> rev p <> [].
  Proof. intros Hp E. apply Hp. rewrite <- (rev_involutive p), E. auto. Qed.

  Lemma readsAll_paths G : forall ws v n, readsAll G v n ws <->
    exists p, p <> [] /\ hd 0 p = v /\ consec (arc G) p /\ tagged G p (n :: map snd ws) /\ outEdges G (last p 0) = [].
  Proof.
    induction ws as [|[[] n'] ws IH]; intros v n; cbn [readsAll].
    - split.
      + intros [A B]. exists [v]. cbn. refine (conj _ (conj eq_refl (conj Logic.I (conj _ B)))); [discriminate|]. repeat constructor; auto.
      + intros [p [P1 [P2 [P3 [P4 P5]]]]]. inversion P4 as [|x y l l' Q1 Q2]; subst. inversion Q2; subst. cbn in *. auto.
    - split.
      + intros [A [t [B C]]]. apply IH in C. destruct C as [p [P1 [P2 [P3 [P4 P5]]]]]. exists (v :: p).
        destruct p as [|x p]; [congruence|]. cbn in P2. subst x.
        refine (conj _ (conj eq_refl (conj _ (conj _ P5)))); [discriminate|split; auto|constructor; auto].
      + intros [p [P1 [P2 [P3 [P4 P5]]]]]. inversion P4 as [|x y l l' Q1 Q2]; subst. cbn. split; auto.
        destruct l as [|t l]; [inversion Q2|]. exists t. destruct P3 as [P3 P3']. split; auto. apply IH.
        exists (t :: l). split; [discriminate|]. auto.
  Qed.
  Lemma tags_ws G v p ts : p <> [] -> hd 0 p = v -> tagged G p ts -> exists n ws, ts = n :: map snd (ws : list (unit * list T)).
  Proof.
    intros P1 P2 P3. destruct P3 as [|x t p ts]; [congruence|]. exists t, (map (pair tt) ts). f_equal.
    rewrite map_map. cbn. now rewrite map_id.
  Qed.
  Lemma spells_paths G v l : spells G v l <->
    exists p ts, p <> [] /\ hd 0 p = v /\ consec (arc G) p /\ tagged G p ts /\ outEdges G (last p 0) = [] /\ l = concat ts.
  Proof.
    unfold spells. split.
    - intros [n [ws [A ->]]]. apply readsAll_paths in A. destruct A as [p [P1 [P2 [P3 [P4 P5]]]]]. exists p, (n :: map snd ws). auto 7.
    - intros [p [ts [P1 [P2 [P3 [P4 [P5 ->]]]]]]]. destruct (tags_ws G v p ts P1 P2 P4) as [n [ws ->]].
      exists n, ws. split; auto. apply readsAll_paths. exists p. auto.
  Qed.
  Lemma spellsBack_paths G v l : spellsBack G v l <->
    exists p ts, p <> [] /\ hd 0 p = v /\ consec (arc G) p /\ tagged G p ts /\ outEdges G (last p 0) = [] /\
      l = rev (concat (rev ts)).
  Proof.
    unfold spellsBack. split.
    - intros [n [ws [A ->]]]. apply readsAll_paths in A. destruct A as [p [P1 [P2 [P3 [P4 P5]]]]]. exists p, (n :: map snd ws).
      rewrite concat_map_rev. auto 7.
    - intros [p [ts [P1 [P2 [P3 [P4 [P5 ->]]]]]]]. destruct (tags_ws G v p ts P1 P2 P4) as [n [ws ->]].
      exists n, ws. rewrite concat_map_rev. split; auto. apply readsAll_paths. exists p. auto.
  Qed.
  Lemma tagged_rev G p ts : tagged G p ts -> tagged G (rev p) (rev ts).
  Proof. induction 1; cbn; [constructor|]. apply Forall2_app; auto. Qed.
  Lemma tagged_map G G' (f : nat -> nat) p ts : (forall v, In v p -> node G' (f v) = node G v) -> tagged G p ts -> tagged G' (map f p) ts.
  Proof.
    intros Hf Ht. induction Ht as [|x t p ts A B IH]; [constructor|]. cbn. constructor.
    - rewrite Hf; auto. left; auto.
    - apply IH. intros; apply Hf; right; auto.
  Qed.

  (** ** reverseGraph *)
  Lemma addNodes_spec : forall (l : list (list T)) (R : pgraph T), fold_left (fun R l => snd (addNode R (Some l))) l R =
    mkGraph (nodes R ++ l) (adj R ++ repeat [] (length l)) (roots R).
  Proof.
    induction l as [|x l IH]; intros R; cbn [fold_left].
    - destruct R. cbn. now rewrite !app_nil_r.
    - rewrite IH. cbn. now rewrite <- !app_assoc.
  Qed.
  Lemma revEdges_spec v : forall es (R : pgraph T), (forall e, In e es -> snd e < size R) ->
    let R' := fold_left (fun R e => addEdge R (snd e) (fst e, v)) es R in
    size R' = size R /\ nodes R' = nodes R /\ roots R' = roots R /\
    forall x y, arc R' x y <-> arc R x y \/ (y = v /\ In (tt, x) es).
  Proof.
    induction es as [|[[] t] es IH]; intros R He; cbn [fold_left fst snd].
    - refine (conj eq_refl (conj eq_refl (conj eq_refl _))). intros x y. cbn. tauto.
    - destruct (IH (addEdge R t (tt, v))) as [A [B [C E]]].
      { intros e Hi. rewrite addEdge_size. apply He. right; auto. }
      rewrite A, B, C, addEdge_size. refine (conj eq_refl (conj eq_refl (conj eq_refl _))). intros x y. rewrite E.
      rewrite addEdge_arc by (apply (He (tt, t)); left; auto). cbn [In]. split.
      + intros [[F|[-> ->]]|[-> F]]; auto.
      + intros [F|[-> [F|F]]]; auto. injection F as ->. auto.
  Qed.
  Lemma reverseGraph_spec G : wf G -> let R := reverseGraph G in
    size R = size G /\ nodes R = nodes G /\
    (forall x y, arc R x y <-> arc G y x) /\ (forall r, In r (roots R) <-> r < size G /\ outEdges G r = []) /\ wf R.
  Proof.
    intros W R.
    assert (K : forall vs R0 (done : nat -> Prop), (forall v, In v vs -> v < size G) -> size R0 = size G -> nodes R0 = nodes G ->
      (forall x y, arc R0 x y <-> done y /\ arc G y x) -> (forall r, In r (roots R0) <-> done r /\ outEdges G r = []) ->
      let R1 := fold_left (reverseAt G) vs R0 in
      size R1 = size G /\ nodes R1 = nodes G /\ (forall x y, arc R1 x y <-> (done y \/ In y vs) /\ arc G y x) /\
      (forall r, In r (roots R1) <-> (done r \/ In r vs) /\ outEdges G r = [])).
    { induction vs as [|v vs IH]; intros R0 done Hv S0 N0 A0 T0; cbn [fold_left].
      - refine (conj S0 (conj N0 (conj _ _))); intros; rewrite ?A0, ?T0; cbn; tauto.
      - destruct (revEdges_spec v (outEdges G v) R0) as [B1 [B2 [B3 B4]]].
        { intros [w t] He. rewrite S0. exact (proj1 (proj2 W) _ _ _ He). }
        set (R1 := fold_left (fun R e => addEdge R (snd e) (fst e, v)) (outEdges G v) R0) in *.
        assert (X : size (reverseAt G R0 v) = size G /\ nodes (reverseAt G R0 v) = nodes G /\
          (forall x y, arc (reverseAt G R0 v) x y <-> (done y \/ y = v) /\ arc G y x) /\
          (forall r, In r (roots (reverseAt G R0 v)) <-> (done r \/ r = v) /\ outEdges G r = [])).
        { unfold reverseAt. fold R1.
          assert (Xa : forall x y, arc R1 x y <-> (done y \/ y = v) /\ arc G y x).
          { intros x y. rewrite B4, A0. split; [intros [[? ?]|[-> ?]]; auto|]. intros [[?| ->] ?]; auto. }
          destruct (Nat.eqb_spec (length (outEdges G v)) 0) as [El|El].
          - refine (conj _ (conj _ (conj Xa _))); [exact (eq_trans B1 S0)|exact (eq_trans B2 N0)|].
            intros r. cbn [addRoot roots]. rewrite in_app_iff, B3, T0. cbn. split.
            + intros [[A B]|[<-|[]]]; auto. split; auto. destruct (outEdges G v); [auto|discriminate].
            + intros [[A| ->] B]; auto.
          - refine (conj _ (conj _ (conj Xa _))); [exact (eq_trans B1 S0)|exact (eq_trans B2 N0)|].
            intros r. rewrite B3, T0. split; [tauto|]. intros [[A| ->] B]; auto. rewrite B in El. destruct (El eq_refl). }
        destruct X as [X1 [X2 [X3 X4]]].
        destruct (IH (reverseAt G R0 v) (fun y => done y \/ y = v) ltac:(intros; apply Hv; right; auto) X1 X2 X3 X4) as [C1 [C2 [C3 C4]]].
        refine (conj C1 (conj C2 (conj _ _))); intros; rewrite ?C3, ?C4; cbn [In]; intuition. }
    unfold R, reverseGraph. rewrite addNodes_spec. cbn [nodes adj roots emptyGraph app].
    destruct (K (seq 0 (size G)) (mkGraph (nodes G) (repeat [] (length (nodes G))) []) (fun _ => False)) as [C1 [C2 [C3 C4]]].
    - intros v Hv. apply in_seq in Hv. lia.
    - unfold size. cbn [adj]. rewrite repeat_length. apply W.
    - reflexivity.
    - intros x y. split; [|tauto]. unfold arc, outEdges. cbn [adj]. generalize (length (nodes G)). intros n. revert x.
      induction n as [|n IH]; intros [|x]; cbn; try tauto. intros Hi. destruct (IH x Hi). tauto.
    - intros r. cbn. tauto.
    - set (R1 := fold_left (reverseAt G) (seq 0 (size G)) (mkGraph (nodes G) (repeat [] (length (nodes G))) [])) in *.
      assert (X3 : forall x y, arc R1 x y <-> arc G y x).
      { intros x y. rewrite C3. split; [tauto|]. intros Hy. split; auto. right. apply in_seq. apply arc_lt in Hy. lia. }
      assert (X4 : forall r, In r (roots R1) <-> r < size G /\ outEdges G r = []).
      { intros r. rewrite C4, in_seq. split; [intros [[[]|A] B]; split; auto; lia|]. intros [A B]. split; auto. right. lia. }
      refine (conj C1 (conj C2 (conj X3 (conj X4 _)))). split; [|split].
      + change (length (nodes R1) = size R1). rewrite C1, C2. apply W.
      + intros v [] t Hi. assert (Ha : arc G t v) by (apply X3; exact Hi). apply arc_lt in Ha. rewrite C1. exact Ha.
      + intros r Hr. apply X4 in Hr. rewrite C1. tauto.
  Qed.

  (** what can be read from the roots of the reversed graph *)
  Lemma reverseGraph_reads G l : wf G -> (exists r, In r (roots (reverseGraph G)) /\ spellsBack (reverseGraph G) r l) <->
    exists v, (forall w, ~ arc G w v) /\ spells G v (rev l).
  Proof.
    intros W. destruct (reverseGraph_spec G W) as [R1 [R2 [R3 [R4 R5]]]]. set (R := reverseGraph G) in *.
    assert (Nd : forall v, node R v = node G v) by (intros v; unfold node; now rewrite R2).
    assert (Tg : forall p ts, tagged R p ts <-> tagged G p ts).
    { intros p ts. unfold tagged. split; induction 1 as [|a b ? ? Hab]; constructor; auto; rewrite Nd in *; exact Hab. }
    assert (Src : forall v, outEdges R v = [] <-> forall w, ~ arc G w v).
    { intros v. split.
      - intros E w Hw. apply R3 in Hw. unfold arc in Hw. rewrite E in Hw. destruct Hw.
      - intros Hn. destruct (outEdges R v) as [|[[] u] es] eqn:E; auto. exfalso. apply (Hn u). apply R3. unfold arc. rewrite E. left; auto. }
    split.
    - intros [r [Hr Hs]]. apply R4 in Hr. destruct Hr as [Hr Hl]. apply spellsBack_paths in Hs.
      destruct Hs as [p [ts [P1 [P2 [P3 [P4 [P5 ->]]]]]]]. exists (last p 0). split; [apply Src; auto|].
      apply spells_paths. exists (rev p), (rev ts).
      refine (conj (rev_nonempty p P1) (conj (hd_rev p P1) (conj _ (conj _ (conj _ _))))).
      + apply consec_rev. eapply consec_impl; [|exact P3]. intros x y Hxy. apply R3; auto.
      + apply tagged_rev, Tg; auto.
      + rewrite last_rev; auto. rewrite P2. exact Hl.
      + apply rev_involutive.
    - intros [v [Hv Hs]]. apply spells_paths in Hs. destruct Hs as [p [ts [P1 [P2 [P3 [P4 [P5 P6]]]]]]].
      exists (last p 0). split.
      + apply R4. split; auto.
        assert (Hin : In (last p 0) p) by (destruct p as [|x p]; [congruence|]; apply (@exists_last _ (x :: p)) in P1 as [q [z E]]; rewrite E, last_last; apply in_app_iff; right; left; auto).
        unfold tagged in P4. clear - P4 Hin W. induction P4 as [|x t p ts A B IH]; [destruct Hin|].
        revert Hin. generalize (last (x :: p) 0). intros z Hz.
        assert (K : forall p ts, Forall2 (fun v t => node G v = Some t) p ts -> In z p -> z < size G).
        { induction 1 as [|a b p' ts' A' B' IH']; [intros []|]. intros [->|Hi]; auto.
          unfold node in A'. assert (z < length (nodes G)) by (apply nth_error_Some; congruence). destruct W as [W _]. unfold size. lia. }
        apply (K (x :: p) (t :: ts)); auto.
      + apply spellsBack_paths. exists (rev p), (rev ts).
        refine (conj (rev_nonempty p P1) (conj (hd_rev p P1) (conj _ (conj _ (conj _ _))))).
        * eapply consec_impl; [|exact (consec_rev _ _ P3)]. intros x y Hxy. apply R3; auto.
        * apply Tg, tagged_rev; auto.
        * rewrite last_rev; auto. rewrite P2. apply Src; auto.
        * rewrite rev_involutive, <- P6. symmetry. apply rev_involutive.
  Qed.

  (** ** reverseDAG *)
  Section ReverseDAG.
    Variable G : pgraph T.
    Hypothesis W : wf G.
    Notation revState := (@revState T).
    Definition known (s : revState) (v : nat) : Prop := exists r, afind v (revOf s) = Some r.

    (** [E]: the arcs that were reversed *)
    Record rinv (E : nat -> nat -> Prop) (s : revState) : Prop := mkRinv {
      r_sized : sized (out s);
      r_map : forall v r, afind v (revOf s) = Some r -> v < size G /\ r < size (out s) /\ node (out s) r = node G v;
      r_inj : forall v v' r, afind v (revOf s) = Some r -> afind v' (revOf s) = Some r -> v = v';
      r_onto : forall r, r < size (out s) -> exists v, afind v (revOf s) = Some r;
      r_arcs : forall a b, arc (out s) a b <-> exists u v, afind u (revOf s) = Some a /\ afind v (revOf s) = Some b /\ E v u;
      r_E : forall v u, E v u -> arc G v u /\ known s v /\ known s u;
      r_next : forall x, In x (next s) -> afind (fst x) (revOf s) = Some (snd x) }.

    Record grows (s s' : revState) : Prop := mkGrows {
      g_of : forall v r, afind v (revOf s) = Some r -> afind v (revOf s') = Some r;
      g_next : forall x, In x (next s) -> In x (next s');
      g_new : forall v, known s' v -> known s v \/ In v (map fst (next s'));
      g_size : size (out s) <= size (out s') /\ (next s' = next s \/ size (out s) < size (out s')) }.
    Lemma grows_refl s : grows s s.
    Proof. constructor; auto. Qed.
    Lemma grows_trans a b c : grows a b -> grows b c -> grows a c.
    Proof.
      intros [A1 A2 A3 [A4 A5]] [B1 B2 B3 [B4 B5]]. constructor; auto.
      - intros v Hv. destruct (B3 v Hv) as [Hv'|Hv']; auto. destruct (A3 v Hv') as [|Hi]; auto. right.
        apply in_map_iff in Hi. destruct Hi as [x [<- Hx]]. apply in_map. auto.
      - split; [lia|]. destruct A5 as [A5|A5], B5 as [B5|B5]; try (right; lia). left. congruence.
    Qed.
    Lemma known_grows s s' v : grows s s' -> known s v -> known s' v.
    Proof. intros Gr [r Hr]. exists r. apply (g_of _ _ Gr); auto. Qed.

    Lemma enter_ok E s v : rinv E s -> v < size G ->
      rinv E (enter G s v) /\ known (enter G s v) v /\ grows s (enter G s v) /\ roots (out (enter G s v)) = roots (out s) /\
      (forall u, known (enter G s v) u -> known s u \/ u = v).
    Proof.
      intros I Hv. unfold enter. destruct (afind v (revOf s)) as [r|] eqn:Ev.
      { refine (conj I (conj _ (conj (grows_refl s) (conj eq_refl _)))); [exists r; auto|auto]. }
      assert (Hn : exists l, node G v = Some l).
      { unfold node. destruct (nth_error (nodes G) v) eqn:En; eauto. apply nth_error_None in En.
        destruct W as [W' _]. unfold size in Hv. lia. }
      destruct Hn as [l Hl]. rewrite Hl.
      destruct (addNode_spec (out s) l (r_sized _ _ I)) as [N1 [N2 [N3 [N4 [N5 [N6 N7]]]]]].
      destruct (addNode (out s) (Some l)) as [r R] eqn:Ea. cbn [fst snd] in *. subst r.
      set (r := size (out s)) in *. set (s' := mkRev R (aset v r (revOf s)) (next s ++ [(v, r)])).
      assert (Of : forall u x, afind u (revOf s) = Some x -> afind u (revOf s') = Some x).
      { intros u x Hu. cbn. rewrite afind_aset_neq; auto. congruence. }
      assert (Ofi : forall u x, afind u (revOf s') = Some x -> (u = v /\ x = r) \/ (u <> v /\ afind u (revOf s) = Some x)).
      { intros u x. cbn. rewrite afind_aset. destruct (eq_dec u v); [intros [= <-]|]; auto. }
      assert (Arc : forall a b, arc R a b <-> arc (out s) a b) by (intros a b; unfold arc; rewrite N7; tauto).
      refine (conj _ (conj _ (conj _ (conj N4 _)))).
      - constructor; auto.
        + intros u x Hu. change (size (out s')) with (size R). change (node (out s')) with (node R).
          destruct (Ofi u x Hu) as [[-> ->]|[_ Hu']].
          * split; auto. split; [lia|]. rewrite N6. auto.
          * destruct (r_map _ _ I _ _ Hu') as [A1 [A2 A3]]. split; auto. split; [lia|]. rewrite N5; auto.
        + intros u u' x Hu Hu'. destruct (Ofi _ _ Hu) as [[-> ->]|[A1 A2]], (Ofi _ _ Hu') as [[-> ?]|[B1 B2]]; auto.
          * apply (r_map _ _ I) in B2. unfold r in B2. lia.
          * subst x. apply (r_map _ _ I) in A2. unfold r in A2. lia.
          * exact (r_inj _ _ I _ _ _ A2 B2).
        + intros x Hx. change (size (out s')) with (size R) in Hx. destruct (Nat.eq_dec x r) as [->|Hne].
          * exists v. cbn. apply afind_aset_eq.
          * destruct (r_onto _ _ I x) as [u Hu]; [unfold r in *; lia|]. exists u. auto.
        + intros a b. change (arc (out s') a b) with (arc R a b). rewrite Arc, (r_arcs _ _ I). split.
          * intros [u [w [A1 [A2 A3]]]]. exists u, w. auto.
          * intros [u [w [A1 [A2 A3]]]]. exists u, w. destruct (r_E _ _ I _ _ A3) as [_ [[y Hy] [z Hz]]].
            pose proof (Of _ _ Hy) as Hy'. pose proof (Of _ _ Hz) as Hz'. rewrite A2 in Hy'. rewrite A1 in Hz'.
            injection Hy' as ->. injection Hz' as ->. auto.
        + intros a b Hab. destruct (r_E _ _ I _ _ Hab) as [A1 [[x Hx] [y Hy]]]. refine (conj A1 (conj _ _)); [exists x|exists y]; auto.
        + intros x Hx. cbn [next s'] in Hx. apply in_app_iff in Hx. destruct Hx as [Hx|[<-|[]]].
          * apply Of, (r_next _ _ I); auto.
          * cbn. apply afind_aset_eq.
      - exists r. cbn. apply afind_aset_eq.
      - constructor; auto.
        + intros x Hx. cbn. apply in_app_iff. auto.
        + intros u [x Hx]. destruct (Ofi _ _ Hx) as [[-> ->]|[_ Hu]]; [|left; exists x; auto].
          right. cbn. rewrite map_app. apply in_app_iff. right. left. auto.
        + change (size (out s')) with (size R). unfold r in *. lia.
      - intros u [x Hx]. destruct (Ofi _ _ Hx) as [[-> ->]|[_ Hu]]; auto. left. exists x. auto.
    Qed.

    Lemma rinv_ext (E E' : nat -> nat -> Prop) s : (forall v u, E v u <-> E' v u) -> rinv E s -> rinv E' s.
    Proof.
      intros Hx [A1 A2 A3 A4 A5 A6 A7]. constructor; auto.
      - intros a b. rewrite A5. split; intros [u [v [B1 [B2 B3]]]]; exists u, v; rewrite Hx in *; auto.
      - intros v u Hv. apply A6, Hx; auto.
    Qed.
    Lemma revEdge_ok E s v r u : rinv E s -> afind v (revOf s) = Some r -> arc G v u ->
      let s' := revEdge G r s (tt, u) in
      rinv (fun x y => E x y \/ (x = v /\ y = u)) s' /\ grows s s' /\ roots (out s') = roots (out s) /\
      (forall y, known s' y -> known s y \/ y = u).
    Proof.
      intros I Hv Ha. unfold revEdge. cbn [fst snd].
      assert (Hu : u < size G) by exact (proj1 (proj2 W) _ _ _ Ha).
      destruct (enter_ok E s u I Hu) as [I1 [[x Hx] [G1 [R1 K1]]]]. set (s1 := enter G s u) in *.
      unfold afindd. rewrite Hx. pose proof (g_of _ _ G1 _ _ Hv) as Hv1.
      assert (Lx : x < size (out s1)) by apply (r_map _ _ I1 _ _ Hx).
      set (s2 := mkRev (addEdge (out s1) x (tt, r)) (revOf s1) (next s1)).
      assert (Arc : forall a b, arc (out s2) a b <-> arc (out s1) a b \/ (a = x /\ b = r)) by (intros; apply addEdge_arc; auto).
      refine (conj _ (conj _ (conj R1 K1))).
      - destruct I1 as [A1 A2 A3 A4 A5 A6 A7]. constructor; auto.
        + apply addEdge_sized; auto.
        + intros w y Hw. change (size (out s2)) with (size (addEdge (out s1) x (tt, r))). rewrite addEdge_size. exact (A2 w y Hw).
        + intros y Hy. change (size (out s2)) with (size (addEdge (out s1) x (tt, r))) in Hy. rewrite addEdge_size in Hy. auto.
        + intros a b. rewrite Arc, A5. split.
          * intros [[u' [v' [B1 [B2 B3]]]]|[-> ->]]; [exists u', v'; auto|]. exists u, v. auto.
          * intros [u' [v' [B1 [B2 [B3|[-> ->]]]]]]; [left; exists u', v'; auto|]. right.
            cbn in B1, B2. rewrite Hx in B1. rewrite Hv1 in B2. split; congruence.
        + intros a b [Hab|[-> ->]]; [exact (A6 _ _ Hab)|]. refine (conj Ha (conj _ _)); [exists r|exists x]; auto.
      - destruct G1 as [B1 B2 B3 B4]. constructor; auto. change (size (out s2)) with (size (addEdge (out s1) x (tt, r))).
        rewrite addEdge_size. exact B4.
    Qed.
    Lemma revEdges_ok v r : forall es E s, rinv E s -> afind v (revOf s) = Some r -> (forall u, In (tt, u) es -> arc G v u) ->
      let s' := fold_left (revEdge G r) es s in
      rinv (fun x y => E x y \/ (x = v /\ In (tt, y) es)) s' /\ grows s s' /\ roots (out s') = roots (out s) /\
      (forall y, known s' y -> known s y \/ In (tt, y) es).
    Proof.
      induction es as [|[[] u] es IH]; intros E s I Hv He; cbn [fold_left].
      - refine (conj _ (conj (grows_refl s) (conj eq_refl _))); auto. eapply rinv_ext; [|exact I]. intros; cbn; tauto.
      - destruct (revEdge_ok E s v r u I Hv (He u (or_introl eq_refl))) as [I1 [G1 [R1 K1]]].
        destruct (IH _ _ I1 (g_of _ _ G1 _ _ Hv) ltac:(intros; apply He; right; auto)) as [I2 [G2 [R2 K2]]].
        refine (conj _ (conj (grows_trans _ _ _ G1 G2) (conj (eq_trans R2 R1) _))).
        + eapply rinv_ext; [|exact I2]. intros x y. cbn [In]. split.
          * intros [[A|[-> ->]]|[-> A]]; auto.
          * intros [A|[-> [A|A]]]; auto. injection A as ->. auto.
        + intros y Hy. cbn [In]. destruct (K2 y Hy) as [Hy'|Hy']; auto. destruct (K1 y Hy') as [| ->]; auto.
    Qed.

    (** ** A level *)
    Record linv (dn : nat -> Prop) (todo : list (nat * nat)) (s : revState) : Prop := mkLinv {
      l_rinv : rinv (fun v u => dn v /\ arc G v u) s;
      l_src : forall u, known s u -> In u (roots G) \/ exists v, dn v /\ arc G v u;
      l_known : forall u, known s u -> dn u \/ In u (map fst todo) \/ In u (map fst (next s));
      l_todo : forall x, In x todo -> afind (fst x) (revOf s) = Some (snd x);
      l_roots : forall r, In r (roots (out s)) <-> exists v, dn v /\ outEdges G v = [] /\ afind v (revOf s) = Some r;
      l_dn : forall v, dn v -> known s v;
      l_init : forall v, In v (roots G) -> known s v }.

    Lemma rinv_root E s r : rinv E s -> rinv E (mkRev (addRoot (out s) r) (revOf s) (next s)).
    Proof. intros [A1 A2 A3 A4 A5 A6 A7]. constructor; auto. Qed.

    Lemma vertex_ok dn x todo s : linv dn (x :: todo) s ->
      let s' := revVertex G s x in
      linv (fun v => dn v \/ v = fst x) todo s' /\ grows s s' /\
      (forall y, known s' y -> known s y \/ arc G (fst x) y).
    Proof.
      intros L. destruct x as [v r]. cbn [fst]. pose proof (l_todo _ _ _ L (v, r) (or_introl eq_refl)) as Hv. cbn [fst snd] in Hv.
      unfold revVertex. cbn [fst snd].
      destruct (revEdges_ok v r (outEdges G v) _ s (l_rinv _ _ _ L) Hv (fun u Hu => Hu)) as [I1 [G1 [R1 K1]]].
      set (s1 := fold_left (revEdge G r) (outEdges G v) s) in *.
      set (s' := if length (outEdges G v) =? 0 then mkRev (addRoot (out s1) r) (revOf s1) (next s1) else s1).
      assert (Same : revOf s' = revOf s1 /\ next s' = next s1 /\ size (out s') = size (out s1))
        by (unfold s'; destruct (length (outEdges G v) =? 0); auto).
      destruct Same as [S1 [S2 S3]].
      assert (Kn : forall u, known s' u <-> known s1 u) by (intros u; unfold known; rewrite S1; tauto).
      assert (I2 : rinv (fun x y => (dn x \/ x = v) /\ arc G x y) s').
      { assert (I3 : rinv (fun x y => (dn x \/ x = v) /\ arc G x y) s1).
        { eapply rinv_ext; [|exact I1]. intros x y. cbn. split; [intros [[A B]|[-> B]]; auto|]. intros [[A| ->] B]; auto. }
        unfold s'. destruct (length (outEdges G v) =? 0); auto. apply rinv_root; auto. }
      assert (G2 : grows s s').
      { destruct G1 as [B1 B2 B3 B4]. constructor.
        - rewrite S1. auto.
        - rewrite S2. auto.
        - intros u Hu. rewrite S2. apply Kn in Hu. auto.
        - rewrite S2, S3. auto. }
      refine (conj _ (conj G2 _)).
      - constructor; auto.
        + intros u Hu. apply Kn in Hu. destruct (K1 u Hu) as [Hu'|Hu']; [|right; exists v; auto].
          destruct (l_src _ _ _ L u Hu') as [|[w [A B]]]; auto. right. exists w. auto.
        + intros u Hu. pose proof Hu as Hu0. apply Kn in Hu. destruct (g_new _ _ G2 u Hu0) as [Hu'|Hu']; [|auto].
          destruct (l_known _ _ _ L u Hu') as [A|[[A|A]|A]]; auto. right. right.
          apply in_map_iff in A. destruct A as [z [<- Hz]]. apply in_map. apply (g_next _ _ G2); auto.
        + intros z Hz. rewrite S1. apply (g_of _ _ G1). apply (l_todo _ _ _ L). right; auto.
        + intros z. unfold s'. destruct (Nat.eqb_spec (length (outEdges G v)) 0) as [El|El].
          * cbn [out addRoot roots revOf]. rewrite in_app_iff, R1, (l_roots _ _ _ L). split.
            -- intros [[w [A1 [A2 A3]]]|[<-|[]]]; [exists w; refine (conj (or_introl A1) (conj A2 (g_of _ _ G1 _ _ A3)))|].
               exists v. refine (conj (or_intror eq_refl) (conj _ (g_of _ _ G1 _ _ Hv))). destruct (outEdges G v); [auto|discriminate].
            -- intros [w [[A1| ->] [A2 A3]]].
               ++ left. exists w. destruct (l_dn _ _ _ L w A1) as [y Hy]. pose proof (g_of _ _ G1 _ _ Hy) as Hy'.
                  rewrite A3 in Hy'. injection Hy' as ->. auto.
               ++ right. left. pose proof (g_of _ _ G1 _ _ Hv) as Hy'. rewrite A3 in Hy'. congruence.
          * rewrite R1, (l_roots _ _ _ L). split.
            -- intros [w [A1 [A2 A3]]]. exists w. refine (conj (or_introl A1) (conj A2 (g_of _ _ G1 _ _ A3))).
            -- intros [w [[A1| ->] [A2 A3]]].
               ++ exists w. destruct (l_dn _ _ _ L w A1) as [y Hy]. pose proof (g_of _ _ G1 _ _ Hy) as Hy'.
                  rewrite A3 in Hy'. injection Hy' as ->. auto.
               ++ rewrite A2 in El. destruct (El eq_refl).
        + intros u [Hu| ->]; apply (known_grows s s'); auto; [apply (l_dn _ _ _ L); auto|]. exists r. auto.
        + intros u Hu. apply (known_grows s s'); auto. apply (l_init _ _ _ L); auto.
      - intros y Hy. apply Kn in Hy. destruct (K1 y Hy); auto.
    Qed.
    Lemma linv_ext (dn dn' : nat -> Prop) todo s : (forall v, dn v <-> dn' v) -> linv dn todo s -> linv dn' todo s.
    Proof.
      intros Hx [A1 A2 A3 A4 A5 A6 A7]. constructor; auto.
      - eapply rinv_ext; [|exact A1]. intros v u. cbn. rewrite Hx. tauto.
      - intros u Hu. destruct (A2 u Hu) as [|[v Hv]]; auto. right. exists v. rewrite <- Hx. auto.
      - intros u Hu. rewrite <- Hx. auto.
      - intros r. rewrite A5. split; intros [v Hv]; exists v; rewrite Hx in *; auto.
      - intros v Hv. apply A6, Hx; auto.
    Qed.
    Lemma level_ok : forall todo dn s, linv dn todo s ->
      let s' := fold_left (revVertex G) todo s in
      linv (fun v => dn v \/ In v (map fst todo)) [] s' /\ grows s s' /\
      (forall y, known s' y -> known s y \/ exists v, In v (map fst todo) /\ arc G v y).
    Proof.
      induction todo as [|x todo IH]; intros dn s L; cbn [fold_left].
      - refine (conj _ (conj (grows_refl s) _)); auto. eapply linv_ext; [|exact L]. intros; cbn; tauto.
      - destruct (vertex_ok dn x todo s L) as [L1 [G1 K1]]. destruct (IH _ _ L1) as [L2 [G2 K2]].
        refine (conj _ (conj (grows_trans _ _ _ G1 G2) _)).
        + eapply linv_ext; [|exact L2]. intros v. cbn. intuition.
        + intros y Hy. destruct (K2 y Hy) as [Hy'|[v [A B]]]; [|right; exists v; split; [right|]; auto].
          destruct (K1 y Hy') as [|Ha]; auto. right. exists (fst x). split; [left|]; auto.
    Qed.

    (** the end: [cut] are the vertices where the search stopped *)
    Record reversed (m : nat) (R : pgraph T) (s : revState) (dn : nat -> Prop) (cut : list (nat * nat)) : Prop := mkReversed {
      d_linv : linv dn [] s;
      d_nodes : nodes R = nodes (out s);
      d_adj : adj R = adj (out s);
      d_next : next s = cut;
      d_roots : forall r, In r (roots R) <-> In r (roots (out s)) \/ In r (map snd cut);
      d_within : forall u, known s u <-> within G m u;
      d_cut : cut <> [] -> m < size (out s) }.

    Lemma within_le i j u : i <= j -> within G i u -> within G j u.
    Proof. induction 1; auto. intros Hu. left. auto. Qed.
    Lemma addRoots_spec : forall (l : list (nat * nat)) (R : pgraph T), let R' := fold_left (fun R x => addRoot R (snd x)) l R in
      nodes R' = nodes R /\ adj R' = adj R /\ roots R' = roots R ++ map snd l.
    Proof.
      induction l as [|x l IH]; intros R; cbn [fold_left]; [rewrite app_nil_r; auto|].
      destruct (IH (addRoot R (snd x))) as [A [B C]]. rewrite A, B, C. cbn. rewrite <- app_assoc. auto.
    Qed.

    Lemma levels_ok : forall depth i s dn, linv dn [] s -> (forall u, known s u <-> within G i u) ->
      (next s <> [] -> i < size (out s)) ->
      exists s' dn' cut, reversed (i + depth) (levels G depth s) s' dn' cut.
    Proof.
      induction depth as [|depth IH]; intros i s dn L Hw Hs.
      - exists s, dn, (next s). rewrite Nat.add_0_r. destruct (next s) as [|x wl] eqn:En.
        + unfold levels. rewrite En. constructor; auto; try congruence. intros r. cbn. tauto.
        + unfold levels. rewrite En. destruct (addRoots_spec (x :: wl) (out s)) as [A [B C]].
          constructor; auto. intros r. rewrite C, in_app_iff. tauto.
      - destruct (next s) as [|x wl] eqn:En.
        + (* closed already *)
          exists s, dn, []. cbn [levels]. rewrite En. constructor; auto; try congruence; [intros r; cbn; tauto|].
          intros u. rewrite Hw. split; [apply within_le; lia|].
          assert (Hd : forall v, within G i v -> dn v).
          { intros v Hv. apply Hw in Hv. destruct (l_known _ _ _ L v Hv) as [|[[]|Hn]]; auto. rewrite En in Hn. destruct Hn. }
          assert (K : forall k v, within G k v -> within G i v).
          { induction k as [|k IHk]; intros v Hv.
            - apply (within_le 0 i); [lia|exact Hv].
            - destruct Hv as [Hv|[w [Hv Ha]]]; auto. apply IHk in Hv. apply Hw.
              apply (r_E _ _ (l_rinv _ _ _ L) w v). auto. }
          apply K.
        + set (s0 := mkRev (out s) (revOf s) []).
          assert (L0 : linv dn (x :: wl) s0).
          { destruct L as [A1 A2 A3 A4 A5 A6 A7]. constructor; auto.
            - destruct A1 as [B1 B2 B3 B4 B5 B6 B7]. constructor; auto.
            - intros u Hu. destruct (A3 u Hu) as [|[[]|Hn]]; auto. rewrite En in Hn. auto.
            - intros z Hz. apply (r_next _ _ A1). rewrite En. exact Hz. }
          destruct (level_ok (x :: wl) dn s0 L0) as [L1 [G1 K1]].
          cbn [levels]. rewrite En. replace (i + S depth) with (S i + depth) by lia.
          apply (IH (S i) _ _ L1).
          * intros u. cbn [within]. split.
            -- intros Hu. destruct (K1 u Hu) as [Hu'|[v [Hv Ha]]]; [left; apply Hw; exact Hu'|]. right. exists v. split; auto.
               apply Hw. apply in_map_iff in Hv. destruct Hv as [z [<- Hz]]. exists (snd z). apply (l_todo _ _ _ L0); auto.
            -- intros [Hu|[w [Hu Ha]]]; [apply (known_grows _ _ _ G1); apply Hw in Hu; exact Hu|].
               apply (r_E _ _ (l_rinv _ _ _ L1) w u). split; auto. apply Hw in Hu.
               destruct (l_known _ _ _ L0 w Hu) as [|[|[]]]; auto.
          * intros Hn. destruct (g_size _ _ G1) as [A [B|B]]; [destruct (Hn B)|].
            assert (i < size (out s)) by (apply Hs; discriminate). change (size (out s0)) with (size (out s)) in B. lia.
    Qed.

    Lemma start_ok : let s := fold_left (enter G) (roots G) (mkRev emptyGraph [] []) in
      linv (fun _ => False) [] s /\ (forall u, known s u <-> within G 0 u) /\ (next s <> [] -> 0 < size (out s)).
    Proof.
      assert (Z : forall a, outEdges (@emptyGraph (list T) unit) a = []) by (intros [|a]; reflexivity).
      assert (K : forall rs s done, (forall r, In r rs -> In r (roots G)) -> rinv (fun _ _ => False) s -> roots (out s) = [] ->
        (forall u, known s u <-> In u done) -> (forall u, known s u -> In u (map fst (next s))) -> (next s <> [] -> 0 < size (out s)) ->
        let s' := fold_left (enter G) rs s in
        rinv (fun _ _ => False) s' /\ roots (out s') = [] /\ (forall u, known s' u <-> In u done \/ In u rs) /\
        (forall u, known s' u -> In u (map fst (next s'))) /\ (next s' <> [] -> 0 < size (out s'))).
      { induction rs as [|r rs IH]; intros s done Hr I R0 Kn Nx Sz; cbn [fold_left].
        - refine (conj I (conj R0 (conj _ (conj Nx Sz)))). intros u. rewrite Kn. cbn. tauto.
        - destruct (enter_ok _ s r I (proj2 (proj2 W) r (Hr r (or_introl eq_refl)))) as [I1 [K1 [G1 [R1 N1]]]].
          destruct (IH (enter G s r) (r :: done)) as [A1 [A2 [A3 [A4 A5]]]]; auto.
          + intros; apply Hr; right; auto.
          + congruence.
          + intros u. cbn [In]. split.
            * intros Hu. destruct (N1 u Hu) as [Hu'|Hu']; auto. right. apply Kn; auto.
            * intros [<-|Hu]; auto. apply (known_grows _ _ _ G1), Kn; auto.
          + intros u Hu. destruct (g_new _ _ G1 u Hu) as [Hu'|Hu']; auto.
            apply Nx in Hu'. apply in_map_iff in Hu'. destruct Hu' as [z [<- Hz]]. apply in_map. apply (g_next _ _ G1); auto.
          + intros Hn. destruct (g_size _ _ G1) as [B [C|C]]; [|lia]. rewrite C in Hn. specialize (Sz Hn). lia.
          + refine (conj A1 (conj A2 (conj _ (conj A4 A5)))). intros u. rewrite A3. cbn. intuition. }
      destruct (K (roots G) (mkRev emptyGraph [] []) []) as [A1 [A2 [A3 [A4 A5]]]]; auto.
      - constructor; cbn [out revOf next]; try (intros; cbn in *; discriminate); try (intros; contradiction).
        + reflexivity.
        + intros r Hr. cbn in Hr. lia.
        + intros a b. unfold arc. rewrite Z. cbn. split; [intros []|]. intros [u [v [_ [_ []]]]].
      - intros u. split; [intros [r Hr]; discriminate|intros []].
      - intros u [r Hr]. discriminate Hr.
      - cbn. congruence.
      - cbv zeta. split; [|split]; auto.
        + constructor; auto.
          * eapply rinv_ext; [|exact A1]. intros; cbn; tauto.
          * intros u Hu. apply A3 in Hu. destruct Hu as [[]|Hu]; auto.
          * intros x [].
          * intros r. rewrite A2. split; [intros []|]. intros [v [[] _]].
          * intros v [].
          * intros v Hv. apply A3. auto.
        + intros u. rewrite A3. cbn. tauto.
    Qed.
    Lemma reverseDAG_ok m : exists s dn cut, reversed m (reverseDAG G m) s dn cut.
    Proof. destruct start_ok as [A [B C]]. exact (levels_ok m 0 _ _ A B C). Qed.

    (** the vertices of the result are those of [G] *)
    Lemma preimages E s : rinv E s -> forall q, (forall a, In a q -> a < size (out s)) ->
      exists p, Forall2 (fun v a => afind v (revOf s) = Some a) p q.
    Proof.
      intros I. induction q as [|a q IH]; intros Hq; [exists []; constructor|].
      destruct (r_onto _ _ I a (Hq a (or_introl eq_refl))) as [v Hv]. destruct IH as [p Hp]; [intros; apply Hq; right; auto|].
      exists (v :: p). constructor; auto.
    Qed.
    Lemma pre_arcs E s : rinv E s -> forall p q, Forall2 (fun v a => afind v (revOf s) = Some a) p q -> consec (arc (out s)) q ->
      consec (fun x y => E y x) p.
    Proof.
      intros I. induction 1 as [|v a p q A B IH]; cbn; auto. destruct B as [|v' a' p q A' B]; cbn; auto. intros [C D].
      split; [|apply IH; auto]. apply (r_arcs _ _ I) in C. destruct C as [u [w [C1 [C2 C3]]]].
      rewrite (r_inj _ _ I _ _ _ A C1), (r_inj _ _ I _ _ _ A' C2). exact C3.
    Qed.
    Lemma pre_tags E s : rinv E s -> forall p q, Forall2 (fun v a => afind v (revOf s) = Some a) p q ->
      forall ts, tagged (out s) q ts -> tagged G p ts.
    Proof.
      intros I. induction 1 as [|v a p q A B IH]; intros ts Ht; inversion Ht; subst; constructor; [|apply IH; auto].
      destruct (r_map _ _ I _ _ A) as [_ [_ <-]]. auto.
    Qed.
    Lemma pre_last (s : revState) : forall p q, Forall2 (fun v a => afind v (revOf s) = Some a) p q -> q <> [] ->
      p <> [] /\ afind (hd 0 p) (revOf s) = Some (hd 0 q) /\ afind (last p 0) (revOf s) = Some (last q 0).
    Proof.
      induction 1 as [|v a p q A B IH]; [congruence|]. intros _. refine (conj _ (conj A _)); [discriminate|].
      destruct B as [|v' a' p q A' B]; [exact A|]. apply IH. discriminate.
    Qed.
    Lemma tagged_lt R p ts a : sized R -> tagged R p ts -> In a p -> a < size R.
    Proof.
      intros Sz. induction 1 as [|x t p ts A B IH]; [intros []|]. intros [->|Hi]; auto. unfold node in A.
      assert (a < length (nodes R)) by (apply nth_error_Some; congruence). unfold sized, size in *. lia.
    Qed.
    Lemma out_le E s : rinv E s -> size (out s) <= size G.
    Proof.
      intros I. destruct (preimages E s I (seq 0 (size (out s)))) as [p Hp]; [intros a Ha; apply in_seq in Ha; lia|].
      assert (Nd : NoDup p).
      { assert (X : NoDup (seq 0 (size (out s)))) by apply seq_NoDup. revert X Hp. generalize (seq 0 (size (out s))). intros q X Hp.
        induction Hp as [|v a p q A B IH]; [constructor|]. inversion X as [|x l X1 X2]; subst. constructor; auto.
        intros Hi. apply X1. clear - Hi B A. induction B as [|v' a' p q A' B IH]; [destruct Hi|].
        destruct Hi as [->|Hi]; [left; congruence|right; auto]. }
      assert (Inc : incl p (seq 0 (size G))).
      { intros v Hv. apply in_seq. clear Nd. induction Hp as [|v' a p q A B IH]; [destruct Hv|].
        destruct Hv as [->|Hv]; auto. apply (r_map _ _ I) in A. lia. }
      pose proof (NoDup_incl_length Nd Inc) as Hl. rewrite seq_length in Hl.
      assert (El : length p = length (seq 0 (size (out s)))) by (clear - Hp; induction Hp; cbn; auto). rewrite seq_length in El. lia.
    Qed.

    Lemma reversed_wf m R s dn cut : reversed m R s dn cut -> wf R.
    Proof.
      intros [L D1 D2 D3 D4 D5 D6]. pose proof (l_rinv _ _ _ L) as I.
      assert (Ao : forall a b, arc (out s) a b -> b < size (out s)).
      { intros a b Ha. apply (r_arcs _ _ I) in Ha. destruct Ha as [u [v [A1 [A2 A3]]]]. apply (r_map _ _ I _ _ A2). }
      split; [|split].
      - rewrite D1, D2. apply I.
      - intros v [] t Hi. unfold outEdges, size in *. rewrite D2 in *. exact (Ao v t Hi).
      - intros r Hr. unfold size. rewrite D2. apply D4 in Hr. destruct Hr as [Hr|Hr].
        + apply (l_roots _ _ _ L) in Hr. destruct Hr as [v [_ [_ Hv]]]. apply (r_map _ _ I _ _ Hv).
        + apply in_map_iff in Hr. destruct Hr as [x [<- Hx]]. rewrite <- D3 in Hx. apply (r_next _ _ I) in Hx.
          apply (r_map _ _ I _ _ Hx).
    Qed.
    Lemma reversed_acyclic m R s dn cut : reversed m R s dn cut -> acyclic G -> acyclic R.
    Proof.
      intros [L D1 D2 D3 D4 D5 D6] Ac a Ha. pose proof (l_rinv _ _ _ L) as I.
      assert (K : forall x y, clos_trans _ (arc R) x y -> exists u v, afind u (revOf s) = Some x /\ afind v (revOf s) = Some y /\
                clos_trans _ (arc G) v u).
      { induction 1 as [x y Hxy|x y z _ [u [v [A1 [A2 A3]]]] _ [u' [v' [B1 [B2 B3]]]]].
        - unfold arc, outEdges in Hxy. rewrite D2 in Hxy. apply (r_arcs _ _ I) in Hxy. destruct Hxy as [u [v [A1 [A2 [_ A3]]]]].
          exists u, v. refine (conj A1 (conj A2 _)). apply t_step; auto.
        - exists u, v'. refine (conj A1 (conj B2 _)). rewrite (r_inj _ _ I _ _ _ A2 B1) in A3. eapply t_trans; eauto. }
      destruct (K a a Ha) as [u [v [A1 [A2 A3]]]]. rewrite (r_inj _ _ I _ _ _ A1 A2) in A3. exact (Ac _ A3).
    Qed.

    Lemma reversed_sound m R s dn cut r l : reversed m R s dn cut -> spellsBack R r l ->
      exists p ts, p <> [] /\ In (hd 0 p) (roots G) /\ consec (arc G) p /\ tagged G p ts /\ rev l = concat ts.
    Proof.
      intros [L D1 D2 D3 D4 D5 D6] Hs. pose proof (l_rinv _ _ _ L) as I.
      apply spellsBack_paths in Hs. destruct Hs as [q [ts [P1 [P2 [P3 [P4 [P5 ->]]]]]]].
      assert (P3' : consec (arc (out s)) q).
      { eapply consec_impl; [|exact P3]. intros x y. unfold arc, outEdges. now rewrite D2. }
      assert (P4' : tagged (out s) q ts).
      { unfold tagged in *. eapply Forall2_mono; [|exact P4]. intros x y. unfold node. now rewrite D1. }
      destruct (preimages _ s I q) as [p Hp]; [intros a Ha; eapply tagged_lt; eauto; apply I|].
      destruct (pre_last s p q Hp P1) as [Q1 [Q2 Q3]].
      exists (rev p), (rev ts). refine (conj (rev_nonempty p Q1) (conj _ (conj _ (conj _ _)))).
      - rewrite hd_rev by auto. destruct (l_src _ _ _ L (last p 0)) as [|[v [Hd Ha]]]; [exists (last q 0); auto|auto|].
        exfalso. destruct (l_dn _ _ _ L v Hd) as [b Hb].
        assert (X : arc (out s) (last q 0) b) by (apply (r_arcs _ _ I); exists (last p 0), v; auto).
        unfold arc, outEdges in X. unfold outEdges in P5. rewrite <- D2, P5 in X. destruct X.
      - apply consec_rev. eapply consec_impl; [|exact (pre_arcs _ s I p q Hp P3')]. cbn. tauto.
      - apply tagged_rev. exact (pre_tags _ s I p q Hp ts P4').
      - now rewrite rev_involutive.
    Qed.
    Lemma known_path s dn : linv dn [] s -> next s = [] -> forall p, p <> [] -> consec (arc G) p -> In (hd 0 p) (roots G) ->
      forall v, In v p -> dn v.
    Proof.
      intros L Hn.
      assert (K : forall u, known s u -> dn u).
      { intros u Hu. destruct (l_known _ _ _ L u Hu) as [|[[]|Hi]]; auto. rewrite Hn in Hi. destruct Hi. }
      assert (K2 : forall p, p <> [] -> consec (arc G) p -> dn (hd 0 p) -> forall v, In v p -> dn v).
      { induction p as [|x p IH]; [congruence|]. intros _ Hc Hd v [<-|Hv]; auto. destruct p as [|y p]; [destruct Hv|].
        destruct Hc as [Hc1 Hc2]. apply IH; auto; [discriminate|]. cbn in *. apply K. apply (r_E _ _ (l_rinv _ _ _ L) x y). auto. }
      intros p P1 P2 P3. apply K2; auto. apply K, (l_init _ _ _ L); auto.
    Qed.
    Lemma reversed_complete m R s dn cut l v : reversed m R s dn cut -> size G <= m -> In v (roots G) ->
      (forall w, ~ arc G w v) -> spells G v (rev l) -> exists r, In r (roots R) /\ spellsBack R r l.
    Proof.
      intros [L D1 D2 D3 D4 D5 D6] Hm Hv Hs Hl. pose proof (l_rinv _ _ _ L) as I.
      assert (Hc : cut = []).
      { destruct cut as [|x cut]; auto. pose proof (out_le _ s I). assert (m < size (out s)) by (apply D6; discriminate). lia. }
      subst cut. apply spells_paths in Hl. destruct Hl as [p [ts [P1 [P2 [P3 [P4 [P5 P6]]]]]]]. subst v.
      pose proof (known_path s dn L Hc p P1 P3 Hv) as Hd.
      assert (Q : exists q, Forall2 (fun v a => afind v (revOf s) = Some a) p q).
      { clear - Hd L. induction p as [|x p IH]; [exists []; constructor|].
        destruct (l_dn _ _ _ L x (Hd x (or_introl eq_refl))) as [a Ha]. destruct IH as [q Hq]; [intros; apply Hd; right; auto|].
        exists (a :: q). constructor; auto. }
      destruct Q as [q Hq].
      assert (Qn : q <> []) by (intros ->; inversion Hq; subst; congruence).
      destruct (pre_last s p q Hq Qn) as [_ [Q2 Q3]].
      assert (Lin : In (last p 0) p) by (clear - P1; destruct (exists_last P1) as [p' [z ->]]; rewrite last_last; apply in_app_iff; right; left; auto).
      exists (last q 0). split.
      - apply D4. left. apply (l_roots _ _ _ L). exists (last p 0). auto.
      - apply spellsBack_paths. exists (rev q), (rev ts).
        refine (conj (rev_nonempty q Qn) (conj (hd_rev q Qn) (conj _ (conj _ (conj _ _))))).
        + apply (consec_impl (arc (out s))); [intros x y; unfold arc, outEdges; now rewrite D2|].
          assert (X : consec (fun x y => arc (out s) y x) q).
          { clear - Hq P3 Hd I. induction Hq as [|x a p q A B IH]; cbn; auto. destruct B as [|y b p q A' B]; cbn; auto.
            destruct P3 as [P3 P3']. split.
            - apply (r_arcs _ _ I). exists y, x. refine (conj A' (conj A (conj _ P3))). apply Hd. left; auto.
            - apply IH; auto. intros; apply Hd; right; auto. }
          exact (consec_rev _ _ X).
        + apply tagged_rev. clear - Hq P4 I D1. revert ts P4. unfold tagged. induction Hq as [|x a p q A B IH]; intros ts P4; inversion P4; subst; constructor; auto.
          destruct (r_map _ _ I _ _ A) as [_ [_ A2]]. unfold node in *. rewrite D1. congruence.
        + rewrite last_rev by auto. destruct (outEdges R (hd 0 q)) as [|[[] b] es] eqn:Eo; auto. exfalso.
          assert (X : arc (out s) (hd 0 q) b) by (unfold arc, outEdges in *; rewrite <- D2, Eo; left; auto).
          apply (r_arcs _ _ I) in X. destruct X as [u [w [X1 [X2 [X3 X4]]]]].
          rewrite (r_inj _ _ I _ _ _ X1 Q2) in X4. exact (Hs _ X4).
        + rewrite rev_involutive, <- P6. symmetry. apply rev_involutive.
    Qed.
  End ReverseDAG.

  (** ** Acyclic graphs have bounded readings *)
  Lemma consec_NoDup G : acyclic G -> forall p, consec (arc G) p -> NoDup p.
  Proof.
    intros Ac.
    assert (K : forall p x, consec (arc G) (x :: p) -> forall y, In y p -> clos_trans _ (arc G) x y).
    { induction p as [|z p IH]; intros x Hc y []; destruct Hc as [Hc1 Hc2].
      - subst. apply t_step; auto.
      - eapply t_trans; [apply t_step; exact Hc1|]. apply IH; auto. }
    induction p as [|x p IH]; intros Hc; constructor.
    - intros Hi. exact (Ac x (K p x Hc x Hi)).
    - apply IH. destruct p; [exact Logic.I|apply Hc].
  Qed.
  Lemma reads_bound G : sized G -> acyclic G -> forall v n ws, reads G v n ws -> length ws < size G.
  Proof.
    intros Sz Ac v n ws Hr.
    assert (K : forall ws v n, reads G v n ws -> exists p, length p = S (length ws) /\ hd 0 p = v /\ consec (arc G) p /\ incl p (seq 0 (size G))).
    { clear - Sz. induction ws as [|[[] n'] ws IH]; intros v n [A B].
      - exists [v]. refine (conj eq_refl (conj eq_refl (conj Logic.I _))). intros x [<-|[]]. apply in_seq.
        assert (v < length (nodes G)) by (apply nth_error_Some; congruence). unfold sized, size in *. lia.
      - destruct B as [t [B1 B2]]. destruct (IH _ _ B2) as [p [P1 [P2 [P3 P4]]]]. exists (v :: p).
        refine (conj _ (conj eq_refl (conj _ _))); [cbn; lia| |].
        + destruct p as [|y p]; [discriminate|]. cbn in P2. subst y. split; auto.
        + intros x [<-|Hx]; [|apply P4; auto]. apply in_seq.
          assert (v < length (nodes G)) by (apply nth_error_Some; congruence). unfold sized, size in *. lia. }
    destruct (K ws v n Hr) as [p [P1 [P2 [P3 P4]]]]. pose proof (NoDup_incl_length (consec_NoDup G Ac p P3) P4) as Hl.
    rewrite seq_length in Hl. lia.
  Qed.
  Lemma cycle_reads G : sized G -> forall k x, clos_trans _ (arc G) x x -> exists n ws, length ws = k /\ reads G x n ws.
  Proof.
    intros Sz. induction k as [|k IH]; intros x Hc.
    - assert (Hx : exists y, arc G x y) by (apply clos_trans_t1n in Hc; inversion Hc; eauto). destruct Hx as [y Hy].
      apply arc_lt in Hy. destruct (nth_error (nodes G) x) as [n|] eqn:En; [exists n, []; cbn; auto|].
      apply nth_error_None in En. unfold sized, size in *. lia.
    - assert (Hx : exists y, arc G x y /\ clos_trans _ (arc G) y y).
      { pose proof Hc as Hc0. apply clos_trans_t1n in Hc. inversion Hc as [y Hy|y z Hy Hz]; subst; [exists x; auto|].
        exists y. split; auto. apply clos_t1n_trans in Hz. eapply t_trans; [exact Hz|]. apply t_step; auto. }
      destruct Hx as [y [Hy Hc']]. destruct (IH y Hc') as [n [ws [E Hr]]].
      apply arc_lt in Hy as Hl. destruct (nth_error (nodes G) x) as [n0|] eqn:En.
      + exists n0, ((tt, n) :: ws). cbn. split; auto. split; auto. exists y. auto.
      + apply nth_error_None in En. unfold sized, size in *. lia.
  Qed.
End G.
