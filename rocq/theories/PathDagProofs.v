(** Proofs about the search for paths in PathDagModel. *)
From Coq Require Import List Bool Arith Lia Relations.
From Verif Require Import Assoc DFAMinimizerModel DFAMinimizerSpec DFAMinimizerProofs ExplodedSuperGraphModel
  ExplodedSuperGraphSpec PathDagModel PathDagSpec PathDagGraphs.
Import ListNotations.

Section Search.
  Context {N D : Type} `{EqDec N} `{EqDec D}.
  Variable g : esg N D.
  Variable isEnd isErr : nat -> option nat -> bool.
  Notation ends := (ends g isEnd isErr).
  Notation goesTo := (goesTo g isEnd isErr).
  Notation btrace := (btrace g isEnd isErr).
  Notation spelled := (spelled g).
  Notation back := (back g).
  Notation backs := (clos_refl_trans _ back).

  (** ** The do-while loop *)
  (** steps without choice *)
  Inductive run : nat -> list nat -> nat -> Prop :=
  | run_one k : run k [] k
  | run_step k nd p pd vs prev : nodeAt g k = Some nd -> pred nd = Some p ->
      isEnd k (Some p) = false -> isErr k (Some p) = false ->
      nodeAt g p = Some pd -> neighbors pd = [] -> run p vs prev -> run k (p :: vs) prev.

  Lemma chain_ok : forall cf k tags tags' prev nxt e r,
    chain g isEnd isErr cf k tags = Some (tags', prev, nxt, e, r) ->
    exists vs l nd, run k vs prev /\ tags' = tags ++ l /\ spelled k vs l /\
      nodeAt g prev = Some nd /\ nxt = pred nd /\ e = isEnd prev nxt /\ r = negb e && isErr prev nxt.
  Proof.
    induction cf as [|cf IH]; intros k tags tags' prev nxt e r; cbn [chain]; [discriminate|].
    destruct (nodeAt g k) as [nd|] eqn:Ek; [|discriminate].
    assert (Sk : forall n vs l, spelled n vs l -> spelled k (n :: vs) (source nd :: l)).
    { intros n vs l Hl. constructor; auto. exists nd. auto. }
    assert (S1 : spelled k [] [source nd]) by (constructor; [exists nd; auto|constructor]).
    destruct (pred nd) as [p|] eqn:Ep.
    - destruct (isEnd k (Some p) || (negb (isEnd k (Some p)) && isErr k (Some p))) eqn:Eb.
      + intros E. injection E as <- <- <- <- <-. exists [], [source nd], nd. rewrite Ep. repeat split; auto. constructor.
      + apply orb_false_iff in Eb. destruct Eb as [E1 E2]. rewrite E1 in E2. cbn in E2.
        destruct (nodeAt g p) as [pd|] eqn:Epd; [|discriminate].
        destruct (Nat.eqb_spec (length (neighbors pd)) 0) as [En|En].
        * intros E. apply IH in E. destruct E as (vs & l & nd' & R & -> & Hl & E3 & E4 & E5 & E6).
          exists (p :: vs), (source nd :: l), nd'. rewrite <- app_assoc.
          refine (conj _ (conj eq_refl (conj (Sk _ _ _ Hl) (conj E3 (conj E4 (conj E5 E6)))))).
          econstructor; eauto. destruct (neighbors pd); [auto|discriminate].
        * intros E. injection E as <- <- <- <- <-. exists [], [source nd], nd. rewrite Ep. repeat split; auto. constructor.
    - intros E. injection E as <- <- <- <- <-. exists [], [source nd], nd. rewrite Ep. repeat split; auto. constructor.
  Qed.

  Lemma run_goes k vs prev : run k vs prev -> forall ws, btrace k ws <-> exists ws', ws = vs ++ ws' /\ btrace prev ws'.
  Proof.
    induction 1 as [k|k nd p pd vs prev Hk Hp He Hr Hpd Hn R IH]; intros ws.
    - cbn. split; [eauto|]. intros [ws' [-> Hw]]. exact Hw.
    - destruct ws as [|q ws].
      + cbn [btrace PathDagSpec.btrace]. split.
        * intros [nd' [Hk' Hm]]. rewrite Hk in Hk'. injection Hk' as <-. rewrite Hp in Hm.
          destruct Hm as [Hm|[pd' [q [Hpd' [Hq _]]]]]; [congruence|].
          rewrite Hpd in Hpd'. injection Hpd' as <-. rewrite Hn in Hq. destruct Hq.
        * intros [ws' [E _]]. discriminate.
      + cbn [btrace PathDagSpec.btrace]. split.
        * intros [[Hb _] Ht].
          assert (q = p) as ->.
          { destruct Hb as [nd' [p' [Hk' [Hp' Hq]]]]. rewrite Hk in Hk'. injection Hk' as <-.
            rewrite Hp in Hp'. injection Hp' as <-. destruct Hq as [Hq|[pd' [Hpd' Hq]]]; auto.
            rewrite Hpd in Hpd'. injection Hpd' as <-. rewrite Hn in Hq. destruct Hq. }
          apply IH in Ht. destruct Ht as [ws' [-> Hw]]. exists ws'. auto.
        * intros [ws' [E Hw]]. cbn in E. injection E as -> ->. split.
          -- split; [|auto]. exists nd, p. auto.
          -- apply IH. eauto.
  Qed.
  Lemma run_backs k vs prev : run k vs prev -> backs k prev.
  Proof.
    induction 1 as [k|k nd p pd vs prev Hk Hp He Hr Hpd Hn R IH]; [apply rt_refl|].
    eapply rt_trans; [apply rt_step|exact IH]. exists nd, p. auto.
  Qed.

  (** ** The invariant *)
  Notation ctx := (ctx N).

  Definition finished (G : pgraph N) (ca : list (nat * option nat)) (k v : nat) : Prop :=
    exists vs prev l, run k vs prev /\ node G v = Some l /\ spelled k vs l /\
      (forall u, arc G v u -> exists q, goesTo prev q /\ afind q ca = Some (Some u)) /\
      (outEdges G v = [] -> ends prev) /\
      (forall q, goesTo prev q -> exists r, afind q ca = Some r /\
         (r = None \/ (exists u, r = Some u /\ arc G v u) \/ backs q k)).
  Definition failed (ca : list (nat * option nat)) (k : nat) : Prop :=
    exists vs prev, run k vs prev /\ ~ ends prev /\
      (forall q, goesTo prev q -> exists r, afind q ca = Some r /\ (r = None \/ backs q k)).

  (** [Rs]: the query vertices *)
  Record inv (Rs : list nat) (c : ctx) : Prop := mkInv {
    i_sized : sized (dag c);
    i_done : forall k v, afind k (cache c) = Some (Some v) -> v < size (dag c) /\ ~ In v Rs /\
      (In v (path c) \/ finished (dag c) (cache c) k v);
    i_inj : forall k k' v, afind k (cache c) = Some (Some v) -> afind k' (cache c) = Some (Some v) -> k = k';
    i_failed : forall k, afind k (cache c) = Some None -> failed (cache c) k;
    i_path : forall v, In v (path c) -> exists k, afind k (cache c) = Some (Some v);
    i_arcs : forall v u, arc (dag c) v u -> ~ In u (path c) /\ exists k, afind k (cache c) = Some (Some u);
    i_roots : forall v, In v Rs -> v < size (dag c);
    i_vertex : forall v, v < size (dag c) -> In v Rs \/ exists k, afind k (cache c) = Some (Some v);
    i_acyclic : acyclic (dag c) }.

  (** what a call leaves as it was; the edges of [x] may change *)
  Record keepsBut (x : option nat) (c c' : ctx) : Prop := mkKeeps {
    k_path : path c' = path c;
    k_logged : logged c' = logged c;
    k_roots : roots (dag c') = roots (dag c);
    k_cache : forall q x, afind q (cache c) = Some x -> afind q (cache c') = Some x;
    k_size : size (dag c) <= size (dag c');
    k_node : forall v, v < size (dag c) -> node (dag c') v = node (dag c) v;
    k_out : forall v, v < size (dag c) -> x <> Some v -> outEdges (dag c') v = outEdges (dag c) v }.
  Notation keeps := (keepsBut None).
  Lemma keeps_refl x c : keepsBut x c c.
  Proof. constructor; auto. Qed.
  Lemma keeps_trans x a b c : keepsBut x a b -> keepsBut x b c -> keepsBut x a c.
  Proof.
    intros [A1 A2 A3 A4 A5 A6 A7] [B1 B2 B3 B4 B5 B6 B7]. constructor; try congruence; auto; try lia.
    - intros v Hv. rewrite B6, A6; auto. lia.
    - intros v Hv Hx. rewrite B7, A7; auto. lia.
  Qed.
  Lemma keeps_weaken x c c' : keeps c c' -> keepsBut x c c'.
  Proof. intros [A1 A2 A3 A4 A5 A6 A7]. constructor; auto. intros v Hv _. apply A7; auto. discriminate. Qed.
  (** the vertices that were added are linked, but for [x] *)
  Definition linked (c c' : ctx) (x : option nat) : Prop :=
    forall v, size (dag c) <= v -> v < size (dag c') -> x = Some v \/ exists w, arc (dag c') w v.

  Definition ancestors (c : ctx) (k : nat) : Prop :=
    forall q u, afind q (cache c) = Some (Some u) -> In u (path c) -> backs q k.

  Definition laOk (Rs : list nat) (rec : nat -> ctx -> option (option nat * ctx)) : Prop :=
    forall k c r c', inv Rs c -> ancestors c k -> rec k c = Some (r, c') ->
      inv Rs c' /\ keeps c c' /\ afind k (cache c') = Some r /\ linked c c' r /\
      ((forall v, r = Some v -> v < size (dag c)) -> size (dag c') = size (dag c)).

  Lemma finished_keeps G G' ca ca' k v : node G' v = node G v -> outEdges G' v = outEdges G v ->
    (forall q x, afind q ca = Some x -> afind q ca' = Some x) ->
    finished G ca k v -> finished G' ca' k v.
  Proof.
    intros En Eo Ec (vs & prev & l & R & Hl & Hs & Ha & Hz & Hq). exists vs, prev, l.
    unfold arc in *. rewrite En, Eo. refine (conj R (conj Hl (conj Hs (conj _ (conj Hz _))))).
    - intros u Hu. destruct (Ha u Hu) as [q [Hg Hc]]. eauto.
    - intros q Hg. destruct (Hq q Hg) as [r [Hc Hr]]. eauto.
  Qed.
  Lemma failed_keeps ca ca' k : (forall q x, afind q ca = Some x -> afind q ca' = Some x) -> failed ca k -> failed ca' k.
  Proof.
    intros Ec (vs & prev & R & He & Hq). exists vs, prev. refine (conj R (conj He _)).
    intros q Hg. destruct (Hq q Hg) as [r [Hc Hr]]. eauto.
  Qed.

  Lemma ancestors_keeps Rs x c c' k : inv Rs c -> inv Rs c' -> keepsBut x c c' -> ancestors c k -> ancestors c' k.
  Proof.
    intros I I' K A q u Hq Hu. rewrite (k_path _ _ _ K) in Hu. destruct (i_path _ _ I u Hu) as [q' Hq'].
    assert (q = q') as -> by (eapply (i_inj _ _ I'); eauto; apply (k_cache _ _ _ K); auto).
    eapply A; eauto.
  Qed.
  Lemma path_lt Rs c v : inv Rs c -> In v (path c) -> v < size (dag c).
  Proof. intros I Hv. destruct (i_path _ _ I v Hv) as [k Hk]. apply (i_done _ _ I k v Hk). Qed.

  (** a new edge from a vertex in progress, or from a query vertex, to a
      finished one *)
  Lemma inv_addEdge Rs c ret q s : inv Rs c -> In ret (path c) \/ In ret Rs -> afind q (cache c) = Some (Some s) ->
    ~ In s (path c) -> inv Rs (onDag (fun G => addEdge G ret (tt, s)) c).
  Proof.
    intros I Hr Hq Hs.
    assert (Lr : ret < size (dag c)) by (destruct Hr as [Hr|Hr]; [eapply path_lt; eauto|apply (i_roots _ _ I); auto]).
    assert (Nr : forall v, ~ arc (addEdge (dag c) ret (tt, s)) v ret).
    { intros v Hv. apply (addEdge_arc (dag c)) in Hv; auto.
      assert (X : ~ In ret (path c) /\ exists k, afind k (cache c) = Some (Some ret)).
      { destruct Hv as [Hv|[_ ->]]; [exact (i_arcs _ _ I _ _ Hv)|eauto]. }
      destruct X as [X1 [k X2]]. destruct Hr as [Hr|Hr]; auto. apply (i_done _ _ I) in X2. tauto. }
    constructor; unfold onDag; cbn [dag cache path logged]; try apply I.
    - apply addEdge_sized, I.
    - intros k v Hk. rewrite addEdge_size. destruct (i_done _ _ I k v Hk) as [A1 [A2 A3]]. refine (conj A1 (conj A2 _)).
      destruct A3 as [A3|A3]; auto. destruct (Nat.eq_dec v ret) as [->|Hv].
      + destruct Hr as [Hr|Hr]; [auto|contradiction].
      + right. eapply finished_keeps; [| | |exact A3]; auto. rewrite addEdge_out by auto.
        apply Nat.eqb_neq in Hv. rewrite Hv. reflexivity.
    - intros v u Hu. apply (addEdge_arc (dag c)) in Hu; auto. destruct Hu as [Hu|[_ ->]]; [exact (i_arcs _ _ I _ _ Hu)|eauto].
    - intros v. rewrite addEdge_size. apply I.
    - intros v. rewrite addEdge_size. apply I.
    - apply (acyclic_source (dag c) _ ret); auto; [apply I|]. intros v u Hv Hu.
      apply (addEdge_arc (dag c)) in Hu; auto. tauto.
  Qed.
  Lemma inv_dedup Rs c ret : inv Rs c -> ret < size (dag c) -> In ret (path c) \/ In ret Rs ->
    inv Rs (onDag (fun G => dedupAt G ret) c).
  Proof.
    intros I Lr Hr. constructor; unfold onDag; cbn [dag cache path logged]; try apply I.
    - apply dedupAt_sized, I.
    - intros k v Hk. rewrite dedupAt_size. destruct (i_done _ _ I k v Hk) as [A1 [A2 A3]]. refine (conj A1 (conj A2 _)).
      destruct A3 as [A3|A3]; auto. destruct (Nat.eq_dec v ret) as [->|Hv].
      + destruct Hr as [Hr|Hr]; [auto|contradiction].
      + right. eapply finished_keeps; [| | |exact A3]; auto. rewrite dedupAt_out by auto.
        apply Nat.eqb_neq in Hv. rewrite Hv. reflexivity.
    - intros v u Hu. apply (dedupAt_arc (dag c)) in Hu; auto. exact (i_arcs _ _ I _ _ Hu).
    - intros v. rewrite dedupAt_size. apply I.
    - intros v. rewrite dedupAt_size. apply I.
    - eapply acyclic_sub; [apply I|]. intros v u Hu. apply (dedupAt_arc (dag c)) in Hu; auto.
  Qed.

  (** ** The traversal from a vertex in progress *)
  Section Frame.
    Variable Rs : list nat.
    Variable rec : nat -> ctx -> option (option nat * ctx).
    Hypothesis Hrec : laOk Rs rec.
    Variable k ret prev : nat.
    Variable vs : list nat.
    Variable P0 : list nat.
    Hypothesis Hrun : run k vs prev.

    Record prog (hs : nat -> Prop) (c : ctx) : Prop := mkProg {
      p_inv : inv Rs c;
      p_path : path c = ret :: P0;
      p_anc : ancestors c k;
      p_key : afind k (cache c) = Some (Some ret);
      p_arcs : forall u, arc (dag c) ret u -> exists q, goesTo prev q /\ afind q (cache c) = Some (Some u);
      p_handled : forall q, hs q -> exists r, afind q (cache c) = Some r /\
         (r = None \/ (exists u, r = Some u /\ arc (dag c) ret u) \/ backs q k) }.

    Lemma ret_lt hs c : prog hs c -> ret < size (dag c).
    Proof. intros P. eapply path_lt; [apply P|]. rewrite (p_path _ _ P). left; auto. Qed.

    (** [e]: nothing was found *)
    Definition empty (c : ctx) : Prop := outEdges (dag c) ret = [].

    Lemma traverse_ok hs c q c' : prog hs c -> goesTo prev q -> traverseNext rec ret q c = Some c' ->
      prog (fun x => x = q \/ hs x) c' /\ keepsBut (Some ret) c c' /\ linked c c' None /\
      (forall u, arc (dag c) ret u -> arc (dag c') ret u) /\
      (empty c' -> size (dag c') = size (dag c)).
    Proof.
      intros P Hg. unfold traverseNext. destruct (rec q c) as [[r c1]|] eqn:E; [|discriminate].
      assert (Aq : ancestors c q).
      { intros q' u Hq' Hu. eapply rt_trans; [exact (p_anc _ _ P q' u Hq' Hu)|].
        eapply rt_trans; [exact (run_backs _ _ _ Hrun)|]. apply rt_step. apply Hg. }
      destruct (Hrec _ _ _ _ (p_inv _ _ P) Aq E) as [I1 [K1 [F1 [L1 Z1]]]].
      pose proof (ret_lt _ _ P) as Lr.
      assert (Out : outEdges (dag c1) ret = outEdges (dag c) ret) by (apply (k_out _ _ _ K1); auto; discriminate).
      assert (P1 : forall hs' : nat -> Prop, (forall x, hs' x -> exists r, afind x (cache c1) = Some r /\
         (r = None \/ (exists u, r = Some u /\ arc (dag c1) ret u) \/ backs x k)) -> prog hs' c1).
      { intros hs' Hh. constructor; auto.
        - rewrite (k_path _ _ _ K1). apply P.
        - eapply ancestors_keeps; [apply P|exact I1|exact K1|apply P].
        - apply (k_cache _ _ _ K1), P.
        - intros u Hu. unfold arc in Hu. rewrite Out in Hu. destruct (p_arcs _ _ P u Hu) as [q' [G1 G2]].
          exists q'. split; auto. apply (k_cache _ _ _ K1); auto. }
      assert (Hold : forall x, hs x -> exists r, afind x (cache c1) = Some r /\
         (r = None \/ (exists u, r = Some u /\ arc (dag c1) ret u) \/ backs x k)).
      { intros x Hx. destruct (p_handled _ _ P x Hx) as [r' [B1 B2]]. exists r'.
        split; [apply (k_cache _ _ _ K1); auto|]. unfold arc in *. rewrite Out. exact B2. }
      assert (Keep : forall u, arc (dag c) ret u -> arc (dag c1) ret u) by (unfold arc; rewrite Out; auto).
      destruct r as [s|].
      - destruct (mem s (path c1)) eqn:Em; intros Ec; injection Ec as <-.
        + apply mem_true in Em.
          assert (Hb : backs q k).
          { rewrite (k_path _ _ _ K1) in Em. destruct (i_path _ _ (p_inv _ _ P) _ Em) as [q' Hq'].
            assert (q = q') as -> by (eapply (i_inj _ _ I1); eauto; apply (k_cache _ _ _ K1); auto).
            exact (p_anc _ _ P q' s Hq' Em). }
          split; [|split; [exact (keeps_weaken _ _ _ K1)|split; [|split; [auto|]]]].
          * apply P1. intros x [->|Hx]; auto. exists (Some s). auto.
          * intros v V1 V2. destruct (L1 v V1 V2) as [Hv|Hv]; auto. injection Hv as <-.
            rewrite (k_path _ _ _ K1) in Em. pose proof (path_lt _ _ _ (p_inv _ _ P) Em). lia.
          * intros _. apply Z1. intros v Hv. injection Hv as <-.
            rewrite (k_path _ _ _ K1) in Em. exact (path_lt _ _ _ (p_inv _ _ P) Em).
        + apply mem_false in Em.
          assert (Lr1 : ret < size (dag c1)) by (pose proof (k_size _ _ _ K1); lia).
          assert (Pr1 : In ret (path c1)) by (rewrite (k_path _ _ _ K1), (p_path _ _ P); left; auto).
          pose proof (inv_addEdge Rs c1 ret q s I1 (or_introl Pr1) F1 Em) as I2.
          assert (New : forall x y, arc (addEdge (dag c1) ret (tt, s)) x y <-> arc (dag c1) x y \/ (x = ret /\ y = s))
            by (intros x y; apply addEdge_arc; auto).
          split; [|split; [|split; [|split]]].
          * constructor; auto; unfold onDag; cbn [dag cache path].
            -- rewrite (k_path _ _ _ K1). apply P.
            -- eapply (ancestors_keeps Rs None c c1 k); [apply P|exact I1|exact K1|apply P].
            -- apply (k_cache _ _ _ K1), P.
            -- intros u Hu. apply New in Hu. destruct Hu as [Hu|[_ ->]]; [|eauto].
               apply (p_arcs _ _ (P1 _ Hold) u Hu).
            -- intros x [->|Hx].
               ++ exists (Some s). split; auto. right. left. exists s. split; auto. apply New. auto.
               ++ destruct (Hold x Hx) as [r [B1 B2]]. exists r. split; auto.
                  destruct B2 as [B2|[[u [B2 B3]]|B2]]; auto. right. left. exists u. split; auto. apply New. auto.
          * destruct K1 as [A1 A2 A3 A4 A5 A6 A7]. unfold onDag. constructor; cbn [dag cache path logged]; auto.
            -- rewrite addEdge_size. auto.
            -- intros v Hv Hx. rewrite addEdge_out by auto. destruct (Nat.eqb_spec v ret); [congruence|].
               apply A7; auto. discriminate.
          * intros v V1 V2. unfold onDag in *. cbn [dag] in *. rewrite addEdge_size in V2.
            destruct (L1 v V1 V2) as [Hv|[w Hw]]; right; [|exists w; apply New; auto].
            injection Hv as <-. exists ret. apply New. auto.
          * intros u Hu. apply New. auto.
          * unfold empty, onDag. cbn [dag]. intros Hz. exfalso.
            assert (Ha : arc (addEdge (dag c1) ret (tt, s)) ret s) by (apply New; auto).
            unfold arc in Ha. rewrite Hz in Ha. destruct Ha.
      - intros Ec; injection Ec as <-.
        split; [|split; [exact (keeps_weaken _ _ _ K1)|split; [|split; [auto|]]]].
        + apply P1. intros x [->|Hx]; auto. exists None. auto.
        + intros v V1 V2. destruct (L1 v V1 V2) as [Hv|Hv]; auto.
        + intros _. apply Z1. discriminate.
    Qed.

    Lemma linked_trans a b c : keepsBut (Some ret) b c -> (forall u, arc (dag b) ret u -> arc (dag c) ret u) ->
      linked a b None -> linked b c None -> linked a c None.
    Proof.
      intros K Ha L1 L2 v V1 V2. destruct (Nat.lt_ge_cases v (size (dag b))) as [Hv|Hv]; auto.
      right. destruct (L1 v V1 Hv) as [|[w Hw]]; [discriminate|]. exists w.
      destruct (Nat.eq_dec w ret) as [->|Hr]; auto. unfold arc in *. rewrite (k_out _ _ _ K); auto; [|congruence].
      eapply arc_lt; exact Hw.
    Qed.
    Lemma prog_weaken (hs hs' : nat -> Prop) c : (forall x, hs' x -> hs x) -> prog hs c -> prog hs' c.
    Proof. intros Hi [P1 P2 P3 P4 P5 P6]. constructor; auto. Qed.

    Lemma traverseAll_ok : forall nbs hs e c e' c', prog hs c -> (forall q, In q nbs -> back prev q) ->
      traverseAll isEnd isErr rec ret prev nbs e c = Some (e', c') ->
      prog (fun x => hs x \/ (In x nbs /\ goesTo prev x)) c' /\ keepsBut (Some ret) c c' /\ linked c c' None /\
      (forall u, arc (dag c) ret u -> arc (dag c') ret u) /\
      (empty c' -> size (dag c') = size (dag c)) /\
      (e' = true <-> e = true \/ exists q, In q nbs /\ isErr prev (Some q) = false /\ isEnd prev (Some q) = true).
    Proof.
      induction nbs as [|q nbs IH]; intros hs e c e' c' P Hb; cbn [traverseAll].
      - intros E. injection E as <- <-. split; [|split; [apply keeps_refl|split; [|split; [auto|split; [auto|]]]]].
        + eapply prog_weaken; [|exact P]. intros x [Hx|[[] _]]; auto.
        + intros v V1 V2. lia.
        + split; auto. intros [|[q [[] _]]]; auto.
      - destruct (isErr prev (Some q)) eqn:Er; [|destruct (isEnd prev (Some q)) eqn:Ee].
        + intros E. apply (IH hs) in E; auto; [|intros; apply Hb; right; auto].
          destruct E as [E1 [E2 [E3 [E4 [E5 E6]]]]]. refine (conj _ (conj E2 (conj E3 (conj E4 (conj E5 _))))).
          * eapply prog_weaken; [|exact E1]. intros x [Hx|[[<-|Hx] Hg]]; auto.
            destruct Hg as [_ [_ Hg]]. congruence.
          * rewrite E6. split; [|]; (intros [Hx|[x [Hx Hy]]]; [auto|right; exists x]).
            -- split; [right|]; auto.
            -- destruct Hx as [<-|Hx]; auto. destruct Hy. congruence.
        + intros E. apply (IH hs) in E; auto; [|intros; apply Hb; right; auto].
          destruct E as [E1 [E2 [E3 [E4 [E5 E6]]]]]. refine (conj _ (conj E2 (conj E3 (conj E4 (conj E5 _))))).
          * eapply prog_weaken; [|exact E1]. intros x [Hx|[[<-|Hx] Hg]]; auto.
            destruct Hg as [_ [Hg _]]. congruence.
          * rewrite E6. split; auto. intros _. right. exists q. split; [left|]; auto.
        + destruct (traverseNext rec ret q c) as [c1|] eqn:Et; [|discriminate]. intros E.
          assert (Hg : goesTo prev q) by (split; [apply Hb; left; auto|auto]).
          destruct (traverse_ok hs c q c1 P Hg Et) as [T1 [T2 [T3 [T4 T5]]]].
          apply (IH _ _ _ _ _ T1) in E; [|intros; apply Hb; right; auto].
          destruct E as [E1 [E2 [E3 [E4 [E5 E6]]]]].
          split; [|split; [|split; [|split; [auto|split]]]].
          * eapply prog_weaken; [|exact E1]. intros x [Hx|[[<-|Hx] Hx']]; auto.
          * eapply keeps_trans; eauto.
          * eapply linked_trans; eauto.
          * intros Hz. rewrite E5; auto. apply T5. unfold empty in *.
            destruct (outEdges (dag c1) ret) as [|[[] u] l] eqn:Eo; auto. exfalso.
            assert (Ha : arc (dag c') ret u) by (apply E4; unfold arc; rewrite Eo; left; auto).
            unfold arc in Ha. rewrite Hz in Ha. destruct Ha.
          * rewrite E6. split; [|]; (intros [Hx|[x [Hx Hy]]]; [auto|right; exists x]).
            -- split; [right|]; auto.
            -- destruct Hx as [<-|Hx]; auto. destruct Hy. congruence.
    Qed.
  End Frame.

  (** ** Entering and leaving a vertex *)
  Definition entered (c0 : ctx) (k : nat) (tags : list N) : ctx :=
    mkCtx (setTag (snd (addNode (dag c0) (Some []))) (size (dag c0)) tags)
      (aset k (Some (size (dag c0))) (cache c0)) (size (dag c0) :: path c0) (logged c0).
  Lemma entered_spec Rs c0 k tags : inv Rs c0 -> ancestors c0 k -> afind k (cache c0) = None ->
    inv Rs (entered c0 k tags) /\ ancestors (entered c0 k tags) k /\
    size (dag (entered c0 k tags)) = S (size (dag c0)) /\
    roots (dag (entered c0 k tags)) = roots (dag c0) /\
    node (dag (entered c0 k tags)) (size (dag c0)) = Some tags /\
    outEdges (dag (entered c0 k tags)) (size (dag c0)) = [] /\
    (forall v, v < size (dag c0) -> node (dag (entered c0 k tags)) v = node (dag c0) v) /\
    (forall v, outEdges (dag (entered c0 k tags)) v = outEdges (dag c0) v).
  Proof.
    intros I A Hk.
    destruct (addNode_spec (dag c0) [] (i_sized _ _ I)) as [N1 [N2 [N3 [N4 [N5 [N6 N7]]]]]].
    set (G := snd (addNode (dag c0) (Some []))) in *.
    assert (Lr : size (dag c0) < size G) by lia.
    assert (X1 : forall v, v < size (dag c0) -> node (dag (entered c0 k tags)) v = node (dag c0) v).
    { intros v Hv. cbn [entered dag]. fold G. rewrite setTag_node by auto.
      destruct (Nat.eqb_spec v (size (dag c0))); [lia|]. auto. }
    assert (X2 : forall v, outEdges (dag (entered c0 k tags)) v = outEdges (dag c0) v) by (intros v; exact (N7 v)).
    assert (X3 : forall v, outEdges (setTag G (size (dag c0)) tags) v = outEdges (dag c0) v) by exact N7.
    assert (Ca : forall q x, afind q (cache c0) = Some x -> afind q (aset k (Some (size (dag c0))) (cache c0)) = Some x).
    { intros q x Hq. rewrite afind_aset_neq; auto. congruence. }
    split; [|split; [|split; [exact N3|split; [exact N4|split; [|split; [|auto]]]]]].
    - constructor; cbn [entered dag cache path]; fold G.
      + apply setTag_sized. exact N2.
      + intros q v. rewrite afind_aset. destruct (eq_dec q k) as [->|Hq].
        * intros E. injection E as <-. split; [change (size (setTag G (size (dag c0)) tags)) with (size G); lia|].
          split; [intros Hr; apply (i_roots _ _ I) in Hr; lia|]. left. left. auto.
        * intros E. destruct (i_done _ _ I q v E) as [B1 [B2 B3]].
          split; [change (size (setTag G (size (dag c0)) tags)) with (size G); lia|]. split; auto.
          destruct B3 as [B3|B3]; [left; right; auto|]. right. eapply finished_keeps; [| | |exact B3]; auto.
      + intros q q' v. rewrite !afind_aset. destruct (eq_dec q k) as [->|Hq], (eq_dec q' k) as [->|Hq']; auto.
        * intros E1 E2. injection E1 as <-. apply (i_done _ _ I) in E2. lia.
        * intros E1 E2. injection E2 as <-. apply (i_done _ _ I) in E1. lia.
        * apply (i_inj _ _ I).
      + intros q. rewrite afind_aset. destruct (eq_dec q k) as [->|Hq]; [discriminate|]. intros E.
        eapply failed_keeps; [exact Ca|]. apply (i_failed _ _ I); auto.
      + intros v [<-|Hv]; [exists k; apply afind_aset_eq|]. destruct (i_path _ _ I v Hv) as [q Hq]. exists q. auto.
      + intros v u Hu. unfold arc in Hu. rewrite X3 in Hu. destruct (i_arcs _ _ I v u Hu) as [B1 [q B2]].
        split; [|eauto]. intros [<-|Hi]; auto. apply (i_done _ _ I) in B2. lia.
      + intros v Hv. apply (i_roots _ _ I) in Hv. change (size (setTag G (size (dag c0)) tags)) with (size G). lia.
      + intros v Hv. change (size (setTag G (size (dag c0)) tags)) with (size G) in Hv.
        destruct (Nat.eq_dec v (size (dag c0))) as [->|Hn]; [right; exists k; apply afind_aset_eq|].
        destruct (i_vertex _ _ I v) as [Hr|[q Hq]]; [lia|auto|]. right. exists q. auto.
      + eapply acyclic_sub; [apply I|]. intros v u Hu. unfold arc in *. rewrite X3 in Hu. exact Hu.
    - intros q u. cbn [entered cache path]. rewrite afind_aset. destruct (eq_dec q k) as [->|Hq]; [intros; apply rt_refl|].
      intros E [<-|Hu]; [apply (i_done _ _ I) in E; lia|]. eapply A; eauto.
    - cbn [entered dag]. fold G. rewrite setTag_node by auto. now rewrite Nat.eqb_refl.
    - rewrite X2. apply out_overflow. lia.
  Qed.

  Lemma inv_leave Rs c k ret P0 : inv Rs c -> path c = ret :: P0 -> ~ In ret P0 -> afind k (cache c) = Some (Some ret) ->
    finished (dag c) (cache c) k ret -> inv Rs (mkCtx (dag c) (cache c) P0 (logged c)).
  Proof.
    intros I Hp Hn Hk Hf. constructor; cbn [dag cache path]; try apply I.
    - intros q v Hq. destruct (i_done _ _ I q v Hq) as [B1 [B2 B3]]. refine (conj B1 (conj B2 _)).
      rewrite Hp in B3. destruct B3 as [[<-|B3]|B3]; auto. right.
      assert (q = k) as -> by (eapply (i_inj _ _ I); eauto). exact Hf.
    - intros v Hv. apply (i_path _ _ I). rewrite Hp. right; auto.
    - intros v u Hu. destruct (i_arcs _ _ I v u Hu) as [B1 B2]. split; auto. intros Hi. apply B1. rewrite Hp. right; auto.
  Qed.
  Lemma inv_pop Rs c k ret P0 G' : inv Rs c -> path c = ret :: P0 -> ~ In ret P0 -> afind k (cache c) = Some (Some ret) ->
    failed (cache c) k -> size (dag c) = S ret -> pop (dag c) ret = Some G' ->
    inv Rs (mkCtx G' (aset k None (cache c)) P0 (logged c)).
  Proof.
    intros I Hp Hn Hk Hf Hs Hpop.
    destruct (pop_spec (dag c) ret (i_sized _ _ I) Hs) as (G'' & Q1 & Q2 & Q3 & Q4 & Q5 & Q6 & Q7).
    rewrite Hpop in Q1. injection Q1 as <-.
    assert (Ks : forall q v, afind q (aset k None (cache c)) = Some (Some v) ->
              q <> k /\ afind q (cache c) = Some (Some v) /\ v <> ret).
    { intros q v. rewrite afind_aset. destruct (eq_dec q k) as [->|Hq]; [discriminate|]. intros E.
      refine (conj Hq (conj E _)). intros ->. apply Hq. eapply (i_inj _ _ I); eauto. }
    assert (Sub : forall v u, arc G' v u -> arc (dag c) v u).
    { intros v u Hu. unfold arc in *. destruct (Nat.lt_ge_cases v ret) as [Hv|Hv].
      - rewrite Q6 in Hu; auto.
      - rewrite Q7 in Hu by auto. destruct Hu. }
    assert (Nret : forall v, ~ arc (dag c) v ret).
    { intros v Hv. apply (i_arcs _ _ I) in Hv. destruct Hv as [Hv _]. apply Hv. rewrite Hp. left; auto. }
    assert (Hfail : forall q, failed (cache c) q -> failed (aset k None (cache c)) q).
    { intros q (vs & prev & R & He & Hq). exists vs, prev. refine (conj R (conj He _)).
      intros x Hx. rewrite afind_aset. destruct (eq_dec x k) as [->|Hxk]; [eauto|]. auto. }
    constructor; cbn [dag cache path]; auto.
    - intros q v Hq. destruct (Ks q v Hq) as [K1 [K2 K3]]. destruct (i_done _ _ I q v K2) as [B1 [B2 B3]].
      rewrite Hs in B1. split; [lia|]. split; auto. rewrite Hp in B3.
      destruct B3 as [[B3|B3]|B3]; [congruence|auto|]. right.
      assert (Lv : v < ret) by lia.
      destruct B3 as (vs & prev & l & R & C1 & C2 & C3 & C4 & C5). exists vs, prev, l.
      unfold arc in *. rewrite Q5, Q6 by auto. refine (conj R (conj C1 (conj C2 (conj _ (conj C4 _))))).
      + intros u Hu. destruct (C3 u Hu) as [x [X1 X2]]. exists x. split; auto. rewrite afind_aset.
        destruct (eq_dec x k) as [->|Hx]; auto. exfalso. rewrite Hk in X2. injection X2 as <-. exact (Nret v Hu).
      + intros x Hx. rewrite afind_aset. destruct (eq_dec x k) as [->|Hxk]; [eauto|]. auto.
    - intros q q' v Hq Hq'. apply Ks in Hq, Hq'. eapply (i_inj _ _ I); [apply Hq|apply Hq'].
    - intros q. rewrite afind_aset. destruct (eq_dec q k) as [->|Hq]; intros E; apply Hfail; auto.
      apply (i_failed _ _ I); auto.
    - intros v Hv. destruct (i_path _ _ I v) as [q Hq]; [rewrite Hp; right; auto|]. exists q.
      rewrite afind_aset_neq; auto. intros ->. rewrite Hk in Hq. injection Hq as <-. auto.
    - intros v u Hu. apply Sub in Hu. pose proof Hu as Hu0. apply (i_arcs _ _ I) in Hu. destruct Hu as [B1 [q B2]]. split.
      + intros Hi. apply B1. rewrite Hp. right; auto.
      + exists q. rewrite afind_aset_neq; auto. intros ->. rewrite Hk in B2. injection B2 as <-. exact (Nret _ Hu0).
    - intros v Hv. pose proof (i_roots _ _ I v Hv) as Lv. rewrite Q3. destruct (Nat.eq_dec v ret) as [->|]; [|lia].
      apply (i_done _ _ I) in Hk. tauto.
    - intros v Hv. rewrite Q3 in Hv. destruct (i_vertex _ _ I v) as [Hr|[q Hq]]; [lia|auto|]. right. exists q.
      rewrite afind_aset_neq; auto. intros ->. rewrite Hk in Hq. injection Hq as <-. lia.
    - eapply acyclic_sub; [apply I|exact Sub].
  Qed.

  Lemma ends_none prev nd : nodeAt g prev = Some nd -> pred nd = None ->
    (ends prev <-> negb (negb (isEnd prev None) && isErr prev None) = true).
  Proof.
    intros Hn Hp. split.
    - intros [nd' [Hn' Hm]]. rewrite Hn in Hn'. injection Hn' as <-. rewrite Hp in Hm.
      destruct Hm as [-> | ->]; cbn; auto. now rewrite andb_false_r.
    - intros E. exists nd. split; auto. rewrite Hp. destruct (isEnd prev None), (isErr prev None); auto.
  Qed.
  Lemma goesTo_none prev nd q : nodeAt g prev = Some nd -> pred nd = None -> ~ goesTo prev q.
  Proof.
    intros Hn Hp [[nd' [p [Hn' [Hp' _]]]] _]. rewrite Hn in Hn'. injection Hn' as <-. congruence.
  Qed.

  Lemma la_ok Rs cf : forall fuel, laOk Rs (pathsToImplLA g isEnd isErr cf fuel).
  Proof.
    induction fuel as [|fuel IH]; intros k c r c' I A; cbn [pathsToImplLA]; [discriminate|].
    destruct (afind k (cache c)) as [x|] eqn:Ek.
    { intros E. injection E as <- <-. refine (conj I (conj (keeps_refl _ _) (conj Ek (conj _ _)))).
      - intros v V1 V2. lia.
      - auto. }
    destruct (addNode_spec (dag c) [] (i_sized _ _ I)) as [N1 [N2 [N3 _]]].
    destruct (addNode (dag c) (Some [])) as [ret G] eqn:Ea. cbn [fst snd] in N1, N2, N3. subst ret.
    set (ret := size (dag c)) in *.
    unfold pathsToImplLAInvoke. destruct (chain g isEnd isErr cf k []) as [[[[[tags prev] nxt] e] r0]|] eqn:Ec; [|discriminate].
    apply chain_ok in Ec. destruct Ec as (vs & l & nd & R & Et & Sp & Hnd & Enx & Ee & Er). cbn [app] in Et. subst tags.
    destruct (entered_spec Rs c k l I A Ek) as (I2 & A2 & S2 & R2 & T2 & O2 & N4 & N5).
    fold ret in S2, T2, O2.
    assert (Een : entered c k l = mkCtx (setTag G ret l) (aset k (Some ret) (cache c)) (ret :: path c) (logged c)).
    { unfold entered. rewrite Ea. reflexivity. }
    assert (Hret : ~ In ret (path c)) by (intros Hi; pose proof (path_lt _ _ _ I Hi); unfold ret in *; lia).
    assert (Hmem : mem ret (path c) = false) by (apply mem_false; auto).
    assert (Key2 : afind k (cache (entered c k l)) = Some (Some ret)) by (cbn; apply afind_aset_eq).
    (* what the two ways out need *)
    assert (Succ : forall c4, inv Rs c4 -> path c4 = ret :: path c -> keepsBut (Some ret) (entered c k l) c4 ->
        linked (entered c k l) c4 None -> finished (dag c4) (cache c4) k ret ->
        let c5 := mkCtx (dag c4) (cache c4) (path c) (logged c4) in
        inv Rs c5 /\ keeps c c5 /\ afind k (cache c5) = Some (Some ret) /\ linked c c5 (Some ret) /\
        ((forall v, Some ret = Some v -> v < size (dag c)) -> size (dag c5) = size (dag c))).
    { intros c4 I4 P4 K4 L4 F4 c5.
      pose proof (k_cache _ _ _ K4 _ _ Key2) as Key4.
      refine (conj (inv_leave Rs c4 k ret (path c) I4 P4 Hret Key4 F4) (conj _ (conj Key4 (conj _ _)))).
      - destruct K4 as [B1 B2 B3 B4 B5 B6 B7]. constructor; unfold c5; cbn [dag cache path logged].
        + reflexivity.
        + rewrite B2. reflexivity.
        + rewrite B3. exact R2.
        + intros q x Hq. apply B4. cbn. rewrite afind_aset_neq; auto. congruence.
        + lia.
        + intros v Hv. rewrite B6, N4; auto. lia.
        + intros v Hv _. rewrite B7; [apply N5|lia|]. intros E. injection E as E. unfold ret in E. lia.
      - intros v V1 V2. destruct (Nat.eq_dec v ret) as [->|Hv]; auto.
        destruct (L4 v ltac:(unfold ret in *; lia) V2) as [Hw|Hw]; [discriminate|auto].
      - intros Hlt. specialize (Hlt ret eq_refl). unfold ret in Hlt. lia. }
    assert (Fail : forall c4 c5, inv Rs c4 -> path c4 = ret :: path c -> keepsBut (Some ret) (entered c k l) c4 ->
        size (dag c4) = S ret -> failed (cache c4) k ->
        dag c5 = dag c4 -> cache c5 = cache c4 -> path c5 = path c -> logged c5 = logged c4 ->
        let c6 := match (if mem ret (path c5) then None else pop (dag c5) ret) with
                  | Some G' => mkCtx G' (aset k None (cache c5)) (path c5) (logged c5)
                  | None => mkCtx (setTag (dag c5) ret []) (aset k None (cache c5)) (path c5) true
                  end in
        inv Rs c6 /\ keeps c c6 /\ afind k (cache c6) = Some None /\ linked c c6 None /\
        ((forall v, None = Some v -> v < size (dag c)) -> size (dag c6) = size (dag c))).
    { intros c4 c5 I4 P4 K4 S4 F4 E1 E2 E3 E4. rewrite E1, E2, E3, E4, Hmem.
      pose proof (k_cache _ _ _ K4 _ _ Key2) as Key4.
      destruct (pop_spec (dag c4) ret (i_sized _ _ I4) S4) as (G' & Q1 & Q2 & Q3 & Q4 & Q5 & Q6 & Q7).
      rewrite Q1. cbv zeta.
      refine (conj (inv_pop Rs c4 k ret (path c) G' I4 P4 Hret Key4 F4 S4 Q1) (conj _ (conj _ (conj _ _)))).
      - destruct K4 as [B1 B2 B3 B4 B5 B6 B7]. constructor; cbn [dag cache path logged].
        + reflexivity.
        + rewrite B2. reflexivity.
        + rewrite Q4, B3. exact R2.
        + intros q x Hq. rewrite afind_aset_neq by congruence. apply B4. cbn. rewrite afind_aset_neq; auto. congruence.
        + unfold ret in *. lia.
        + intros v Hv. rewrite Q5 by auto. rewrite B6, N4; auto. lia.
        + intros v Hv _. rewrite Q6 by auto. rewrite B7; [apply N5|lia|]. intros E. injection E as E. unfold ret in E. lia.
      - cbn [cache]. apply afind_aset_eq.
      - intros v V1 V2. cbn [dag] in *. unfold ret in *. lia.
      - intros _. exact Q3. }
    unfold onDag. cbn [dag cache path logged]. rewrite Hmem.
    destruct nxt as [p|].
    2:{ symmetry in Enx. pose proof (ends_none _ _ Hnd Enx) as Hends. rewrite <- Ee, <- Er in Hends.
        destruct (negb r0) eqn:Eb.
        - intros E. injection E as <- <-.
          specialize (Succ (entered c k l) I2 eq_refl (keeps_refl _ _)). rewrite Een in Succ. apply Succ.
          + intros v V1 V2. lia.
          + rewrite <- Een. exists vs, prev, l. refine (conj R (conj T2 (conj Sp (conj _ (conj _ _))))).
            * intros u Hu. unfold arc in Hu. rewrite O2 in Hu. destruct Hu.
            * intros _. apply Hends. reflexivity.
            * intros q Hq. destruct (goesTo_none _ _ _ Hnd Enx Hq).
        - intros E. injection E as <- <-.
          refine (Fail (entered c k l) (mkCtx (setTag G ret l) (aset k (Some ret) (cache c)) (path c) (logged c))
            I2 eq_refl (keeps_refl _ _) S2 _ _ _ eq_refl _); try (rewrite Een; reflexivity).
          exists vs, prev. refine (conj R (conj _ _)).
          + intros He. apply Hends in He. discriminate.
          + intros q Hq. destruct (goesTo_none _ _ _ Hnd Enx Hq). }
    symmetry in Enx.
    rewrite <- Een.
    assert (P2 : prog Rs k ret prev (path c) (fun _ => False) (entered c k l)).
    { constructor; auto.
      - intros u Hu. unfold arc in Hu. rewrite O2 in Hu. destruct Hu.
      - intros q []. }
    destruct (if e || r0 then Some (entered c k l)
              else traverseNext (pathsToImplLA g isEnd isErr cf fuel) ret p (entered c k l)) as [c3|] eqn:E3; [|discriminate].
    assert (Q3 : prog Rs k ret prev (path c) (fun x => x = p /\ goesTo prev p) c3 /\
                 keepsBut (Some ret) (entered c k l) c3 /\ linked (entered c k l) c3 None /\
                 (empty ret c3 -> size (dag c3) = size (dag (entered c k l)))).
    { destruct (e || r0) eqn:Eb.
      - injection E3 as <-. refine (conj _ (conj (keeps_refl _ _) (conj _ _))).
        + apply (prog_weaken Rs k ret prev (path c) (fun _ => False)); auto.
          intros x [-> [_ [G1 G2]]]. rewrite G1, G2 in *. cbn in *. subst e r0. discriminate.
        + intros v V1 V2. lia.
        + auto.
      - assert (Hg : goesTo prev p).
        { split; [exists nd, p; auto|]. apply orb_false_iff in Eb. destruct Eb as [Eb1 Eb2].
          rewrite Eb1 in Er. cbn in Er. subst. auto. }
        destruct (traverse_ok Rs _ IH k ret prev vs (path c) R _ _ _ _ P2 Hg E3) as [T3 [T4 [T5 [T6 T7]]]].
        refine (conj _ (conj T4 (conj T5 T7))). eapply prog_weaken; [|exact T3]. intros x [-> _]. auto. }
    destruct Q3 as [P3 [K3 [L3 Z3]]].
    destruct (traverseAll isEnd isErr (pathsToImplLA g isEnd isErr cf fuel) ret prev
                match nodeAt g p with Some pd => neighbors pd | None => [] end e c3) as [[e' c4]|] eqn:E4; [|discriminate].
    assert (Hb : forall q, In q match nodeAt g p with Some pd => neighbors pd | None => [] end -> back prev q).
    { intros q Hq. exists nd, p. refine (conj Hnd (conj Enx _)). right.
      destruct (nodeAt g p) as [pd|] eqn:Epd; [|destruct Hq]. exists pd. auto. }
    destruct (traverseAll_ok Rs _ IH k ret prev vs (path c) R _ _ _ _ _ _ P3 Hb E4) as [P4 [K4 [L4 [H4 [Z4 F4]]]]].
    assert (Lr4 : ret < size (dag c4)) by exact (ret_lt Rs k ret prev (path c) _ _ P4).
    assert (K24 : keepsBut (Some ret) (entered c k l) c4) by (eapply keeps_trans; eauto).
    assert (L24 : linked (entered c k l) c4 None) by exact (linked_trans ret _ c3 c4 K4 H4 L3 L4).
    assert (Pr4 : In ret (path c4)) by (rewrite (p_path _ _ _ _ _ _ _ P4); left; auto).
    pose proof (inv_dedup Rs c4 ret (p_inv _ _ _ _ _ _ _ P4) Lr4 (or_introl Pr4)) as I5.
    set (c5 := onDag (fun G => dedupAt G ret) c4) in *.
    assert (Ends : e' = true <-> ends prev).
    { rewrite F4, Ee. split.
      - intros Hx. exists nd. split; auto. rewrite Enx. destruct Hx as [Hx|[q [Hq Hx]]]; auto.
        destruct (nodeAt g p) as [pd|] eqn:Epd; [|destruct Hq]. right. exists pd, q. auto.
      - intros [nd' [Hnd' Hm]]. rewrite Hnd in Hnd'. injection Hnd' as <-. rewrite Enx in Hm.
        destruct Hm as [Hm|[pd [q [Hpd [Hq Hm]]]]]; auto. right. exists q. rewrite Hpd. auto. }
    assert (Handled : forall q, goesTo prev q -> exists r, afind q (cache c4) = Some r /\
              (r = None \/ (exists u, r = Some u /\ arc (dag c4) ret u) \/ backs q k)).
    { intros q Hg. apply (p_handled _ _ _ _ _ _ _ P4). pose proof Hg as Hg0.
      destruct Hg as [[nd' [p' [Hn' [Hp' Hq]]]] _]. rewrite Hnd in Hn'. injection Hn' as <-.
      rewrite Enx in Hp'. injection Hp' as <-. destruct Hq as [->|[pd [Hpd Hq]]]; auto.
      right. rewrite Hpd. auto. }
    assert (Arc5 : forall x y, arc (dag c5) x y <-> arc (dag c4) x y) by (intros; apply (dedupAt_arc (dag c4)); auto).
    assert (K25 : keepsBut (Some ret) (entered c k l) c5).
    { destruct K24 as [B1 B2 B3 B4 B5 B6 B7]. constructor; unfold c5, onDag; cbn [dag cache path logged]; auto.
      - now rewrite dedupAt_size.
      - intros v Hv Hx. rewrite dedupAt_out by auto. destruct (Nat.eqb_spec v ret); [congruence|]. auto. }
    assert (L25 : linked (entered c k l) c5 None).
    { intros v V1 V2. unfold c5, onDag in V2. cbn [dag] in V2. rewrite dedupAt_size in V2.
      destruct (L24 v V1 V2) as [|[w Hw]]; auto. right. exists w. apply Arc5. auto. }
    assert (P5 : path c5 = ret :: path c) by exact (p_path _ _ _ _ _ _ _ P4).
    assert (Tl : tl (path c4) = path c) by (rewrite (p_path _ _ _ _ _ _ _ P4); reflexivity).
    rewrite Tl. change (dedupAt (dag c4) ret) with (dag c5). change (cache c4) with (cache c5). change (logged c4) with (logged c5).
    destruct (e' || negb (length (outEdges (dag c5) ret) =? 0)) eqn:Eb.
    - intros E. injection E as <- <-. apply (Succ c5); auto.
      exists vs, prev, l. refine (conj R (conj _ (conj Sp (conj _ (conj _ _))))).
      + rewrite (k_node _ _ _ K25); auto. lia.
      + intros u Hu. apply Arc5 in Hu. apply (p_arcs _ _ _ _ _ _ _ P4 u Hu).
      + intros Hz. rewrite Hz in Eb. cbn in Eb. rewrite orb_false_r in Eb. apply Ends. auto.
      + intros q Hg. destruct (Handled q Hg) as [r1 [X1 X2]]. exists r1. split; auto.
        destruct X2 as [X2|[[u [X2 X3]]|X2]]; auto. right. left. exists u. split; auto. apply Arc5. auto.
    - apply orb_false_iff in Eb. destruct Eb as [Eb1 Eb2]. apply negb_false_iff, Nat.eqb_eq in Eb2.
      assert (Out5 : outEdges (dag c5) ret = []) by (destruct (outEdges (dag c5) ret); [auto|discriminate]).
      assert (Out4 : empty ret c4).
      { unfold empty. destruct (outEdges (dag c4) ret) as [|[[] u] l'] eqn:Eo; auto. exfalso.
        assert (Ha : arc (dag c5) ret u) by (apply Arc5; unfold arc; rewrite Eo; left; auto).
        unfold arc in Ha. rewrite Out5 in Ha. destruct Ha. }
      assert (Out3 : empty ret c3).
      { unfold empty. destruct (outEdges (dag c3) ret) as [|[[] u] l'] eqn:Eo; auto. exfalso.
        assert (Ha : arc (dag c4) ret u) by (apply H4; unfold arc; rewrite Eo; left; auto).
        unfold arc in Ha. unfold empty in Out4. rewrite Out4 in Ha. destruct Ha. }
      intros E. injection E as <- <-.
      refine (Fail c5 (mkCtx (dag c5) (cache c5) (path c) (logged c5)) I5 P5 K25 _ _ eq_refl eq_refl eq_refl eq_refl); auto.
      + unfold c5, onDag. cbn [dag]. rewrite dedupAt_size, Z4, Z3; auto.
      + exists vs, prev. refine (conj R (conj _ _)).
        * intros He. apply Ends in He. congruence.
        * intros q Hg. destruct (Handled q Hg) as [r1 [X1 X2]]. exists r1. split; auto.
          destruct X2 as [X2|[[u [X2 X3]]|X2]]; auto. exfalso.
          unfold arc in X3. unfold empty in Out4. rewrite Out4 in X3. destruct X3.
  Qed.

  (** ** The query vertices *)
  (** [rt] stands for the query that starts at the nodes [hs] *)
  Record query (inst : N) (rt : nat) (sts hs : nat -> Prop) (c : ctx) : Prop := mkQuery {
    q_node : node (dag c) rt = Some [inst];
    q_arcs : forall u, arc (dag c) rt u -> exists q, sts q /\ afind q (cache c) = Some (Some u);
    q_handled : forall q, hs q -> exists r, afind q (cache c) = Some r /\
      (r = None \/ exists u, r = Some u /\ arc (dag c) rt u) }.

  Lemma query_keeps inst rt sts hs x c c' : keepsBut x c c' -> rt < size (dag c) -> x <> Some rt ->
    query inst rt sts hs c -> query inst rt sts hs c'.
  Proof.
    intros K Hr Hx [Q1 Q2 Q3]. pose proof (k_out _ _ _ K rt Hr Hx) as Eo. constructor.
    - rewrite (k_node _ _ _ K); auto.
    - intros u Hu. unfold arc in *. rewrite Eo in Hu. destruct (Q2 u Hu) as [q [A B]]. exists q.
      split; auto. apply (k_cache _ _ _ K); auto.
    - intros q Hq. destruct (Q3 q Hq) as [r [A B]]. exists r. split; [apply (k_cache _ _ _ K); auto|].
      unfold arc in *. rewrite Eo. exact B.
  Qed.

  Lemma linkAll_ok Rs cf fuel inst rt (sts : nat -> Prop) : In rt Rs -> forall vs (hs : nat -> Prop) c c',
    inv Rs c -> path c = [] -> query inst rt sts hs c -> (forall q, In q vs -> sts q) ->
    linkAll g isEnd isErr cf fuel rt vs c = Some c' ->
    inv Rs c' /\ path c' = [] /\ query inst rt sts (fun q => hs q \/ In q vs) c' /\ keepsBut (Some rt) c c' /\
    (forall u, arc (dag c) rt u -> arc (dag c') rt u) /\ linked c c' None.
  Proof.
    intros Hrt. induction vs as [|v vs IH]; intros hs c c' I Hp Q Hsts; cbn [linkAll].
    { intros E. injection E as <-. refine (conj I (conj Hp (conj _ (conj (keeps_refl _ _) (conj (fun u Hu => Hu) _))))).
      - destruct Q as [Q1 Q2 Q3]. constructor; auto. intros q [Hq|[]]; auto.
      - intros x X1 X2. lia. }
    destruct (pathsToImplLA g isEnd isErr cf fuel v c) as [[r c1]|] eqn:E1; [|discriminate].
    assert (A : ancestors c v) by (intros q u _; rewrite Hp; intros []).
    destruct (la_ok Rs cf fuel v c r c1 I A E1) as [I1 [K1 [F1 [L1 Z1]]]].
    assert (Hp1 : path c1 = []) by (rewrite (k_path _ _ _ K1); auto).
    assert (Q1 : query inst rt sts hs c1).
    { apply (query_keeps _ _ _ _ None c c1); auto; [apply (i_roots _ _ I); auto|discriminate]. }
    assert (Lr : rt < size (dag c1)) by (apply (i_roots _ _ I1); auto).
    destruct r as [s|].
    - intros E. assert (Hs : ~ In s (path c1)) by (rewrite Hp1; intros []).
      pose proof (inv_addEdge Rs c1 rt v s I1 (or_intror Hrt) F1 Hs) as I2.
      set (c2 := onDag (fun G => addEdge G rt (tt, s)) c1) in *.
      assert (New : forall x y, arc (dag c2) x y <-> arc (dag c1) x y \/ (x = rt /\ y = s))
        by (intros x y; apply (addEdge_arc (dag c1)); auto).
      assert (Q2 : query inst rt sts (fun q => hs q \/ q = v) c2).
      { destruct Q1 as [B1 B2 B3]. constructor; auto.
        - intros u Hu. apply New in Hu. destruct Hu as [Hu|[_ ->]]; [exact (B2 u Hu)|]. exists v. split; auto.
          apply Hsts. left; auto.
        - intros q [Hq| ->].
          + destruct (B3 q Hq) as [r [R1 R2]]. exists r. split; auto. destruct R2 as [R2|[u [R2 R3]]]; auto.
            right. exists u. split; auto. apply New. auto.
          + exists (Some s). split; auto. right. exists s. split; auto. apply New. auto. }
      destruct (IH _ c2 c' I2 Hp1 Q2 ltac:(intros; apply Hsts; right; auto) E) as [I3 [P3 [Q3 [K3 [M3 L3]]]]].
      assert (K2 : keepsBut (Some rt) c c2).
      { destruct K1 as [A1 A2 A3 A4 A5 A6 A7]. constructor; unfold c2, onDag; cbn [dag cache path logged]; auto.
        - rewrite addEdge_size. auto.
        - intros x Hx Hn. rewrite addEdge_out by auto. destruct (Nat.eqb_spec x rt); [congruence|].
          apply A7; auto. discriminate. }
      refine (conj I3 (conj P3 (conj _ (conj (keeps_trans _ _ _ _ K2 K3) (conj _ _))))).
      + destruct Q3 as [B1 B2 B3]. constructor; auto. intros q Hq. apply B3. cbn [In] in Hq. intuition.
      + intros u Hu. apply M3, New. left. unfold arc in *. rewrite (k_out _ _ _ K1); auto; [|discriminate].
        apply (i_roots _ _ I); auto.
      + apply (linked_trans rt c c2 c'); auto.
        intros x X1 X2. unfold c2, onDag in X2. cbn [dag] in X2. rewrite addEdge_size in X2.
        destruct (L1 x X1 X2) as [Hv|[w Hw]]; right; [|exists w; apply New; auto].
        injection Hv as <-. exists rt. apply New. auto.
    - intros E.
      assert (Q2 : query inst rt sts (fun q => hs q \/ q = v) c1).
      { destruct Q1 as [B1 B2 B3]. constructor; auto. intros q [Hq| ->]; auto. exists None. auto. }
      destruct (IH _ c1 c' I1 Hp1 Q2 ltac:(intros; apply Hsts; right; auto) E) as [I3 [P3 [Q3 [K3 [M3 L3]]]]].
      assert (M1 : forall u, arc (dag c) rt u -> arc (dag c1) rt u).
      { intros u Hu. unfold arc in *. rewrite (k_out _ _ _ K1); auto; [|discriminate]. apply (i_roots _ _ I); auto. }
      refine (conj I3 (conj P3 (conj _ (conj (keeps_trans _ _ _ _ (keeps_weaken _ _ _ K1) K3) (conj _ _))))); auto.
      + destruct Q3 as [B1 B2 B3]. constructor; auto. intros q Hq. apply B3. cbn [In] in Hq. intuition.
      + apply (linked_trans rt c c1 c'); auto.
  Qed.

  (** a new query vertex *)
  Lemma inv_query Rs c inst : inv Rs c -> path c = [] ->
    let c1 := mkCtx (snd (addNode (dag c) (Some [inst]))) (cache c) (path c) (logged c) in
    inv (Rs ++ [size (dag c)]) c1 /\ keeps c c1 /\ size (dag c1) = S (size (dag c)) /\
    node (dag c1) (size (dag c)) = Some [inst] /\ outEdges (dag c1) (size (dag c)) = [].
  Proof.
    intros I Hp c1. destruct (addNode_spec (dag c) [inst] (i_sized _ _ I)) as [N1 [N2 [N3 [N4 [N5 [N6 N7]]]]]].
    assert (S1 : size (dag c1) = S (size (dag c))) by exact N3.
    assert (O1 : forall v, outEdges (dag c1) v = outEdges (dag c) v) by exact N7.
    refine (conj _ (conj _ (conj S1 (conj N6 _)))).
    - constructor; auto.
      + intros k v Hk. destruct (i_done _ _ I k v Hk) as [B1 [B2 B3]]. split; [lia|]. split.
        * intros Hi. apply in_app_iff in Hi. destruct Hi as [Hi|[Hi|[]]]; [auto|lia].
        * rewrite Hp in B3. destruct B3 as [[]|B3]. right. eapply finished_keeps; [| | |exact B3]; auto.
      + apply (i_inj _ _ I).
      + apply (i_failed _ _ I).
      + apply (i_path _ _ I).
      + intros v u Hu. unfold arc in Hu. rewrite O1 in Hu. exact (i_arcs _ _ I v u Hu).
      + intros v Hi. apply in_app_iff in Hi. destruct Hi as [Hi|[Hi|[]]]; [|lia]. apply (i_roots _ _ I) in Hi. lia.
      + intros v Hv. destruct (Nat.eq_dec v (size (dag c))) as [->|Hn]; [left; apply in_app_iff; right; left; auto|].
        destruct (i_vertex _ _ I v) as [Hr|Hk]; [lia| |right; exact Hk]. left. apply in_app_iff. auto.
      + eapply acyclic_sub; [apply I|]. intros v u Hu. unfold arc in *. rewrite O1 in Hu. exact Hu.
    - constructor; auto. lia.
    - rewrite O1. apply out_overflow. lia.
  Qed.

  Lemma start_iff vtx q : In q (match nodeAt g vtx with Some nd => neighbors nd | None => [] end ++ [vtx]) <-> start g vtx q.
  Proof.
    rewrite in_app_iff. unfold start. cbn [In]. split.
    - intros [Hq|[Hq|[]]]; auto. destruct (nodeAt g vtx) as [nd|]; [eauto|destruct Hq].
    - intros [->|[nd [Hn Hq]]]; auto. rewrite Hn. auto.
  Qed.

  Definition asked (inst : N) (vtx rt : nat) (c : ctx) : Prop := query inst rt (start g vtx) (start g vtx) c.

  Lemma pathsToImpl_ok Rs cf fuel inst vtx c rt c' : inv Rs c -> path c = [] ->
    pathsToImpl g isEnd isErr cf fuel inst vtx c = Some (rt, c') ->
    rt = size (dag c) /\ inv (Rs ++ [rt]) c' /\ keeps c c' /\ asked inst vtx rt c' /\ linked c c' (Some rt).
  Proof.
    intros I Hp. unfold pathsToImpl.
    destruct (inv_query Rs c inst I Hp) as [I1 [K1 [S1 [T1 O1]]]].
    destruct (addNode_spec (dag c) [inst] (i_sized _ _ I)) as [N1 _].
    destruct (addNode (dag c) (Some [inst])) as [ret G] eqn:Ea. cbn [fst snd] in *. subst ret.
    set (ret := size (dag c)) in *. set (c1 := mkCtx G (cache c) (path c) (logged c)) in *.
    destruct (linkAll g isEnd isErr cf fuel ret (match nodeAt g vtx with Some nd => neighbors nd | None => [] end ++ [vtx]) c1)
      as [c2|] eqn:E2; [|discriminate]. intros E. injection E as <- <-. split; auto.
    assert (Hin : In ret (Rs ++ [ret])) by (apply in_app_iff; right; left; auto).
    assert (Q1 : query inst ret (start g vtx) (fun _ => False) c1).
    { constructor; auto.
      - intros u Hu. unfold arc in Hu. rewrite O1 in Hu. destruct Hu.
      - intros q []. }
    destruct (linkAll_ok (Rs ++ [ret]) cf fuel inst ret (start g vtx) Hin _ _ c1 c2 I1 Hp Q1 (fun q => proj1 (start_iff vtx q)) E2)
      as [I2 [P2 [Q2 [K2 [M2 L2]]]]].
    assert (Lr : ret < size (dag c2)) by (apply (i_roots _ _ I2); auto).
    pose proof (inv_dedup (Rs ++ [ret]) c2 ret I2 Lr (or_intror Hin)) as I3.
    set (c3 := onDag (fun G => dedupAt G ret) c2) in *.
    assert (Arc3 : forall x y, arc (dag c3) x y <-> arc (dag c2) x y) by (intros; apply (dedupAt_arc (dag c2)); auto).
    refine (conj I3 (conj _ (conj _ _))).
    - destruct K1 as [A1 A2 A3 A4 A5 A6 A7]. destruct K2 as [B1 B2 B3 B4 B5 B6 B7].
      constructor; unfold c3, onDag; cbn [dag cache path logged]; try congruence; auto.
      + change (roots (dedupAt (dag c2) ret)) with (roots (dag c2)). congruence.
      + rewrite dedupAt_size. lia.
      + intros v Hv. rewrite <- A6 by auto. apply B6. lia.
      + intros v Hv _. rewrite dedupAt_out by auto. destruct (Nat.eqb_spec v ret); [unfold ret in *; lia|].
        rewrite B7; [apply A7; auto; discriminate|lia|congruence].
    - destruct Q2 as [B1 B2 B3]. constructor; auto.
      + intros u Hu. apply Arc3 in Hu. exact (B2 u Hu).
      + intros q Hq. destruct (B3 q) as [r [R1 R2]]; [right; apply start_iff; auto|]. exists r. split; auto.
        destruct R2 as [R2|[u [R2 R3]]]; auto. right. exists u. split; auto. apply Arc3. auto.
    - intros v V1 V2. unfold c3, onDag in V2. cbn [dag] in V2. rewrite dedupAt_size in V2.
      destruct (Nat.eq_dec v ret) as [->|Hv]; auto. right.
      destruct (L2 v ltac:(unfold ret in *; lia) V2) as [|[w Hw]]; [discriminate|]. exists w. apply Arc3. auto.
  Qed.

  (** ** All queries *)
  Lemma Forall2_impl2 {A B} (P Q : A -> B -> Prop) l l' : Forall2 P l l' ->
    (forall x y, In y l' -> P x y -> Q x y) -> Forall2 Q l l'.
  Proof. induction 1; intros Hi; constructor; [apply Hi; [left|]; auto|]. apply IHForall2. intros; apply Hi; [right|]; auto. Qed.
  Record traces (inst : N) (facts : list D) (c : ctx) : Prop := mkTraces {
    t_inv : inv (roots (dag c)) c;
    t_path : path c = [];
    t_logged : logged c = false;
    t_asked : Forall2 (fun d rt => exists vtx, getNodeOrNull g inst d = Some vtx /\ asked inst vtx rt c) facts (roots (dag c));
    t_linked : forall v, v < size (dag c) -> In v (roots (dag c)) \/ exists w, arc (dag c) w v }.

  Lemma traces_empty inst : traces inst [] emptyCtx.
  Proof.
    assert (Z : forall v, outEdges (@emptyGraph (list N) unit) v = []) by (intros [|v]; reflexivity).
    constructor; auto; [|constructor|intros v Hv; cbn in Hv; lia].
    constructor; unfold emptyCtx; cbn [dag cache path logged]; try (intros; cbn in *; discriminate); try (intros; cbn in *; contradiction).
    - reflexivity.
    - intros v u Hu. unfold arc in Hu. rewrite Z in Hu. destruct Hu.
    - intros v Hv. cbn in Hv. lia.
    - intros v Hv. assert (K : forall x y, ~ clos_trans _ (arc (@emptyGraph (list N) unit)) x y).
      { induction 1 as [x y Hu|]; auto. unfold arc in Hu. rewrite Z in Hu. destruct Hu. }
      exact (K _ _ Hv).
  Qed.

  Lemma tracePaths_ok cf fuel inst : forall facts done c c', traces inst done c ->
    tracePaths g isEnd isErr cf fuel inst facts c = inr c' -> traces inst (done ++ facts) c'.
  Proof.
    induction facts as [|d facts IH]; intros done c c' T; cbn [tracePaths].
    { intros E. injection E as <-. rewrite app_nil_r. exact T. }
    destruct (getNodeOrNull g inst d) as [vtx|] eqn:Ed; [|discriminate].
    destruct (pathsToImpl g isEnd isErr cf fuel inst vtx c) as [[rt c1]|] eqn:E1; [|discriminate]. intros E2.
    destruct (pathsToImpl_ok _ _ _ _ _ _ _ _ (t_inv _ _ _ T) (t_path _ _ _ T) E1) as [Ert [I1 [K1 [Q1 L1]]]].
    set (c2 := onDag (fun G => addRoot G rt) c1) in *.
    replace (done ++ d :: facts) with ((done ++ [d]) ++ facts) by (rewrite <- app_assoc; reflexivity).
    refine (IH _ c2 c' _ E2).
    assert (Er : roots (dag c2) = roots (dag c) ++ [rt]).
    { unfold c2, onDag, addRoot. cbn [dag roots]. rewrite (k_roots _ _ _ K1). reflexivity. }
    assert (Cv : forall a b x, query a b x x c1 -> query a b x x c2) by (intros a b x [B1 B2 B3]; constructor; auto).
    constructor.
    - rewrite Er. destruct I1 as [B1 B2 B3 B4 B5 B6 B7 B8 B9]. constructor; auto.
    - change (path c2) with (path c1). rewrite (k_path _ _ _ K1). apply T.
    - change (logged c2) with (logged c1). rewrite (k_logged _ _ _ K1). apply T.
    - rewrite Er. apply Forall2_app.
      + eapply Forall2_impl2 with (1 := t_asked _ _ _ T).
        intros x y Hy [vtx' [V1 V2]]. exists vtx'. split; auto. apply Cv.
        eapply (query_keeps _ _ _ _ None c c1); eauto; [|discriminate]. apply (i_roots _ _ (t_inv _ _ _ T)); auto.
      + constructor; [|constructor]. exists vtx. split; auto. apply Cv. exact Q1.
    - intros v Hv. rewrite Er. change (size (dag c2)) with (size (dag c1)) in Hv.
      destruct (Nat.lt_ge_cases v (size (dag c))) as [Hl|Hl].
      + destruct (t_linked _ _ _ T v Hl) as [Hr|[w Hw]]; [left; apply in_app_iff; auto|]. right. exists w.
        unfold arc in *. change (outEdges (dag c2) w) with (outEdges (dag c1) w). rewrite (k_out _ _ _ K1); auto; [|discriminate].
        eapply arc_lt; exact Hw.
      + destruct (L1 v Hl Hv) as [E|[w Hw]]; [injection E as <-; left; apply in_app_iff; right; left; auto|].
        right. exists w. exact Hw.
  Qed.

  (** ** Every path that is found is a trace *)
  Lemma spelled_app k vs l q vs' l' : spelled k vs l -> spelled q vs' l' -> spelled k (vs ++ q :: vs') (l ++ l').
  Proof. intros A B. exact (Forall2_app A B). Qed.

  Lemma vertex_sound inst facts c : traces inst facts c -> forall ws v n k, afind k (cache c) = Some (Some v) ->
    readsAll (dag c) v n ws -> exists vs, btrace k vs /\ spelled k vs (concat (n :: map snd ws)).
  Proof.
    intros T. induction ws as [|[[] n'] ws IH]; intros v n k Hk Hr; cbn [readsAll] in Hr; destruct Hr as [Hn Hr];
      destruct (i_done _ _ (t_inv _ _ _ T) k v Hk) as [_ [_ B]]; rewrite (t_path _ _ _ T) in B;
      destruct B as [[]|(vs & prev & l & R & C1 & C2 & C3 & C4 & C5)]; unfold node in C1; rewrite C1 in Hn; injection Hn as <-.
    - exists vs. cbn. rewrite app_nil_r. split; auto. apply (run_goes _ _ _ R). exists []. rewrite app_nil_r. split; auto.
      cbn. auto.
    - destruct Hr as [t [Ht Hr]]. destruct (C3 t Ht) as [q [G1 G2]].
      destruct (IH t n' q G2 Hr) as [vs' [T1 T2]]. exists (vs ++ q :: vs'). split.
      + apply (run_goes _ _ _ R). exists (q :: vs'). split; auto. cbn. auto.
      + exact (spelled_app _ _ _ _ _ _ C2 T2).
  Qed.
  Lemma root_sound inst vtx rt facts c n ws : traces inst facts c -> asked inst vtx rt c -> readsAll (dag c) rt n ws ->
    n = [inst] /\ (ws = [] /\ outEdges (dag c) rt = [] \/ traced g isEnd isErr vtx (concat (map snd ws))).
  Proof.
    intros T Q Hr. destruct ws as [|[[] n'] ws]; cbn [readsAll] in Hr; destruct Hr as [Hn Hr];
      pose proof (q_node _ _ _ _ _ Q) as Hi; unfold node in Hi; rewrite Hi in Hn; injection Hn as <-; split; auto.
    right. destruct Hr as [t [Ht Hr]]. destruct (q_arcs _ _ _ _ _ Q t Ht) as [s [Hs Hc]].
    destruct (vertex_sound _ _ _ T _ _ _ _ Hc Hr) as [vs [T1 T2]]. exists s, vs. auto.
  Qed.

  (** ** Every trace that avoids cycles is found *)
  Lemma run_cycle k vs prev q : run k vs prev -> goesTo prev q -> backs q k -> onCycle g k.
  Proof.
    intros R Hg Hb. apply run_backs in R. unfold onCycle.
    assert (K : forall x y, backs x y -> x = y \/ clos_trans _ back x y).
    { induction 1 as [x y Hxy| |x y z _ IH1 _ IH2]; auto.
      - right. apply t_step; auto.
      - destruct IH1 as [->|IH1]; auto. destruct IH2 as [<-|IH2]; auto. right. eapply t_trans; eauto. }
    assert (T : clos_trans _ back prev q) by (apply t_step, Hg).
    assert (T2 : clos_trans _ back k q) by (destruct (K _ _ R) as [->|R']; auto; eapply t_trans; eauto).
    destruct (K _ _ Hb) as [->|Hb']; auto. eapply t_trans; eauto.
  Qed.

  Lemma node_complete inst facts c : traces inst facts c -> decisive g isEnd isErr -> forall m vs k r, length vs < m -> btrace k vs ->
    (forall x, In x (k :: vs) -> ~ onCycle g x) -> afind k (cache c) = Some r ->
    exists v n ws, r = Some v /\ readsAll (dag c) v n ws /\ spelled k vs (concat (n :: map snd ws)).
  Proof.
    intros T Hd. induction m as [|m IH]; intros vs k r Hm Hb Hc Hk; [lia|].
    destruct r as [v|].
    - destruct (i_done _ _ (t_inv _ _ _ T) k v Hk) as [_ [_ B]]; rewrite (t_path _ _ _ T) in B.
      destruct B as [[]|(vs0 & prev & l & R & C1 & C2 & C3 & C4 & C5)].
      apply (run_goes _ _ _ R) in Hb. destruct Hb as [ws' [-> Hw]]. exists v, l.
      destruct ws' as [|q ws']; cbn in Hw.
      + exists []. split; auto. cbn. rewrite app_nil_r, app_nil_r. split; [split; auto|auto].
        destruct (outEdges (dag c) v) as [|[[] u] es] eqn:Eo; auto. exfalso.
        destruct (C3 u) as [q [G1 _]]; [unfold arc; rewrite Eo; left; auto|]. exact (Hd _ _ Hw G1).
      + destruct Hw as [Hg Hw]. destruct (C5 q Hg) as [r [R1 R2]]. rewrite app_length in Hm. cbn in Hm.
        destruct (IH ws' q r ltac:(lia) Hw) as (u & n & ws & -> & U1 & U2); auto.
        { intros x Hx. apply Hc. right. apply in_app_iff. right. exact Hx. }
        exists ((tt, n) :: ws). split; auto. split.
        * cbn. split; auto. exists u. split; auto.
          destruct R2 as [R2|[[u' [R2 R3]]|R2]]; [discriminate|injection R2 as <-; exact R3|].
          exfalso. apply (Hc k); [left; auto|]. exact (run_cycle _ _ _ _ R Hg R2).
        * exact (spelled_app _ _ _ _ _ _ C2 U2).
    - exfalso. destruct (i_failed _ _ (t_inv _ _ _ T) k Hk) as (vs0 & prev & R & He & Hq).
      apply (run_goes _ _ _ R) in Hb. destruct Hb as [ws' [-> Hw]].
      destruct ws' as [|q ws']; cbn in Hw; [auto|]. destruct Hw as [Hg Hw].
      destruct (Hq q Hg) as [r [R1 R2]]. rewrite app_length in Hm. cbn in Hm.
      destruct (IH ws' q r ltac:(lia) Hw) as (u & n & ws & -> & U1 & U2); auto.
      { intros x Hx. apply Hc. right. apply in_app_iff. right. exact Hx. }
      destruct R2 as [R2|R2]; [discriminate|]. apply (Hc k); [left; auto|]. exact (run_cycle _ _ _ _ R Hg R2).
  Qed.

  (** ** Nothing is found only if there is no trace *)
  Lemma nothing_cached inst facts c : traces inst facts c -> (forall rt, In rt (roots (dag c)) -> outEdges (dag c) rt = []) ->
    forall k v, afind k (cache c) <> Some (Some v).
  Proof.
    intros T Hl k v Hk.
    assert (W : well_founded (arc (dag c))).
    { apply (acyclic_wf _ (size (dag c))); [intros x y; apply arc_lt|]. apply (t_inv _ _ _ T). }
    revert k Hk. induction v as [v IH] using (well_founded_ind W). intros k Hk.
    destruct (i_done _ _ (t_inv _ _ _ T) k v Hk) as [B1 [B2 _]].
    destruct (t_linked _ _ _ T v B1) as [|[w Hw]]; [contradiction|].
    destruct (i_vertex _ _ (t_inv _ _ _ T) w) as [Hr|[q Hq]]; [eapply arc_lt; exact Hw| |].
    - unfold arc in Hw. rewrite (Hl w Hr) in Hw. destruct Hw.
    - exact (IH w Hw q Hq).
  Qed.
  Lemma nothing_traced inst facts c : traces inst facts c -> (forall rt, In rt (roots (dag c)) -> outEdges (dag c) rt = []) ->
    forall m vs k r, length vs < m -> afind k (cache c) = Some r -> ~ btrace k vs.
  Proof.
    intros T Hl. pose proof (nothing_cached _ _ _ T Hl) as Hn.
    induction m as [|m IH]; intros vs k r Hm Hk Hb; [lia|]. destruct r as [v|]; [exact (Hn _ _ Hk)|].
    destruct (i_failed _ _ (t_inv _ _ _ T) k Hk) as (vs0 & prev & R & He & Hq).
    apply (run_goes _ _ _ R) in Hb. destruct Hb as [ws' [-> Hw]].
    destruct ws' as [|q ws']; cbn in Hw; [auto|]. destruct Hw as [Hg Hw].
    destruct (Hq q Hg) as [r [R1 _]]. rewrite app_length in Hm. cbn in Hm.
    apply (IH ws' q r ltac:(lia) R1 Hw).
  Qed.

  (** ** Termination *)
  Section Term.
    Hypothesis Hr : inRange g.
    Hypothesis Hs : forall k, k < length (owner g) -> settles g k.
    Notation n := (length (owner g)).

    Lemma in_node k : k < n -> exists nd, nodeAt g k = Some nd.
    Proof. intros Hk. unfold nodeAt. destruct (nth_error (owner g) k) eqn:E; eauto. apply nth_error_None in E. lia. Qed.

    Lemma chain_settles k : settles g k -> exists cf0, forall cf tags, cf0 <= cf -> chain g isEnd isErr cf k tags <> None.
    Proof.
      induction 1 as [k nd Hk Hp|k nd p pd Hk Hp Hpd Hn|k nd p Hk Hp Hp' [cf0 IH]].
      - exists 1. intros [|cf] tags Hcf; [lia|]. cbn [chain]. rewrite Hk, Hp. discriminate.
      - exists 1. intros [|cf] tags Hcf; [lia|]. cbn [chain]. rewrite Hk, Hp, Hpd.
        destruct (_ || _); [discriminate|]. destruct (Nat.eqb_spec (length (neighbors pd)) 0) as [E|E]; [|discriminate].
        destruct (neighbors pd); [congruence|discriminate].
      - exists (S cf0). intros [|cf] tags Hcf; [lia|]. cbn [chain]. rewrite Hk, Hp.
        destruct (_ || _); [discriminate|].
        destruct (in_node p (proj1 (proj1 Hr k nd Hk) p Hp)) as [pd ->].
        destruct (_ =? 0); [|discriminate]. apply IH. lia.
    Qed.
    Lemma chain_uniform : exists cf0, forall k cf tags, k < n -> cf0 <= cf -> chain g isEnd isErr cf k tags <> None.
    Proof.
      assert (K : forall m, m <= n -> exists cf0, forall k cf tags, k < m -> cf0 <= cf -> chain g isEnd isErr cf k tags <> None).
      { induction m as [|m IH]; intros Hm.
        - exists 0. intros; lia.
        - destruct (IH ltac:(lia)) as [a Ha]. destruct (chain_settles m (Hs m ltac:(lia))) as [b Hb].
          exists (a + b). intros k cf tags Hk Hcf. destruct (Nat.eq_dec k m) as [->|Hne]; [apply Hb|apply Ha]; lia. }
      apply K. lia.
    Qed.

    Definition known (c : ctx) (q : nat) : bool := match afind q (cache c) with Some _ => true | None => false end.
    Definition mono (c c' : ctx) : Prop := forall q, known c q = true -> known c' q = true.
    Definition unknown (c : ctx) : nat := length (filter (fun q => negb (known c q)) (seq 0 n)).
    Lemma filter_le {A} (f h : A -> bool) l : (forall x, f x = true -> h x = true) -> length (filter f l) <= length (filter h l).
    Proof.
      intros Hi. induction l as [|x l IH]; cbn; auto. destruct (f x) eqn:E; [rewrite (Hi _ E); cbn; lia|].
      destruct (h x); cbn; lia.
    Qed.
    Lemma unknown_mono c c' : mono c c' -> unknown c' <= unknown c.
    Proof.
      intros M. apply filter_le. intros x Hx. destruct (known c x) eqn:E; auto. rewrite (M _ E) in Hx. exact Hx.
    Qed.
    Lemma unknown_lt c c' k : mono c c' -> k < n -> known c k = false -> known c' k = true -> unknown c' < unknown c.
    Proof.
      intros M Hk K0 K1. unfold unknown.
      destruct (in_split k (seq 0 n)) as [l1 [l2 E]]; [apply in_seq; lia|]. rewrite E, !filter_app, !app_length.
      cbn [filter]. rewrite K0, K1. cbn [negb length].
      assert (X : forall l, length (filter (fun q => negb (known c' q)) l) <= length (filter (fun q => negb (known c q)) l)).
      { intros l. apply filter_le. intros x Hx. destruct (known c x) eqn:E'; auto. rewrite (M _ E') in Hx. exact Hx. }
      pose proof (X l1). pose proof (X l2). lia.
    Qed.
    Lemma unknown_le c : unknown c <= n.
    Proof.
      unfold unknown. rewrite <- (seq_length n 0) at 2. generalize (seq 0 n). intros l.
      induction l as [|x l IH]; cbn; auto. destruct (negb _); cbn; lia.
    Qed.
    Lemma mono_refl c : mono c c.
    Proof. intros q; auto. Qed.
    Lemma mono_trans a b c : mono a b -> mono b c -> mono a c.
    Proof. intros A B q Hq. auto. Qed.
    Lemma known_aset G k x ca P lg q : known (mkCtx G (aset k x ca) P lg) q = (if eq_dec q k then true else known (mkCtx G ca P lg) q).
    Proof. unfold known. cbn [cache]. rewrite afind_aset. destruct (eq_dec q k); auto. Qed.
    Lemma mono_same c c' : cache c' = cache c -> mono c c'.
    Proof. unfold mono, known. intros ->. auto. Qed.

    Definition terms (f : nat) (rec : nat -> ctx -> option (option nat * ctx)) : Prop :=
      forall k c, k < n -> unknown c < f -> exists r c', rec k c = Some (r, c') /\ mono c c'.

    Lemma traverse_term f rec ret q c : terms f rec -> q < n -> unknown c < f ->
      exists c', traverseNext rec ret q c = Some c' /\ mono c c'.
    Proof.
      intros T Hq Hu. unfold traverseNext. destruct (T q c Hq Hu) as [r [c' [-> M]]].
      destruct r as [s|]; eauto. destruct (mem s (path c')); eauto.
    Qed.
    Lemma traverseAll_term f rec ret prev : terms f rec -> forall nbs e c, (forall q, In q nbs -> q < n) -> unknown c < f ->
      exists e' c', traverseAll isEnd isErr rec ret prev nbs e c = Some (e', c') /\ mono c c'.
    Proof.
      intros T. induction nbs as [|q nbs IH]; intros e c Hn Hu; cbn [traverseAll].
      - exists e, c. split; auto. apply mono_refl.
      - assert (Hn' : forall x, In x nbs -> x < n) by (intros; apply Hn; right; auto).
        destruct (isErr prev (Some q)); [apply IH; auto|]. destruct (isEnd prev (Some q)); [apply IH; auto|].
        destruct (traverse_term f rec ret q c T (Hn q (or_introl eq_refl)) Hu) as [c1 [-> M1]].
        pose proof (unknown_mono _ _ M1).
        destruct (IH e c1 Hn' ltac:(lia)) as [e' [c' [E M]]]. exists e', c'. split; auto. eapply mono_trans; eauto.
    Qed.

    Lemma chain_out cf k tags tags' prev nxt e r : k < n -> chain g isEnd isErr cf k tags = Some (tags', prev, nxt, e, r) ->
      forall p, nxt = Some p -> p < n.
    Proof.
      intros Hk E p Hp. apply chain_ok in E. destruct E as (vs & l & nd & R & _ & _ & Hnd & Enx & _).
      apply (proj1 (proj1 Hr prev nd Hnd)). congruence.
    Qed.

    Lemma la_term cf : (forall k tags, k < n -> chain g isEnd isErr cf k tags <> None) ->
      forall fuel, terms fuel (pathsToImplLA g isEnd isErr cf fuel).
    Proof.
      intros Hc. induction fuel as [|fuel IH]; intros k c Hk Hu; [lia|]. cbn [pathsToImplLA].
      destruct (afind k (cache c)) as [x|] eqn:Ek; [exists x, c; split; [auto|apply mono_refl]|].
      destruct (addNode (dag c) (Some [])) as [ret G]. unfold pathsToImplLAInvoke.
      destruct (chain g isEnd isErr cf k []) as [[[[[tags prev] nxt] e] r0]|] eqn:Ec; [|destruct (Hc k [] Hk Ec)].
      pose proof (chain_out _ _ _ _ _ _ _ _ Hk Ec) as Hp.
      set (c0 := mkCtx G (aset k (Some ret) (cache c)) (path c) (logged c)).
      assert (M0 : mono c c0).
      { intros q Hq. unfold c0. rewrite known_aset. destruct (eq_dec q k); auto. }
      assert (U0 : unknown c0 < unknown c).
      { apply (unknown_lt c c0 k); auto; [unfold known; rewrite Ek; auto|]. unfold c0. rewrite known_aset.
        destruct (eq_dec k k); congruence. }
      (* leaving with or without a vertex *)
      assert (Out : forall (b : bool) c5, mono c0 c5 -> exists r c',
        (if b then Some (Some ret, c5)
         else Some (None, match (if mem ret (path c5) then None else pop (dag c5) ret) with
           | Some G' => mkCtx G' (aset k None (cache c5)) (path c5) (logged c5)
           | None => mkCtx (setTag (dag c5) ret []) (aset k None (cache c5)) (path c5) true end)) = Some (r, c') /\ mono c c').
      { intros [|] c5 M; [exists (Some ret), c5; split; auto; eapply mono_trans; eauto|]. eexists _, _. split; [reflexivity|].
        intros q Hq. apply M0, M in Hq.
        destruct (if mem ret (path c5) then None else pop (dag c5) ret); rewrite known_aset; destruct (eq_dec q k); auto. }
      destruct nxt as [p|].
      2:{ apply (Out (negb r0) (onDag (fun G => setTag G ret tags) c0)). apply mono_same. reflexivity. }
      specialize (Hp p eq_refl).
      set (c1 := onDag (fun G => setTag G ret tags) c0).
      destruct (mem ret (path c1)).
      { apply (Out false (mkCtx (dag c1) (cache c1) (path c1) true)). apply mono_same. reflexivity. }
      set (c2 := mkCtx (dag c1) (cache c1) (ret :: path c1) (logged c1)).
      assert (U2 : unknown c2 < fuel) by (change (unknown c2) with (unknown c0); lia).
      assert (X : exists c3, (if e || r0 then Some c2 else traverseNext (pathsToImplLA g isEnd isErr cf fuel) ret p c2) = Some c3
                   /\ mono c2 c3).
      { destruct (e || r0); [exists c2; split; auto; apply mono_refl|]. exact (traverse_term _ _ _ _ _ IH Hp U2). }
      destruct X as [c3 [-> M3]]. pose proof (unknown_mono _ _ M3) as U3.
      destruct (in_node p Hp) as [pd Hpd]. rewrite Hpd.
      destruct (traverseAll_term fuel _ ret prev IH (neighbors pd) e c3 (proj2 (proj1 Hr p pd Hpd)) ltac:(lia)) as [e' [c4 [-> M4]]].
      apply (Out _ (mkCtx (dedupAt (dag c4) ret) (cache c4) (tl (path c4)) (logged c4))).
      apply (mono_trans _ c2); [apply mono_same; reflexivity|]. apply (mono_trans _ c3); auto.
    Qed.

    Lemma linkAll_term cf fuel ret : (forall k tags, k < n -> chain g isEnd isErr cf k tags <> None) -> n < fuel ->
      forall vs c, (forall q, In q vs -> q < n) -> exists c', linkAll g isEnd isErr cf fuel ret vs c = Some c'.
    Proof.
      intros Hc Hf. induction vs as [|v vs IH]; intros c Hv; cbn [linkAll]; eauto.
      pose proof (unknown_le c).
      destruct (la_term cf Hc fuel v c (Hv v (or_introl eq_refl)) ltac:(lia)) as [r [c' [-> M]]].
      destruct r; apply IH; intros; apply Hv; right; auto.
    Qed.
    Lemma tracePaths_term cf fuel inst : (forall k tags, k < n -> chain g isEnd isErr cf k tags <> None) -> n < fuel ->
      forall facts c, (forall d, In d facts -> getNodeOrNull g inst d <> None) ->
      exists c', tracePaths g isEnd isErr cf fuel inst facts c = inr c'.
    Proof.
      intros Hc Hf. induction facts as [|d facts IH]; intros c Hd; cbn [tracePaths]; eauto.
      destruct (getNodeOrNull g inst d) as [vtx|] eqn:Ed; [|destruct (Hd d (or_introl eq_refl) Ed)].
      unfold pathsToImpl. destruct (addNode (dag c) (Some [inst])) as [ret G].
      destruct (linkAll_term cf fuel ret Hc Hf (match nodeAt g vtx with Some nd => neighbors nd | None => [] end ++ [vtx])
        (mkCtx G (cache c) (path c) (logged c))) as [c' ->].
      - intros q Hq. apply in_app_iff in Hq. pose proof (proj2 Hr _ _ _ Ed) as Hv.
        destruct Hq as [Hq|[<-|[]]]; auto. destruct (nodeAt g vtx) as [nd|] eqn:En; [|destruct Hq].
        exact (proj2 (proj1 Hr vtx nd En) q Hq).
      - apply IH. intros; apply Hd; right; auto.
    Qed.
  End Term.
End Search.
