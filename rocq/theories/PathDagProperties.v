(** C55: the graph of paths back from an instruction. *)
From Coq Require Import List Bool Arith Lia Relations.
From Verif Require Import Assoc DFAMinimizerModel DFAMinimizerSpec ExplodedSuperGraphModel ExplodedSuperGraphSpec
  ExplodedSuperGraphExamples ExplodedSuperGraphProperties PathDagModel PathDagSpec PathDagGraphs PathDagProofs
  PathDagReverse PathDagResults.
Import ListNotations.

(** ** The whole search *)

(** The result has no cycle, and the check for cycles never aborts. *)
Theorem C55_result_is_acyclic :
  forall {N D} `{EqDec N} `{EqDec D} (g : esg N D) isEnd isErr cf fuel inst facts conf,
    pathsDagToAll g isEnd isErr cf fuel inst facts conf <> Circle /\
    forall R, pathsDagToAll g isEnd isErr cf fuel inst facts conf = Paths R -> wf R /\ acyclic R.
Proof.
  intros N D EN ED g isEnd isErr cf fuel inst facts conf.
  pose proof (result_cases g isEnd isErr cf fuel inst facts conf) as X. split.
  - intros E. rewrite E in X. exact X.
  - intros R E. rewrite E in X. destruct X as [c [_ [_ X]]]. split; apply X.
Qed.
Print Assumptions C55_result_is_acyclic.

(** Neither the warning about a node that is in progress nor the one about a
    vertex that cannot be removed is ever logged. *)
Theorem C55_nothing_is_logged :
  forall {N D} `{EqDec N} `{EqDec D} (g : esg N D) isEnd isErr cf fuel inst facts c,
    tracePaths g isEnd isErr cf fuel inst facts emptyCtx = inr c -> logged c = false /\ path c = [].
Proof.
  intros N D EN ED g isEnd isErr cf fuel inst facts c E.
  pose proof (tracePaths_ok g isEnd isErr cf fuel inst facts [] _ _ (traces_empty g isEnd isErr inst) E) as T.
  split; apply T.
Qed.
Print Assumptions C55_nothing_is_logged.

(** A path in the result, read against the direction of the search, is a path
    back from one of the facts: complete if there is no depth threshold, else
    its first part.  A fact without path is represented by the instruction
    alone. *)
Theorem C55_paths_are_traces :
  forall {N D} `{EqDec N} `{EqDec D} (g : esg N D) isEnd isErr cf fuel inst facts conf R,
    pathsDagToAll g isEnd isErr cf fuel inst facts conf = Paths R ->
    forall r l, In r (roots R) -> spellsBack R r l -> exists d vtx t rest,
      In d facts /\ getNodeOrNull g inst d = Some vtx /\ l = rev (inst :: t) /\
      (t = [] \/ traced g isEnd isErr vtx (t ++ rest)) /\ (depthThreshold conf = None -> rest = []).
Proof. intros. eapply result_sound; eauto. Qed.
Print Assumptions C55_paths_are_traces.

(** Conversely, a path that avoids cycles of the exploded supergraph is in the
    result, unless the filter both ends paths at a node and lets them go on
    there, or the depth threshold is too small. *)
Theorem C55_traces_are_found_partial :
  forall {N D} `{EqDec N} `{EqDec D} (g : esg N D) isEnd isErr cf fuel inst facts conf R,
    pathsDagToAll g isEnd isErr cf fuel inst facts conf = Paths R ->
    decisive g isEnd isErr -> (forall m, depthThreshold conf = Some m -> length (owner g) + length facts <= m) ->
    forall d vtx s vs t, In d facts -> getNodeOrNull g inst d = Some vtx -> start g vtx s -> btrace g isEnd isErr s vs ->
      spelled g s vs t -> (forall x, In x (s :: vs) -> ~ onCycle g x) ->
      exists r, In r (roots R) /\ spellsBack R r (rev (inst :: t)).
Proof. intros. eapply result_complete; eauto. Qed.
Print Assumptions C55_traces_are_found_partial.

(** Whatever the cycles and the filter: if one of the facts has a path, then a
    path of one of them is in the result. *)
Theorem C55_some_trace_is_found :
  forall {N D} `{EqDec N} `{EqDec D} (g : esg N D) isEnd isErr cf fuel inst facts conf R,
    pathsDagToAll g isEnd isErr cf fuel inst facts conf = Paths R ->
    (forall m, depthThreshold conf = Some m -> length (owner g) + length facts <= m) ->
    forall d vtx t, In d facts -> getNodeOrNull g inst d = Some vtx -> traced g isEnd isErr vtx t ->
    exists d' vtx' t' r, In d' facts /\ getNodeOrNull g inst d' = Some vtx' /\ traced g isEnd isErr vtx' t' /\
      In r (roots R) /\ spellsBack R r (rev (inst :: t')).
Proof. intros. eapply result_found; eauto. Qed.
Print Assumptions C55_some_trace_is_found.

(** The search ends, if following predecessors does and all facts have nodes. *)
Theorem C55_search_ends_partial :
  forall {N D} `{EqDec N} `{EqDec D} (g : esg N D) isEnd isErr inst facts conf,
    inRange g -> (forall k, k < length (owner g) -> settles g k) ->
    (forall d, In d facts -> getNodeOrNull g inst d <> None) ->
    exists cf0 fuel0 R, forall cf fuel, cf0 <= cf -> fuel0 <= fuel ->
      pathsDagToAll g isEnd isErr cf fuel inst facts conf = Paths R.
Proof. intros. apply result_ends; auto. Qed.
Print Assumptions C55_search_ends_partial.

(** From the flows that the solver reported to the paths: the search ends, and
    each path is one over reported flows from a seed, or from a call where zero
    was carried past the callee. *)
Theorem C55_paths_are_flows_partial :
  forall {N D B} `{EqDec N} `{EqDec D} `{EqDec B} (blockOf : N -> B) (zero : D) (L : list (call N D)) g,
    ordered L -> startsFresh L -> leavesStart L -> oneOrigin blockOf zero L ->
    (forall x, target L x -> reached zero L x) -> build blockOf zero emptyESG L = Some g ->
    forall inst facts mini, (forall d, In d facts -> target L (inst, d)) ->
    exists cf0 fuel0 R,
      (forall cf fuel, cf0 <= cf -> fuel0 <= fuel ->
         pathsDagToAll g never never cf fuel inst facts (mkConfig None mini) = Paths R) /\
      forall r l, In r (roots R) -> spellsBack R r l -> l = [inst] \/
        exists d t y, In d facts /\ l = rev (inst :: t) /\ follows zero L (inst, d) t y /\
          (seed L y \/ exists s, skipEdge zero L y (s, zero)).
Proof.
  intros N D B EN ED EB blockOf zero L g H1 H2 H3 H4 H5 Hb inst facts mini Ht.
  destruct (result_ends g never never inst facts (mkConfig None mini)) as [cf0 [fuel0 [R HR]]].
  - exact (inRange_built _ _ _ _ Hb).
  - intros k Hk. destruct (nodeAt g k) as [nd|] eqn:E; [|apply nth_error_None in E; lia].
    exact (C54_predecessors_end_partial blockOf zero L g H1 H2 H3 H4 H5 Hb k nd E).
  - intros d Hd. destruct (C54_reported_pairs_are_found blockOf zero L g Hb inst d (Ht d Hd)) as [k ->]. discriminate.
  - exists cf0, fuel0, R. split; [exact HR|]. intros r l Hr Hl.
    destruct (result_sound g never never cf0 fuel0 inst facts _ R (HR _ _ (le_n _) (le_n _)) r l Hr Hl)
      as [d [vtx [t [rest [D1 [D2 [D3 [D4 D5]]]]]]]].
    rewrite (D5 eq_refl), app_nil_r in D4. destruct D4 as [->|D4]; [left; auto|]. right. apply traced_never in D4.
    destruct (C54_traces_are_flows_partial blockOf zero L g H1 H2 H3 H4 Hb inst d vtx t (Ht d D1) D2 D4) as [y Hy].
    exists d, t, y. tauto.
Qed.
Print Assumptions C55_paths_are_flows_partial.

(** ** The functions on graphs *)

(** The check for cycles is exact on the part that the roots reach. *)
Theorem C55_cycle_check_is_exact :
  forall {T} (G : pgraph T) fuel, wf G -> size G < fuel ->
    exists b, assertIsDAG fuel G = Some b /\
      (b = true <-> forall r x, In r (roots G) -> clos_refl_trans _ (arc G) r x -> ~ clos_trans _ (arc G) x x).
Proof. intros. apply assertIsDAG_ok; auto. Qed.
Print Assumptions C55_cycle_check_is_exact.

(** Reading the reversed graph is reading the graph from its sources, the other
    way round. *)
Theorem C55_reversed_graph_reads_back :
  forall {T} (G : pgraph T) l, wf G ->
    (exists r, In r (roots (reverseGraph G)) /\ spellsBack (reverseGraph G) r l) <->
    exists v, (forall w, ~ arc G w v) /\ spells G v (rev l).
Proof. intros. apply reverseGraph_reads; auto. Qed.
Print Assumptions C55_reversed_graph_reads_back.

(** Reversing with a maximal depth keeps the vertices up to that depth and their
    tags.  Its arcs are reversed ones; those that leave a vertex are all there
    unless the vertex was made a root because the depth is reached. *)
Theorem C55_reversed_to_a_depth :
  forall {T} (G : pgraph T) m, wf G -> exists of : nat -> nat -> Prop,
    (forall v r r', of v r -> of v r' -> r = r') /\ (forall v v' r, of v r -> of v' r -> v = v') /\
    (forall v, (exists r, of v r) <-> within G m v) /\
    (forall r, r < size (reverseDAG G m) <-> exists v, of v r) /\
    (forall v r, of v r -> node (reverseDAG G m) r = node G v) /\
    (forall a b, arc (reverseDAG G m) a b -> exists u v, of u a /\ of v b /\ arc G v u) /\
    (forall v b, of v b -> (forall u, arc G v u -> exists a, of u a /\ arc (reverseDAG G m) a b) \/
       In b (roots (reverseDAG G m))).
Proof.
  intros T G m W. destruct (reverseDAG_ok G W m) as [s [dn [cut [L D1 D2 D3 D4 D5 D6]]]]. pose proof (l_rinv _ _ _ _ L) as I.
  assert (Ea : forall a b, arc (reverseDAG G m) a b <-> arc (out s) a b) by (intros; unfold arc, outEdges; rewrite D2; tauto).
  exists (fun v r => afind v (revOf s) = Some r).
  refine (conj _ (conj (r_inj _ _ _ I) (conj D5 (conj _ (conj _ (conj _ _)))))).
  - intros v r r' A B. congruence.
  - intros r. unfold size. rewrite D2. split; [apply (r_onto _ _ _ I)|]. intros [v Hv]. apply (r_map _ _ _ I _ _ Hv).
  - intros v r Hv. unfold node. rewrite D1. apply (r_map _ _ _ I _ _ Hv).
  - intros a b Ha. apply Ea, (r_arcs _ _ _ I) in Ha. destruct Ha as [u [v [A1 [A2 [_ A3]]]]]. exists u, v. auto.
  - intros v b Hv. destruct (l_known _ _ _ _ L v) as [Hd|[[]|Hn]]; [exists b; auto| |].
    + left. intros u Hu. destruct (r_E _ _ _ I v u (conj Hd Hu)) as [_ [_ [a Ha]]]. exists a. split; auto.
      apply Ea, (r_arcs _ _ _ I). exists u, v. auto.
    + right. apply D4. right. rewrite D3 in *. apply in_map_iff in Hn. destruct Hn as [x [E Hx]]. apply in_map_iff. exists x.
      split; auto. rewrite <- D3 in Hx. apply (r_next _ _ _ I) in Hx. rewrite E in Hx. congruence.
Qed.
Print Assumptions C55_reversed_to_a_depth.

(** ** Examples *)

(** all readings of at most [f] vertices *)
Fixpoint readings (f : nat) (G : pgraph nat) (v : nat) : list (list nat) :=
  match f, node G v with
  | S f', Some t =>
      match outEdges G v with
      | [] => [rev t]
      | es => map (app (rev t)) (flat_map (fun e => readings f' G (snd e)) es)
      end
  | _, _ => []
  end.
Lemma readings_ok (G : pgraph nat) : forall f v n ws, length ws < f -> readsAll G v n ws ->
  In (concat (map (@rev nat) (n :: map snd ws))) (readings f G v).
Proof.
  induction f as [|f IH]; intros v n ws Hf Hr; [lia|]. destruct ws as [|[[] n'] ws]; cbn [readsAll] in Hr; destruct Hr as [Hn Hr];
    cbn [readings]; unfold node in *; rewrite Hn.
  - rewrite Hr. cbn. rewrite app_nil_r. left; auto.
  - destruct Hr as [t [Ht Hr]]. destruct (outEdges G v) as [|e es] eqn:Eo; [destruct Ht|]. rewrite <- Eo in *. clear Eo.
    cbn [map concat snd]. apply in_map_iff. exists (concat (map (@rev nat) (n' :: map snd ws))).
    split; [reflexivity|]. apply in_flat_map. exists (tt, t). split; auto. apply IH; auto. cbn in Hf. lia.
Qed.
Lemma readsAll_reads (G : pgraph nat) : forall ws v n, readsAll G v n ws -> reads G v n ws.
Proof. induction ws as [|[w n'] ws IH]; intros v n [A B]; split; auto. destruct B as [t [B1 B2]]. exists t. auto. Qed.
Lemma spellsBack_readings (R : pgraph nat) r l : wf R -> acyclic R -> spellsBack R r l -> In l (readings (size R) R r).
Proof.
  intros W Ac [n [ws [Hr ->]]]. apply readings_ok; auto. assert (Sz : sized R) by apply W. exact (reads_bound R Sz Ac _ _ _ (readsAll_reads _ _ _ _ Hr)).
Qed.
(** what the result of the search reads *)
Lemma result_readings (g : esg nat nat) isEnd isErr cf fuel inst facts conf R :
  pathsDagToAll g isEnd isErr cf fuel inst facts conf = Paths R ->
  forall r l, In r (roots R) -> spellsBack R r l -> In l (flat_map (readings (size R) R) (roots R)).
Proof.
  intros E r l Hr Hl. destruct (C55_result_is_acyclic g isEnd isErr cf fuel inst facts conf) as [_ X].
  destruct (X R E) as [W Ac]. apply in_flat_map. exists r. split; auto. apply spellsBack_readings; auto.
Qed.
Lemma readings_sound (G : pgraph nat) : forall f v l, In l (readings f G v) -> spellsBack G v l.
Proof.
  induction f as [|f IH]; intros v l Hi; cbn [readings] in Hi; [destruct Hi|].
  destruct (node G v) as [t|] eqn:En; [|destruct Hi]. destruct (outEdges G v) as [|e es] eqn:Eo.
  - destruct Hi as [<-|[]]. exists t, []. cbn. rewrite app_nil_r. unfold node in En. auto.
  - rewrite <- Eo in Hi. apply in_map_iff in Hi. destruct Hi as [l' [<- Hi]]. apply in_flat_map in Hi. destruct Hi as [[[] u] [He Hi]].
    destruct (IH _ _ Hi) as [n [ws [Hr ->]]]. exists t, ((tt, n) :: ws). split; [|reflexivity]. cbn [readsAll].
    split; [exact En|]. exists u. auto.
Qed.
Definition noMin : config := mkConfig None false.
Definition resultOf (g : esg nat nat) isEnd isErr inst facts conf : pgraph nat :=
  match pathsDagToAll g isEnd isErr 30 30 inst facts conf with Paths R => R | _ => emptyGraph end.

(** The loop of C54, the facts 7 and 0 after it: straight through, or once round
    the loop. *)
Definition loopPaths : pgraph nat := Eval vm_compute in resultOf loopESG never never 6 [7; 0] (mkConfig None true).
Example C55_loop_paths :
  pathsDagToAll loopESG never never 30 30 6 [7; 0] (mkConfig None true) = Paths loopPaths /\
  flat_map (readings (size loopPaths) loopPaths) (roots loopPaths) =
    [[0; 2; 3; 4; 10; 11; 5; 6]; [0; 2; 3; 4; 10; 11; 5; 3; 4; 10; 11; 5; 6];
     [0; 1; 2; 3; 4; 10; 11; 5; 6]; [0; 1; 2; 3; 4; 10; 11; 5; 3; 4; 10; 11; 5; 6]].
Proof. split; vm_compute; reflexivity. Qed.
(** it satisfies the hypotheses of the theorems on ending and on flows *)
Example C55_loop_hypotheses :
  (forall d, In d [7; 0] -> target loopCalls (6, d)) /\
  inRange loopESG /\ (forall k, k < length (owner loopESG) -> settles loopESG k) /\
  (forall d, In d [7; 0] -> getNodeOrNull loopESG 6 d <> None) /\
  exists vtx t, getNodeOrNull loopESG 6 7 = Some vtx /\ traced loopESG never never vtx t.
Proof.
  destruct C54_loop_hypotheses as [H1 [H2 [H3 [H4 [H5 H6]]]]].
  refine (conj _ (conj _ (conj _ (conj _ _)))).
  - intros d [<-|[<-|[]]]; facts.
  - exact (inRange_built _ _ _ _ H6).
  - intros k Hk. destruct (nodeAt loopESG k) as [nd|] eqn:E; [|apply nth_error_None in E; lia].
    exact (C54_predecessors_end_partial _ _ _ _ H1 H2 H3 H4 H5 H6 k nd E).
  - intros d [<-|[<-|[]]]; vm_compute; discriminate.
  - destruct C54_loop_traced as [A B]. exists 16. eexists. split; [exact A|]. apply traced_never. exact B.
Qed.

(** A branch: 1 is followed by 2 or 3, both by 4. *)
Definition branchBlock (n : nat) : nat := match n with 0 | 1 => 0 | 2 => 1 | 3 => 2 | _ => 3 end.
Definition branchCalls : list (call nat nat) :=
  [normal 0 0 1 [0]; normal 1 0 2 [0]; normal 1 0 3 [0]; normal 2 0 4 [0]; normal 3 0 4 [0]; normal 4 0 5 [0]].
Definition branchESG : esg nat nat := Eval vm_compute in esgOf branchBlock branchCalls.
(** no step back goes to a node that is not smaller *)
Definition descends (g : esg nat nat) : bool :=
  forallb (fun k => match nodeAt g k with
                    | Some nd => match pred nd with
                                 | Some p => (p <? k) && match nodeAt g p with Some pd => forallb (fun q => q <? k) (neighbors pd) | None => true end
                                 | None => true
                                 end
                    | None => true
                    end) (seq 0 (length (owner g))).
Lemma descends_ok g : descends g = true -> forall x, ~ onCycle g x.
Proof.
  intros E. unfold descends in E. rewrite forallb_forall in E.
  assert (B : forall k q, back g k q -> q < k).
  { intros k q [nd [p [Hn [Hp Hq]]]]. assert (Hk : k < length (owner g)) by (apply nth_error_Some; unfold nodeAt in Hn; congruence).
    specialize (E k ltac:(apply in_seq; lia)). rewrite Hn, Hp in E. apply andb_true_iff in E. destruct E as [E1 E2].
    apply Nat.ltb_lt in E1. destruct Hq as [->|[pd [Hpd Hq]]]; auto. rewrite Hpd, forallb_forall in E2.
    apply Nat.ltb_lt. auto. }
  intros x Hx. assert (K : forall a b, clos_trans _ (back g) a b -> b < a) by (induction 1; [auto|lia]).
  specialize (K x x Hx). lia.
Qed.
Definition branchPaths : pgraph nat := Eval vm_compute in resultOf branchESG never never 5 [0] noMin.
Example C55_branch :
  build branchBlock 0 emptyESG branchCalls = Some branchESG /\
  pathsDagToAll branchESG never never 30 30 5 [0] noMin = Paths branchPaths /\
  decisive branchESG never never /\ (forall x, ~ onCycle branchESG x) /\
  exists vtx s vs, getNodeOrNull branchESG 5 0 = Some vtx /\ start branchESG vtx s /\ btrace branchESG never never s vs /\
    spelled branchESG s vs [4; 3; 1; 0].
Proof.
  refine (conj _ (conj _ (conj (never_decisive _) (conj _ _)))); [vm_compute; reflexivity|vm_compute; reflexivity| |].
  - apply descends_ok. vm_compute. reflexivity.
  - exists 5. assert (T : trace branchESG 5 [4; 3; 1; 0]) by (tr_nb 4; do 2 tr_pred; tr_end).
    apply trace_btrace in T. destruct T as [vs [A B]]. exists 5, vs. split; [vm_compute; reflexivity|]. split; [left; auto|]. auto.
Qed.
Example C55_cycle_check :
  assertIsDAG 5 (mkGraph [[1]; [2]; [3]] [[(tt, 1); (tt, 2)]; [(tt, 2)]; []] [0]) = Some true /\
  assertIsDAG 5 (mkGraph [[1]; [2]; [3]] [[(tt, 1); (tt, 2)]; [(tt, 2)]; [(tt, 1)]] [0]) = Some false /\
  wf (mkGraph [[1]; [2]; [3]] [[(tt, 1); (tt, 2)]; [(tt, 2)]; [(tt, 1)]] [0]).
Proof.
  split; [reflexivity|]. split; [reflexivity|]. split; [reflexivity|]. split.
  - intros [|[|[|v]]] e t; cbn; intuition congruence || idtac.
    all: repeat match goal with H : _ \/ _ |- _ => destruct H | H : (_, _) = _ |- _ => injection H as <- <- | H : False |- _ => destruct H end; cbn; lia || auto.
    all: try (destruct v; cbn in *; contradiction).
  - intros r [<-|[]]. cbn. lia.
Qed.

(** ** What is false of the code *)

(** the hypotheses of C55_paths_are_flows_partial *)
Definition wellReported (blockOf : nat -> nat) (L : list (call nat nat)) (g : esg nat nat) : Prop :=
  ordered L /\ startsFresh L /\ leavesStart L /\ oneOrigin blockOf 0 L /\
  (forall x, target L x -> reached 0 L x) /\ build blockOf 0 emptyESG L = Some g.

(** The search does not end for the straight-line code of C54. *)
Definition copyESG : esg nat nat := Eval vm_compute in esgOf oneBlock copyCalls.
Lemma chain_turns (g : esg nat nat) a b na nb :
  nodeAt g a = Some na -> pred na = Some b -> nodeAt g b = Some nb -> pred nb = Some a ->
  neighbors na = [] -> neighbors nb = [] ->
  forall cf tags, chain g never never cf a tags = None /\ chain g never never cf b tags = None.
Proof.
  intros Ha Pa Hb Pb Na Nb. induction cf as [|cf IH]; intros tags; cbn [chain]; auto.
  rewrite Ha, Hb, Pa, Pb, Ha, Hb, Na, Nb. cbn. split; apply IH.
Qed.
Theorem C55_search_ends_refuted : exists (L : list (call nat nat)) g inst d,
  ordered L /\ startsFresh L /\ leavesStart L /\ (forall x, target L x -> reached 0 L x) /\
  (forall c, In c L -> curr c < succ c) /\ build oneBlock 0 emptyESG L = Some g /\ target L (inst, d) /\
  forall cf fuel conf, pathsDagToAll g never never cf fuel inst [d] conf = OutOfFuel.
Proof.
  exists copyCalls, copyESG, 3, 1. facts.
  - intros c Hc. repeat (destruct Hc as [<-|Hc]; [vm_compute; auto|]). destruct Hc.
  - intros cf fuel conf. unfold pathsDagToAll. cbn [tracePaths].
    change (getNodeOrNull copyESG 3 1) with (Some 1). cbn iota. unfold pathsToImpl, addNode.
    change (match nodeAt copyESG 1 with Some nd => neighbors nd | None => [] end ++ [1]) with [1]. cbn [linkAll].
    destruct fuel as [|fuel]; [reflexivity|]. cbn [pathsToImplLA cache afind]. unfold addNode, pathsToImplLAInvoke.
    assert (X : forall cf tags, chain copyESG never never cf 1 tags = None).
    { intros k tags. apply (chain_turns copyESG 1 3 (mkNode 1 2 (Some 3) []) (mkNode 2 1 (Some 1) [])); reflexivity. }
    cbn [emptyCtx cache afind]. rewrite X. reflexivity.
Qed.
Print Assumptions C55_search_ends_refuted.

(** A path that visits no node twice is lost.  In a loop with the header 2, the
    branches 3 and 4 and the join 5, the iterations over 4 and then over 3 are
    not in the result, those over 3 and then over 4 are. *)
Definition joinBlock (n : nat) : nat := match n with 0 | 1 => 0 | 2 => 1 | 3 => 2 | 4 => 3 | _ => 4 end.
Definition joinCalls : list (call nat nat) :=
  [normal 0 0 1 [0]; normal 1 0 2 [0]; normal 2 0 3 [0]; normal 2 0 4 [0]; normal 3 0 5 [0]; normal 4 0 5 [0];
   normal 5 0 2 [0]; normal 5 0 6 [0]].
Definition joinESG : esg nat nat := Eval vm_compute in esgOf joinBlock joinCalls.
Definition joinPaths : pgraph nat := Eval vm_compute in resultOf joinESG never never 5 [0] noMin.

(** whether [l] is a trace from [k] *)
Fixpoint traceb (g : esg nat nat) (l : list nat) (k : nat) : bool :=
  match l, nodeAt g k with
  | m :: l', Some nd =>
      eqb m (source nd) &&
      match pred nd with
      | None => match l' with [] => true | _ => false end
      | Some p => traceb g l' p || match nodeAt g p with Some pd => existsb (traceb g l') (neighbors pd) | None => false end
      end
  | _, _ => false
  end.
Lemma trace_traceb g k l : trace g k l -> traceb g l k = true.
Proof.
  induction 1 as [k nd Hk Hp|k nd p l Hk Hp Ht IH|k nd p pd q l Hk Hp Hpd Hq Ht IH]; cbn [traceb]; rewrite Hk, eqb_refl, Hp; cbn [andb]; auto.
  - rewrite IH. reflexivity.
  - rewrite Hpd. apply orb_true_iff. right. apply existsb_exists. eauto.
Qed.
Lemma btrace_nodes (g : esg nat nat) : forall vs k l, Forall2 (sourceOf g) (k :: vs) l ->
  (fix go k vs := match vs with [] => predOf g k = None | q :: vs' => back g k q /\ go q vs' end) k vs -> btrace g never never k vs.
Proof.
  induction vs as [|q vs IH]; intros k l Hl Hb; inversion Hl as [|x y xs ys [nd [Hn _]] Hl']; subst.
  - unfold predOf in Hb. rewrite Hn in Hb. exists nd. rewrite Hb. auto.
  - destruct Hb as [Hb Hg]. cbn [btrace]. split; [split; auto|]. eapply IH; eauto.
Qed.
Theorem C55_simple_traces_are_found_refuted : exists (L : list (call nat nat)) g inst d vtx s vs t R,
  wellReported joinBlock L g /\ target L (inst, d) /\ getNodeOrNull g inst d = Some vtx /\
  start g vtx s /\ btrace g never never s vs /\ spelled g s vs t /\ NoDup (s :: vs) /\
  (forall cf fuel, 30 <= cf -> 30 <= fuel -> pathsDagToAll g never never cf fuel inst [d] noMin = Paths R) /\
  ~ exists r, In r (roots R) /\ spellsBack R r (rev (inst :: t)).
Proof.
  exists joinCalls, joinESG, 5, 0, 4, 4, [2; 6; 5; 3; 1; 0], [3; 2; 5; 4; 2; 1; 0], joinPaths.
  assert (Sp : spelled joinESG 4 [2; 6; 5; 3; 1; 0] [3; 2; 5; 4; 2; 1; 0]).
  { repeat (constructor; [eexists; split; reflexivity|]). constructor. }
  assert (E : pathsDagToAll joinESG never never 30 30 5 [0] noMin = Paths joinPaths) by (vm_compute; reflexivity).
  split; [unfold wellReported; facts|]. split; [facts|]. split; [reflexivity|]. split; [left; reflexivity|].
  refine (conj _ (conj Sp (conj _ (conj _ _)))).
  - eapply btrace_nodes; [exact Sp|].
    repeat match goal with |- _ /\ _ => split | |- back _ _ _ => eexists; eexists; split; [reflexivity|split; [reflexivity|]] end;
      try reflexivity; try (left; reflexivity); right; eexists; (split; [reflexivity|]); left; reflexivity.
  - repeat (constructor; [intros Hi; repeat (destruct Hi as [Hi|Hi]; [discriminate Hi|]); exact Hi|]). constructor.
  - intros cf fuel Hc Hf. replace cf with (30 + (cf - 30)) by lia. replace fuel with (30 + (fuel - 30)) by lia. apply paths_more, E.
  - intros [r [Hr Hl]]. pose proof (result_readings _ _ _ _ _ _ _ _ _ E r _ Hr Hl) as X. vm_compute in X.
    repeat (destruct X as [X|X]; [discriminate X|]). exact X.
Qed.
Print Assumptions C55_simple_traces_are_found_refuted.

(** Of two facts the second may get no path at all, although it has one. *)
Definition turnBlock (n : nat) : nat := n.
Definition turnCalls : list (call nat nat) :=
  [normal 0 0 1 [0]; normal 1 0 2 [0]; normal 2 0 3 [0]; normal 3 0 4 [0]; normal 4 0 2 [0; 2]; normal 2 2 3 [1];
   normal 3 1 4 [1; 2]; normal 4 1 2 [1]; normal 4 2 2 [2]; normal 2 1 3 [1; 2]; normal 3 2 4 [2]].
Definition turnESG : esg nat nat := Eval vm_compute in esgOf turnBlock turnCalls.
Definition turnPaths : pgraph nat := Eval vm_compute in resultOf turnESG never never 4 [1; 2] noMin.
Theorem C55_each_fact_gets_a_path_refuted : exists (L : list (call nat nat)) g inst facts R r,
  wellReported turnBlock L g /\
  (forall d, In d facts -> target L (inst, d) /\ exists vtx t, getNodeOrNull g inst d = Some vtx /\ traced g never never vtx t) /\
  (forall cf fuel, 30 <= cf -> 30 <= fuel -> pathsDagToAll g never never cf fuel inst facts noMin = Paths R) /\
  In r (roots R) /\ spellsBack R r [inst].
Proof.
  exists turnCalls, turnESG, 4, [1; 2], turnPaths, 6.
  assert (E : pathsDagToAll turnESG never never 30 30 4 [1; 2] noMin = Paths turnPaths) by (vm_compute; reflexivity).
  split; [unfold wellReported; facts|]. split; [|split; [|split]].
  - intros d [<-|[<-|[]]]; (split; [facts|]); eexists; exists [3; 2; 4; 3; 2; 1; 0]; (split; [reflexivity|]);
      apply traced_never; left; do 6 tr_pred; tr_end.
  - intros cf fuel Hc Hf. replace cf with (30 + (cf - 30)) by lia. replace fuel with (30 + (fuel - 30)) by lia. apply paths_more, E.
  - vm_compute. auto.
  - apply (readings_sound _ 10). vm_compute. auto.
Qed.
Print Assumptions C55_each_fact_gets_a_path_refuted.

(** With a depth threshold, a path that is cut short looks like one that starts
    in the middle of the program. *)
Definition cutPaths : pgraph nat := Eval vm_compute in resultOf loopESG never never 6 [7] (mkConfig (Some 2) true).
Theorem C55_threshold_keeps_whole_paths_refuted : exists (L : list (call nat nat)) g inst d m R r l,
  wellReported loopBlock L g /\ target L (inst, d) /\
  (forall cf fuel, 30 <= cf -> 30 <= fuel -> pathsDagToAll g never never cf fuel inst [d] (mkConfig (Some m) true) = Paths R) /\
  In r (roots R) /\ spellsBack R r (rev (inst :: l)) /\ l <> [] /\
  forall vtx, getNodeOrNull g inst d = Some vtx -> ~ traced g never never vtx l.
Proof.
  exists loopCalls, loopESG, 6, 7, 2, cutPaths, 1, [5; 11; 10; 4; 3; 5; 11; 10; 4; 3].
  assert (E : pathsDagToAll loopESG never never 30 30 6 [7] (mkConfig (Some 2) true) = Paths cutPaths) by (vm_compute; reflexivity).
  split; [exact C54_loop_hypotheses|]. split; [facts|]. split; [|split; [|split; [|split]]].
  - intros cf fuel Hc Hf. replace cf with (30 + (cf - 30)) by lia. replace fuel with (30 + (fuel - 30)) by lia. apply paths_more, E.
  - vm_compute. auto.
  - apply (readings_sound _ 10). vm_compute. auto.
  - discriminate.
  - intros vtx Hv Ht. vm_compute in Hv. injection Hv as <-. apply traced_never in Ht. destruct Ht as [Ht|[nd [q [Hn [Hq _]]]]].
    + apply trace_traceb in Ht. vm_compute in Ht. discriminate.
    + vm_compute in Hn. injection Hn as <-. destruct Hq.
Qed.
Print Assumptions C55_threshold_keeps_whole_paths_refuted.

(** A filter that ends paths at 3: the path from 4 that ends there is lost,
    because the one over 2 is found. *)
Definition at3 (k : nat) (q : option nat) : bool :=
  match q with Some q => match nodeAt branchESG q with Some nd => source nd =? 3 | None => false end | None => false end.
Definition filteredPaths : pgraph nat := Eval vm_compute in resultOf branchESG at3 never 5 [0] noMin.
Theorem C55_filtered_traces_are_found_refuted : exists (L : list (call nat nat)) g isEnd isErr inst d vtx s vs t R,
  wellReported branchBlock L g /\ target L (inst, d) /\ getNodeOrNull g inst d = Some vtx /\
  start g vtx s /\ btrace g isEnd isErr s vs /\ spelled g s vs t /\ (forall x, ~ onCycle g x) /\
  (forall cf fuel, 30 <= cf -> 30 <= fuel -> pathsDagToAll g isEnd isErr cf fuel inst [d] noMin = Paths R) /\
  ~ exists r, In r (roots R) /\ spellsBack R r (rev (inst :: t)).
Proof.
  exists branchCalls, branchESG, at3, never, 5, 0, 5, 5, [], [4], filteredPaths.
  assert (E : pathsDagToAll branchESG at3 never 30 30 5 [0] noMin = Paths filteredPaths) by (vm_compute; reflexivity).
  split; [unfold wellReported; facts|]. split; [facts|]. split; [reflexivity|]. split; [left; reflexivity|].
  split; [|split; [|split; [|split]]].
  - eexists. split; [reflexivity|]. right. eexists. exists 4. split; [reflexivity|]. split; [left; reflexivity|]. split; reflexivity.
  - constructor; [|constructor]. eexists. split; reflexivity.
  - apply descends_ok. vm_compute. reflexivity.
  - intros cf fuel Hc Hf. replace cf with (30 + (cf - 30)) by lia. replace fuel with (30 + (fuel - 30)) by lia. apply paths_more, E.
  - intros [r [Hr Hl]]. pose proof (result_readings _ _ _ _ _ _ _ _ _ E r _ Hr Hl) as X. vm_compute in X.
    repeat (destruct X as [X|X]; [discriminate X|]). exact X.
Qed.
Print Assumptions C55_filtered_traces_are_found_refuted.

(** A seed from which nothing flows has no node: the search aborts. *)
Theorem C55_seeds_are_answered_refuted : exists (L : list (call nat nat)) g inst d,
  ordered L /\ seed L (inst, d) /\ build siteBlock 0 emptyESG L = Some g /\
  forall isEnd isErr cf fuel conf, pathsDagToAll g isEnd isErr cf fuel inst [d] conf = NoNode.
Proof.
  destruct C54_seeds_are_found_refuted as [L [g [n [d [H1 [H2 [H3 H4]]]]]]]. exists L, g, n, d.
  refine (conj H1 (conj H2 (conj H3 _))). intros isEnd isErr cf fuel conf. unfold pathsDagToAll. cbn [tracePaths]. rewrite H4. reflexivity.
Qed.
Print Assumptions C55_seeds_are_answered_refuted.
