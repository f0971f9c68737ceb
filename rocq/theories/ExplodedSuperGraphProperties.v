(** C54: the exploded supergraph records the flows of the analysis. *)
From Coq Require Import List Bool Arith Lia.
From Verif Require Import Assoc ExplodedSuperGraphModel ExplodedSuperGraphSpec ExplodedSuperGraphProofs
  ExplodedSuperGraphExamples.
Import ListNotations.

(** Every reported pair can be looked up, whatever the calls. *)
Theorem C54_reported_pairs_are_found :
  forall {N D B} `{EqDec N} `{EqDec D} `{EqDec B} (blockOf : N -> B) (zero : D) (L : list (call N D)) g,
    build blockOf zero emptyESG L = Some g ->
    forall n d, target L (n, d) -> exists k, getNodeOrNull g n d = Some k.
Proof.
  intros N D B EN ED EB blockOf zero L g Hb n d [x [c [Hc [_ [Hs Hd]]]]]. cbn [fst snd] in *.
  pose proof (proj1 (build_keys _ _ _ _ _ Hb) c d Hc Hd) as Hk. rewrite Hs in Hk.
  unfold getNodeOrNull. destruct (afind (n, d) (vertexMap g)) as [k|] eqn:E; eauto.
  exfalso. apply (proj1 (afind_None _ _) E). exact Hk.
Qed.
Print Assumptions C54_reported_pairs_are_found.

(** The node of a pair carries its fact. *)
Theorem C54_nodes_carry_their_fact_partial :
  forall {N D B} `{EqDec N} `{EqDec D} `{EqDec B} (blockOf : N -> B) (zero : D) (L : list (call N D)) g,
    ordered L -> startsFresh L -> leavesStart L -> oneOrigin blockOf zero L ->
    build blockOf zero emptyESG L = Some g ->
    forall n d, target L (n, d) ->
      exists k nd, getNodeOrNull g n d = Some k /\ nodeAt g k = Some nd /\ value nd = d.
Proof.
  intros N D B EN ED EB blockOf zero L g H1 H2 H3 H4 Hb n d Ht.
  apply (reached_have_nodes blockOf zero L H2 H3 H4 H1 g Hb (n, d) Ht).
Qed.
Print Assumptions C54_nodes_carry_their_fact_partial.

(** What can be traced back from a pair is a path of reported flows, from which
    only instructions that left a non-zero fact unchanged are missing.  It
    starts at a seed, or at a call where zero was carried past the callee. *)
Theorem C54_traces_are_flows_partial :
  forall {N D B} `{EqDec N} `{EqDec D} `{EqDec B} (blockOf : N -> B) (zero : D) (L : list (call N D)) g,
    ordered L -> startsFresh L -> leavesStart L -> oneOrigin blockOf zero L ->
    build blockOf zero emptyESG L = Some g ->
    forall n d k l, target L (n, d) -> getNodeOrNull g n d = Some k -> traceOf g k l ->
      exists y, follows zero L (n, d) l y /\ (seed L y \/ exists s, skipEdge zero L y (s, zero)).
Proof.
  intros N D B EN ED EB blockOf zero L g H1 H2 H3 H4 Hb n d k l Ht Hk Hl.
  apply (traces_follow blockOf zero L H2 H3 H4 H1 g Hb (n, d) k l Ht Hk Hl).
Qed.
Print Assumptions C54_traces_are_flows_partial.

(** Conversely every flow is recorded: its two ends share a node, or the node of
    its end, or an alternative of that node, has the node of its start as
    predecessor. *)
Theorem C54_flows_are_recorded_partial :
  forall {N D B} `{EqDec N} `{EqDec D} `{EqDec B} (blockOf : N -> B) (zero : D) (L : list (call N D)) g,
    ordered L -> startsFresh L -> leavesStart L -> oneOrigin blockOf zero L ->
    build blockOf zero emptyESG L = Some g ->
    forall m e n d, target L (m, e) -> flow zero L (m, e) (n, d) ->
      exists p k nd, getNodeOrNull g m e = Some p /\ getNodeOrNull g n d = Some k /\ nodeAt g k = Some nd /\
        (k = p \/ pred nd = Some p \/
         exists q qd, In q (neighbors nd) /\ nodeAt g q = Some qd /\ pred qd = Some p).
Proof.
  intros N D B EN ED EB blockOf zero L g H1 H2 H3 H4 Hb m e n d Ht Hf.
  destruct (flows_are_linked blockOf zero L H2 H3 H4 H1 g Hb (m, e) (n, d) Ht Hf)
    as [p [k [A1 [A2 [nd [A3 A4]]]]]].
  exists p, k, nd. auto.
Qed.
Print Assumptions C54_flows_are_recorded_partial.

(** Following predecessors ends or meets a choice, provided that every pair is
    reached from a seed over flows other than the skipped ones. *)
Theorem C54_predecessors_end_partial :
  forall {N D B} `{EqDec N} `{EqDec D} `{EqDec B} (blockOf : N -> B) (zero : D) (L : list (call N D)) g,
    ordered L -> startsFresh L -> leavesStart L -> oneOrigin blockOf zero L ->
    (forall x, target L x -> reached zero L x) ->
    build blockOf zero emptyESG L = Some g ->
    forall k nd, nodeAt g k = Some nd -> settles g k.
Proof.
  intros N D B EN ED EB blockOf zero L g H1 H2 H3 H4 H5 Hb k nd Hk.
  exact (nodes_settle blockOf zero L H2 H3 H4 H1 g Hb H5 k nd Hk).
Qed.
Print Assumptions C54_predecessors_end_partial.


(** ** Examples: instructions, blocks and facts are numbers, zero is 0 *)
Definition normal (m e s : nat) (ds : list nat) : call nat nat := mkCall m e s ds Normal.

(** [main]: a block 0-2 in which 0 generates the fact 7, a loop 3-5 that calls
    [f] at 4, and 6; [f] is 10, 11. *)
Definition loopBlock (n : nat) : nat :=
  if n <=? 2 then 0 else if n <=? 5 then 1 else if n =? 6 then 2 else 3.
Definition loopCalls : list (call nat nat) :=
  [mkCall 0 0 1 [0; 7] SkipUnknownFn; normal 1 0 2 [0]; normal 1 7 2 [7]; normal 2 0 3 [0]; normal 2 7 3 [7];
   normal 3 0 4 [0]; normal 3 7 4 [7];
   mkCall 4 0 10 [0] Call; mkCall 4 0 5 [0] CallToRet; mkCall 4 7 10 [7] Call; mkCall 4 7 5 [] CallToRet;
   normal 10 0 11 [0]; mkCall 11 0 5 [0] Ret; normal 10 7 11 [7]; mkCall 11 7 5 [7] Ret;
   normal 5 0 3 [0]; normal 5 0 6 [0]; normal 5 7 3 [7]; normal 5 7 6 [7]].

Definition esgOf (blockOf : nat -> nat) (L : list (call nat nat)) : esg nat nat :=
  match build blockOf 0 emptyESG L with Some g => g | None => emptyESG end.
Definition loopESG : esg nat nat := esgOf loopBlock loopCalls.

Ltac facts :=
  repeat match goal with |- _ /\ _ => split end;
  match goal with
  | |- ordered _ => apply ordered_orderedb; vm_compute; reflexivity
  | |- startsFresh _ => apply startsFresh_freshb; vm_compute; reflexivity
  | |- leavesStart _ => apply leavesStart_leavesb; vm_compute; reflexivity
  | |- oneOrigin _ _ _ => apply (oneOrigin_originb _ _ 5); lazy; reflexivity
  | |- forall x, target _ x -> reached _ _ x => apply (reached_reachedb _ 4); vm_compute; reflexivity
  | |- target _ _ => apply target_targetb; vm_compute; reflexivity
  | |- seed _ _ => apply seed_seedb; vm_compute; reflexivity
  | |- flow _ _ _ _ => apply flow_flowsOf; vm_compute; auto 20
  | |- _ = _ => vm_compute; reflexivity
  | |- _ => idtac
  end.

Example C54_loop_hypotheses :
  ordered loopCalls /\ startsFresh loopCalls /\ leavesStart loopCalls /\ oneOrigin loopBlock 0 loopCalls /\
  (forall x, target loopCalls x -> reached 0 loopCalls x) /\
  build loopBlock 0 emptyESG loopCalls = Some loopESG.
Proof.
  facts.
Qed.

Lemma trace_end' (g : esg nat nat) k nd m :
  nodeAt g k = Some nd -> pred nd = None -> source nd = m -> trace g k [m].
Proof. intros Hk Hp <-. econstructor 1; eauto. Qed.
Lemma trace_pred' (g : esg nat nat) k nd p m l :
  nodeAt g k = Some nd -> pred nd = Some p -> source nd = m -> trace g p l -> trace g k (m :: l).
Proof. intros Hk Hp <-. econstructor 2; eauto. Qed.
Lemma trace_neighbor' q (g : esg nat nat) k nd p pd m l :
  nodeAt g k = Some nd -> pred nd = Some p -> source nd = m -> nodeAt g p = Some pd ->
  In q (neighbors pd) -> trace g q l -> trace g k (m :: l).
Proof. intros Hk Hp <-. econstructor 3; eauto. Qed.
Ltac tr_end := eapply trace_end'; [vm_compute; reflexivity|reflexivity|reflexivity].
Ltac tr_pred := eapply trace_pred'; [vm_compute; reflexivity|reflexivity|reflexivity|].
Ltac tr_nb q := eapply (trace_neighbor' q);
  [vm_compute; reflexivity|reflexivity|reflexivity|vm_compute; reflexivity|cbn; auto|].

(** 7 at the end of the loop: once round the loop and back to 0; the step over
    1 is left out. *)
Example C54_loop_traced : getNodeOrNull loopESG 6 7 = Some 16 /\
  traceOf loopESG 16 [5; 11; 10; 4; 3; 5; 11; 10; 4; 3; 2; 0].
Proof.
  split; [vm_compute; reflexivity|]. left.
  do 4 (tr_pred). tr_nb 15. do 6 (tr_pred). tr_end.
Qed.

(** ** What is false of the code *)

(** Pairs of one block share a node; an alternative that enters the node at the
    last of them is offered to all of them.  Here the fact 1 holds at 2, 3 and
    4 since 1, and 3 makes 1 out of the fact 2: from 2 one can trace back over
    3, although no flow from 3 reaches 2. *)
Definition mergeCalls : list (call nat nat) :=
  [normal 0 0 1 [0]; normal 1 0 2 [0; 1; 2]; normal 2 0 3 [0]; normal 2 1 3 [1]; normal 2 2 3 [2];
   normal 3 0 4 [0]; normal 3 1 4 [1]; normal 3 2 4 [1; 2]].
Definition oneBlock (n : nat) : nat := 0.

Theorem C54_traces_are_flows_refuted : exists (L : list (call nat nat)) g n d k l,
  ordered L /\ startsFresh L /\ leavesStart L /\ (forall x, target L x -> reached 0 L x) /\
  build oneBlock 0 emptyESG L = Some g /\
  target L (n, d) /\ getNodeOrNull g n d = Some k /\ traceOf g k l /\
  forall y, ~ follows 0 L (n, d) l y.
Proof.
  exists mergeCalls. exists (esgOf oneBlock mergeCalls). exists 2, 1.
  exists (match getNodeOrNull (esgOf oneBlock mergeCalls) 2 1 with Some k => k | None => 0 end). exists [3; 1; 0].
  facts.
  - right. eexists. eexists. split; [vm_compute; reflexivity|]. split; [left; reflexivity|].
    do 2 tr_pred. tr_end.
  - intros y Hf. inversion Hf as [|m e x l y' He Hf'|m n d l y' He Hd Hf']; subst;
      apply edge_edgesOf in He; vm_compute in He;
      repeat (destruct He as [He|He]; [discriminate He|]); exact He.
Qed.
Print Assumptions C54_traces_are_flows_refuted.

(** A node without predecessor takes the next one offered.  [main] starts with
    a call of [f] (10) and calls it again: the node of the start of [f], whose
    only flow so far came from the seed, is connected to the second call, and
    following predecessors goes round for ever. *)
Definition twiceBlock (n : nat) : nat := n / 10.
Definition twiceCalls : list (call nat nat) :=
  [mkCall 0 0 10 [0] Call; mkCall 0 0 1 [0] CallToRet;
   mkCall 10 0 1 [0] Ret; mkCall 1 0 10 [0] Call; mkCall 10 0 2 [0] Ret; mkCall 1 0 2 [0] CallToRet].

Lemma never_settles (g : esg nat nat) a b na nb :
  nodeAt g a = Some na -> pred na = Some b -> nodeAt g b = Some nb -> pred nb = Some a ->
  neighbors na = [] -> neighbors nb = [] -> ~ settles g a.
Proof.
  intros Ha Pa Hb Pb Na Nb Hs.
  assert (G : forall k, settles g k -> k = a \/ k = b -> False).
  { induction 1 as [k nd Hk Hp|k nd p pd Hk Hp Hpd Hn|k nd p Hk Hp Hs' IH]; intros [-> | ->];
      (rewrite Ha in Hk || rewrite Hb in Hk); injection Hk as <-; try congruence.
    - assert (p = b) as -> by congruence. auto.
    - assert (p = a) as -> by congruence. auto. }
  exact (G a Hs (or_introl eq_refl)).
Qed.

Theorem C54_predecessors_end_refuted : exists (L : list (call nat nat)) seeds g k,
  (forall P c Q, L = P ++ c :: Q ->
     In (src c) seeds \/ exists c', In c' P /\ succ c' = curr c /\ In (currFact c) (succFacts c')) /\
  (forall n e, In (n, e) seeds -> forall x d, ~ edge L x (n, d)) /\
  oneOrigin twiceBlock 0 L /\ (forall x, target L x -> reached 0 L x) /\
  build twiceBlock 0 emptyESG L = Some g /\
  target L (10, 0) /\ getNodeOrNull g 10 0 = Some k /\ ~ settles g k.
Proof.
  exists twiceCalls, [(0, 0)]. exists (esgOf twiceBlock twiceCalls).
  exists (match getNodeOrNull (esgOf twiceBlock twiceCalls) 10 0 with Some k => k | None => 0 end).
  facts.
  - intros P c Q E. unfold twiceCalls in E.
    do 6 (destruct P as [|? P]; [injection E as <- <-; vm_compute;
      first [left; left; reflexivity | right; eexists; split; [left; reflexivity|]; cbn; auto; fail
            |right; eexists; split; [right; left; reflexivity|]; cbn; auto; fail]
      |cbn in E; injection E as <- E]).
    destruct P; discriminate.
  - intros n e [[= <- <-]|[]] x d He. apply edge_edgesOf in He. vm_compute in He.
    repeat (destruct He as [He|He]; [discriminate He|]). exact He.
  - eapply never_settles; [vm_compute; reflexivity|reflexivity|vm_compute; reflexivity|reflexivity..].
Qed.
Print Assumptions C54_predecessors_end_refuted.

(** The same in straight-line code of one block: the seed flows to the fact 1 at
    1, which makes 2 at 2, which makes 1 again at 3. *)
Definition copyCalls : list (call nat nat) :=
  [normal 0 0 1 [0; 1]; normal 1 0 2 [0]; normal 1 1 2 [1; 2]; normal 2 0 3 [0]; normal 2 1 3 [1];
   normal 2 2 3 [1; 2]].
Theorem C54_predecessors_end_in_one_block_refuted : exists (L : list (call nat nat)) g k,
  ordered L /\ startsFresh L /\ leavesStart L /\ (forall x, target L x -> reached 0 L x) /\
  (forall c, In c L -> curr c < succ c) /\
  build oneBlock 0 emptyESG L = Some g /\
  target L (3, 1) /\ getNodeOrNull g 3 1 = Some k /\ ~ settles g k.
Proof.
  exists copyCalls. exists (esgOf oneBlock copyCalls).
  exists (match getNodeOrNull (esgOf oneBlock copyCalls) 3 1 with Some k => k | None => 0 end).
  facts.
  - intros c Hc. repeat (destruct Hc as [<-|Hc]; [vm_compute; auto|]). destruct Hc.
  - eapply never_settles; [vm_compute; reflexivity|reflexivity|vm_compute; reflexivity|reflexivity..].
Qed.
Print Assumptions C54_predecessors_end_in_one_block_refuted.

Lemma trace_inv (g : esg nat nat) k l : trace g k l -> forall nd, nodeAt g k = Some nd ->
  (pred nd = None /\ l = [source nd]) \/
  exists p l', pred nd = Some p /\ l = source nd :: l' /\
    (trace g p l' \/ exists pd q, nodeAt g p = Some pd /\ In q (neighbors pd) /\ trace g q l').
Proof.
  destruct 1 as [k nd Hk Hp|k nd p l Hk Hp Ht|k nd p pd q l Hk Hp Hpd Hq Ht]; intros nd' Hk';
    rewrite Hk' in Hk; injection Hk as ->; eauto 12.
Qed.

(** Flows whose sources share a node are taken for one: of the two calls of
    [f] (10) at 2 and 3, only the first can be traced back to. *)
Definition siteBlock (n : nat) : nat := n / 10.
Definition siteCalls : list (call nat nat) :=
  [normal 0 0 1 [0]; normal 1 0 2 [0; 7]; mkCall 2 0 10 [0] Call; mkCall 2 0 3 [0] CallToRet;
   mkCall 2 7 10 [7] Call; mkCall 2 7 3 [7] CallToRet; mkCall 3 7 10 [7] Call; mkCall 3 7 4 [7] CallToRet;
   mkCall 10 0 3 [0] Ret].
Definition siteESG : esg nat nat := Eval vm_compute in esgOf siteBlock siteCalls.
Theorem C54_every_call_site_is_traced_refuted : exists (L : list (call nat nat)) g m e n d k,
  ordered L /\ startsFresh L /\ leavesStart L /\ oneOrigin siteBlock 0 L /\
  (forall x, target L x -> reached 0 L x) /\
  build siteBlock 0 emptyESG L = Some g /\
  flow 0 L (m, e) (n, d) /\ siteBlock m <> siteBlock n /\
  getNodeOrNull g n d = Some k /\ forall l, ~ traceOf g k (m :: l).
Proof.
  exists siteCalls. exists siteESG. exists 3, 7, 10, 7.
  exists 5.
  facts.
  - discriminate.
  - intros l [Ht|[nd [q [Hn [Hq _]]]]].
    + pose proof (trace_inv _ _ _ Ht _ ltac:(vm_compute; reflexivity)) as Hi. cbn in Hi.
      destruct Hi as [[_ Hi]|[p [l' [_ [Hi _]]]]]; discriminate Hi.
    + vm_compute in Hn. injection Hn as <-. destruct Hq.
Qed.
Print Assumptions C54_every_call_site_is_traced_refuted.

(** A block can be left out of a trace altogether: [f] consists of the single
    instruction 10, and the return site 3 of its call at 2 is in the block of
    that call. *)
Definition stubCalls : list (call nat nat) :=
  [normal 0 0 1 [0]; normal 1 0 2 [0; 7]; mkCall 2 0 10 [0] Call; mkCall 2 0 3 [0] CallToRet;
   mkCall 2 7 10 [7] Call; mkCall 10 0 3 [0] Ret; mkCall 10 7 3 [7] Ret].
Definition stubESG : esg nat nat := Eval vm_compute in esgOf siteBlock stubCalls.
Theorem C54_every_block_is_traced_refuted : exists (L : list (call nat nat)) g n d k b,
  ordered L /\ startsFresh L /\ leavesStart L /\ oneOrigin siteBlock 0 L /\
  (forall x, target L x -> reached 0 L x) /\
  build siteBlock 0 emptyESG L = Some g /\
  target L (n, d) /\ (forall x, edge L x (n, d) -> siteBlock (fst x) = b) /\
  getNodeOrNull g n d = Some k /\
  (exists l, traceOf g k l) /\ forall l, traceOf g k l -> forall m, In m l -> siteBlock m <> b.
Proof.
  exists stubCalls. exists stubESG. exists 3, 7.
  exists 5, 1.
  facts.
  - intros x Hx. apply edge_edgesOf in Hx. vm_compute in Hx.
    repeat (destruct Hx as [Hx|Hx]; [try discriminate Hx; injection Hx as <-; reflexivity|]). destruct Hx.
  - exists [2; 1; 0]. left. do 2 tr_pred. tr_end.
  - intros l Hl.
    destruct Hl as [Ht|[nd [q [Hn [Hq _]]]]]; [|vm_compute in Hn; injection Hn as <-; destruct Hq].
    assert (El : l = [2; 1; 0]).
    { do 3 (pose proof (trace_inv _ _ _ Ht _ ltac:(vm_compute; reflexivity)) as Hi; clear Ht; cbn in Hi;
        destruct Hi as [[Hp ->]|[p [l' [Hp [-> [Ht|[pd [q [Hpd [Hq _]]]]]]]]]];
        [try discriminate Hp; reflexivity
        |try discriminate Hp; injection Hp as <-; rename l' into l; f_equal
        |try discriminate Hp; injection Hp as <-; vm_compute in Hpd; injection Hpd as <-; destruct Hq]). }
    rewrite El. intros m [<-|[<-|[<-|[]]]]; discriminate.
Qed.
Print Assumptions C54_every_block_is_traced_refuted.

(** ** Several entry points: [f] (10) is an entry point and is called *)
Definition fromSeeds (seeds : list (nat * nat)) (L : list (call nat nat)) : Prop :=
  forall P c Q, L = P ++ c :: Q ->
     In (src c) seeds \/ exists c', In c' P /\ succ c' = curr c /\ In (currFact c) (succFacts c').
Ltac from_seeds :=
  intros P c Q E;
  do 3 (destruct P as [|? P]; [injection E as <- <-; vm_compute;
      first [left; auto; fail
            |right; eexists; split; [left; reflexivity|]; cbn; auto; fail
            |right; eexists; split; [right; left; reflexivity|]; cbn; auto; fail
            |right; eexists; split; [right; right; left; reflexivity|]; cbn; auto; fail]
      |cbn in E; injection E as <- E]);
  destruct P; discriminate.

(** A call as the first instruction of [main]: the assertion in saveEdge fails. *)
Definition entriesCalls : list (call nat nat) :=
  [normal 10 0 11 [0]; mkCall 0 0 10 [0] Call; mkCall 0 0 1 [0] CallToRet].
Theorem C54_assertion_refuted : exists (L : list (call nat nat)) seeds,
  fromSeeds seeds L /\ build siteBlock 0 emptyESG L = None.
Proof.
  exists entriesCalls, [(10, 0); (0, 0)]. split; [|vm_compute; reflexivity].
  unfold entriesCalls. from_seeds.
Qed.
Print Assumptions C54_assertion_refuted.

(** The start of [f] has the node of its second instruction; the call connects
    that one, so that the second instruction seems to follow the call. *)
Definition entriesCalls2 : list (call nat nat) :=
  [normal 10 0 11 [0]; normal 0 0 1 [0]; mkCall 1 0 10 [0] Call].
Theorem C54_traces_from_entry_points_refuted : exists (L : list (call nat nat)) seeds g n d k l,
  fromSeeds seeds L /\ build siteBlock 0 emptyESG L = Some g /\
  target L (n, d) /\ getNodeOrNull g n d = Some k /\ traceOf g k l /\
  forall y, ~ follows 0 L (n, d) l y.
Proof.
  exists entriesCalls2, [(10, 0); (0, 0)]. exists (esgOf siteBlock entriesCalls2). exists 11, 0.
  exists (match getNodeOrNull (esgOf siteBlock entriesCalls2) 11 0 with Some k => k | None => 0 end). exists [1; 0].
  facts.
  - unfold entriesCalls2. from_seeds.
  - left. tr_pred. tr_end.
  - intros y Hf. inversion Hf as [|m e x l y' He Hf'|m n d l y' He Hd Hf']; subst; try (exact (False_ind _ (Hd eq_refl)));
      apply edge_edgesOf in He; vm_compute in He;
      repeat (destruct He as [He|He]; [discriminate He|]); exact He.
Qed.
Print Assumptions C54_traces_from_entry_points_refuted.

(** The pair of a seed is not found if nothing flows from it. *)
Theorem C54_seeds_are_found_refuted : exists (L : list (call nat nat)) g n d,
  ordered L /\ seed L (n, d) /\ build siteBlock 0 emptyESG L = Some g /\ getNodeOrNull g n d = None.
Proof.
  exists [normal 0 0 1 [0]; normal 0 7 1 []]. exists (esgOf siteBlock [normal 0 0 1 [0]; normal 0 7 1 []]). exists 0, 7.
  facts.
Qed.
Print Assumptions C54_seeds_are_found_refuted.
