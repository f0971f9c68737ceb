(** C35: the call-graph builder. *)
From Coq Require Import List Bool Arith Lia Permutation.
From Verif Require Import Assoc CallGraphModel CallGraphSpec CallGraphProofs CGBuilderModel CGBuilderSpec CGBuilderProofs.
Import ListNotations.

Section T.
  Context {R : Type}.
  Variable asserts : bool.
  Variable isDecl : nat -> bool.
  Variable instrs : nat -> list instr.
  Variable resolve : R -> nat -> list nat.
  Variable handle : R -> nat -> list nat -> R.
  Variables pre post other : R -> nat -> R.
  Variable order : list nat -> list nat.
  Notation build := (buildCallGraph asserts isDecl instrs resolve handle pre post other order).

  (** For every module, every resolver (monotone or not) and every iteration order: the
      builder terminates, never runs out of the reserved capacity and never hits its fatal errors. *)
  Theorem C35_terminates : forall U entry r sound mutates numFunctions,
    (forall l, Permutation (order l) l) -> wfModule instrs resolve U -> incl entry U ->
    length (nodup Nat.eq_dec U) <= numFunctions ->
    exists N, forall fuel, N <= fuel -> exists st, build fuel numFunctions entry r sound mutates = Done _ st.
  Proof.
    intros U entry r so mu nf Ho WF He Hc.
    destruct (terminates asserts isDecl instrs resolve handle pre post other order Ho U WF entry He (fun _ _ => True) nf Hc r so mu) as [N HN].
    exists N. intros fuel Hf. destruct (HN fuel Hf) as [st [E _]]. eauto.
  Qed.

  (** ... every function is processed once and no edge is duplicated *)
  Theorem C35_no_duplicates : forall U entry r sound mutates numFunctions fuel st,
    (forall l, Permutation (order l) l) -> wfModule instrs resolve U -> incl entry U ->
    length (nodup Nat.eq_dec U) <= numFunctions -> build fuel numFunctions entry r sound mutates = Done _ st ->
    NoDup (visited st) /\ forall n, exists l, getCalleesOfCallAt n (bcg st) = Some l /\ NoDup l.
  Proof.
    intros U entry r so mu nf fuel st Ho WF He Hc E.
    pose proof (build_final asserts isDecl instrs resolve handle pre post other order Ho U WF entry He (fun _ _ => True) nf Hc r so mu fuel st E) as F.
    destruct F as [[done [es [fs [ns [B C]]]]] _]. split; [apply (b_visND _ _ _ _ _ _ _ _ _ _ _ _ _ _ _ B)|].
    intro n. exists (calleesIn es n). split; [exact (inv_callees _ _ _ _ n (b_inv _ _ _ _ _ _ _ _ _ _ _ _ _ _ _ B))|].
    destruct (in_dec Nat.eq_dec n (map fst done)) as [H|H].
    - apply in_map_iff in H. destruct H as [[m c] [<- Hd]]. pose proof (b_site _ _ _ _ _ _ _ _ _ _ _ _ _ _ _ B m c Hd) as S0. cbn [fst].
      destruct c; cbn [siteOk] in S0; [rewrite S0; repeat constructor; intros []|rewrite S0; constructor|]. destruct S0 as [k [_ [_ [ND _]]]]. exact ND.
    - rewrite (noEdge _ _ _ _ _ _ _ _ _ _ _ _ _ _ _ _ B H). constructor.
  Qed.

  (** If the resolver has no mutable information, or its information grows monotonically
      and the fixpoint loop is on: with [r'] the resolver's final information, the functions processed are
      exactly those reachable from the entry points through the targets [r'] reports, the graph
      has exactly their call sites, and each call site has exactly the reported targets. *)
  Theorem C35_covers_partial : forall U entry r sound mutates numFunctions fuel st le,
    (forall l, Permutation (order l) l) -> wfModule instrs resolve U -> incl entry U ->
    length (nodup Nat.eq_dec U) <= numFunctions -> build fuel numFunctions entry r sound mutates = Done _ st ->
    (stateless resolve \/ (monotone resolve pre post other handle le /\ quietCalls resolve pre post /\ sound = true /\ mutates = true)) ->
    let reach := creach isDecl instrs resolve entry (res st) in
    (forall f, In f (visited st) <-> reach f /\ isDecl f = false)
    /\ (forall f, In f (getAllVertexFunctions (bcg st)) <-> (reach f /\ isDecl f = false)
          \/ exists g n c, reach g /\ isDecl g = false /\ In (CallI n c) (instrs g) /\ In f (targetsOf resolve (res st) n c))
    /\ (forall g n c, reach g -> isDecl g = false -> In (CallI n c) (instrs g) ->
          In n (getAllVertexCallSites (bcg st)) /\
          exists l, getCalleesOfCallAt n (bcg st) = Some l /\ NoDup l /\ forall t, In t l <-> In t (targetsOf resolve (res st) n c))
    /\ (forall n, In n (getAllVertexCallSites (bcg st)) -> exists g c, reach g /\ isDecl g = false /\ In (CallI n c) (instrs g)).
  Proof.
    intros U entry r so mu nf fuel st le Ho WF He Hc E Cond reach.
    assert (SM : stateless resolve -> monotone resolve pre post other handle (fun _ _ => True)).
    { intro S. constructor; auto. intros a b n _. rewrite (S a b n). apply incl_refl. }
    destruct Cond as [S|[M [Q [-> ->]]]].
    - pose proof (build_final asserts isDecl instrs resolve handle pre post other order Ho U WF entry He (fun _ _ => True) nf Hc r so mu fuel st E) as F.
      exact (proj2 (final_graph isDecl instrs resolve handle pre post other U WF entry (fun _ _ => True) nf Hc st _ F (or_intror S) SM)).
    - pose proof (build_final asserts isDecl instrs resolve handle pre post other order Ho U WF entry He le nf Hc r true true fuel st E) as F.
      exact (proj2 (final_graph isDecl instrs resolve handle pre post other U WF entry le nf Hc st _ F (or_introl (conj M (conj Q eq_refl))) (fun _ => M))).
  Qed.
End T.
Print Assumptions C35_terminates.
Print Assumptions C35_no_duplicates.
Print Assumptions C35_covers_partial.

(** ** a module: 1 calls indirectly at 10 and statically 2 at 11; 2 contains the
    instruction 20 that makes the resolver learn about target 4 *)
Definition exInstrs (f : nat) : list instr :=
  match f with 1 => [CallI 10 Indirect; CallI 11 (Static 2)] | 2 => [OtherI 20] | 4 => [CallI 12 (Static 1); CallI 13 Asm] | _ => [] end.
Definition exDecl (f : nat) : bool := f =? 3.
Definition exResolve (r : bool) (n : nat) : list nat := if n =? 10 then if r then [3;4] else [3] else [].
Definition exOther (r : bool) (n : nat) : bool := r || (n =? 20).
Definition exBuild (mutates : bool) := buildCallGraph true exDecl exInstrs exResolve (fun r _ _ => r) (fun r _ => r) (fun r _ => r) exOther (fun l => l)
  20 4 [1] false true mutates.

Example C35_case : wfModule exInstrs exResolve [1;2;3;4] /\ incl [1] [1;2;3;4]
  /\ monotone exResolve (fun r _ => r) (fun r _ => r) exOther (fun r _ _ => r) (fun a b => a = true -> b = true)
  /\ quietCalls exResolve (fun r _ => r) (fun r _ => r)
  /\ exists st, exBuild true = Done _ st /\ visited st = [4;2;1] /\ getCalleesOfCallAt 10 (bcg st) = Some [3;4] /\ getCallersOf 1 (bcg st) = Some [12].
Proof.
  split; [|split; [|split; [|split]]].
  - constructor.
    + intros [|[|[|[|[|f]]]]]; cbn; repeat constructor; cbn; intuition discriminate.
    + intros [|[|[|[|[|f]]]]] [|[|[|[|[|g]]]]] n; cbn; intuition (subst; discriminate).
    + intros [|[|[|[|[|f]]]]] n t; cbn; intuition (try discriminate); match goal with H : CallI _ _ = CallI _ _ |- _ => injection H as <- <-; auto end.
    + intros r n. unfold exResolve. destruct (n =? 10), r; cbn; split; try (intros x; cbn; intuition); repeat constructor; cbn; intuition discriminate.
  - intros x; cbn; intuition.
  - constructor; auto.
    + intros r n ->. reflexivity.
    + intros a b n H. unfold exResolve. destruct (n =? 10), a, b; cbn; intros x Hx; cbn in *; auto; try (specialize (H eq_refl); discriminate). intuition.
  - intros r n m. auto.
  - eexists. split; [vm_compute; reflexivity|]. repeat split.
Qed.

(** A resolver that learns during the construction but claims not to (as DTAResolver does,
    DTAResolver.h:51-54 with otherInst): the target is missed. *)
Theorem C35_undeclared_mutation_refuted : exists st, exBuild false = Done _ st
  /\ In 4 (exResolve (res st) 10) /\ getCalleesOfCallAt 10 (bcg st) = Some [3] /\ ~ In 4 (visited st).
Proof. eexists. split; [vm_compute; reflexivity|]. cbn. intuition discriminate. Qed.
Print Assumptions C35_undeclared_mutation_refuted.

(** A resolver whose answers are not monotone (as DTAResolver's, which falls back to all
    subtypes while it knows nothing): a changed answer of the same size is ignored. *)
Definition exResolve2 (r : bool) (n : nat) : list nat := if n =? 10 then if r then [4] else [3] else [].
Theorem C35_same_count_refuted : exists st,
  buildCallGraph true exDecl exInstrs exResolve2 (fun r _ _ => r) (fun r _ => r) (fun r _ => r) exOther (fun l => l) 20 4 [1] false true true = Done _ st
  /\ exResolve2 (res st) 10 = [4] /\ getCalleesOfCallAt 10 (bcg st) = Some [3] /\ ~ In 4 (visited st).
Proof. eexists. split; [vm_compute; reflexivity|]. cbn. intuition discriminate. Qed.
Print Assumptions C35_same_count_refuted.

(** an entry point that is only declared is no vertex of the graph *)
Theorem C35_declared_entry_refuted : exists st,
  buildCallGraph true exDecl exInstrs exResolve (fun r _ _ => r) (fun r _ => r) (fun r _ => r) exOther (fun l => l) 20 4 [3] false true true = Done _ st
  /\ getAllVertexFunctions (bcg st) = [].
Proof. eexists. split; [vm_compute; reflexivity|]. reflexivity. Qed.
Print Assumptions C35_declared_entry_refuted.
