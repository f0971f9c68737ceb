(** C23: DFA minimisation. *)
From Coq Require Import List Bool Arith Lia.
From Verif Require Import Assoc DFAMinimizerModel DFAMinimizerSpec DFAMinimizerProofs.
Import ListNotations.

(** The minimiser ends on every graph, cyclic or not.  The result is a well-formed
    graph in which every vertex reads exactly what some vertex of the input
    reads; entries correspond to entries in both directions, each reading the
    same label sequences, prefixes as well as complete ones. *)
Theorem C23_minimised_graph_reads_the_same : forall {N W} `{EqDec N} `{EqDec W} (G : graph N W), wf G ->
  exists fuel G', (forall k, fuel <= k -> minimized k G = Some G') /\ wf G' /\
    (forall r, In r (roots G) -> exists r', In r' (roots G') /\ sameReadings G r G' r') /\
    (forall r', In r' (roots G') -> exists r, In r (roots G) /\ sameReadings G r G' r') /\
    (forall u, u < size G' -> exists v, v < size G /\ sameReadings G v G' u).
Proof.
  intros N W EN EW G Wf. destruct (minimized_ok G Wf) as (fuel & ec & G' & B & _ & _ & C0 & C1 & C2 & C3 & C4 & C5 & _).
  exists fuel, G'. split; auto. split; auto. split; [|split].
  - intros r Hr. destruct (C3 r Hr) as (r' & A & D). exists r'. split; auto. now apply C2.
  - intros r' Hr. destruct (C4 r' Hr) as (r & A & D). exists r. split; auto. now apply C2.
  - intros u Hu. destruct (C5 u Hu) as (v & D). exists v. destruct (C2 v u D) as (A & _ & S). auto.
Qed.
Print Assumptions C23_minimised_graph_reads_the_same.

(** The classes merge only states that read the same. *)
Theorem C23_merges_only_equivalent_states : forall {N W} `{EqDec N} `{EqDec W} (G : graph N W), wf G ->
  exists ec, minimizeGraph G = Some ec /\
    forall x y, x < size G -> y < size G -> cls (compress ec) x = cls (compress ec) y -> sameReadings G x G y.
Proof.
  intros N W EN EW G Wf. destruct (minimize_ok G Wf) as (ec & E & S). exists ec. split; auto.
  intros x y Hx Hy Hc. apply (proj1 (compress_same (size G) ec x y (proj1 S) Hx Hy)) in Hc. eapply stable_same; eauto.
Qed.
Print Assumptions C23_merges_only_equivalent_states.

(** The result is never larger than the input and has no duplicate edges. *)
Theorem C23_never_larger : forall {N W} `{EqDec N} `{EqDec W} (G : graph N W), wf G ->
  exists fuel G', (forall k, fuel <= k -> minimized k G = Some G') /\ size G' <= size G /\
    forall u, NoDup (outEdges G' u).
Proof.
  intros N W EN EW G Wf. destruct (minimized_ok G Wf) as (fuel & ec & G' & B & _ & [Ok _] & C0 & _ & _ & _ & _ & _ & _ & C8 & C9 & _).
  exists fuel, G'. split; auto. split; auto. etransitivity; [exact C9|]. now apply numClasses_bound.
Qed.
Print Assumptions C23_never_larger.

(** A cycle through 1, 2 and two equal tails 3 and 4: the tails are merged, and
    so are 1 and 2, whose two edges come in different orders. *)
Definition exG : graph nat nat :=
  mkGraph [10; 11; 11; 12; 12] [[(0, 1); (1, 2)]; [(5, 3); (6, 0)]; [(6, 0); (5, 4)]; []; []] [0].
Example C23_ex_wf : wf exG.
Proof.
  split; [reflexivity|]. split.
  - intros v w t. unfold outEdges, exG, size. cbn [adj length].
    do 5 (destruct v as [|v]; [cbn [nth]; cbn; intros Hin; repeat (destruct Hin as [Hin|Hin]; [injection Hin as <- <-; lia|]); contradiction|]).
    cbn. destruct v; contradiction.
  - cbn. unfold size. cbn. intros r [<-|[]]. lia.
Qed.
Example C23_ex_result : minimized 20 exG =
  Some (mkGraph [10; 11; 12] [[(0, 1); (1, 1)]; [(5, 2); (6, 0)]; []] [0]).
Proof. vm_compute. reflexivity. Qed.
Example C23_ex_reads : reads exG 0 10 [(0, 11); (6, 10); (1, 11); (5, 12)] /\ readsAll exG 0 10 [(0, 11); (6, 10); (1, 11); (5, 12)].
Proof.
  split; repeat (split; [reflexivity|]); repeat first
    [ exists 1; split; [cbn; now auto|split; [reflexivity|]]
    | exists 2; split; [cbn; now auto|split; [reflexivity|]]
    | exists 0; split; [cbn; now auto|split; [reflexivity|]]
    | exists 4; split; [cbn; now auto|split; [reflexivity|]] ]; auto.
Qed.

(** The name promises more than the code does: the fixed point starts from "all
    states different", so states that are equal only through a cycle are kept
    apart. *)
Theorem C23_minimal_refuted : exists (G : graph nat nat) ec,
  wf G /\ minimizeGraph G = Some ec /\ sameReadings G 0 G 1 /\ cls (compress ec) 0 <> cls (compress ec) 1.
Proof.
  set (G := mkGraph [7; 7] [[(1, 0)]; [(1, 1)]] [0; 1]). exists G, [0; 1].
  split; [|split; [reflexivity|split; [|vm_compute; discriminate]]].
  - split; [reflexivity|]. split.
    + intros v w t. unfold outEdges, G, size. cbn [adj length].
      destruct v as [|[|v]]; cbn; [| |destruct v; contradiction]; intros [Heq|[]]; injection Heq as <- <-; lia.
    + cbn. unfold size. cbn. intros r [<-|[<-|[]]]; lia.
  - apply (bisim_same G G (fun a b => a = 0 /\ b = 1)); auto.
    + intros v u [-> ->]. reflexivity.
    + intros v u w t [-> ->] [Heq|[]]. injection Heq as <- <-. exists 1. cbn. auto.
    + intros v u w t [-> ->] [Heq|[]]. injection Heq as <- <-. exists 0. cbn. auto.
Qed.
Print Assumptions C23_minimal_refuted.
