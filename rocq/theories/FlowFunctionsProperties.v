(** C16: the flow-function combinators of FlowFunctions.h *)
From Coq Require Import List Bool Arith.
From Verif Require Import Assoc FlowFunctionsModel FlowFunctionsSpec FlowFunctionsProofs.
Import ListNotations.

(** Every flow function, nested arbitrarily, yields exactly the documented
    targets of every fact. *)
Theorem C16_targets_are_as_documented :
  forall (D : Type) (E : EqDec D) (f : ff D) (x y : D),
    In y (fst (computeTargets f x)) <-> documented f x y.
Proof. exact @targets_documented. Qed.
Print Assumptions C16_targets_are_as_documented.

Theorem C16_targets_are_a_set :
  forall (D : Type) (E : EqDec D) (f : ff D), wf f -> forall x, NoDup (fst (computeTargets f x)).
Proof. exact @targets_NoDup. Qed.
Print Assumptions C16_targets_are_a_set.

(** Although GenAll and GenAllAndKillAllOthers modify themselves, no call can be
    observed by a later one. *)
Theorem C16_calls_do_not_influence_each_other :
  forall (D : Type) (E : EqDec D) (f : ff D) (history : list D) (x y : D),
    In y (fst (computeTargets (after f history) x)) <-> In y (fst (computeTargets f x)).
Proof. exact @history_irrelevant. Qed.
Print Assumptions C16_calls_do_not_influence_each_other.

(** The range given to generateManyFlows etc. may contain duplicates. *)
Theorem C16_ranges_become_sets :
  forall (D : Type) (E : EqDec D) (rng : list D) (y : D),
    (In y (makeContainer rng) <-> In y rng) /\ NoDup (makeContainer rng).
Proof. exact (fun D E rng y => conj (makeContainer_In rng y) (makeContainer_NoDup rng)). Qed.
Print Assumptions C16_ranges_become_sets.

(** Compose::compose is relational composition from left to right, and leaving
    out identities does not matter. *)
Theorem C16_compose_is_composition :
  forall (D : Type) (E : EqDec D) (fs : list (ff D)) (x y : D),
    In y (fst (computeTargets (composeFlows fs) x)) <->
    fold_left (fun A g => lift g A) (map documented fs) (Sing x) y.
Proof. exact @composeFlows_spec. Qed.
Print Assumptions C16_compose_is_composition.

Theorem C16_legacy_union_is_union :
  forall (D : Type) (E : EqDec D) (fs : list (ff D)) (x y : D),
    In y (fst (computeTargets (mkUnion fs) x)) <->
    (fs = [] /\ y = x) \/ exists f, In f fs /\ documented f x y.
Proof. exact @mkUnion_spec. Qed.
Print Assumptions C16_legacy_union_is_union.

(** The wrapper used by the solver keeps zero and changes nothing else. *)
Theorem C16_zero_is_kept :
  forall (D : Type) (E : EqDec D) (f : ff D) (z x y : D),
    In y (fst (computeTargets (FZeroed f z) x)) <->
    In y (fst (computeTargets f x)) \/ (x = z /\ y = z).
Proof.
  exact (fun D E f z x y =>
    zeroed_spec f z x y).
Qed.
Print Assumptions C16_zero_is_kept.

(** documented equivalence: generateFlowAndKillAllOthers(v, w) =
    killFlowIf(z != w) followed by generateFlow(v, w) *)
Theorem C16_gen_and_kill_is_kill_then_gen :
  forall (D : Type) (E : EqDec D) (v w x y : D),
    In y (fst (computeTargets (FGenKillOthers v w) x)) <->
    In y (fst (computeTargets (composeFlows [FKillIf (fun z => negb (eqb z w)); FGen v w]) x)).
Proof. exact @genkill_spec. Qed.
Print Assumptions C16_gen_and_kill_is_kill_then_gen.

Example C16_instance :
  let f := FUnion (FTransfer 5 2) (generateManyFlows [7; 8; 7] 2) in
  wf f /\
  fst (computeTargets f 2) = [7; 8; 2; 5] /\
  fst (computeTargets f 5) = [5] /\
  fst (computeTargets (FTransfer 5 2) 5) = [] /\
  fst (computeTargets (composeFlows [f; FLegacyIdentity; FKill 7]) 2) = [8; 2; 5] /\
  after (FGenAll [7] 0) [3; 0; 3] = FGenAll [7; 0] 0 /\
  fst (computeTargets (FZeroed FKillAll 0) 0) = [0].
Proof.
  split; [split; [exact I|exact (makeContainer_NoDup [7; 8; 7])]|]. vm_compute. repeat split; reflexivity.
Qed.
