(** C17: flow/edge-function caching is transparent. *)
From Coq Require Import List Bool NArith Lia.
From Verif Require Import Assoc EquivClassMapModel FlowCacheModel FlowCacheSpec FlowCacheProofs.
Import ListNotations.
Open Scope N_scope.

(** Node and fact ids are the values' identities; fewer than 2^32 values occur
    (or, for integral node types, all nodes are below 2^32); the callees passed
    to call-to-return queries are a function of the call site.  Then every
    answer, in every sequence of queries, is the problem's own. *)
Theorem C17_cache_is_transparent :
  forall (Nd Fn Fc FF EF K : Type) `{EqDec Nd} `{EqDec Fn} `{EqDec Fc} `{EqDec K}
         (efeqb : EF -> EF -> bool) (P : problem Nd Fn Fc FF EF) (autoAddZero : bool) (zeroed : FF -> FF)
         (nodeId : Nd -> K + N) (factId : Fc -> option K) (calleesOf : Nd -> list Fn),
  (forall e, efeqb e e = true) ->
  (forall n n', nodeId n = nodeId n' -> n = n') ->
  (forall d d', factId d = factId d' -> factId d <> None -> d = d') ->
  (forall n, exists k, nodeId n = inl k) \/ (forall n, exists i, nodeId n = inr i /\ i < 2 ^ 32) ->
  forall U : list K,
  (forall n k, nodeId n = inl k -> In k U) ->
  (forall d k, factId d = Some k -> In k U) ->
  N.of_nat (length U) < 2 ^ 32 ->
  forall qs, Forall (calleesFixed calleesOf) qs ->
  Forall2 (agree efeqb P autoAddZero zeroed) qs
          (fst (run efeqb P autoAddZero zeroed nodeId factId qs empty)).
Proof. exact @cache_transparent. Qed.
Print Assumptions C17_cache_is_transparent.

(** Two 32-bit ids are packed without loss. *)
Theorem C17_key_packing_is_injective : forall a b c d,
  a < 2 ^ 32 -> b < 2 ^ 32 -> c < 2 ^ 32 -> d < 2 ^ 32 -> pack a b = pack c d -> a = c /\ b = d.
Proof. exact pack_inj. Qed.
Print Assumptions C17_key_packing_is_injective.

(** ** A problem whose functions are the queries themselves *)
Definition tracing : problem N N bool (list N) (list N) :=
  mkProblem (fun n s => [1; n; s]) (fun n f => [2; n; f]) (fun n f e s => [3; n; f; e; s])
    (fun n s fs => 4 :: n :: s :: fs) (fun n f => Some [5; n; f])
    (fun n d s d' => [6; n; N.b2n d; s; N.b2n d']) (fun n d f d' => [7; n; N.b2n d; f; N.b2n d'])
    (fun n f e d s d' => [8; n; f; e; N.b2n d; s; N.b2n d'])
    (fun n d s d' fs => 9 :: n :: N.b2n d :: s :: N.b2n d' :: fs)
    (fun n d s d' => [10; n; N.b2n d; s; N.b2n d']).

(** values: nodes and facts live in one address space *)
Definition ptrNode (n : N) : N + N := inl (n + 2).
Definition ptrFact (d : bool) : option N := Some (N.b2n d).

(** The call-to-return caches forget the callees. *)
Theorem C17_callees_are_part_of_the_query_refuted :
  exists qs, ~ Forall2 (agree eqb tracing true (cons 0)) qs
    (fst (run eqb tracing true (cons 0) ptrNode ptrFact qs empty)).
Proof.
  exists [QCtrFF 1 2 [7]; QCtrFF 1 2 [8]]. vm_compute. intros A. inversion A; subst.
  inversion H4; subst. discriminate.
Qed.
Print Assumptions C17_callees_are_part_of_the_query_refuted.

(** Integral nodes of 2^32 and more (DefaultMapKeyCompressor<size_t>) collide. *)
Theorem C17_wide_integral_nodes_refuted :
  exists qs, Forall (calleesFixed (fun _ => [])) qs /\
    ~ Forall2 (agree eqb tracing true (cons 0)) qs
    (fst (run eqb tracing true (cons 0) (fun n : N => @inr N N n) (fun _ : bool => None) qs empty)).
Proof.
  exists [QNormalFF 0 (2 ^ 32 + 5); QNormalFF 1 (2 ^ 32 + 5)]. split; [repeat constructor|].
  vm_compute. intros A. inversion A; subst. inversion H4; subst. discriminate.
Qed.
Print Assumptions C17_wide_integral_nodes_refuted.

(** ** The hypotheses of the theorem are met: nodes 0..3 *)
Inductive nd4 := A0 | A1 | A2 | A3.
#[local] Instance nd4_eqdec : EqDec nd4.
Proof. intros x y; unfold EqDec in *; decide equality. Defined.
Definition nd4N (n : nd4) : N := match n with A0 => 0 | A1 => 1 | A2 => 2 | A3 => 3 end.
Definition tracing4 : problem nd4 N bool (list N) (list N) :=
  mkProblem (fun n s => [1; nd4N n; nd4N s]) (fun n f => [2; nd4N n; f])
    (fun n f e s => [3; nd4N n; f; nd4N e; nd4N s])
    (fun n s fs => 4 :: nd4N n :: nd4N s :: fs) (fun n f => None)
    (fun n d s d' => [6; nd4N n; N.b2n d; nd4N s; N.b2n d']) (fun n d f d' => [7; nd4N n; N.b2n d; f; N.b2n d'])
    (fun n f e d s d' => [8; nd4N n; f; nd4N e; N.b2n d; nd4N s; N.b2n d'])
    (fun n d s d' fs => 9 :: nd4N n :: N.b2n d :: nd4N s :: N.b2n d' :: fs)
    (fun n d s d' => [10; nd4N n; N.b2n d; nd4N s; N.b2n d']).
Definition callees4 (n : nd4) : list N := match n with A1 => [8; 9] | _ => [] end.
Definition qs4 : list (query nd4 N bool) :=
  [QNormalEF A0 true A1 false; QNormalFF A0 A1; QNormalFF A1 A0; QNormalFF A0 A1;
   QNormalEF A0 false A1 true; QNormalEF A0 true A1 false; QCtrEF A1 true A2 true [8; 9];
   QCtrEF A1 false A2 true [8; 9]; QCtrFF A1 A2 [8; 9]; QSumFF A1 8; QCallFF A1 8; QRetEF A1 8 A3 true A2 false].
Example C17_instance :
  Forall2 (agree eqb tracing4 true (cons 0)) qs4
    (fst (run eqb tracing4 true (cons 0) (fun n => @inl N N (nd4N n + 2)) ptrFact qs4 empty)).
Proof.
  apply C17_cache_is_transparent with (calleesOf := callees4) (U := [0; 1; 2; 3; 4; 5]).
  - intros e. apply eqb_refl.
  - intros [] []; try reflexivity; cbn; discriminate.
  - intros [] []; try reflexivity; cbn; discriminate.
  - left. intros n. eauto.
  - intros [] k [= <-]; cbn; auto 8.
  - intros [] k [= <-]; cbn; auto 8.
  - cbn. lia.
  - repeat constructor.
Qed.
Example C17_instance_answers :
  fst (run eqb tracing4 true (cons 0) (fun n => @inl N N (nd4N n + 2)) ptrFact qs4 empty) =
  [AEF [6; 0; 1; 1; 0]; AFF [0; 1; 0; 1]; AFF [0; 1; 1; 0]; AFF [0; 1; 0; 1];
   AEF [6; 0; 0; 1; 1]; AEF [6; 0; 1; 1; 0]; AEF [9; 1; 1; 2; 1; 8; 9]; AEF [9; 1; 0; 2; 1; 8; 9];
   AFF [0; 4; 1; 2; 8; 9]; ASumFF None; AFF [0; 2; 1; 8]; AEF [8; 1; 8; 3; 1; 2; 0]].
Proof. reflexivity. Qed.
