(** C13, C14: the edge functions shipped with phasar.

    The theorems are parameterised by the value lattice [O] (any join lattice
    with decidable equality), the client classes [C] (assumed to keep the
    documented contract), whether ConstantEdgeFunction is stored inline [soo],
    and the outcome of address comparisons [ltb]. *)
From Coq Require Import List Bool ZArith.
From Verif Require Import LatticeModel LatticeSpec EdgeFunctionModel EdgeFunctionProofs EdgeFunctionInstances.
Import ListNotations.

(** C13: composition is exact for all nestings of the library's functions and
    client functions in which AllTop/AllBottom is not composed with. *)
Theorem C13_compose_is_composition :
  forall (L U : Type) (O : lops L) (C : clientops L U) (soo : bool),
    lops_ok O -> client_ok O C -> forall f g x, no_extremes f = true ->
    apply O C (compose O C soo f g) x = apply O C g (apply O C f x).
Proof. exact @compose_exact. Qed.
Print Assumptions C13_compose_is_composition.

(** C13: in all cases, including AllTop and AllBottom anywhere, it is an
    over-approximation if client functions are monotone. *)
Theorem C13_compose_over_approximates :
  forall (L U : Type) (O : lops L) (C : clientops L U) (soo : bool),
    lops_ok O -> client_ok O C -> client_mono O C ->
    forall f g x, le O (apply O C g (apply O C f x)) (apply O C (compose O C soo f g) x).
Proof. exact @compose_sound. Qed.
Print Assumptions C13_compose_over_approximates.

(** C13: AllBottom first is exact if the second function keeps bottom or is
    constant. *)
Theorem C13_compose_after_AllBottom :
  forall (L U : Type) (O : lops L) (C : clientops L U) (soo : bool),
    client_ok O C -> forall g x,
    isConstant C g = true \/ apply O C g (lbot O) = lbot O ->
    apply O C (compose O C soo EBot g) x = apply O C g (apply O C EBot x).
Proof. exact @compose_AllBottom_exact. Qed.
Print Assumptions C13_compose_after_AllBottom.

(** Library functions are monotone if the client's are. *)
Theorem C13_edge_functions_are_monotone :
  forall (L U : Type) (O : lops L) (C : clientops L U), lops_ok O -> client_mono O C ->
    forall f x y, le O x y -> le O (apply O C f x) (apply O C f y).
Proof. exact @apply_mono. Qed.
Print Assumptions C13_edge_functions_are_monotone.

(** Equality of edge functions implies equality of the functions. *)
Theorem C13_equal_edge_functions_agree :
  forall (L U : Type) (O : lops L) (C : clientops L U), lops_ok O -> client_ok O C ->
    forall f g x, efEqb O C f g = true -> apply O C f x = apply O C g x.
Proof. exact @efEqb_sound. Qed.
Print Assumptions C13_equal_edge_functions_agree.

(** The documented equality (EdgeFunction.h:347-350) fails for AllTop and
    AllBottom as first function. *)
Theorem C13_compose_exact_for_all_refuted :
  lops_ok zops /\ client_ok zops zclient /\ client_mono zops zclient /\
  (exists g x, apply zops zclient (compose zops zclient false ETop g) x <>
               apply zops zclient g (apply zops zclient ETop x)) /\
  (exists g x, apply zops zclient (compose zops zclient false EBot g) x <>
               apply zops zclient g (apply zops zclient EBot x)).
Proof.
  split; [exact zops_ok|]. split; [exact zclient_ok|]. split; [exact zclient_mono|]. split.
  - exists (EUser (Add 10 1)), (LVal 3%Z). vm_compute. discriminate.
  - exists (EUser Norm), (LVal 3%Z). vm_compute. discriminate.
Qed.
Print Assumptions C13_compose_exact_for_all_refuted.

(** ConstantEdgeFunction never stores top or bottom, so
    NonTopBotValue::unwrap (std::get) is never applied to them. *)
Theorem C13_compose_keeps_constants_proper :
  forall (L U : Type) (O : lops L) (C : clientops L U) (soo : bool), lops_ok O ->
    (forall u g, properConsts O g -> properConsts O (ucompose C u g)) ->
    forall f g, properConsts O f -> properConsts O g -> properConsts O (compose O C soo f g).
Proof. exact @compose_proper. Qed.
Print Assumptions C13_compose_keeps_constants_proper.

(** C14: join is an upper bound of both functions, for any limit N of
    JoinEdgeFunction and any outcome of the address comparisons. *)
Theorem C14_join_is_upper_bound :
  forall (L U : Type) (O : lops L) (C : clientops L U) (soo : bool)
    (ltb : nat -> ef L U -> ef L U -> bool),
    lops_ok O -> client_ok O C -> ltb_ok O C ltb ->
    forall f g x,
      le O (apply O C f x) (apply O C (join O C soo ltb f g) x) /\
      le O (apply O C g x) (apply O C (join O C soo ltb f g) x).
Proof. exact @join_ub. Qed.
Print Assumptions C14_join_is_upper_bound.

(** JoinEdgeFunction::create is the exact join unless it gives up (AllBottom). *)
Theorem C14_join_edge_function_is_exact :
  forall (L U : Type) (O : lops L) (C : clientops L U)
    (ltb : nat -> ef L U -> ef L U -> bool),
    lops_ok O -> client_ok O C -> ltb_ok O C ltb ->
    forall n f g x, create O ltb n f g <> EBot ->
      apply O C (create O ltb n f g) x = ljoin O (apply O C f x) (apply O C g x).
Proof. exact @create_exact. Qed.
Print Assumptions C14_join_edge_function_is_exact.

(** Joining with an equal function returns the function itself. *)
Theorem C14_join_with_equal_is_stable :
  forall (L U : Type) (O : lops L) (C : clientops L U) (soo : bool)
    (ltb : nat -> ef L U -> ef L U -> bool),
    (forall u, ueqb C u u = true) ->
    forall f g, efEqb O C g f = true ->
    match f with EComp _ _ | EUser _ => False | _ => True end ->
    join O C soo ltb f g = f.
Proof. exact @join_self. Qed.
Print Assumptions C14_join_with_equal_is_stable.

(** Joining the same function a second time changes nothing, provided == objects
    are shared (one address per value) and operator< is then a strict total
    order; JoinEdgeFunction objects have been built by create (sorted). *)
Theorem C14_repeated_join_is_stable_partial :
  forall (L U : Type) (O : lops L) (C : clientops L U) (soo : bool) (lt : ef L U -> ef L U -> bool),
    lops_ok O -> (forall f g, efEqb O C f g = true <-> f = g) ->
    (forall f, lt f f = false) ->
    (forall f g h, lt f g = true -> lt g h = true -> lt f h = true) ->
    (forall f g, lt f g = false -> lt g f = false -> f = g) ->
    forall f g, ~ isClient f -> ~ isClient g -> sortedTop lt f -> sortedTop lt g ->
    join O C soo (fun _ => lt) (join O C soo (fun _ => lt) f g) g = join O C soo (fun _ => lt) f g.
Proof. exact @join_stable. Qed.
Print Assumptions C14_repeated_join_is_stable_partial.

(** Without sharing it fails: operator< compares addresses, so it is not
    transitive modulo ==, set_union on the stored functions misses an equal
    one and the stored function changes (the solver sees a change although
    nothing new was added). *)
Theorem C14_covered_join_is_stable_refuted :
  (forall n p k q l, zltb n (EUser (Add p k)) (EUser (Add q l)) = negb (Z.eqb k l) && Nat.ltb p q) /\
  exists a b c,
    let f := create zops zltb 3 c b in
    efEqb zops zclient a b = true /\
    efEqb zops zclient (join zops zclient false zltb f b) f = true /\
    efEqb zops zclient (join zops zclient false zltb f a) f = false.
Proof.
  split; [reflexivity|].
  exists (EUser (Add 10 1)), (EUser (Add 30 1)), (EUser (Add 20 2)).
  vm_compute. auto.
Qed.
Print Assumptions C14_covered_join_is_stable_refuted.

(** Concrete instances: a lattice and client classes satisfying all hypotheses,
    a composition of a composed and a client function, a join of client
    functions kept symbolically and one that overflows its limit. *)
Example C13_C14_instance :
  lops_ok zops /\ client_ok zops zclient /\ client_mono zops zclient /\
  no_extremes (EComp (EUser (Add 10 1)) (EUser Norm) : ef (ld Z) zuser) = true /\
  apply zops zclient (compose zops zclient true (EComp (EUser (Add 10 1)) (EUser (Add 20 2))) (EUser (Add 30 4)))
    (LVal 5%Z) = LVal 12%Z /\
  create zops zltb 2 (EUser (Add 10 1)) (EConst (LVal 7%Z)) = EJoin 2 LTop [EConst (LVal 7%Z); EUser (Add 10 1)] /\
  apply zops zclient (create zops zltb 2 (EUser (Add 10 1)) (EConst (LVal 7%Z))) (LVal 6%Z) = LVal 7%Z /\
  apply zops zclient (create zops zltb 2 (EUser (Add 10 1)) (EConst (LVal 7%Z))) (LVal 5%Z) = LBot /\
  create zops zltb 2 (EJoin 2 LTop [EUser (Add 10 1); EUser (Add 20 2)]) (EUser (Add 30 3)) = EBot.
Proof.
  split; [exact zops_ok|]. split; [exact zclient_ok|]. split; [exact zclient_mono|].
  vm_compute. repeat split; reflexivity.
Qed.

(** all hypotheses of the stability theorem hold for shared client objects *)
Example C14_stability_instance :
  (forall f g, efEqb zops nclient f g = true <-> f = g) /\
  (forall f, nlt f f = false) /\
  (forall f g h, nlt f g = true -> nlt g h = true -> nlt f h = true) /\
  (forall f g, nlt f g = false -> nlt g f = false -> f = g) /\
  ltb_ok zops nclient (fun _ => nlt) /\
  sortedTop nlt (EJoin 3 LTop [EUser 1; EUser 2]) /\
  join zops nclient false (fun _ => nlt) (EJoin 3 LTop [EUser 1; EUser 2]) (EConst (LVal 7%Z)) =
    EJoin 3 LTop [EConst (LVal 7%Z); EUser 1; EUser 2].
Proof.
  split; [exact nclient_eq|]. split; [intros; apply lexb_irrefl|].
  split; [intros f g h; apply lexb_trans|]. split; [exact nlt_total|].
  split; [intros k a b A B; apply nclient_eq; now apply nlt_total|].
  split; [|reflexivity].
  cbn. split; [intros b [<-|[]]; reflexivity|]. split; [intros b []|exact I].
Qed.
