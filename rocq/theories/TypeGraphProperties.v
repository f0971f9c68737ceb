(** C48: after any sequence of links and queries the type graph of DTA answers exactly the types
    reachable over the links added so far. *)
From Coq Require Import String List Bool Arith Relations Permutation.
From Verif Require Import Assoc TypeHierarchyModel TypeGraphModel TypeGraphProofs.
Import ListNotations.
Open Scope nat_scope.

(** the types an operation mentions *)
Definition mentions (ops : list tgop) (t : nat) : Prop :=
  exists o, In o ops /\ match o with Link a b => t = a \/ t = b | Query q => t = q end.

(** Proved for identified struct types with distinct names. Missing: literal and unnamed struct types, refuted below. *)
Theorem C48_types_are_reachable_partial : forall order asserts nm isLit addr ops q,
  (forall l, Permutation (order l) l) ->
  (forall t, mentions (Query q :: ops) t -> isLit t = false) ->
  (forall a b, mentions (Query q :: ops) a -> mentions (Query q :: ops) b -> nm a = nm b -> a = b) ->
  exists g, runTG order asserts nm isLit addr ops emptyTG = Some g /\
    forall s, In s (fst (getTypes nm isLit addr q g)) <-> clos_refl_trans nat (fun a b => In (Link a b) ops) q s.
Proof.
  intros order asserts nm isLit addr ops q Ho Hl Hn. apply (getTypes_ok order Ho asserts nm isLit addr (mentions (Query q :: ops)) Hl Hn).
  - intros o O. destruct o as [a b|t]; cbn.
    + split; exists (Link a b); (split; [now right|auto]).
    + exists (Query t). split; [now right|reflexivity].
  - exists (Query q). split; [now left|reflexivity].
Qed.
Print Assumptions C48_types_are_reachable_partial.

(** Queries do not change later answers (although they add vertices). *)
Theorem C48_queries_do_not_matter_partial : forall order asserts nm isLit addr ops1 ops2 q x s g1 g2,
  (forall l, Permutation (order l) l) ->
  (forall t, mentions (Query q :: ops1 ++ Query x :: ops2) t -> isLit t = false) ->
  (forall a b, mentions (Query q :: ops1 ++ Query x :: ops2) a -> mentions (Query q :: ops1 ++ Query x :: ops2) b -> nm a = nm b -> a = b) ->
  runTG order asserts nm isLit addr (ops1 ++ Query x :: ops2) emptyTG = Some g1 ->
  runTG order asserts nm isLit addr (ops1 ++ ops2) emptyTG = Some g2 ->
  In s (fst (getTypes nm isLit addr q g1)) <-> In s (fst (getTypes nm isLit addr q g2)).
Proof.
  intros order asserts nm isLit addr ops1 ops2 q x s g1 g2 Ho Hl Hn E1 E2.
  assert (Sub : forall t, mentions (Query q :: ops1 ++ ops2) t -> mentions (Query q :: ops1 ++ Query x :: ops2) t).
  { intros t [o [O M]]. exists o. split; [|exact M]. destruct O as [O|O]; [now left|right]. apply in_app_iff in O. apply in_app_iff. destruct O; [now left|right; now right]. }
  destruct (C48_types_are_reachable_partial order asserts nm isLit addr (ops1 ++ Query x :: ops2) q Ho Hl Hn) as [g [E H]].
  destruct (C48_types_are_reachable_partial order asserts nm isLit addr (ops1 ++ ops2) q Ho (fun t M => Hl t (Sub t M)) (fun a b A B => Hn a b (Sub a A) (Sub b B))) as [g' [E' H']].
  assert (g = g1) by congruence. assert (g' = g2) by congruence. subst g g'. rewrite H, H'.
  apply rt_iff2. intros a b. rewrite !in_app_iff. cbn [In]. split; [intros [K|[K|K]]; auto; discriminate|intros [K|K]; auto].
Qed.
Print Assumptions C48_queries_do_not_matter_partial.

(** A link that closes a cycle: A -> B -> C -> A, and D -> A. *)
Definition nm3 (t : nat) : string := nth t ["struct.A"; "struct.B"; "struct.C"; "struct.D"]%string "struct.E"%string.
Example C48_case : let ops := [Link 3 0; Link 0 1; Query 2; Link 1 2; Link 2 0] in
  exists g, runTG (fun l => l) true nm3 (fun _ => false) (fun _ => EmptyString) ops emptyTG = Some g
    /\ (forall s, s < 3 -> In s (fst (getTypes nm3 (fun _ => false) (fun _ => EmptyString) 2 g)))
    /\ ~ In 3 (fst (getTypes nm3 (fun _ => false) (fun _ => EmptyString) 2 g))
    /\ fst (getTypes nm3 (fun _ => false) (fun _ => EmptyString) 3 g) = [3; 0; 1; 2].
Proof.
  eexists. split; [vm_compute; reflexivity|]. split.
  - intros s H. vm_compute. do 3 (destruct s as [|s]; [tauto|]). exfalso. do 3 apply le_S_n in H. inversion H.
  - split; [vm_compute; intuition discriminate|vm_compute; reflexivity].
Qed.
Example C48_case_hypotheses : let ops := [Link 3 0; Link 0 1; Query 2; Link 1 2; Link 2 0] in
  forall a b, mentions (Query 3 :: ops) a -> mentions (Query 3 :: ops) b -> nm3 a = nm3 b -> a = b.
Proof.
  intros ops a b [o [O A]] [o' [O' B]] E.
  assert (Ha : a < 4) by (cbn in O; repeat (destruct O as [<-|O]; [cbn in A; destruct A as [->| ->] || rewrite A; repeat constructor|]); destruct O).
  assert (Hb : b < 4) by (cbn in O'; repeat (destruct O' as [<-|O']; [cbn in B; destruct B as [->| ->] || rewrite B; repeat constructor|]); destruct O').
  clear - Ha Hb E. do 4 (destruct a as [|a]; [do 4 (destruct b as [|b]; [reflexivity || discriminate|]); exfalso; do 4 apply le_S_n in Hb; inversion Hb|]).
  exfalso. do 4 apply le_S_n in Ha. inversion Ha.
Qed.

(** Literal struct types (their names are not distinct from "" in reverseTypePropagation): a cast from a literal struct
    type fails the assertion in StructType::getName; without assertions the types are propagated from vertex 0, so the
    link is not followed. Here type 1 is literal; the third link is 2 -> 1 and 1 -> 0 existed before. *)
Theorem C48_literal_struct_asserts_refuted : exists nm isLit addr ops, (forall a b, nm a = nm b -> isLit a = false -> isLit b = false -> a = b)
  /\ (forall a b, addr a = addr b -> isLit a = true -> isLit b = true -> a = b)
  /\ runTG (fun l => l) true nm isLit addr ops emptyTG = None.
Proof.
  exists nm3, (fun t => negb (Nat.eqb t 0)), (fun t => String.concat "" (repeat "x"%string t)), [Link 0 1].
  split; [|split].
  - intros a b _ A B. apply negb_false_iff, Nat.eqb_eq in A. apply negb_false_iff, Nat.eqb_eq in B. congruence.
  - intros a b E _ _. revert b E. assert (X : forall n, String.length (String.concat "" (repeat "x"%string n)) = n).
    { clear. induction n as [|n IH]; [reflexivity|]. destruct n as [|n]; [reflexivity|]. cbn [repeat String.concat] in *. cbn. f_equal. exact IH. }
    intros b E. rewrite <- (X a), <- (X b). now rewrite E.
  - vm_compute. reflexivity.
Qed.
Print Assumptions C48_literal_struct_asserts_refuted.

Definition addrA (t : nat) : string := nth t ["0"; "1"; "2"; "3"]%string "4"%string.
Theorem C48_literal_struct_types_refuted : exists nm isLit addr ops q s g,
  runTG (fun l => l) false nm isLit addr ops emptyTG = Some g
  /\ (forall t, mentions (Query q :: ops) t -> t < 4)
  /\ (forall a b, a < 4 -> b < 4 -> vname nm isLit addr a = vname nm isLit addr b -> a = b)
  /\ clos_refl_trans nat (fun a b => In (Link a b) ops) q s
  /\ ~ In s (fst (getTypes nm isLit addr q g)).
Proof.
  exists nm3, (fun t => Nat.eqb t 1), addrA, [Query 3; Link 2 1], 2, 1. eexists. split; [vm_compute; reflexivity|]. split; [|split; [|split]].
  - intros t [o [O A]]. cbn in O. repeat (destruct O as [<-|O]; [cbn in A; destruct A as [->| ->] || rewrite A; repeat constructor|]); destruct O.
  - intros a b Ha Hb E. do 4 (destruct a as [|a]; [do 4 (destruct b as [|b]; [reflexivity || discriminate|]); exfalso; do 4 apply le_S_n in Hb; inversion Hb|]).
    exfalso. do 4 apply le_S_n in Ha. inversion Ha.
  - apply rt_step. cbn. auto.
  - vm_compute. intuition discriminate.
Qed.
Print Assumptions C48_literal_struct_types_refuted.

(** Identified struct types without a name all share one vertex: the second such type is answered with the first. *)
Theorem C48_unnamed_types_refuted : exists asserts nm isLit addr ops q g,
  runTG (fun l => l) asserts nm isLit addr ops emptyTG = Some g /\ isLit q = false /\ ~ In q (fst (getTypes nm isLit addr q g)).
Proof.
  exists true, (fun _ => EmptyString), (fun _ => false), addrA, [Query 0], 1. eexists. split; [vm_compute; reflexivity|]. split; [reflexivity|]. vm_compute. intuition discriminate.
Qed.
Print Assumptions C48_unnamed_types_refuted.
