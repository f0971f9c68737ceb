(** Graph operations: what they do to tags and edges; acyclicity. *)
From Coq Require Import List Bool Arith Lia Relations.
From Verif Require Import Assoc DFAMinimizerModel DFAMinimizerSpec DFAMinimizerProofs PathDagModel PathDagSpec.
Import ListNotations.

Lemma nth_setAt {A} (a d : A) : forall l i j, i < length l -> nth j (setAt i a l) d = if j =? i then a else nth j l d.
Proof.
  induction l as [|x l IH]; intros i j Hi; [cbn in Hi; lia|]. destruct i as [|i], j as [|j]; cbn in *; auto.
  apply IH. lia.
Qed.
Lemma nth_error_setAt {A} (a : A) : forall l i j, i < length l ->
  nth_error (setAt i a l) j = if j =? i then Some a else nth_error l j.
Proof.
  induction l as [|x l IH]; intros i j Hi; [cbn in Hi; lia|]. destruct i as [|i], j as [|j]; cbn in *; auto.
  apply IH. lia.
Qed.
Lemma nth_pushAt {A} (a : A) : forall l i j, i < length l ->
  nth j (pushAt i a l) [] = if j =? i then nth j l [] ++ [a] else nth j l [].
Proof.
  induction l as [|x l IH]; intros i j Hi; [cbn in Hi; lia|]. destruct i as [|i], j as [|j]; cbn in *; auto.
  apply IH. lia.
Qed.
Lemma pushAt_len {A} (a : A) : forall l i, length (pushAt i a l) = length l.
Proof. induction l as [|x l IH]; intros [|i]; cbn; auto. Qed.
Lemma dedup_In {W} `{EqDec W} (l : list (@edge W)) e : In e (dedup l) <-> In e l.
Proof.
  induction l as [|x l IH]; cbn; [tauto|]. destruct (mem x l) eqn:E; cbn; rewrite IH; [|tauto].
  apply mem_true in E. split; auto. intros [<-|]; auto.
Qed.

Section G.
  Context {T : Type}.
  Implicit Type G : pgraph T.

  Definition sized G : Prop := length (nodes G) = length (adj G).

  Lemma addNode_spec G l : sized G ->
    fst (addNode G (Some l)) = size G /\ sized (snd (addNode G (Some l))) /\
    size (snd (addNode G (Some l))) = S (size G) /\ roots (snd (addNode G (Some l))) = roots G /\
    (forall v, v < size G -> node (snd (addNode G (Some l))) v = node G v) /\
    node (snd (addNode G (Some l))) (size G) = Some l /\
    (forall v, outEdges (snd (addNode G (Some l))) v = outEdges G v).
  Proof.
    intros S. unfold addNode, sized, size, node, outEdges in *. cbn [fst snd nodes adj roots].
    rewrite !app_length. cbn. repeat split; auto; try lia.
    - intros v Hv. apply nth_error_app1. lia.
    - rewrite nth_error_app2 by lia. rewrite <- S, Nat.sub_diag. reflexivity.
    - intros v. destruct (Nat.lt_ge_cases v (length (adj G))) as [Hv|Hv].
      + now rewrite app_nth1.
      + rewrite app_nth2 by lia. rewrite (nth_overflow (adj G)) by lia.
        destruct (v - length (adj G)) as [|[|]]; reflexivity.
  Qed.
  Lemma addEdge_size G v e : size (addEdge G v e) = size G.
  Proof. unfold size, addEdge. cbn. apply pushAt_len. Qed.
  Lemma addEdge_sized G v e : sized G -> sized (addEdge G v e).
  Proof. unfold sized, addEdge. cbn. now rewrite pushAt_len. Qed.
  Lemma addEdge_out G v e u : v < size G ->
    outEdges (addEdge G v e) u = if u =? v then outEdges G u ++ [e] else outEdges G u.
  Proof. intros Hv. unfold outEdges, addEdge. cbn. now apply nth_pushAt. Qed.
  Lemma addEdge_arc G v u x y : v < size G -> arc (addEdge G v (tt, u)) x y <-> arc G x y \/ (x = v /\ y = u).
  Proof.
    intros Hv. unfold arc. rewrite addEdge_out by auto. destruct (Nat.eqb_spec x v) as [->|Hx].
    - rewrite in_app_iff. cbn. split; [|intuition congruence]. intros [|[[= <-]|[]]]; auto.
    - intuition congruence.
  Qed.
  Lemma setTag_sized G v l : sized G -> sized (setTag G v l).
  Proof. unfold sized, setTag. cbn. now rewrite setAt_length. Qed.
  Lemma setTag_node G v l u : sized G -> v < size G -> node (setTag G v l) u = if u =? v then Some l else node G u.
  Proof. intros S Hv. unfold node, setTag. cbn. apply nth_error_setAt. unfold sized, size in *. lia. Qed.
  Lemma dedupAt_size G v : size (dedupAt G v) = size G.
  Proof. unfold size, dedupAt. cbn. apply setAt_length. Qed.
  Lemma dedupAt_sized G v : sized G -> sized (dedupAt G v).
  Proof. unfold sized, dedupAt. cbn. now rewrite setAt_length. Qed.
  Lemma dedupAt_out G v u : v < size G ->
    outEdges (dedupAt G v) u = if u =? v then dedup (outEdges G v) else outEdges G u.
  Proof. intros Hv. unfold outEdges at 1, dedupAt. cbn. now apply nth_setAt. Qed.
  Lemma dedupAt_arc G v x y : v < size G -> arc (dedupAt G v) x y <-> arc G x y.
  Proof.
    intros Hv. unfold arc. rewrite dedupAt_out by auto. destruct (Nat.eqb_spec x v) as [->|Hx]; [|tauto].
    apply dedup_In.
  Qed.
  Lemma pop_spec G v : sized G -> size G = S v ->
    exists G', pop G v = Some G' /\ sized G' /\ size G' = v /\ roots G' = roots G /\
      (forall u, u < v -> node G' u = node G u) /\ (forall u, u < v -> outEdges G' u = outEdges G u) /\
      (forall u, v <= u -> outEdges G' u = []).
  Proof.
    intros S Hs. unfold pop. rewrite Hs, Nat.eqb_refl. eexists. split; [reflexivity|].
    unfold sized, size, node, outEdges in *. cbn [nodes adj roots].
    assert (E1 : exists l x, adj G = l ++ [x]).
    { destruct (adj G) as [|a l] eqn:E; [discriminate|].
      destruct (@exists_last _ (a :: l)) as (l' & x & ->); [discriminate|]. eauto. }
    assert (E2 : exists l x, nodes G = l ++ [x]).
    { destruct (nodes G) as [|a l] eqn:E; [cbn in *; lia|].
      destruct (@exists_last _ (a :: l)) as (l' & x & ->); [discriminate|]. eauto. }
    destruct E1 as (l & x & E1), E2 as (l' & x' & E2). rewrite E1, E2 in *. rewrite !removelast_last.
    rewrite !app_length in *. cbn in *. repeat split; auto; try lia.
    - intros u Hu. rewrite nth_error_app1 by lia. reflexivity.
    - intros u Hu. rewrite app_nth1 by lia. reflexivity.
    - intros u Hu. apply nth_overflow. lia.
  Qed.
  Lemma out_overflow G v : size G <= v -> outEdges G v = [].
  Proof. intros Hv. unfold outEdges, size in *. now apply nth_overflow. Qed.
  Lemma arc_lt G v u : arc G v u -> v < size G.
  Proof.
    intros Ha. destruct (Nat.lt_ge_cases v (size G)); auto. unfold arc in Ha. rewrite out_overflow in Ha by auto. contradiction.
  Qed.

  (** A vertex without incoming arcs is on no cycle. *)
  Lemma acyclic_source G G' r : acyclic G -> (forall v, ~ arc G' v r) -> (forall v u, v <> r -> arc G' v u -> arc G v u) ->
    acyclic G'.
  Proof.
    intros A Hi Hs v Hv.
    assert (K : forall x y, clos_trans _ (arc G') x y -> y <> r /\ (x <> r -> clos_trans _ (arc G) x y)).
    { induction 1 as [x y Hxy|x y z _ [IH1 IH2] _ [IH3 IH4]].
      - split; [intros ->; exact (Hi _ Hxy)|]. intros Hx. apply t_step. auto.
      - split; auto. intros Hx. eapply t_trans; eauto. }
    destruct (K _ _ Hv) as [K1 K2]. exact (A v (K2 K1)).
  Qed.
  Lemma acyclic_sub G G' : acyclic G -> (forall v u, arc G' v u -> arc G v u) -> acyclic G'.
  Proof.
    intros A Hs v Hv. apply (A v).
    assert (K : forall x y, clos_trans _ (arc G') x y -> clos_trans _ (arc G) x y)
      by (induction 1; [apply t_step|eapply t_trans]; eauto).
    auto.
  Qed.
End G.

(** A relation without cycles on finitely many numbers is well-founded. *)
Lemma acyclic_wf (R : nat -> nat -> Prop) n : (forall x y, R x y -> x < n) -> (forall x, ~ clos_trans _ R x x) -> well_founded R.
Proof.
  intros Hn Ac.
  assert (K : forall m l x, length l <= m -> (forall y, clos_trans _ R y x -> In y l) -> Acc R x).
  { induction m as [|m IH]; intros l x Hl Hx; constructor; intros y Hy; pose proof (Hx y (t_step _ _ _ _ Hy)) as Hi.
    - destruct l; [destruct Hi|cbn in Hl; lia].
    - apply (IH (remove Nat.eq_dec y l)).
      + pose proof (remove_length_lt Nat.eq_dec l y Hi). lia.
      + intros z Hz. apply in_in_remove; [intros ->; exact (Ac _ Hz)|]. apply Hx. eapply t_trans; [exact Hz|]. apply t_step; auto. }
  intros x. apply (K n (seq 0 n)); [now rewrite seq_length|]. intros y Hy. apply in_seq.
  assert (y < n); [|lia]. induction Hy; eauto.
Qed.
