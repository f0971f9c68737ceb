(** Checkers for concrete calls of saveEdges, used in the examples of
    ExplodedSuperGraphProperties.  Instructions, blocks and facts are numbers;
    zero is 0. *)
From Coq Require Import List Bool Arith Lia.
From Verif Require Import Assoc ExplodedSuperGraphModel ExplodedSuperGraphSpec.
Import ListNotations.

Definition edgesOf (L : list (call nat nat)) : list ((nat * nat) * (nat * nat)) :=
  flat_map (fun c => map (fun d => (src c, (succ c, d))) (succFacts c)) L.
Lemma edge_edgesOf L x y : edge L x y <-> In (x, y) (edgesOf L).
Proof.
  unfold edge, edgesOf. rewrite in_flat_map. split.
  - intros [c [Hc [<- [Hs Hd]]]]. exists c. split; auto. apply in_map_iff. exists (snd y).
    split; auto. rewrite Hs. destruct y; reflexivity.
  - intros [c [Hc Hi]]. apply in_map_iff in Hi. destruct Hi as [d [E Hd]]. injection E as <- <-.
    exists c. auto.
Qed.
Definition targetb (L : list (call nat nat)) (x : nat * nat) : bool := mem x (map snd (edgesOf L)).
Lemma target_targetb L x : target L x <-> targetb L x = true.
Proof.
  unfold target, targetb, mem. destruct (in_dec _ _ _) as [Hi|Hi].
  - split; auto. intros _. apply in_map_iff in Hi. destruct Hi as [[y z] [E Hi]]. cbn in E. subst z.
    exists y. apply edge_edgesOf. exact Hi.
  - split; [|discriminate]. intros [y Hy]. exfalso. apply Hi. apply edge_edgesOf in Hy.
    apply in_map_iff. exists (y, x). auto.
Qed.
Definition seedb (L : list (call nat nat)) (x : nat * nat) : bool :=
  mem x (map src L) && negb (targetb L x).
Lemma seed_seedb L x : seed L x <-> seedb L x = true.
Proof.
  unfold seed, seedb, mem. rewrite andb_true_iff, negb_true_iff, target_targetb.
  split; intros [A B]; split.
  - destruct A as [c [Hc Hs]]. destruct (in_dec _ _ _) as [|Hn]; auto. exfalso. apply Hn.
    apply in_map_iff. eauto.
  - destruct (targetb L x); congruence.
  - destruct (in_dec _ _ _) as [Hi|]; [|discriminate]. apply in_map_iff in Hi. destruct Hi as [c [? ?]]. eauto.
  - congruence.
Qed.

Fixpoint orderedb (P Q : list (call nat nat)) (L : list (call nat nat)) : bool :=
  match Q with
  | [] => true
  | c :: Q' =>
      (existsb (fun c' => eqb (succ c') (curr c) && mem (currFact c) (succFacts c')) P
       || negb (targetb L (src c)) && negb (mem (src c) (map src (P ++ Q'))))
      && orderedb (P ++ [c]) Q' L
  end.
Lemma ordered_orderedb L : orderedb [] L L = true -> ordered L.
Proof.
  assert (G : forall Q P, orderedb P Q L = true -> forall P' c Q', Q = P' ++ c :: Q' ->
    existsb (fun c' => eqb (succ c') (curr c) && mem (currFact c) (succFacts c')) (P ++ P')
       || negb (targetb L (src c)) && negb (mem (src c) (map src ((P ++ P') ++ Q'))) = true).
  { induction Q as [|c0 Q IH]; intros P E P' c Q' EQ.
    - destruct P'; discriminate.
    - cbn in E. apply andb_true_iff in E. destruct E as [E1 E2]. destruct P' as [|a P'].
      + cbn in EQ. injection EQ as <- <-. rewrite app_nil_r. exact E1.
      + cbn in EQ. injection EQ as <- ->. specialize (IH _ E2 P' c Q' eq_refl).
        rewrite <- !app_assoc in *. exact IH. }
  intros E P c Q EQ. specialize (G L [] E P c Q EQ). cbn [app] in G.
  apply orb_true_iff in G. destruct G as [G|G].
  - left. apply existsb_exists in G. destruct G as [c' [Hc G]]. apply andb_true_iff in G. destruct G as [G1 G2].
    exists c'. split; auto. split; [apply eqb_eq; auto|]. unfold mem in G2.
    destruct (in_dec _ _ _); [auto|discriminate].
  - right. apply andb_true_iff in G. destruct G as [G1 G2]. split.
    + intros Ht. apply target_targetb in Ht. rewrite Ht in G1. discriminate.
    + intros c' Hc' Hs. unfold mem in G2. destruct (in_dec _ _ _) as [|Hn]; [discriminate|].
      apply Hn. apply in_map_iff. eauto.
Qed.

Definition freshb (L : list (call nat nat)) : bool :=
  forallb (fun xy => forallb (fun s => negb (seedb L s && eqb (fst s) (fst (snd xy)))) (map src L)) (edgesOf L).
Lemma startsFresh_freshb L : freshb L = true -> startsFresh L.
Proof.
  intros E x n d e He Hs. unfold freshb in E. rewrite forallb_forall in E.
  apply edge_edgesOf in He. specialize (E _ He). cbn [fst snd] in E. rewrite forallb_forall in E.
  assert (Hi : In (n, e) (map src L)).
  { destruct Hs as [[c [Hc <-]] _]. apply in_map; auto. }
  specialize (E _ Hi). apply seed_seedb in Hs. cbn [fst] in E. rewrite Hs, eqb_refl in E. discriminate.
Qed.
Definition leavesb (L : list (call nat nat)) : bool :=
  forallb (fun xy => forallb (fun zy => negb (seedb L (fst xy) && eqb (snd xy) (snd zy))
                                         || eqb (fst (fst zy)) (fst (fst xy))) (edgesOf L)) (edgesOf L).
Lemma leavesStart_leavesb L : leavesb L = true -> leavesStart L.
Proof.
  intros E n e m d y Hs H1 H2. unfold leavesb in E. rewrite forallb_forall in E.
  apply edge_edgesOf in H1, H2. specialize (E _ H1). rewrite forallb_forall in E. specialize (E _ H2).
  cbn [fst snd] in E. apply seed_seedb in Hs. rewrite Hs, eqb_refl in E. cbn in E. apply eqb_eq in E. exact E.
Qed.

(** the instructions that hold [d] since [m], in at most [f] steps *)
Fixpoint heldb (blockOf : nat -> nat) (L : list (call nat nat)) (f m d n : nat) : bool :=
  existsb (fun xy => eqb (fst (fst xy)) m && eqb (snd xy) (n, d)) (edgesOf L) ||
  match f with
  | 0 => true
  | S f' => existsb (fun xy => eqb (snd xy) (n, d) && eqb (snd (fst xy)) d && negb (eqb d 0)
                               && eqb (blockOf n) (blockOf m) && heldb blockOf L f' m d (fst (fst xy))) (edgesOf L)
  end.
Lemma held_heldb (blockOf : nat -> nat) L m d n : held blockOf 0 L m d n -> forall f, heldb blockOf L f m d n = true.
Proof.
  induction 1 as [e n He|n s Hh IH He Hd Hb]; intros f.
  - assert (E : existsb (fun xy => eqb (fst (fst xy)) m && eqb (snd xy) (n, d)) (edgesOf L) = true).
    { apply existsb_exists. exists ((m, e), (n, d)). split; [apply edge_edgesOf; auto|]. cbn.
      rewrite !eqb_refl. reflexivity. }
    destruct f; cbn [heldb]; rewrite E; reflexivity.
  - destruct f as [|f]; cbn [heldb]; [apply orb_true_r|]. apply orb_true_iff. right.
    apply existsb_exists. exists ((n, d), (s, d)). split; [apply edge_edgesOf; auto|]. cbn [fst snd].
    rewrite !eqb_refl, Hb, eqb_refl, IH. cbn. apply Assoc.eqb_false in Hd. rewrite Hd. reflexivity.
Qed.
Definition originb (blockOf : nat -> nat) (L : list (call nat nat)) (f : nat) : bool :=
  forallb (fun ns =>
    negb (eqb (snd (fst ns)) (snd (snd ns))) || eqb (snd (snd ns)) 0 ||
    forallb (fun x => eqb (fst x) (fst ns) || negb (eqb (snd x) (snd ns))) (edgesOf L) ||
    forallb (fun m => negb (eqb (blockOf (fst (snd ns))) (blockOf m)) || negb (heldb blockOf L f m (snd (snd ns)) (fst (fst ns))))
      (map curr L)) (edgesOf L).
Lemma held_src (blockOf : nat -> nat) L m d n : held blockOf 0 L m d n -> In m (map curr L).
Proof.
  induction 1 as [e n He|]; auto. destruct He as [c [Hc [Hs _]]]. unfold src in Hs. injection Hs as <- _.
  apply in_map; auto.
Qed.
Lemma oneOrigin_originb (blockOf : nat -> nat) L f : originb blockOf L f = true -> oneOrigin blockOf 0 L.
Proof.
  intros E m d n s x Hh He Hd Hb Hx. unfold originb in E. rewrite forallb_forall in E.
  pose proof (proj1 (edge_edgesOf _ _ _) He) as He'. specialize (E _ He'). cbn [fst snd] in E.
  rewrite eqb_refl in E. apply Assoc.eqb_false in Hd. rewrite Hd in E. cbn [negb orb] in E.
  apply orb_true_iff in E. destruct E as [E|E]; rewrite forallb_forall in E.
  - apply edge_edgesOf in Hx. specialize (E _ Hx). cbn [fst snd] in E. rewrite eqb_refl in E. cbn in E.
    rewrite orb_false_r in E. apply eqb_eq in E. exact E.
  - specialize (E m (held_src _ _ _ _ _ Hh)). rewrite Hb, eqb_refl, (held_heldb _ _ _ _ _ Hh) in E. discriminate.
Qed.

Definition flowsOf (L : list (call nat nat)) : list ((nat * nat) * (nat * nat)) :=
  flat_map (fun c => map (fun d => (src c, (succ c, d)))
    (filter (fun d => negb (eqb (kind c) CallToRet && eqb (currFact c) 0 && eqb d 0)) (succFacts c))) L.
Lemma flow_flowsOf L x y : In (x, y) (flowsOf L) <-> flow 0 L x y.
Proof.
  unfold flowsOf, flow. rewrite in_flat_map. split.
  - intros [c [Hc Hi]]. apply in_map_iff in Hi. destruct Hi as [d [E Hd]]. injection E as <- <-.
    apply filter_In in Hd. destruct Hd as [Hd Hn]. exists c. cbn [fst snd].
    refine (conj Hc (conj eq_refl (conj eq_refl (conj Hd _)))). intros [K1 [K2 K3]].
    rewrite K1, K2, K3, !eqb_refl in Hn. discriminate.
  - intros [c [Hc [<- [Hs [Hd Hn]]]]]. exists c. split; auto. apply in_map_iff. exists (snd y).
    split; [rewrite Hs; destruct y; reflexivity|]. apply filter_In. split; auto.
    apply negb_true_iff. destruct (_ && _) eqn:E; auto. exfalso. apply Hn.
    rewrite !andb_true_iff, !eqb_true in E. unfold skips. tauto.
Qed.
Fixpoint reach (L : list (call nat nat)) (f : nat) (acc : list (nat * nat)) : list (nat * nat) :=
  match f with
  | 0 => acc
  | S f' =>
      reach L f' (fold_left (fun a xy => if seedb L (fst xy) || mem (fst xy) a then sinsert (snd xy) a else a)
                    (flowsOf L) acc)
  end.
Lemma reach_reached L f : forall acc, (forall x, In x acc -> reached 0 L x) ->
  forall x, In x (reach L f acc) -> reached 0 L x.
Proof.
  induction f as [|f IH]; intros acc Ha; cbn; auto. apply IH.
  assert (G : forall l acc, incl l (flowsOf L) -> (forall x, In x acc -> reached 0 L x) ->
    forall x, In x (fold_left (fun a xy => if seedb L (fst xy) || mem (fst xy) a then sinsert (snd xy) a else a) l acc) ->
    reached 0 L x).
  { clear. induction l as [|xy l IH]; intros acc Hi Ha; cbn; auto.
    apply IH; [intros z Hz; apply Hi; right; auto|].
    destruct (seedb L (fst xy) || mem (fst xy) acc) eqn:E; auto.
    intros x Hx. apply In_sinsert in Hx. destruct Hx as [->|Hx]; auto.
    assert (Hf : flow 0 L (fst xy) (snd xy)).
    { apply flow_flowsOf, Hi. left. destruct xy; reflexivity. }
    apply orb_true_iff in E. destruct E as [E|E].
    - econstructor 1; [apply seed_seedb; exact E|exact Hf].
    - unfold mem in E. destruct (in_dec _ _ _); [|discriminate]. econstructor 2; eauto. }
  apply G; auto. apply incl_refl.
Qed.
Definition reachedb (L : list (call nat nat)) (f : nat) : bool :=
  forallb (fun xy => mem (snd xy) (reach L f [])) (edgesOf L).
Lemma reached_reachedb L f : reachedb L f = true -> forall x, target L x -> reached 0 L x.
Proof.
  intros E x [y Hy]. apply edge_edgesOf in Hy. unfold reachedb in E. rewrite forallb_forall in E.
  specialize (E _ Hy). cbn in E. unfold mem in E. destruct (in_dec _ _ _) as [Hi|]; [|discriminate].
  apply (reach_reached L f []); auto. intros ? [].
Qed.
