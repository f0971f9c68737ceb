(** Proofs about the extended-taint value domain. *)
From Coq Require Import Bool List Arith Lia Permutation.
From Verif Require Import Assoc XTaintModel XTaintSpec.
Import ListNotations.

Section P.
  Variables (succs : nat -> list nat) (fnOf : nat -> nat) (dom : instr -> instr -> bool).
  Let join := join succs fnOf dom.
  Let joinPositions := joinPositions succs.
  Let apply := apply succs fnOf dom.
  Let compose := compose succs fnOf dom.
  Let mcb := mustComeBefore fnOf dom.

  Lemma join_idem : forall bbo a, join bbo a a = a.
  Proof. intros. unfold join, XTaintModel.join. now rewrite eqb_refl. Qed.
  Lemma join_top_l : forall bbo a, join bbo Top a = a.
  Proof. intros. unfold join, XTaintModel.join. destruct (eqb Top a) eqn:E; auto. now apply eqb_eq in E. Qed.
  Lemma join_top_r : forall bbo a, join bbo a Top = a.
  Proof. intros. unfold join, XTaintModel.join. destruct (eqb a Top) eqn:E; auto. destruct a as [| | |[s|]]; auto. Qed.
  Lemma join_bot_l : forall bbo a, join bbo Bot a = Bot.
  Proof. intros. unfold join, XTaintModel.join. destruct (eqb Bot a) eqn:E; auto. destruct a as [| | |[s|]]; auto. Qed.
  Lemma join_bot_r : forall bbo a, join bbo a Bot = Bot.
  Proof. intros. unfold join, XTaintModel.join. destruct (eqb a Bot) eqn:E; [now apply eqb_eq in E|]. destruct a as [| | |[s|]]; auto. Qed.
  Lemma join_none_l : forall bbo a, a <> Bot -> join bbo (With None) a = With None.
  Proof. intros bbo a H. unfold join, XTaintModel.join. destruct (eqb _ a) eqn:E; auto. destruct a as [| | |[s|]]; congruence. Qed.
  Lemma join_none_r : forall bbo a, a <> Bot -> join bbo a (With None) = With None.
  Proof.
    intros bbo a H. unfold join, XTaintModel.join. destruct (eqb a _) eqn:E; [now apply eqb_eq in E|].
    destruct a as [| | |[s|]]; congruence.
  Qed.
  Lemma join_san_l : forall bbo a, a <> Top -> join bbo San a = a.
  Proof. intros bbo a H. unfold join, XTaintModel.join. destruct (eqb _ a) eqn:E; [now apply eqb_eq in E|]. destruct a as [| | |[s|]]; congruence. Qed.
  Lemma join_san_r : forall bbo a, a <> Top -> join bbo a San = a.
  Proof. intros bbo a H. unfold join, XTaintModel.join. destruct (eqb a _) eqn:E; auto. destruct a as [| | |[s|]]; congruence. Qed.

  Definition common (a b m : nat) : Prop := In m (succs a) /\ In m (succs b).
  Lemma in_filter_common : forall a b m,
    In m (filter (fun x => existsb (Nat.eqb x) (succs a)) (succs b)) <-> common a b m.
  Proof.
    intros a b m. rewrite filter_In, existsb_exists. unfold common. split.
    - intros [H [y [Hy E]]]. apply Nat.eqb_eq in E. subst y. auto.
    - intros [H1 H2]. split; auto. exists m. split; auto. apply Nat.eqb_refl.
  Qed.
  Lemma adj_iff : forall a s, existsb (fun b => eqb (front b) s) (succs a) = true <->
    exists b, In b (succs a) /\ s = front b.
  Proof.
    intros a s. rewrite existsb_exists. split; intros [b [Hb E]]; exists b; split; auto.
    - now apply eqb_eq in E.
    - subst. apply eqb_refl.
  Qed.

  Lemma joinPositions_cases : forall s1 s2,
    joinPositions s1 s2 = With (Some s2) \/ joinPositions s1 s2 = With None
    \/ exists m, common (blk s1) (blk s2) m /\ joinPositions s1 s2 = With (Some (front m)).
  Proof.
    intros s1 s2. unfold joinPositions, XTaintModel.joinPositions.
    destruct (existsb (fun b => eqb (front b) s2) (succs (blk s1))); auto.
    destruct (existsb (fun b => eqb (front b) s1) (succs (blk s2))); auto.
    destruct (filter _ (succs (blk s2))) as [|m [|? ?]] eqn:E; auto.
    right. right. exists m. split; auto. apply in_filter_common. rewrite E. now left.
  Qed.
  Lemma join_cases : forall bbo s1 s2, let j := join bbo (With (Some s1)) (With (Some s2)) in
    j = With None \/ (fnOf (blk s1) = fnOf (blk s2) /\
      (j = With (Some s1) \/ j = With (Some s2)
       \/ exists m, common (blk s1) (blk s2) m /\ j = With (Some (front m)))) \/ s1 = s2.
  Proof.
    intros bbo s1 s2. cbv zeta. unfold join, XTaintModel.join.
    destruct (eqb _ _) eqn:E. { apply eqb_eq in E. right. right. congruence. }
    destruct (fnOf (blk s1) =? fnOf (blk s2)) eqn:F; cbn [negb]; auto.
    apply Nat.eqb_eq in F.
    destruct (bbo && mustComeBefore fnOf dom s1 s2); [right; left; auto|]. destruct (bbo && mustComeBefore fnOf dom s2 s1); [right; left; auto|].
    destruct (joinPositions_cases s1 s2) as [J|[J|[m [Hm J]]]]; unfold joinPositions in J; rewrite J; auto 10.
    right. left. split; auto. right. right. now exists m.
  Qed.

  Lemma joinPositions_comm : forall s1 s2,
    (forall b, In b (succs (blk s1)) -> s2 <> front b) ->
    (forall b, In b (succs (blk s2)) -> s1 <> front b) ->
    NoDup (succs (blk s1)) -> NoDup (succs (blk s2)) ->
    joinPositions s1 s2 = joinPositions s2 s1.
  Proof.
    intros s1 s2 A1 A2 N1 N2. unfold joinPositions, XTaintModel.joinPositions.
    assert (E1 : existsb (fun b => eqb (front b) s2) (succs (blk s1)) = false).
    { apply not_true_is_false. rewrite adj_iff. intros [b [Hb E]]. exact (A1 b Hb E). }
    assert (E2 : existsb (fun b => eqb (front b) s1) (succs (blk s2)) = false).
    { apply not_true_is_false. rewrite adj_iff. intros [b [Hb E]]. exact (A2 b Hb E). }
    rewrite E1, E2.
    set (l := filter _ (succs (blk s2))). set (r := filter _ (succs (blk s1))).
    assert (P : Permutation l r).
    { apply NoDup_Permutation; try now apply NoDup_filter.
      intro m. unfold l, r. rewrite !in_filter_common. unfold common. tauto. }
    destruct l as [|x [|y l']].
    - now rewrite (Permutation_nil P).
    - now rewrite (Permutation_length_1_inv P).
    - apply Permutation_length in P. destruct r as [|? [|? ?]]; cbn in P; try lia. reflexivity.
  Qed.

  Hypothesis dom_asym : forall a b, dom a b = true -> dom b a = false.
  Lemma mcb_asym : forall a b, mcb a b = true -> mcb b a = false.
  Proof.
    intros a b. unfold mcb, mustComeBefore. rewrite (Nat.eqb_sym (fnOf (blk b))), (Nat.eqb_sym (blk b)).
    destruct (_ =? _); cbn [negb]; try discriminate. destruct (blk a =? blk b); auto.
    rewrite Nat.ltb_lt. intro H. apply Nat.ltb_ge. lia.
  Qed.
  Lemma join_comm : forall bbo a b,
    (forall s1 s2, a = With (Some s1) -> b = With (Some s2) ->
       (forall m, In m (succs (blk s1)) -> s2 <> front m) /\ (forall m, In m (succs (blk s2)) -> s1 <> front m)
       /\ NoDup (succs (blk s1)) /\ NoDup (succs (blk s2))) ->
    join bbo a b = join bbo b a.
  Proof.
    intros bbo a b H.
    destruct a as [| | |[s1|]]; destruct b as [| | |[s2|]]; try reflexivity.
    destruct (H s1 s2 eq_refl eq_refl) as [A1 [A2 [N1 N2]]].
    unfold join, XTaintModel.join.
    destruct (eqb (With (Some s1)) _) eqn:E. { apply eqb_eq in E. rewrite E. now rewrite eqb_refl. }
    destruct (eqb (With (Some s2)) _) eqn:E'. { apply eqb_eq in E'. rewrite E' in E. now rewrite eqb_refl in E. }
    rewrite (Nat.eqb_sym (fnOf (blk s2))). destruct (_ =? _); auto. cbn [negb].
    pose proof (joinPositions_comm s1 s2 A1 A2 N1 N2) as J. unfold joinPositions in J. rewrite J.
    destruct bbo; cbn [andb]; auto.
    destruct (mustComeBefore fnOf dom s1 s2) eqn:M; [pose proof (mcb_asym _ _ M) as M2; unfold mcb in M2; now rewrite M2|].
    destruct (mustComeBefore fnOf dom s2 s1); auto.
  Qed.

  (** ** merged positions in loop-free functions *)
  Lemma path_app_r : forall p q, path succs (p ++ q) -> path succs q.
  Proof.
    induction p as [|a p IH]; intros q H; auto. apply IH. cbn in H. destruct (p ++ q); [exact I|apply H].
  Qed.
  Lemma path_app_l : forall p q, path succs (p ++ q) -> path succs p.
  Proof.
    induction p as [|a p IH]; intros q H; [exact I|]. destruct p as [|b p]; [exact I|].
    destruct H as [H1 H2]. split; [exact H1|]. now apply (IH q).
  Qed.
  Lemma path_snoc : forall p a b, path succs (p ++ [a]) -> In b (succs a) -> path succs (p ++ [a; b]).
  Proof.
    induction p as [|c p IH]; intros a b H Hb; [cbn; auto|].
    destruct p as [|d p]; [destruct H as [H1 H2]; split; [exact H1|cbn; auto]|]. destruct H as [H1 H2]. split; [exact H1|]. now apply (IH a b).
  Qed.
  Lemma no_return : acyclic succs -> forall m s p q r,
    path succs (p ++ m :: q ++ s :: r) -> In m (succs s) -> False.
  Proof.
    intros A m s p q r P Hm. apply path_app_r in P.
    replace (m :: q ++ s :: r) with ((m :: q ++ [s]) ++ r) in P by (cbn; now rewrite <- app_assoc).
    apply path_app_l in P. apply (A m (q ++ [s])).
    replace (m :: (q ++ [s]) ++ [m]) with ((m :: q) ++ [s; m]) by (cbn; now rewrite <- app_assoc).
    now apply path_snoc.
  Qed.
  Lemma merged_before : acyclic succs -> forall entry s m p pre post,
    In m (succs (blk s)) ->
    dominates succs entry (front m) p ->
    path succs (pre ++ blk p :: post) -> hd_error (pre ++ blk p :: post) = Some entry ->
    In (blk s) (pre ++ blk p :: post) -> In (blk s) pre.
  Proof.
    intros A entry s m p pre post Hm D P E Hs.
    apply in_app_or in Hs. destruct Hs as [Hs|Hs]; auto. exfalso.
    assert (C : exists u v, pre ++ [blk p] = u ++ m :: v /\ (v = [] -> m = blk p)
                /\ pre ++ blk p :: post = u ++ m :: v ++ post).
    { destruct D as [[D1 _]|[D1 D2]]; cbn [front blk] in *.
      - exists pre, []. rewrite D1. split; [reflexivity|]. split; auto.
      - assert (Q : In m pre).
        { apply D2.
          - replace (blk p :: post) with ([blk p] ++ post) in P by reflexivity.
            rewrite app_assoc in P. now apply path_app_l in P.
          - destruct pre; exact E. }
        apply in_split in Q. destruct Q as [u [v ->]]. exists u, (v ++ [blk p]).
        split; [now rewrite <- app_assoc|]. split; [now destruct v|]. rewrite <- !app_assoc. reflexivity. }
    destruct C as [u [v [C1 [C2 C3]]]].
    destruct Hs as [Hs|Hs].
    - destruct v as [|x v].
      + specialize (C2 eq_refl). subst m.
        apply (A (blk p) []). cbn. rewrite <- Hs in Hm. auto.
      + assert (X : exists w, x :: v = w ++ [blk p]).
        { destruct (exists_last (l := x :: v)) as [w [z Z]]; [discriminate|]. exists w. rewrite Z in *.
          assert (pre ++ [blk p] = (u ++ m :: w) ++ [z]) as Y by (rewrite <- app_assoc; exact C1).
          apply app_inj_tail in Y. destruct Y as [_ <-]. reflexivity. }
        destruct X as [w X]. rewrite X in C3. rewrite C3 in P.
        apply (no_return A m (blk s) u w post); auto. rewrite <- Hs.
        rewrite <- app_assoc in P. exact P.
    - apply in_split in Hs. destruct Hs as [q [r ->]].
      apply (no_return A m (blk s) u (v ++ q) r); auto. rewrite C3 in P. now rewrite <- app_assoc.
  Qed.

  (** ** composition *)
  Lemma le_refl : forall a, le a a. Proof. now left. Qed.
  Lemma le_trans : forall a b c, le a b -> le b c -> le a c.
  Proof.
    unfold le. intros a b c H1 H2.
    destruct H1 as [H1|[H1|[H1|[[H1 [s E1]]|[H1 [s E1]]]]]]; destruct H2 as [H2|[H2|[H2|[[H2 [t E2]]|[H2 [t E2]]]]]];
      subst; try discriminate;
      first [now left | now (right; left) | now (right; right; left)
            | right; right; right; left; split; [reflexivity|eexists; reflexivity]
            | right; right; right; right; split; [reflexivity|eexists; reflexivity] ].
  Qed.
  Lemma defaultCompose_exact : forall f g h x, defaultCompose f g = Some h -> apply h x = apply g (apply f x).
  Proof. intros f g h x. unfold defaultCompose. destruct g; cbn; intro H; try discriminate; injection H as <-; reflexivity. Qed.
  Lemma compose_safe : forall f g x, safe f -> le (apply g (apply f x)) (apply (compose f g) x).
  Proof.
    induction f as [| | | |s|l|l t|a IHa b IHb|fs]; intros g x S; try (now destruct S);
      try (unfold compose; cbn [XTaintModel.compose];
           destruct (defaultCompose _ g) as [h|] eqn:D; [rewrite (defaultCompose_exact _ _ _ x D); now left|now left]).
    - now left.
    - unfold compose. cbn [XTaintModel.compose]. destruct (isConstant g) eqn:C; [destruct g; try discriminate; now left|].
      right. right. now left.
    - unfold compose. cbn [XTaintModel.compose]. destruct (defaultCompose _ g) as [h|] eqn:D.
      + rewrite (defaultCompose_exact _ _ _ x D). now left.
      + change (apply (Gen s) x) with (With s).
        change (XTaintModel.apply succs fnOf dom g (With s)) with (apply g (With s)).
        destruct (apply g (With s)) as [| | |c]; [now left|now right; left| |now left].
        right. right. right. left. split; [reflexivity|]. now exists None.
    - destruct S as [Sa Sb]. unfold compose. cbn [XTaintModel.compose]. destruct (defaultCompose _ g) as [h|] eqn:D.
      + rewrite (defaultCompose_exact _ _ _ x D). now left.
      + eapply le_trans; [|apply (IHa (compose b g) x Sa)]. cbn [XTaintModel.apply]. apply (IHb g (apply a x) Sb).
  Qed.
End P.
