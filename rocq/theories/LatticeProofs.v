From Coq Require Import Bool ZArith Lia.
From Verif Require Import LatticeModel LatticeSpec IFDSModel.

Section P.
  Context {V H : Type}.
  Variable veqb vltb : V -> V -> bool.
  Variable vhash : V -> H.
  Variable hmax hmin : H.
  Hypothesis VE : equivalenceb veqb.

  Lemma ldEqb_equiv : equivalenceb (ldEqb veqb).
  Proof.
    destruct VE. constructor.
    - intros []; cbn; auto.
    - intros [] []; cbn; auto.
    - intros [] [] []; cbn; eauto; discriminate.
  Qed.

  Lemma ldEqb_spec x y :
    ldEqb veqb x y = true <->
    (x = LTop /\ y = LTop) \/ (x = LBot /\ y = LBot) \/
    (exists a b, x = LVal a /\ y = LVal b /\ veqb a b = true).
  Proof.
    destruct x as [|a|], y as [|b|]; cbn; split; intros H0; auto; try discriminate;
      try (destruct H0 as [[? ?]|[[? ?]|(? & ? & ? & ? & ?)]]; congruence).
    right; right; eauto.
  Qed.

  Lemma ldJoin_semilattice :
    semilattice (fun x y => ldEqb veqb x y = true) (ldJoin veqb) LTop LBot.
  Proof.
    pose proof ldEqb_equiv as E. destruct E as [Er Es Et].
    destruct VE as [Vr Vs Vt].
    assert (VF : forall a b, veqb a b = false -> veqb b a = false).
    { intros a b Hab. destruct (veqb b a) eqn:E; auto. apply Vs in E. congruence. }
    constructor; [exact Er|exact Es|exact Et| | | | | |].
    - intros [|a|] [|a'|] [|b|] [|b'|]; unfold ldJoin; cbn; try discriminate; intros H1 H2; auto.
      + destruct (veqb a b) eqn:E1; destruct (veqb a' b') eqn:E2; cbn; auto.
        * assert (veqb a' b' = true) by (apply (Vt _ a); [auto|eapply Vt; eauto]). congruence.
        * assert (veqb a b = true) by (apply (Vt _ a'); [auto|eapply Vt; eauto]). congruence.
    - intros [|a|] [|b|]; unfold ldJoin; cbn; auto.
      destruct (veqb a b) eqn:E1.
      + rewrite (Vs _ _ E1). cbn. auto.
      + rewrite (VF _ _ E1). cbn. auto.
    - intros [|a|] [|b|] [|c|]; unfold ldJoin; cbn; auto;
        try (destruct (veqb a b) eqn:E1; cbn; auto; rewrite ?E1; cbn; auto).
      all: try (destruct (veqb b c) eqn:E2; cbn; auto; rewrite ?E1, ?E2; cbn; auto).
      + assert (veqb a c = true) as -> by eauto. cbn. auto.
      + destruct (veqb a c) eqn:E3; cbn; auto.
        assert (veqb a b = true) by eauto. congruence.
    - intros [|a|]; unfold ldJoin; cbn; auto. rewrite Vr. cbn. auto.
    - intros [|a|]; unfold ldJoin; cbn; auto.
    - intros [|a|]; unfold ldJoin; cbn; auto.
  Qed.

  Lemma ldLt_defined l r : ldLt vltb l r <> None.
  Proof. destruct l, r; cbn; discriminate. Qed.

  Definition ldLtb l r := match ldLt vltb l r with Some b => b | None => false end.

  Lemma ldLt_order : strict_order_of veqb vltb -> strict_order_of (ldEqb veqb) ldLtb.
  Proof.
    intros [Oi Ot Oc On]. constructor.
    - intros []; cbn; auto.
    - intros [] [] []; cbn; eauto; discriminate.
    - intros [] []; cbn; auto; discriminate.
    - intros [] []; cbn; auto; discriminate.
  Qed.

  Lemma ldLt_top_bot x : (x <> LTop -> ldLtb LTop x = true) /\ (x <> LBot -> ldLtb x LBot = true).
  Proof. destruct x; cbn; auto; split; congruence. Qed.

  Lemma ldHash_consistent x y :
    (forall a b, veqb a b = true -> vhash a = vhash b) ->
    ldEqb veqb x y = true -> ldHash vhash hmax hmin x = ldHash vhash hmax hmin y.
  Proof. intros Hv. destruct x, y; cbn; auto; discriminate. Qed.
End P.

(** With a value equality that decides Leibniz equality *)
Section Leib.
  Context {V : Type}.
  Variable veqb : V -> V -> bool.
  Hypothesis VE : forall a b, veqb a b = true <-> a = b.

  Lemma veqb_equivalence : equivalenceb veqb.
  Proof.
    constructor.
    - intros x. now apply VE.
    - intros x y Hxy. apply VE in Hxy. subst. now apply VE.
    - intros x y z Hxy Hyz. apply VE in Hxy. apply VE in Hyz. subst. now apply VE.
  Qed.

  Lemma ldEqb_leibniz x y : ldEqb veqb x y = true <-> x = y.
  Proof.
    rewrite ldEqb_spec. split.
    - intros [[-> ->]|[[-> ->]|(a & b & -> & -> & E)]]; auto. apply VE in E. now subst.
    - intros <-. destruct x; auto. right; right. repeat eexists. now apply VE.
  Qed.

  Lemma ldJoin_leibniz : semilattice eq (ldJoin veqb) LTop LBot.
  Proof.
    destruct (ldJoin_semilattice veqb veqb_equivalence).
    constructor; intros; try congruence; apply ldEqb_leibniz; auto.
  Qed.
End Leib.

Lemma bdom_semilattice : semilattice eq bdom_join TOP BOTTOM.
Proof. constructor; intros; try congruence; repeat match goal with x : bdom |- _ => destruct x end; reflexivity. Qed.

Lemma bdom_eqb_spec x y : bdom_eqb x y = true <-> x = y.
Proof. destruct x, y; cbn; split; congruence. Qed.
