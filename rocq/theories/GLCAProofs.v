(** Proofs about GLCAModel. *)
From Coq Require Import ZArith Bool String List Lia PeanoNat.
From Verif Require Import Assoc LatticeModel LCAModel LCASpec LCAProofs GLCAModel GLCASpec.
Import ListNotations.

Lemma NoDup_app_one {A} (s : list A) x : NoDup s -> ~ In x s -> NoDup (s ++ [x]).
Proof.
  intros Hs Hx. apply NoDup_rev in Hs. rewrite <- (rev_involutive (s ++ [x])). apply NoDup_rev. rewrite rev_app_distr. cbn.
  constructor; auto. now rewrite <- in_rev.
Qed.

Section S.
  Context {A : Type} (same : A -> A -> bool) (isTop : A -> bool) (top : A) (P : A -> Prop).
  Hypothesis Hsame : forall x y, P x -> P y -> (same x y = true <-> x = y).
  Hypothesis HisTop : forall x, isTop x = true <-> x = top.
  Hypothesis Ptop : P top.
  Implicit Types (s a b : list A) (x y : A).

  Lemma scount_In x s : P x -> Forall P s -> (scount same x s = true <-> In x s).
  Proof.
    intros Px Ps. unfold scount. rewrite existsb_exists. rewrite Forall_forall in Ps. split.
    - intros (y & Hy & E). apply Hsame in E; auto. now subst.
    - intros Hx. exists x. split; auto. now apply Hsame.
  Qed.
  Lemma sinsert_ok s x : P x -> Forall P s -> NoDup s ->
    Forall P (sinsert same s x) /\ NoDup (sinsert same s x) /\ (forall z, In z (sinsert same s x) <-> In z s \/ z = x) /\
    (length s <= length (sinsert same s x))%nat.
  Proof.
    intros Px Ps Hn. unfold sinsert. destruct (scount same x s) eqn:E.
    - apply scount_In in E; auto. repeat split; auto. intros [?| ->]; auto.
    - assert (~ In x s) by (intros Hx; apply scount_In in Hx; auto; congruence).
      split; [apply Forall_app; auto|]. split; [now apply NoDup_app_one|]. split.
      + intros z. rewrite in_app_iff. cbn. intuition.
      + rewrite app_length. lia.
  Qed.

  Lemma insertAll_ok M xs : forall s, Forall P xs -> Forall P s -> NoDup s -> (length s <= M)%nat ->
    (insertAll same top M s xs = [top] /\ exists t, NoDup t /\ (M < length t)%nat /\ forall z, In z t -> In z s \/ In z xs) \/
    (Forall P (insertAll same top M s xs) /\ NoDup (insertAll same top M s xs) /\
     (length (insertAll same top M s xs) <= M)%nat /\ forall z, In z (insertAll same top M s xs) <-> In z s \/ In z xs).
  Proof.
    induction xs as [|x xs IH]; intros s Pxs Ps Hn Hl; cbn [insertAll].
    - right. repeat split; auto. intros [?|[]]; auto.
    - apply Forall_cons_iff in Pxs as [Px Pxs]. destruct (sinsert_ok s x Px Ps Hn) as (P' & N' & I' & L').
      destruct (Nat.ltb_spec M (length (sinsert same s x))) as [L|L].
      + left. split; auto. exists (sinsert same s x). split; auto. split; auto. intros z Hz. apply I' in Hz as [?| ->]; cbn; auto.
      + destruct (IH (sinsert same s x) Pxs P' N' L) as [(E & t & T1 & T2 & T3)|(F & N & B & I)].
        * left. split; auto. exists t. split; auto. split; auto. intros z Hz. apply T3 in Hz as [Hz|Hz]; cbn; auto.
          apply I' in Hz as [?| ->]; auto.
        * right. repeat split; auto.
          -- intros Hz. apply I in Hz as [Hz|Hz]; cbn; auto. apply I' in Hz as [?| ->]; auto.
          -- intros [Hz|[<-|Hz]]; apply I; auto; left; apply I'; auto.
  Qed.
  Lemma isTopValue_true s : isTopValue isTop s = true <-> s = [top].
  Proof.
    destruct s as [|x [|y s]]; cbn; try (split; discriminate).
    rewrite HisTop. split; [intros ->; auto|now intros [= ->]].
  Qed.

  (** join on bounded sets: {top} if an argument is, or if the union is too big;
      else the union *)
  Lemma join_ok M a b : Forall P a -> Forall P b -> bounded top M a -> bounded top M b ->
    (join same isTop top M a b = [top] /\
       (a = [top] \/ b = [top] \/ exists t, NoDup t /\ (M < length t)%nat /\ forall z, In z t -> In z a \/ In z b)) \/
    (a <> [top] /\ b <> [top] /\ Forall P (join same isTop top M a b) /\ NoDup (join same isTop top M a b) /\
     (length (join same isTop top M a b) <= M)%nat /\ forall z, In z (join same isTop top M a b) <-> In z a \/ In z b).
  Proof.
    intros Pa Pb [Na Ba] [Nb Bb]. unfold join. destruct (isTopValue isTop a || isTopValue isTop b) eqn:E.
    - left. split; auto. apply orb_true_iff in E as [E|E]; apply isTopValue_true in E; auto.
    - apply orb_false_iff in E as [E1 E2].
      assert (X1 : a <> [top]) by (intros X; apply isTopValue_true in X; congruence).
      assert (X2 : b <> [top]) by (intros X; apply isTopValue_true in X; congruence).
      assert (La : (length a <= M)%nat) by (destruct Ba; auto; congruence).
      destruct (insertAll_ok M b a Pb Pa Na La) as [(E & t & T)|T].
      + left. split; eauto.
      + right. destruct T as (? & ? & ? & ?). repeat split; auto; try apply H2.
  Qed.
  Lemma join_bounded M a b : Forall P a -> Forall P b -> bounded top M a -> bounded top M b ->
    Forall P (join same isTop top M a b) /\ bounded top M (join same isTop top M a b).
  Proof.
    intros Pa Pb Ha Hb. destruct (join_ok M a b Pa Pb Ha Hb) as [(-> & _)|(_ & _ & F & N & L & _)].
    - split; [auto|]. split; [constructor; [intros []|constructor]|auto].
    - split; auto. split; auto.
  Qed.

  (** upper bound and least *)
  Lemma join_upper M a b : Forall P a -> Forall P b -> bounded top M a -> bounded top M b ->
    below top a (join same isTop top M a b) /\ below top b (join same isTop top M a b).
  Proof.
    intros Pa Pb Ha Hb. unfold below. destruct (join_ok M a b Pa Pb Ha Hb) as [(-> & _)|(_ & _ & F & N & L & I)]; auto.
    split; right; intros z Hz; apply I; auto.
  Qed.
  Lemma join_least M a b c : Forall P a -> Forall P b -> bounded top M a -> bounded top M b -> bounded top M c ->
    below top a c -> below top b c -> below top (join same isTop top M a b) c.
  Proof.
    intros Pa Pb Ha Hb [Nc Bc] La Lb. unfold below in *. destruct La as [?|La]; auto. destruct Lb as [?|Lb]; auto.
    destruct (join_ok M a b Pa Pb Ha Hb) as [(-> & H)|(_ & _ & F & N & L & I)].
    - destruct Bc as [?|Bc]; auto. right. destruct H as [-> |[-> |(t & T1 & T2 & T3)]]; auto.
      exfalso. assert (length t <= length c)%nat; [|lia]. apply NoDup_incl_length; auto. intros z Hz. apply T3 in Hz as [?|?]; auto.
    - right. intros z Hz. apply I in Hz as [?|?]; auto.
  Qed.
  Lemma below_refl a : below top a a.
  Proof. right. firstorder. Qed.
  Lemma below_antisym M a b : bounded top M a -> bounded top M b -> below top a b -> below top b a ->
    (a = [top] <-> b = [top]) -> equiv a b.
  Proof.
    intros _ _ [->|H1] [->|H2] Ht; try (intros z; tauto).
    - destruct (proj2 Ht eq_refl). intros z. tauto.
    - destruct (proj1 Ht eq_refl). intros z. tauto.
    - intros z. split; auto.
  Qed.

  Lemma singleton_equiv t : NoDup t -> (forall z, In z t <-> z = top) -> t = [top].
  Proof.
    intros Nt Ht. destruct t as [|x [|y t]].
    - exfalso. assert (In top []) as []. apply Ht. reflexivity.
    - assert (x = top) as -> by (apply Ht; cbn; auto). reflexivity.
    - exfalso. assert (x = top) by (apply Ht; cbn; auto). assert (y = top) by (apply Ht; cbn; auto). subst.
      inversion Nt as [|? ? Hni _]. apply Hni. cbn. auto.
  Qed.
  Lemma equiv_top_iff a b : NoDup a -> NoDup b -> equiv a b -> a = [top] -> b = [top].
  Proof. intros Na Nb E ->. apply singleton_equiv; auto. intros z. rewrite <- (E z). cbn. intuition. Qed.

  Lemma join_comm M a b : Forall P a -> Forall P b -> bounded top M a -> bounded top M b ->
    equiv (join same isTop top M a b) (join same isTop top M b a).
  Proof.
    intros Pa Pb Ha Hb.
    destruct (join_ok M a b Pa Pb Ha Hb) as [(-> & H)|(X1 & X2 & F & N & L & I)];
    destruct (join_ok M b a Pb Pa Hb Ha) as [(-> & H')|(X1' & X2' & F' & N' & L' & I')]; intros z; try tauto.
    - exfalso. destruct H as [H|[H|(t & T1 & T2 & T3)]]; try congruence.
      assert (length t <= length (join same isTop top M b a))%nat; [|lia]. apply NoDup_incl_length; auto.
      intros y Hy. apply I'. apply T3 in Hy. tauto.
    - exfalso. destruct H' as [H|[H|(t & T1 & T2 & T3)]]; try congruence.
      assert (length t <= length (join same isTop top M a b))%nat; [|lia]. apply NoDup_incl_length; auto.
      intros y Hy. apply I. apply T3 in Hy. tauto.
    - rewrite I, I'. tauto.
  Qed.

  (** the join of three is {top} iff one is or the union is too big *)
  Lemma join3 M a b c : Forall P a -> Forall P b -> Forall P c -> bounded top M a -> bounded top M b -> bounded top M c ->
    let j := join same isTop top M (join same isTop top M a b) c in
    (j = [top] /\ (a = [top] \/ b = [top] \/ c = [top] \/
                   exists t, NoDup t /\ (M < length t)%nat /\ forall z, In z t -> In z a \/ In z b \/ In z c)) \/
    (a <> [top] /\ b <> [top] /\ c <> [top] /\ NoDup j /\ (length j <= M)%nat /\ forall z, In z j <-> In z a \/ In z b \/ In z c).
  Proof.
    intros Pa Pb Pc Ha Hb Hc j. destruct (join_bounded M a b Pa Pb Ha Hb) as [Pab Bab].
    destruct (join_ok M _ c Pab Pc Bab Hc) as [(E & H)|(X1 & X2 & F & N & L & I)];
    destruct (join_ok M a b Pa Pb Ha Hb) as [(E' & H')|(X1' & X2' & F' & N' & L' & I')].
    - left. split; [exact E|]. destruct H' as [?|[?|(t & T1 & T2 & T3)]]; auto.
      right. right. right. exists t. split; auto. split; auto. intros z Hz. apply T3 in Hz. tauto.
    - left. split; [exact E|]. destruct H as [H|[?|(t & T1 & T2 & T3)]]; auto.
      + exfalso. assert (a = [] \/ a = [top]) as [->| ->].
        { destruct a as [|x a']; auto. right. destruct Ha as [Na _]. apply singleton_equiv; auto.
          intros z. split; [intros Hz; assert (In z [top]) as [<-|[]] by (rewrite <- H; apply I'; auto); auto|].
          intros ->. assert (In x [top]) as [->|[]] by (rewrite <- H; apply I'; cbn; auto). cbn; auto. }
        * assert (b = [top]); [|congruence]. destruct Hb as [Nb _]. apply singleton_equiv; auto. rewrite H in I'. intros z. split.
          -- intros Hz. assert (In z [top]) as [<-|[]] by (apply I'; auto). reflexivity.
          -- intros ->. destruct (proj1 (I' top)) as [[]|]; cbn; auto.
        * congruence.
      + right. right. right. exists t. split; auto. split; auto. intros z Hz. apply T3 in Hz as [Hz|Hz]; auto.
        apply I' in Hz. tauto.
    - congruence.
    - right. repeat split; auto.
      + intros Hz. apply I in Hz as [Hz|Hz]; auto. apply I' in Hz. tauto.
      + intros Hz. apply I. rewrite I'. tauto.
  Qed.
  Lemma join_equiv_l M a a' b : Forall P a -> Forall P a' -> Forall P b -> bounded top M a -> bounded top M a' -> bounded top M b ->
    equiv a a' -> equiv (join same isTop top M a b) (join same isTop top M a' b).
  Proof.
    intros Pa Pa' Pb Ha Ha' Hb E.
    assert (E' : equiv a' a) by (intros z; rewrite (E z); tauto).
    destruct (join_ok M a b Pa Pb Ha Hb) as [(-> & H)|(X1 & X2 & F & N & L & I)];
    destruct (join_ok M a' b Pa' Pb Ha' Hb) as [(-> & H')|(X1' & X2' & F' & N' & L' & I')]; intros z; try tauto.
    - exfalso. destruct H as [H|[H|(t & T1 & T2 & T3)]]; try congruence.
      + apply X1'. apply (equiv_top_iff a a'); auto; [apply Ha|apply Ha'].
      + assert (length t <= length (join same isTop top M a' b))%nat; [|lia]. apply NoDup_incl_length; auto.
        intros y Hy. apply I'. apply T3 in Hy. rewrite (E y) in Hy. tauto.
    - exfalso. destruct H' as [H|[H|(t & T1 & T2 & T3)]]; try congruence.
      + apply X1. apply (equiv_top_iff a' a); auto; [apply Ha'|apply Ha].
      + assert (length t <= length (join same isTop top M a b))%nat; [|lia]. apply NoDup_incl_length; auto.
        intros y Hy. apply I. apply T3 in Hy. rewrite (E' y) in Hy. tauto.
    - rewrite I, I', (E z). tauto.
  Qed.
  Lemma join_assoc M a b c : Forall P a -> Forall P b -> Forall P c -> bounded top M a -> bounded top M b -> bounded top M c ->
    equiv (join same isTop top M (join same isTop top M a b) c) (join same isTop top M a (join same isTop top M b c)).
  Proof.
    intros Pa Pb Pc Ha Hb Hc. destruct (join_bounded M b c Pb Pc Hb Hc) as [Pbc Bbc].
    intros z. rewrite (join_comm M a _ Pa Pbc Ha Bbc z).
    destruct (join3 M a b c Pa Pb Pc Ha Hb Hc) as [(-> & H)|(X1 & X2 & X3 & N & L & I)];
    destruct (join3 M b c a Pb Pc Pa Hb Hc Ha) as [(-> & H')|(X1' & X2' & X3' & N' & L' & I')]; try tauto.
    - exfalso. destruct H as [H|[H|[H|(t & T1 & T2 & T3)]]]; try congruence.
      match type of L' with (length ?l <= _)%nat => assert (length t <= length l)%nat; [|lia] end. apply NoDup_incl_length; auto.
      intros y Hy. apply I'. apply T3 in Hy. tauto.
    - exfalso. destruct H' as [H|[H|[H|(t & T1 & T2 & T3)]]]; try congruence.
      match type of L with (length ?l <= _)%nat => assert (length t <= length l)%nat; [|lia] end. apply NoDup_incl_length; auto.
      intros y Hy. apply I. apply T3 in Hy. tauto.
    - rewrite I, I'. tauto.
  Qed.

  (** operator< *)
  Lemma setEqb_true a b : Forall P a -> Forall P b -> NoDup a -> NoDup b -> (setEqb same a b = true <-> equiv a b).
  Proof.
    intros Pa Pb Na Nb. unfold setEqb. rewrite andb_true_iff, Nat.eqb_eq, forallb_forall. split.
    - intros [L I]. assert (J : incl a b).
      { intros z Hz. apply scount_In; auto. rewrite Forall_forall in Pa. auto. }
      assert (incl b a) by (apply NoDup_length_incl; auto; lia). intros z. split; auto.
    - intros E. split.
      + apply Nat.le_antisymm; apply NoDup_incl_length; auto; intros z Hz; apply E; auto.
      + intros z Hz. apply scount_In; auto; [|apply E; auto]. rewrite Forall_forall in Pa. auto.
  Qed.
  Lemma evLess_ok a b : Forall P a -> Forall P b -> NoDup a -> NoDup b ->
    (evLess same top a b = true <-> below top a b /\ ~ equiv a b).
  Proof.
    intros Pa Pb Na Nb. unfold evLess, below. destruct (Nat.leb_spec (length b) (length a)) as [L|L].
    - rewrite andb_true_iff, negb_true_iff, orb_true_iff.
      assert (T : setEqb same b [top] = true <-> b = [top]).
      { rewrite setEqb_true; auto.
        - split; [intros E; apply singleton_equiv; auto; intros z; rewrite (E z); cbn; intuition|intros ->; intros z; tauto].
        - constructor; [intros []|constructor]. }
      assert (Q : setEqb same a b = false <-> ~ equiv a b).
      { rewrite <- (setEqb_true a b Pa Pb Na Nb). destruct (setEqb same a b); split; intros; try congruence; try now elim H. }
      rewrite Q, T. split.
      + intros [H1 [H2|H2]]; auto. destruct a; [|discriminate]. destruct b; [|cbn in L; lia]. exfalso. apply H1. intros z. tauto.
      + intros [[H1|H1] H2]; split; auto. exfalso. apply H2. intros z. split; auto. apply (NoDup_length_incl Na L H1).
    - rewrite forallb_forall. split.
      + intros I. assert (J : incl a b) by (intros z Hz; apply scount_In; auto; rewrite Forall_forall in Pa; auto).
        split; auto. intros E. apply Nat.lt_nge in L. apply L. apply NoDup_incl_length; auto. intros z Hz. apply E; auto.
      + intros [[->|H] _] z Hz.
        * cbn in L. destruct a; [destruct Hz|cbn in L; lia].
        * apply scount_In; auto. rewrite Forall_forall in Pa; auto.
  Qed.

  (** set operations *)
  Variable f : A -> A -> option A.
  Hypothesis Pf : forall x y r, P x -> P y -> f x y = Some r -> P r.
  Lemma binRow_ok M x ys : forall s s' ret, P x -> Forall P ys -> Forall P s -> NoDup s -> (length s <= M)%nat ->
    binRow same top f M s x ys = Some (s', ret) ->
    (ret = true -> s' = [top]) /\
    (ret = false -> Forall P s' /\ NoDup s' /\ (length s' <= M)%nat /\
       (forall z, In z s' <-> In z s \/ exists y, In y ys /\ f x y = Some z) /\
       (forall y, In y ys -> exists r, f x y = Some r)).
  Proof.
    induction ys as [|y ys IH]; intros s s' ret Px Pys Ps Ns Ls E; cbn [binRow] in E.
    - injection E as <- <-. split; [discriminate|]. intros _. repeat split; auto.
      + intros [?|(y & [] & _)]; auto.
      + intros y [].
    - destruct (f x y) as [r|] eqn:Ef; [|discriminate]. apply Forall_cons_iff in Pys as [Py Pys].
      destruct (sinsert_ok s r) as (P' & N' & I' & L'); eauto.
      destruct (Nat.ltb_spec M (length (sinsert same s r))) as [L|L].
      + injection E as <- <-. split; auto. discriminate.
      + destruct (IH _ s' ret Px Pys P' N' L E) as [H1 H2]. split; auto. intros Hr. destruct (H2 Hr) as (F & N & B & I & T).
        repeat split; auto.
        * intros Hz. apply I in Hz as [Hz|(y' & Hy & Ey)].
          -- apply I' in Hz as [?| ->]; auto. right. exists y. cbn; auto.
          -- right. exists y'. cbn; auto.
        * intros [Hz|(y' & [<-|Hy] & Ey)]; apply I; auto.
          -- left. apply I'. auto.
          -- left. apply I'. right. congruence.
          -- right. eauto.
        * intros y' [<-|Hy]; eauto.
  Qed.
  Lemma binRows_ok M ys xs : forall s R, Forall P xs -> Forall P ys -> Forall P s -> NoDup s -> (length s <= M)%nat ->
    binRows same top f M s xs ys = Some R ->
    R = [top] \/
    (NoDup R /\ (length R <= M)%nat /\ (forall z, In z R <-> In z s \/ exists x y, In x xs /\ In y ys /\ f x y = Some z) /\
     forall x y, In x xs -> In y ys -> exists r, f x y = Some r).
  Proof.
    induction xs as [|x xs IH]; intros s R Pxs Pys Ps Ns Ls E; cbn [binRows] in E.
    - injection E as <-. right. repeat split; auto.
      + intros [?|(x & y & [] & _)]; auto.
      + intros x y [].
    - apply Forall_cons_iff in Pxs as [Px Pxs]. destruct (binRow same top f M s x ys) as [[s' [|]]|] eqn:Er; [| |discriminate].
      + injection E as <-. left. eapply binRow_ok in Er as [Er _]; eauto.
      + eapply binRow_ok in Er as [_ Er]; eauto. destruct (Er eq_refl) as (F & N & B & I & T).
        destruct (IH s' R Pxs Pys F N B E) as [?|(N' & B' & I' & T')]; auto. right. repeat split; auto.
        * intros Hz. apply I' in Hz as [Hz|(x' & y & Hx & Hy & Ef)].
          -- apply I in Hz as [?|(y & Hy & Ef)]; auto. right. exists x, y. cbn; auto.
          -- right. exists x', y. cbn; auto.
        * intros [Hz|(x' & y & [<-|Hx] & Hy & Ef)]; apply I'.
          -- left. apply I; auto.
          -- left. apply I. right. eauto.
          -- right. eauto 6.
        * intros x' y [<-|Hx] Hy; eauto.
  Qed.
End S.

(** ** The element equality *)
Definition noFp (e : ev) : Prop := match e with EFp _ => False | _ => True end.
Lemma same_eq x y : noFp x -> noFp y -> (same x y = true <-> x = y).
Proof.
  intros Hx Hy. unfold same. destruct x as [|w u|d|s], y as [|w' u'|d'|s']; cbn in *; try tauto; try (split; [discriminate|discriminate]).
  - rewrite !andb_true_iff, !Z.eqb_eq. split; [intros [_ [-> ->]]; auto|intros [= -> ->]; auto].
  - rewrite andb_true_iff. rewrite !String.eqb_eq. split; [intros [-> _]; auto|intros [= ->]; auto].
Qed.
Lemma isTopEv_eq x : isTopEv x = true <-> x = ETop.
Proof. destruct x; cbn; split; congruence. Qed.
