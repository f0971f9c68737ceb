(** Proofs about the type graph: types are propagated to everything that reaches a vertex. *)
From Coq Require Import String List Bool Arith Lia Relations Permutation.
From Verif Require Import Assoc TypeHierarchyModel TypeHierarchyProofs TypeGraphModel.
Import ListNotations.
Open Scope nat_scope.

Lemma propagate_In u v t x y : In y (afindd [] x (propagate u v t)) <-> In y (afindd [] x t) \/ (x = v /\ In y (afindd [] u t)).
Proof.
  unfold propagate. generalize (afindd [] u t) as l. intros l. revert t. induction l as [|s l IH]; intros t; cbn [fold_left]; [cbn; tauto|].
  rewrite IH, addReach_In. cbn [In]. split.
  - intros [[H|[-> ->]]|[-> H]]; auto.
  - intros [H|[-> [<-|H]]]; auto.
Qed.

Section D.
  Variable order : list nat -> list nat.
  Hypothesis Horder : forall l, Permutation (order l) l.
  Variable es : list (nat * nat).
  Variable n : nat.
  Hypothesis Hn : forall a b, In (a, b) es -> a < n /\ b < n.

  Definition left (vis : list nat) : nat := length (filter (fun v => negb (mem v vis)) (seq 0 n)).

  Lemma preds_In u v : In v (order (map fst (filter (fun e => eqb (snd e) u) es))) <-> In (v, u) es.
  Proof.
    split.
    - intros H. apply (Permutation_in _ (Horder _)) in H. apply in_map_iff in H. destruct H as [[a b] [E H]]. apply filter_In in H.
      destruct H as [H1 H2]. apply eqb_eq in H2. cbn in E, H2. congruence.
    - intros H. apply (Permutation_in _ (Permutation_sym (Horder _))). apply in_map_iff. exists (v, u). split; [reflexivity|].
      apply filter_In. split; [exact H|]. cbn. apply eqb_refl.
  Qed.

  Lemma filter_length_le {A} (p q : A -> bool) l : (forall x, In x l -> p x = true -> q x = true) -> length (filter p l) <= length (filter q l).
  Proof.
    induction l as [|x l IH]; intros H; cbn; [lia|]. assert (I := IH (fun y Y => H y (or_intror Y))).
    destruct (p x) eqn:P; [rewrite (H x (or_introl eq_refl) P); cbn; lia|destruct (q x); cbn; lia].
  Qed.

  Lemma filter_length_lt {A} (p q : A -> bool) l y : (forall x, In x l -> p x = true -> q x = true) -> In y l -> p y = false -> q y = true -> length (filter p l) < length (filter q l).
  Proof.
    induction l as [|x l IH]; intros H Hy P Q; [destruct Hy|]. cbn. assert (L := filter_length_le p q l (fun y Y => H y (or_intror Y))).
    destruct Hy as [->|Hy].
    - rewrite P, Q. cbn. lia.
    - assert (I := IH (fun y Y => H y (or_intror Y)) Hy P Q). destruct (p x) eqn:PX; [rewrite (H x (or_introl eq_refl) PX); cbn; lia|destruct (q x); cbn; lia].
  Qed.

  Lemma left_incl vis vis' : incl vis vis' -> left vis' <= left vis.
  Proof.
    intros H. apply filter_length_le. intros x _ P. apply negb_true_iff in P. apply negb_true_iff. apply mem_false in P. apply mem_false. intros K. apply P. now apply H.
  Qed.

  Lemma left_cons u vis : u < n -> ~ In u vis -> left (u :: vis) < left vis.
  Proof.
    intros U N. apply (filter_length_lt _ _ _ u).
    - intros x _ P. apply negb_true_iff in P. apply negb_true_iff. apply mem_false in P. apply mem_false. intros K. apply P. now right.
    - apply in_seq. lia.
    - apply negb_false_iff. apply mem_true. now left.
    - apply negb_true_iff. now apply mem_false.
  Qed.

  Definition sub (t t' : list (nat * list nat)) : Prop := forall x y, In y (afindd [] x t) -> In y (afindd [] x t').

  (** R bounds what may be added: closed under edges backwards *)
  Variable R : nat -> nat -> Prop.
  Hypothesis HR : forall v u s, In (v, u) es -> R u s -> R v s.
  (** what every visited vertex must have *)
  Variable B : nat -> Prop.

  Definition sound (t : list (nat * list nat)) : Prop := forall x s, In s (afindd [] x t) -> R x s.
  Definition has (t : list (nat * list nat)) (v : nat) : Prop := forall s, B s -> In s (afindd [] v t).
  (** every predecessor of a finished vertex is visited *)
  Definition closedOn (from vis : list nat) : Prop := forall u v, In u from -> In (v, u) es -> In v vis.

  Lemma dfs_ok fuel : forall u vis t, u < n -> ~ In u vis -> left vis <= fuel -> 0 < fuel ->
    sound t -> has t u -> (forall v, In v vis -> has t v) ->
    exists vis' t', dfs order fuel es u (vis, t) = Some (vis', t') /\ In u vis' /\ incl vis vis' /\ sub t t' /\ sound t'
      /\ (forall v, In v vis' -> has t' v)
      /\ (forall v, In v vis' -> ~ In v vis -> forall w, In (w, v) es -> In w vis').
  Proof.
    induction fuel as [|k IH]; intros u vis t Hu Nu Lf Pf St Ht Hv; [lia|].
    cbn [dfs fst snd].
    assert (G : forall ps, (forall v, In v ps -> In (v, u) es) -> forall vis1 t1,
        incl (u :: vis) vis1 -> sub t t1 -> sound t1 -> (forall v, In v vis1 -> has t1 v) ->
        (forall v, In v vis1 -> v <> u -> ~ In v vis -> forall w, In (w, v) es -> In w vis1) ->
        exists vis' t', fold_left (fun acc v => match acc with None => None | Some (vis, t) =>
              let t' := propagate u v t in if mem v vis then Some (vis, t') else dfs order k es v (vis, t') end) ps (Some (vis1, t1)) = Some (vis', t')
          /\ incl vis1 vis' /\ sub t1 t' /\ sound t' /\ (forall v, In v vis' -> has t' v)
          /\ (forall v, In v vis' -> v <> u -> ~ In v vis -> forall w, In (w, v) es -> In w vis')
          /\ (forall v, In v ps -> In v vis')).
    { induction ps as [|v ps IHp]; intros HP vis1 t1 I1 S1 So1 H1 C1; cbn [fold_left].
      - exists vis1, t1. split; [reflexivity|]. split; [apply incl_refl|]. split; [intros x y H; exact H|]. split; [exact So1|]. split; [exact H1|]. split; [exact C1|intros v []].
      - assert (Ev : In (v, u) es) by (apply HP; now left).
        assert (So2 : sound (propagate u v t1)).
        { intros x s H. apply propagate_In in H. destruct H as [H|[-> H]]; [now apply So1|]. apply (HR v u s Ev). now apply So1. }
        assert (S2 : sub t1 (propagate u v t1)) by (intros x s H; apply propagate_In; now left).
        assert (Hu1 : has t1 u) by (apply H1, I1; now left).
        assert (Hv2 : has (propagate u v t1) v) by (intros s Bs; apply propagate_In; right; split; [reflexivity|now apply Hu1]).
        assert (H2 : forall w, In w vis1 -> has (propagate u v t1) w) by (intros w W s Bs; apply S2; now apply H1).
        destruct (mem v vis1) eqn:M.
        + apply mem_true in M. destruct (IHp (fun w W => HP w (or_intror W)) vis1 (propagate u v t1) I1) as [vis' [t' [E [I [S [So [H [C P]]]]]]]]; auto.
          { intros x s X. apply S2. now apply S1. }
          exists vis', t'. split; [exact E|]. split; [exact I|]. split; [intros x s X; apply S; now apply S2|]. split; [exact So|]. split; [exact H|]. split; [exact C|].
          intros w [<-|W]; [now apply I|now apply P].
        + apply mem_false in M. assert (V : v < n) by (now apply Hn in Ev).
          assert (LL : left vis1 <= k).
          { assert (A := left_incl (u :: vis) vis1 I1). assert (A2 := left_cons u vis Hu Nu). lia. }
          assert (PK : 0 < k).
          { assert (A2 := left_cons v vis1 V M). lia. }
          destruct (IH v vis1 (propagate u v t1) V M LL PK So2 Hv2 H2) as [vis2 [t2 [E2 [U2 [I2 [S3 [So3 [H3 C3]]]]]]]].
          cbn zeta. rewrite E2.
          destruct (IHp (fun w W => HP w (or_intror W)) vis2 t2) as [vis' [t' [E [I [S [So [H [C P]]]]]]]]; auto.
          { intros w W. apply I2. now apply I1. } { intros x s X. apply S3, S2. now apply S1. }
          { intros w W NE NV w' W'. destruct (in_dec Nat.eq_dec w vis1) as [W1|W1]; [apply I2; now apply (C1 w)|now apply (C3 w)]. }
          exists vis', t'. split; [exact E|]. split; [intros w W; apply I; now apply I2|]. split; [intros x s X; apply S, S3; now apply S2|]. split; [exact So|]. split; [exact H|]. split; [exact C|].
          intros w [<-|W]; [now apply I|now apply P]. }
    destruct (G (order (map fst (filter (fun e => eqb (snd e) u) es))) (fun v V => proj1 (preds_In u v) V) (u :: vis) t) as [vis' [t' [E [I [S [So [H [C P]]]]]]]].
    - apply incl_refl.
    - intros x y X. exact X.
    - exact St.
    - intros v [<-|V]; [exact Ht|now apply Hv].
    - intros v [->|V] NE NV; [now elim NE|now elim NV].
    - exists vis', t'. split; [exact E|]. split; [apply I; now left|]. split; [intros w W; apply I; now right|]. split; [exact S|]. split; [exact So|]. split; [exact H|].
      intros v V NV w W. destruct (Nat.eq_dec v u) as [->|NE]; [apply P; now apply preds_In|now apply (C v)].
  Qed.

  Lemma dfs_all u t : u < n -> sound t -> has t u ->
    exists vis' t', dfs order (S n) es u ([], t) = Some (vis', t') /\ sub t t' /\ sound t'
      /\ (forall v, clos_refl_trans nat (edge es) v u -> has t' v).
  Proof.
    intros Hu So Ht.
    assert (L : left [] <= S n) by (unfold left; etransitivity; [apply (filter_length_le _ (fun _ => true)); reflexivity|]; clear; assert (X : forall l : list nat, filter (fun _ => true) l = l) by (induction l; cbn; congruence); rewrite X, seq_length; lia).
    destruct (dfs_ok (S n) u [] t Hu (fun x => x) L (Nat.lt_0_succ n) So Ht (fun v (F : In v []) => match F with end)) as [vis' [t' [E [U [_ [S [So' [H C]]]]]]]].
    exists vis', t'. split; [exact E|]. split; [exact S|]. split; [exact So'|].
    assert (V : forall v, clos_refl_trans nat (edge es) v u -> In v vis').
    { intros v K. apply clos_rt_rt1n in K. induction K as [|v w z K1 K2 IH]; [exact U|]. apply (C w (IH Hu Ht E U)); [intros []|exact K1]. }
    intros v K. apply H. now apply V.
  Qed.
End D.

Definition plusLink (L : nat -> nat -> Prop) (f t a b : nat) : Prop := L a b \/ (a = f /\ b = t).

Lemma plusLink_rt L f t a s : clos_refl_trans nat (plusLink L f t) a s -> clos_refl_trans nat L a s \/ (clos_refl_trans nat L a f /\ clos_refl_trans nat L t s).
Proof.
  intros H. apply clos_rt_rtn1 in H. induction H as [|b c K _ IH]; [left; apply rt_refl|].
  destruct K as [K|[-> ->]].
  - destruct IH as [IH|[IH1 IH2]]; [left|right; split; [exact IH1|]]; eapply rt_trans; eauto using rt_step.
  - right. split; [destruct IH as [IH|[IH _]]; exact IH|apply rt_refl].
Qed.

Lemma rt_iff2 (R R' : nat -> nat -> Prop) : (forall a b, R a b <-> R' a b) -> forall x y, clos_refl_trans nat R x y <-> clos_refl_trans nat R' x y.
Proof. intros E x y. split; intros K; induction K as [a b K| |a b c _ I1 _ I2]; [apply rt_step; now apply E|apply rt_refl|eapply rt_trans; eauto|apply rt_step; now apply E|apply rt_refl|eapply rt_trans; eauto]. Qed.

Section G.
  Variable order : list nat -> list nat.
  Hypothesis Horder : forall l, Permutation (order l) l.
  Variable asserts : bool.
  Variable nm : nat -> string.
  Variable isLit : nat -> bool.
  Variable addr : nat -> string.
  Variable U : nat -> Prop.
  Hypothesis Hlit : forall t, U t -> isLit t = false.
  Hypothesis Hnm : forall a b, U a -> U b -> nm a = nm b -> a = b.

  Record inv (L : nat -> nat -> Prop) (g : tg) : Prop := {
    iNum : length (tgBase g) = tgNum g;
    iU : forall t, In t (tgBase g) -> U t;
    iMap : forall t i, U t -> (afind (nm t) (tgMap g) = Some i <-> nth_error (tgBase g) i = Some t);
    iEdges : forall i j, In (i, j) (tgEdges g) <-> exists a b, nth_error (tgBase g) i = Some a /\ nth_error (tgBase g) j = Some b /\ L a b;
    iL : forall a b, L a b -> In a (tgBase g) /\ In b (tgBase g);
    iTypes : forall i s, In s (afindd [] i (tgTypes g)) <-> exists a, nth_error (tgBase g) i = Some a /\ clos_refl_trans nat L a s }.

  Lemma inv_iff L L' g : (forall a b, L a b <-> L' a b) -> inv L g -> inv L' g.
  Proof.
    intros E [N Us M Es Ls T]. constructor; auto.
    - intros i j. rewrite Es. split; intros [a [b [A [B K]]]]; exists a, b; (split; [exact A|]); (split; [exact B|]); now apply E.
    - intros a b K. apply Ls. now apply E.
    - intros i s. rewrite T. split; intros [a [A K]]; exists a; (split; [exact A|]); [now apply (rt_iff2 L L' E)|now apply (rt_iff2 L L' E)].
  Qed.

  Lemma vname_U t : U t -> vname nm isLit addr t = nm t.
  Proof. intros H. unfold vname. now rewrite Hlit. Qed.

  Lemma addType_ok L t g : U t -> inv L g -> exists v g', addType nm isLit addr t g = (v, g') /\ nth_error (tgBase g') v = Some t /\ inv L g'.
  Proof.
    intros Ht I. unfold addType. rewrite vname_U by exact Ht. destruct (afind (nm t) (tgMap g)) as [v|] eqn:F.
    - exists v, g. split; [reflexivity|]. split; [now apply (iMap L g I)|exact I].
    - eexists _, _. split; [reflexivity|]. cbn. destruct I as [N Us M Es Ls T]. rewrite <- N.
      assert (Nt : ~ In t (tgBase g)).
      { intros K. apply In_nth_error in K. destruct K as [i K]. apply (M t i Ht) in K. congruence. }
      assert (NE : forall i x, nth_error (tgBase g ++ [t]) i = Some x <-> nth_error (tgBase g) i = Some x \/ (i = length (tgBase g) /\ x = t)).
      { intros i x. destruct (Nat.lt_ge_cases i (length (tgBase g))) as [H|H].
        - rewrite nth_error_app1 by exact H. split; [now left|intros [K|[-> _]]; [exact K|lia]].
        - rewrite nth_error_app2 by exact H. assert (K0 := proj2 (nth_error_None (tgBase g) i) H). destruct (i - length (tgBase g)) as [|d] eqn:D; cbn.
          + split; [intros [= <-]; right; split; [lia|reflexivity]|intros [K|[_ ->]]; [congruence|reflexivity]].
          + replace (nth_error (@nil nat) d) with (@None nat) by (destruct d; reflexivity). split; [discriminate|intros [K|[-> _]]; [congruence|lia]]. }
      split; [apply NE; right; split; reflexivity|].
      constructor; cbn [tgNum tgMap tgBase tgTypes tgEdges].
      + rewrite app_length. cbn. lia.
      + intros x K. apply in_app_iff in K. destruct K as [K|[<-|[]]]; auto.
      + intros x i Hx. rewrite NE. destruct (Nat.eq_dec x t) as [->|D].
        * rewrite afind_aset_eq. split; [intros [= <-]; right; auto|intros [K|[-> _]]; [|reflexivity]]. apply (M t i Ht) in K. congruence.
        * rewrite afind_aset_neq by (intros K; apply D; now apply Hnm). rewrite M by exact Hx. split; [now left|intros [K|[_ K]]; [exact K|congruence]].
      + intros i j. rewrite Es. split.
        * intros [a [b [A [B K]]]]. exists a, b. split; [apply NE; now left|]. split; [apply NE; now left|exact K].
        * intros [a [b [A [B K]]]]. apply NE in A. apply NE in B. destruct (Ls a b K) as [K1 K2]. exists a, b.
          split; [destruct A as [A|[_ ->]]; [exact A|now elim Nt]|]. split; [destruct B as [B|[_ ->]]; [exact B|now elim Nt]|exact K].
      + intros a b K. destruct (Ls a b K). split; apply in_app_iff; now left.
      + intros i s. destruct (Nat.eq_dec i (length (tgBase g))) as [->|D].
        * unfold afindd at 1. rewrite afind_aset_eq. split.
          -- intros [<-|[]]. exists t. split; [apply NE; right; auto|apply rt_refl].
          -- intros [a [A K]]. assert (a = t).
             { apply NE in A. destruct A as [A|[_ A]]; [|exact A]. assert (length (tgBase g) < length (tgBase g)) by (apply nth_error_Some; congruence). lia. }
             subst a. left. apply clos_rt_rt1n in K. destruct K as [|y z K _]; [reflexivity|]. now elim Nt; apply (Ls t y).
        * unfold afindd at 1. rewrite afind_aset_neq by exact D. change (match afind i (tgTypes g) with Some v => v | None => [] end) with (afindd [] i (tgTypes g)).
          rewrite T. split; intros [a [A K]]; exists a; (split; [|exact K]); [apply NE; now left|]. apply NE in A. destruct A as [A|[A _]]; [exact A|congruence].
  Qed.

  Lemma addType_base L t u i g v g' : U t -> inv L g -> addType nm isLit addr t g = (v, g') -> nth_error (tgBase g) i = Some u -> nth_error (tgBase g') i = Some u.
  Proof.
    intros Ht I E K. unfold addType in E. destruct (afind _ (tgMap g)); injection E as <- <-; [exact K|]. cbn. rewrite nth_error_app1; [exact K|]. apply nth_error_Some. congruence.
  Qed.

  Lemma addLink_ok L f t g : U f -> U t -> inv L g -> exists b g', addLink order asserts nm isLit addr f t g = Some (b, g') /\ inv (plusLink L f t) g'.
  Proof.
    intros Uf Ut I. unfold addLink.
    destruct (addType_ok L f g Uf I) as [vf [g1 [E1 [N1 I1]]]]. rewrite E1.
    destruct (addType_ok L t g1 Ut I1) as [vt [g2 [E2 [N2 I2]]]]. rewrite E2.
    assert (N1' := addType_base L t f vf g1 vt g2 Ut I1 E2 N1).
    destruct (mem (vf, vt) (tgEdges g2)) eqn:M.
    - apply mem_true in M. exists false, g2. split; [reflexivity|]. apply (inv_iff L); [|exact I2]. intros a b. unfold plusLink. split; [now left|].
      intros [K|[-> ->]]; [exact K|]. apply (iEdges L g2 I2) in M. destruct M as [a [b [A [B K]]]]. congruence.
    - apply mem_false in M. unfold reverseTypePropagation. rewrite (Hlit t Ut). cbn [andb tgNum tgMap tgBase tgTypes tgEdges].
      destruct I2 as [N Us Mp Es Ls T].
      assert (F : afind (nm t) (tgMap g2) = Some vt) by (now apply Mp). unfold afindd at 1. rewrite F.
      set (es := tgEdges g2 ++ [(vf, vt)]).
      assert (Es' : forall i j, In (i, j) es <-> exists a b, nth_error (tgBase g2) i = Some a /\ nth_error (tgBase g2) j = Some b /\ plusLink L f t a b).
      { intros i j. unfold es. rewrite in_app_iff, Es. cbn [In]. split.
        - intros [[a [b [A [B K]]]]|[[= <- <-]|[]]]; [exists a, b|exists f, t]; (split; [assumption|]); (split; [assumption|]); unfold plusLink; auto.
        - intros [a [b [A [B [K|[-> ->]]]]]]; [left; now exists a, b|right; left].
          apply (Mp f _ Uf) in A. apply (Mp f _ Uf) in N1'. apply (Mp t _ Ut) in B. congruence. }
      assert (Hn : forall a b, In (a, b) es -> a < tgNum g2 /\ b < tgNum g2).
      { intros i j K. apply Es' in K. destruct K as [a [b [A [B _]]]]. rewrite <- N. split; apply nth_error_Some; congruence. }
      set (R := fun i s => exists a, nth_error (tgBase g2) i = Some a /\ clos_refl_trans nat (plusLink L f t) a s).
      assert (HR : forall v u s, In (v, u) es -> R u s -> R v s).
      { intros v u s K [a [A P]]. apply Es' in K. destruct K as [x [y [X [Y K]]]]. assert (y = a) by congruence. subst y. exists x. split; [exact X|].
        apply rt_trans with a; [apply rt_step; exact K|exact P]. }
      assert (HU : vt < tgNum g2) by (rewrite <- N; apply nth_error_Some; congruence).
      assert (So : sound R (tgTypes g2)).
      { intros i s K. apply T in K. destruct K as [a [A K]]. exists a. split; [exact A|].
        clear - K. induction K as [a b K| |a b c _ I1 _ I2]; [apply rt_step; now left|apply rt_refl|eapply rt_trans; eauto]. }
      assert (Ht : has (clos_refl_trans nat L t) (tgTypes g2) vt) by (intros s K; apply T; exists t; split; assumption).
      destruct (dfs_all order Horder es (tgNum g2) Hn R HR (clos_refl_trans nat L t) vt (tgTypes g2) HU So Ht) as [vis [ty [E [Sb [So' Hv]]]]].
      assert (Reach : forall a i, clos_refl_trans nat L a f -> nth_error (tgBase g2) i = Some a -> clos_refl_trans nat (edge es) i vt).
      { intros a i K. revert i. apply clos_rt_rt1n in K. remember f as ff eqn:Eff. induction K as [x|x y z K1 K2 IH]; intros i Hi; subst.
        - apply rt_step. apply Es'. exists f, t. split; [exact Hi|]. split; [exact N2|]. right. auto.
        - destruct (Ls _ _ K1) as [_ Iy]. apply In_nth_error in Iy. destruct Iy as [j Hj]. apply rt_trans with j; [|now apply IH].
          apply rt_step. apply Es'. exists x, y. split; [exact Hi|]. split; [exact Hj|]. now left. }
      rewrite E. eexists true, _. split; [reflexivity|]. constructor; cbn [tgNum tgMap tgBase tgTypes tgEdges]; auto.
      + intros a b [K|[-> ->]]; [now apply Ls|]. split; eapply nth_error_In; eassumption.
      + intros i s. split; [apply So'|]. intros [a [A K]]. apply plusLink_rt in K. destruct K as [K|[K1 K2]].
        * apply Sb. apply T. now exists a.
        * apply Hv; [now apply (Reach a)|exact K2].
  Qed.

  Definition linksOf (ops : list tgop) (a b : nat) : Prop := In (Link a b) ops.
  Definition usesU (o : tgop) : Prop := match o with Link a b => U a /\ U b | Query t => U t end.

  Lemma run_ok ops : forall L g, (forall o, In o ops -> usesU o) -> inv L g ->
    exists g', runTG order asserts nm isLit addr ops g = Some g' /\ inv (fun a b => L a b \/ linksOf ops a b) g'.
  Proof.
    induction ops as [|o r IH]; intros L g HU I; cbn [runTG].
    - exists g. split; [reflexivity|]. apply (inv_iff L); [|exact I]. intros a b. unfold linksOf. cbn. tauto.
    - assert (Uo := HU o (or_introl eq_refl)). assert (Ur : forall o, In o r -> usesU o) by (intros o' O; apply HU; now right).
      destruct o as [f t|t]; cbn [doTG].
      + destruct Uo as [Uf Ut]. destruct (addLink_ok L f t g Uf Ut I) as [b [g' [E I']]]. rewrite E.
        destruct (IH _ g' Ur I') as [g'' [E' I'']]. exists g''. split; [exact E'|]. eapply inv_iff; [|exact I''].
        intros a c. unfold plusLink, linksOf. cbn [In]. split; [intros [[K|[-> ->]]|K]; auto|intros [K|[K|K]]; auto]. injection K as -> ->. auto.
      + unfold getTypes. destruct (addType_ok L t g Uo I) as [v [g' [E [_ I']]]]. rewrite E. cbn [snd].
        destruct (IH _ g' Ur I') as [g'' [E' I'']]. exists g''. split; [exact E'|]. eapply inv_iff; [|exact I''].
        intros a c. unfold linksOf. cbn [In]. split; [intros [K|K]; auto|intros [K|[K|K]]; auto]. discriminate.
  Qed.

  Lemma inv_empty : inv (fun _ _ => False) emptyTG.
  Proof.
    constructor; cbn.
    - reflexivity.
    - intros t [].
    - intros t i _. destruct i; split; discriminate.
    - intros i j. split; [intros []|intros [a [b [_ [_ []]]]]].
    - intros a b [].
    - intros i s. split; [intros []|]. intros [a [A _]]. destruct i; discriminate.
  Qed.

  Lemma getTypes_ok ops q : (forall o, In o ops -> usesU o) -> U q ->
    exists g, runTG order asserts nm isLit addr ops emptyTG = Some g /\
      forall s, In s (fst (getTypes nm isLit addr q g)) <-> clos_refl_trans nat (linksOf ops) q s.
  Proof.
    intros HU Uq. destruct (run_ok ops _ _ HU inv_empty) as [g [E I]]. exists g. split; [exact E|]. intros s.
    unfold getTypes. destruct (addType_ok _ q g Uq I) as [v [g' [E' [N I']]]]. rewrite E'. cbn [fst]. rewrite (iTypes _ _ I').
    assert (X : forall a b, (False \/ linksOf ops a b) <-> linksOf ops a b) by (intros a b; tauto).
    assert (R := rt_iff2 _ _ X q s).
    rewrite <- R. split; [intros [a [A K]]; assert (a = q) by congruence; now subst a|intros K; now exists q].
  Qed.
End G.
