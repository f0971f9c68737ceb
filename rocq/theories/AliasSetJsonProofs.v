From Coq Require Import List Bool Arith Lia Permutation.
From Verif Require Import Assoc UtilitiesModel AliasSetModel AliasSetSpec AliasSetProofs.
Import ListNotations.

Section Json.
  Variable fresh : list nat -> nat.
  Variable iter : list nat -> list nat.
  Hypothesis Hfresh : forall l, ~ In (fresh l) l.
  Hypothesis Hiter : forall l, Permutation (iter l) l.

  Lemma loadValues_ok b a (js : list nat) : forall s l, Inv s -> nth_error (boxes s) b = Some a -> afind a (heap s) = Some l -> NoDup js -> (forall v, In v js -> afind v (sets s) = None) ->
    exists s', fold_left (loadValue b) js (Some s) = Some s' /\ Inv s' /\ (forall u, addrOf s' u = if mem u js then Some a else addrOf s u) /\ (forall u, afind u (sets s) = None -> ~ In u js -> afind u (sets s') = None).
  Proof.
    induction js as [|v js IH]; intros s l I Eb Ea ND Un; cbn [fold_left]; [exists s; split; [reflexivity|]; split; [exact I|]; split; auto|].
    inversion ND as [|? ? N1 N2]; subst. unfold loadValue at 2.
    destruct (attachNew s v b a l I (Un v (or_introl eq_refl)) Eb Ea) as [s1 [R [I1 [X1 AD]]]]. rewrite R.
    assert (F : sets s1 = aset v b (sets s) /\ boxes s1 = boxes s /\ exists l1, afind a (heap s1) = Some l1).
    { unfold insertAll in R. cbn [boxes heap sets analyzed] in R. rewrite Eb, Ea in R. injection R as <-. cbn. split; [reflexivity|]. split; [reflexivity|]. eexists. apply afind_aset_eq. }
    destruct F as [F1 [F2 [l1 F3]]].
    assert (UN : forall u, afind u (sets s) = None -> u <> v -> afind u (sets s1) = None) by (intros u Hu Ne; rewrite F1, afind_aset_neq by exact Ne; exact Hu).
    destruct (IH s1 l1 I1) as [s' [R' [I' [AD' UN']]]].
    - rewrite F2. exact Eb.
    - exact F3.
    - exact N2.
    - intros u Hu. apply UN; [apply Un; right; exact Hu|]. intros ->. contradiction.
    - exists s'. split; [exact R'|]. split; [exact I'|]. split.
      + intro u. rewrite AD', AD. destruct (mem u (v :: js)) eqn:Q.
        * apply mem_true in Q. destruct Q as [<- |Q]; [rewrite Nat.eqb_refl; destruct (mem v js); reflexivity|]. rewrite (proj2 (mem_true u js) Q). reflexivity.
        * apply mem_false in Q. rewrite (proj2 (mem_false u js)) by (intro K; apply Q; right; exact K). rewrite (proj2 (Nat.eqb_neq u v)) by (intros ->; apply Q; left; reflexivity). reflexivity.
      + intros u Hu Nu. apply UN'; [apply UN; [exact Hu|]; intros ->; apply Nu; left; reflexivity|]. intro K. apply Nu. right. exact K.
  Qed.

  Lemma loadSet_ok s js : Inv s -> js <> [] -> NoDup js -> (forall v, In v js -> afind v (sets s) = None) ->
    exists s' a, loadSet fresh (Some s) js = Some s' /\ Inv s' /\ (forall u, addrOf s' u = if mem u js then Some a else addrOf s u) /\ (forall u, addrOf s u <> Some a)
      /\ (forall u, afind u (sets s) = None -> ~ In u js -> afind u (sets s') = None).
  Proof.
    intros I Ne ND Un. destruct js as [|v js]; [now elim Ne|]. inversion ND as [|? ? N1 N2]; subst.
    assert (Uv : afind v (sets s) = None) by (apply Un; left; reflexivity).
    destruct (addSingleton_ok false fresh Hfresh s v I) as [s1 [R [I1 [X1 [K1 [A1 KN]]]]]].
    unfold addSingleton in R. rewrite Uv in R. unfold loadSet. unfold acquire in *. set (a := fresh (akeys (heap s))) in *.
    assert (Fa : afind a (heap s) = None) by (apply afind_None; apply Hfresh).
    assert (NB : nth_error (boxes s ++ [a]) (length (boxes s)) = Some a) by (rewrite nth_error_app2, Nat.sub_diag by lia; reflexivity).
    cbn [fold_left]. unfold loadValue at 2. unfold insertAll in *. cbn [boxes heap sets analyzed] in *. rewrite NB, (afind_snoc a [] (heap s) Fa a) in R. rewrite NB, (afind_snoc a [] (heap s) Fa a).
    destruct (eq_dec a a) as [_|]; [|contradiction]. cbn [heap boxes sets analyzed] in *. match type of R with Some ?x = Some ?y => assert (RQ : x = y) by congruence end. clear R. rename RQ into R. rewrite R.
    assert (E1 : sets s1 = aset v (length (boxes s)) (sets s)) by (rewrite <- R; reflexivity).
    assert (E2 : boxes s1 = boxes s ++ [a]) by (rewrite <- R; reflexivity).
    assert (E3 : afind a (heap s1) = Some (fold_left (fun l x => sinsert x l) [v] [])) by (rewrite <- R; cbn [heap]; apply afind_aset_eq).
    assert (AD : forall u, addrOf s1 u = if u =? v then Some a else addrOf s u).
    { intro u. unfold addrOf. rewrite E1, E2, afind_aset. destruct (eq_dec u v) as [-> |Nu]; [rewrite Nat.eqb_refl; exact NB|]. rewrite (proj2 (Nat.eqb_neq u v) Nu).
      destruct (afind u (sets s)) as [b|] eqn:Eu; [|reflexivity]. destruct (i_val s I u b Eu) as [a' [l' [Q _]]]. rewrite nth_error_app1; [reflexivity|]. apply nth_error_Some. congruence. }
    assert (UN : forall u, afind u (sets s) = None -> u <> v -> afind u (sets s1) = None) by (intros u Hu Nu; rewrite E1, afind_aset_neq by exact Nu; exact Hu).
    destruct (loadValues_ok (length (boxes s)) a js s1 (fold_left (fun l x => sinsert x l) [v] []) I1) as [s' [R' [I' [AD' UN']]]].
    - rewrite E2. exact NB.
    - exact E3.
    - exact N2.
    - intros u Hu. apply UN; [apply Un; right; exact Hu|]. intros ->. contradiction.
    - exists s', a. split; [exact R'|]. split; [exact I'|]. split; [|split].
      + intro u. rewrite AD', AD. destruct (mem u (v :: js)) eqn:Q.
        * apply mem_true in Q. destruct Q as [<- |Q]; [rewrite Nat.eqb_refl; destruct (mem v js); reflexivity|]. rewrite (proj2 (mem_true u js) Q). reflexivity.
        * apply mem_false in Q. rewrite (proj2 (mem_false u js)) by (intro K; apply Q; right; exact K). rewrite (proj2 (Nat.eqb_neq u v)) by (intros ->; apply Q; left; reflexivity). reflexivity.
      + intros u Q. unfold addrOf in Q. destruct (afind u (sets s)) as [b|] eqn:Eu; [|discriminate]. destruct (i_val s I u b Eu) as [a' [l' [F1 [F2 _]]]]. congruence.
      + intros u Hu Nu. apply UN'; [apply UN; [exact Hu|]; intros ->; apply Nu; left; reflexivity|]. intro K. apply Nu. right. exact K.
  Qed.

  Definition disjointSets (jss : list (list nat)) : Prop := NoDup (concat jss).

  Lemma NoDup_concat_cons (js : list nat) jss : NoDup (concat (js :: jss)) -> NoDup js /\ NoDup (concat jss) /\ (forall v, In v js -> ~ In v (concat jss)).
  Proof.
    cbn [concat]. induction js as [|x js IH]; cbn [app]; intro H; [split; [constructor|]; split; [exact H|]; intros v []|].
    inversion H as [|? ? N1 N2]; subst. destruct (IH N2) as [A [B C]]. split; [constructor; [intro K; apply N1, in_app_iff; auto|exact A]|]. split; [exact B|]. intros v [<- |Hv]; [intro K; apply N1, in_app_iff; auto|exact (C v Hv)].
  Qed.

  Lemma loadSets_ok (jss : list (list nat)) : forall s, Inv s -> (forall js, In js jss -> js <> []) -> NoDup (concat jss) -> (forall v, In v (concat jss) -> afind v (sets s) = None) ->
    exists s', fold_left (loadSet fresh) jss (Some s) = Some s' /\ Inv s'
      /\ (forall u t, aliased s' u t <-> aliased s u t \/ exists js, In js jss /\ In u js /\ In t js).
  Proof.
    induction jss as [|js jss IH]; intros s I Ne ND Un; cbn [fold_left].
    - exists s. split; [reflexivity|]. split; [exact I|]. intros u t. split; [auto|]. intros [H|[js [[] _]]]. exact H.
    - destruct (NoDup_concat_cons js jss ND) as [N1 [N2 N3]].
      destruct (loadSet_ok s js I) as [s1 [a [R [I1 [AD [NA UN]]]]]].
      + apply Ne. left. reflexivity.
      + exact N1.
      + intros v Hv. apply Un. cbn [concat]. apply in_app_iff. auto.
      + rewrite R. destruct (IH s1 I1) as [s' [R' [I' A']]].
        * intros j Hj. apply Ne. right. exact Hj.
        * exact N2.
        * intros v Hv. apply UN; [apply Un; cbn [concat]; apply in_app_iff; auto|]. intro K. exact (N3 v K Hv).
        * exists s'. split; [exact R'|]. split; [exact I'|]. intros u t. rewrite A'. rewrite (aliased_addr s1 u t I1), (aliased_addr s u t I).
          assert (UA : forall z, In z js -> addrOf s z = None) by (intros z Hz; unfold addrOf; rewrite (Un z); [reflexivity|]; cbn [concat]; apply in_app_iff; auto).
          split.
          -- intros [[x [X1 X2]]|[j [Hj Q]]]; [|right; exists j; split; [right; exact Hj|exact Q]].
             rewrite AD in X1, X2. destruct (mem u js) eqn:Qu, (mem t js) eqn:Qt.
             ++ apply mem_true in Qu, Qt. right. exists js. split; [left; reflexivity|auto].
             ++ elim (NA t). congruence.
             ++ elim (NA u). congruence.
             ++ left. eauto.
          -- intros [[x [X1 X2]]|[j [[<- |Hj] [Hu Ht]]]].
             ++ left. exists x. rewrite !AD. destruct (mem u js) eqn:Qu; [apply mem_true in Qu; rewrite (UA u Qu) in X1; discriminate|]. destruct (mem t js) eqn:Qt; [apply mem_true in Qt; rewrite (UA t Qt) in X2; discriminate|]. auto.
             ++ left. exists a. rewrite !AD. rewrite (proj2 (mem_true u js) Hu), (proj2 (mem_true t js) Ht). auto.
             ++ right. exists j. auto.
  Qed.

  Lemma json_sets hasId s : Inv s -> (forall js, In js (fst (getAsJson iter hasId s)) -> js <> []) /\ NoDup (concat (fst (getAsJson iter hasId s)))
    /\ (forall u t, (exists js, In js (fst (getAsJson iter hasId s)) /\ In u js /\ In t js) <-> aliased s u t /\ hasId u = true /\ hasId t = true).
  Proof.
    intro I. unfold getAsJson. cbn [fst]. split; [|split].
    - intros js H. apply filter_In in H. destruct H as [_ H]. intros ->. discriminate.
    - assert (IH : NoDup (akeys (heap s))) by exact (i_heap s I).
      assert (FD : forall a a' l l' v, In (a, l) (heap s) -> In (a', l') (heap s) -> In v l -> In v l' -> a = a').
      { intros a a' l l' v H1 H2 Hv Hv'. apply (In_afind a l _ IH) in H1. apply (In_afind a' l' _ IH) in H2. pose proof (i_mem s I a l v H1 Hv). pose proof (i_mem s I a' l' v H2 Hv'). congruence. }
      assert (FN : forall a l, In (a, l) (heap s) -> NoDup l) by (intros a l H1; apply (In_afind a l _ IH) in H1; apply (i_nd s I a l H1)).
      revert IH FD FN. generalize (heap s). induction l as [|[a l] h IHh]; intros ND FD FN; cbn [map filter concat]; [constructor|].
      assert (R : NoDup (concat (filter (fun l0 => negb (length l0 =? 0)) (map (fun e => filter hasId (iter (snd e))) h)))).
      { inversion ND; subst. apply IHh; [assumption| |].
        - intros b b' m m' v H1' H2' Hv Hv'. apply (FD b b' m m' v); [right; exact H1'|right; exact H2'|exact Hv|exact Hv'].
        - intros b m Hm. apply (FN b m). right. exact Hm. }
      cbn [snd]. destruct (negb (length (filter hasId (iter l)) =? 0)); [|exact R]. cbn [concat].
      assert (N0 : NoDup (filter hasId (iter l))).
      { apply NoDup_filter. apply (Permutation_NoDup (Permutation_sym (Hiter l))). apply (FN a l). left. reflexivity. }
      assert (Dj : forall v, In v (filter hasId (iter l)) -> ~ In v (concat (filter (fun l0 => negb (length l0 =? 0)) (map (fun e => filter hasId (iter (snd e))) h)))).
      { intros v Hv K. apply filter_In in Hv. destruct Hv as [Hv _]. apply (proj1 (in_iter iter Hiter _ _)) in Hv. apply in_concat in K. destruct K as [js [K1 K2]]. apply filter_In in K1. destruct K1 as [K1 _]. apply in_map_iff in K1. destruct K1 as [[b m] [<- K1]].
        cbn [snd] in K2. apply filter_In in K2. destruct K2 as [K2 _]. apply (proj1 (in_iter iter Hiter _ _)) in K2. assert (a = b) by (apply (FD a b l m v); [left; reflexivity|right; exact K1|exact Hv|exact K2]). subst b.
        inversion ND as [|? ? Q1 Q2]; subst. apply Q1. apply in_map_iff. exists (a, m). auto. }
      revert N0 Dj. generalize (filter hasId (iter l)). induction l0 as [|x l0 IHl]; intros N0 Dj; cbn [app]; [exact R|]. inversion N0; subst. constructor.
      + intro K. apply in_app_iff in K. destruct K as [K|K]; [contradiction|]. apply (Dj x); [left; reflexivity|exact K].
      + apply IHl; [assumption|]. intros v Hv. apply Dj. right. exact Hv.
    - intros u t. split.
      + intros [js [H [Hu Ht]]]. apply filter_In in H. destruct H as [H _]. apply in_map_iff in H. destruct H as [[a l] [<- H]]. cbn [snd] in *. apply filter_In in Hu, Ht. destruct Hu as [Hu Iu], Ht as [Ht It].
        apply (proj1 (in_iter iter Hiter _ _)) in Hu. apply (proj1 (in_iter iter Hiter _ _)) in Ht. split; [|auto]. apply (In_afind a l _ (i_heap s I)) in H. apply (aliased_addr s u t I). exists a. split; eapply (i_mem s I); eauto.
      + intros [H [Iu It]]. apply (aliased_addr s u t I) in H. destruct H as [a [H1 H2]].
        assert (X : exists l, afind a (heap s) = Some l /\ In u l).
        { unfold addrOf in H1. destruct (afind u (sets s)) as [b|] eqn:Eb; [|discriminate]. destruct (i_val s I u b Eb) as [a' [l [E1 [E2 E3]]]]. rewrite E1 in H1. injection H1 as ->. eauto. }
        destruct X as [l [X1 X2]].
        assert (Y : In t l).
        { unfold addrOf in H2. destruct (afind t (sets s)) as [b|] eqn:Eb; [|discriminate]. destruct (i_val s I t b Eb) as [a' [l' [E1 [E2 E3]]]]. congruence. }
        exists (filter hasId (iter l)). assert (Z : In u (filter hasId (iter l))) by (apply filter_In; split; [apply (in_iter iter Hiter); exact X2|exact Iu]).
        split; [|split; [exact Z|apply filter_In; split; [apply (in_iter iter Hiter); exact Y|exact It]]].
        apply filter_In. split; [|destruct (filter hasId (iter l)); [destruct Z|reflexivity]]. apply in_map_iff. exists (a, l). split; [reflexivity|]. apply afind_In. exact X1.
  Qed.

  Lemma json_ok hasId s jss fns : Inv s -> Permutation jss (fst (getAsJson iter hasId s)) -> Permutation fns (snd (getAsJson iter hasId s)) -> jss <> [] -> fns <> [] ->
    exists t, loadJson fresh jss fns = Some t /\ Inv t /\ (forall u v, aliased t u v <-> aliased s u v /\ hasId u = true /\ hasId v = true) /\ (forall f, In f (analyzed t) <-> In f (analyzed s)).
  Proof.
    intros I P Pf Ne Nf. destruct (json_sets hasId s I) as [J1 [J2 J3]]. unfold loadJson.
    destruct (loadSets_ok jss emptyA inv_empty) as [t [R [It At]]].
    - intros js Hj. apply J1. apply (Permutation_in _ P Hj).
    - apply (Permutation_NoDup (l := concat (fst (getAsJson iter hasId s)))); [|exact J2]. apply Permutation_sym in P. clear - P. induction P; cbn [concat]; [constructor|apply Permutation_app_head; assumption| |eapply perm_trans; eauto].
      rewrite !app_assoc. apply Permutation_app_tail, Permutation_app_comm.
    - reflexivity.
    - rewrite R. destruct jss as [|js jss]; [now elim Ne|]. destruct fns as [|f fns]; [now elim Nf|]. eexists. split; [reflexivity|]. split; [destruct It; constructor; assumption|]. split.
      + intros u v. change (aliased t u v <-> aliased s u v /\ hasId u = true /\ hasId v = true). rewrite At, <- J3. split.
        * intros [[b [l [E _]]]|[j [H1 H2]]]; [discriminate|]. exists j. split; [apply (Permutation_in _ P H1)|exact H2].
        * intros [j [H1 H2]]. right. exists j. split; [apply (Permutation_in _ (Permutation_sym P) H1)|exact H2].
      + intro g. cbn [analyzed]. rewrite fold_sinsert_in. cbn [getAsJson snd] in Pf. split.
        * intros [H|[]]. apply (Permutation_in _ Pf H).
        * intro H. left. apply (Permutation_in _ (Permutation_sym Pf) H).
  Qed.
End Json.
