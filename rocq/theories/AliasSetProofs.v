From Coq Require Import List Bool Arith Lia Permutation.
From Verif Require Import Assoc UtilitiesModel UtilitiesSpec UtilitiesProofs AliasSetModel AliasSetSpec.
Import ListNotations.

Lemma nth_setNth b a : forall l k, nth_error (setNth b a l) k = if (k =? b) && (k <? length l) then Some a else nth_error l k.
Proof.
  induction b as [|b IH]; intros [|x l] [|k]; try reflexivity.
  - cbn. rewrite andb_false_r. reflexivity.
  - change (nth_error (setNth b a l) k = if (k =? b) && (k <? length l) then Some a else nth_error l k). apply IH.
Qed.

Lemma fold_sinsert_in (xs : list nat) : forall l y, In y (fold_left (fun l x => sinsert x l) xs l) <-> In y xs \/ In y l.
Proof.
  induction xs as [|x xs IH]; intros l y; cbn; [tauto|]. rewrite IH, In_sinsert. intuition.
Qed.
Lemma fold_sinsert_nodup (xs : list nat) : forall l, NoDup l -> NoDup (fold_left (fun l x => sinsert x l) xs l).
Proof. induction xs as [|x xs IH]; intros l H; cbn; [exact H|]. apply IH. apply NoDup_sinsert. exact H. Qed.

Lemma afind_snoc (a : nat) (l0 : list nat) h : afind a h = None -> forall a', afind a' (h ++ [(a, l0)]) = if eq_dec a' a then Some l0 else afind a' h.
Proof.
  induction h as [|[k l] h IH]; intros Fa a'; cbn [app afind] in *; [reflexivity|]. destruct (eq_dec a k); [discriminate|].
  destruct (eq_dec a' k) as [-> |]; [destruct (eq_dec k a); congruence|]. exact (IH Fa a').
Qed.

Definition addrOf (s : ast) (v : nat) : option nat := match afind v (sets s) with Some b => nth_error (boxes s) b | None => None end.

Record Inv (s : ast) : Prop := mkInv {
  i_sets : NoDup (akeys (sets s));
  i_heap : NoDup (akeys (heap s));
  i_val : forall v b, afind v (sets s) = Some b -> exists a l, nth_error (boxes s) b = Some a /\ afind a (heap s) = Some l /\ In v l;
  i_mem : forall a l v, afind a (heap s) = Some l -> In v l -> addrOf s v = Some a;
  i_nd : forall a l, afind a (heap s) = Some l -> NoDup l /\ l <> []
}.

Lemma known_addr s v : Inv s -> (known s v <-> exists a, addrOf s v = Some a).
Proof.
  intro I. unfold known, addrOf. split.
  - intros [b E]. destruct (i_val s I v b E) as [a [l [Ea _]]]. rewrite E. eauto.
  - intros [a E]. destruct (afind v (sets s)) as [b|]; [eauto|discriminate].
Qed.

Lemma aliased_addr s v w : Inv s -> (aliased s v w <-> exists a, addrOf s v = Some a /\ addrOf s w = Some a).
Proof.
  intro I. unfold aliased, deref. split.
  - intros [b [l [Eb [Ed Hw]]]]. destruct (nth_error (boxes s) b) as [a|] eqn:Ea; [|discriminate]. exists a. split.
    + unfold addrOf. rewrite Eb. exact Ea.
    + exact (i_mem s I a l w Ed Hw).
  - intros [a [Hv Hw]]. unfold addrOf in Hv. destruct (afind v (sets s)) as [b|] eqn:Eb; [|discriminate]. exists b.
    unfold addrOf in Hw. destruct (afind w (sets s)) as [b'|] eqn:Eb'; [|discriminate].
    destruct (i_val s I w b' Eb') as [a' [l [Ea' [El Hl]]]]. rewrite Hw in Ea'. injection Ea' as <-. exists l. rewrite Hv. auto.
Qed.

Lemma aliased_refl s v : Inv s -> known s v -> aliased s v v.
Proof. intros I K. apply (known_addr s v I) in K. destruct K as [a K]. apply (aliased_addr s v v I). eauto. Qed.
Lemma aliased_sym s v w : Inv s -> aliased s v w -> aliased s w v.
Proof. intros I K. apply (aliased_addr s v w I) in K. destruct K as [a [K1 K2]]. apply (aliased_addr s w v I). eauto. Qed.
Lemma aliased_trans s u v w : Inv s -> aliased s u v -> aliased s v w -> aliased s u w.
Proof.
  intros I K1 K2. apply (aliased_addr s u v I) in K1. apply (aliased_addr s v w I) in K2. destruct K1 as [a [A1 A2]], K2 as [b [B1 B2]].
  apply (aliased_addr s u w I). exists a. split; [exact A1|congruence].
Qed.
Lemma aliased_known s v w : Inv s -> aliased s v w -> known s v /\ known s w.
Proof.
  intros I K. apply (aliased_addr s v w I) in K. destruct K as [a [K1 K2]]. split; apply (known_addr s _ I); eauto.
Qed.

Lemma inv_empty : Inv emptyA.
Proof. constructor; cbn; try constructor; intros; discriminate. Qed.

Section O.
  Variable asserts : bool.
  Variable fresh : list nat -> nat.
  Variable iter : list nat -> list nat.
  Hypothesis Hfresh : forall l, ~ In (fresh l) l.
  Hypothesis Hiter : forall l, Permutation (iter l) l.

  Lemma in_iter l x : In x (iter l) <-> In x l.
  Proof. split; apply Permutation_in; [apply Hiter|apply Permutation_sym, Hiter]. Qed.

  (** how [s'] extends [s]: boxes of values stay, the analysed functions stay *)
  Definition Ext (s s' : ast) : Prop := (forall v b, afind v (sets s) = Some b -> afind v (sets s') = Some b) /\ analyzed s' = analyzed s.
  Lemma ext_refl s : Ext s s. Proof. split; auto. Qed.
  Lemma ext_trans a b c : Ext a b -> Ext b c -> Ext a c.
  Proof. intros [H1 H2] [H3 H4]. split; [auto|congruence]. Qed.
  Lemma ext_known s s' v : Ext s s' -> known s v -> known s' v.
  Proof. intros [H _] [b K]. exists b. auto. Qed.

  (** adding [v] to the box [b], creating the entry of [v] *)
  Lemma attachNew s v b a l : Inv s -> afind v (sets s) = None -> nth_error (boxes s) b = Some a -> afind a (heap s) = Some l ->
    exists s', insertAll b [v] (mkA (heap s) (boxes s) (aset v b (sets s)) (analyzed s)) = Some s' /\ Inv s' /\ Ext s s'
      /\ (forall u, addrOf s' u = if u =? v then Some a else addrOf s u).
  Proof.
    intros I N Eb Ea. unfold insertAll. cbn [boxes heap sets analyzed]. rewrite Eb, Ea. eexists. split; [reflexivity|].
    assert (AD : forall u, addrOf (mkA (aset a (fold_left (fun l x => sinsert x l) [v] l) (heap s)) (boxes s) (aset v b (sets s)) (analyzed s)) u = if u =? v then Some a else addrOf s u).
    { intro u. unfold addrOf. cbn [sets boxes]. rewrite afind_aset. destruct (eq_dec u v) as [-> |Ne]; [rewrite Nat.eqb_refl; exact Eb|]. rewrite (proj2 (Nat.eqb_neq u v) Ne). reflexivity. }
    split; [|split; [|exact AD]].
    - constructor; cbn [sets heap boxes].
      + apply NoDup_aset, (i_sets s I).
      + apply NoDup_aset, (i_heap s I).
      + intros u b' E. rewrite afind_aset in E. destruct (eq_dec u v) as [-> |Ne].
        * injection E as <-. exists a, (sinsert v l). split; [exact Eb|]. split; [rewrite afind_aset_eq; reflexivity|]. apply In_sinsert. auto.
        * destruct (i_val s I u b' E) as [a' [l' [E1 [E2 E3]]]]. exists a'. rewrite afind_aset. destruct (eq_dec a' a) as [-> |Na].
          -- exists (sinsert v l). split; [exact E1|]. split; [reflexivity|]. rewrite E2 in Ea. injection Ea as ->. apply In_sinsert. auto.
          -- exists l'. auto.
      + intros a' l' u E Hu. rewrite AD. rewrite afind_aset in E. destruct (eq_dec a' a) as [-> |Na].
        * injection E as <-. cbn [fold_left] in Hu. apply In_sinsert in Hu. destruct (u =? v) eqn:Q; [reflexivity|]. apply Nat.eqb_neq in Q. destruct Hu as [Hu|Hu]; [contradiction|]. exact (i_mem s I a l u Ea Hu).
        * destruct (u =? v) eqn:Q; [|exact (i_mem s I a' l' u E Hu)]. apply Nat.eqb_eq in Q. subst u. pose proof (i_mem s I a' l' v E Hu) as K. unfold addrOf in K. rewrite N in K. discriminate.
      + intros a' l' E. rewrite afind_aset in E. destruct (eq_dec a' a) as [-> |Na]; [|exact (i_nd s I a' l' E)].
        injection E as <-. cbn [fold_left]. split; [apply NoDup_sinsert; apply (i_nd s I a l Ea)|]. intro Q. assert (K : In v (sinsert v l)) by (apply In_sinsert; auto). rewrite Q in K. exact K.
    - split; [|reflexivity]. cbn [sets]. intros u b' E. rewrite afind_aset. destruct (eq_dec u v) as [-> |Ne]; [congruence|exact E].
  Qed.

  Lemma addSingleton_ok s v : Inv s -> exists s', addSingleton asserts fresh v s = Some s' /\ Inv s' /\ Ext s s' /\ known s' v
    /\ (forall u t, aliased s' u t <-> aliased s u t \/ (u = v /\ t = v)) /\ (forall u, known s' u <-> known s u \/ u = v).
  Proof.
    intro I. unfold addSingleton. destruct (afind v (sets s)) as [b|] eqn:E.
    - exists s. assert (Kv : known s v) by (exists b; exact E).
      split; [|split; [exact I|split; [apply ext_refl|split; [exact Kv|split]]]].
      + destruct (i_val s I v b E) as [a [l [E1 [E2 E3]]]]. unfold deref. rewrite E1, E2, (proj2 (mem_true v l) E3). destruct asserts; reflexivity.
      + intros u t. split; [auto|]. intros [H|[-> ->]]; [exact H|]. apply aliased_refl; auto.
      + intro u. split; [auto|]. intros [H| ->]; auto.
    - unfold acquire. set (a := fresh (akeys (heap s))).
      assert (Fa : afind a (heap s) = None) by (apply afind_None; apply Hfresh).
      unfold insertAll. cbn [boxes heap sets analyzed].
      assert (NB : nth_error (boxes s ++ [a]) (length (boxes s)) = Some a) by (rewrite nth_error_app2, Nat.sub_diag by lia; reflexivity).
      assert (FH : forall a', afind a' (heap s ++ [(a, [])]) = if eq_dec a' a then Some [] else afind a' (heap s)).
      { intro a'. apply afind_snoc. exact Fa. }
      rewrite NB, FH. destruct (eq_dec a a) as [_|]; [|contradiction]. cbn [fold_left]. change (sinsert v []) with [v]. cbn [heap boxes sets analyzed]. eexists. split; [reflexivity|].
      set (H' := aset a [v] (heap s ++ [(a, [])])).
      assert (HF : forall a', afind a' H' = if eq_dec a' a then Some [v] else afind a' (heap s)).
      { intro a'. unfold H'. rewrite afind_aset. destruct (eq_dec a' a) as [-> |Ne]; [reflexivity|]. rewrite FH. destruct (eq_dec a' a); [contradiction|reflexivity]. }
      set (s' := mkA H' (boxes s ++ [a]) (aset v (length (boxes s)) (sets s)) (analyzed s)).
      assert (OB : forall b x, nth_error (boxes s) b = Some x -> nth_error (boxes s ++ [a]) b = Some x).
      { intros b x Hb. rewrite nth_error_app1; [exact Hb|]. apply nth_error_Some. congruence. }
      assert (AD : forall u, addrOf s' u = if u =? v then Some a else addrOf s u).
      { intro u. unfold addrOf, s'. cbn [sets boxes]. rewrite afind_aset. destruct (eq_dec u v) as [-> |Ne]; [rewrite Nat.eqb_refl; exact NB|]. rewrite (proj2 (Nat.eqb_neq u v) Ne).
        destruct (afind u (sets s)) as [b|] eqn:Eu; [|reflexivity]. destruct (i_val s I u b Eu) as [a' [l' [E1 _]]]. rewrite E1. apply OB. exact E1. }
      assert (I' : Inv s').
      { constructor; unfold s'; cbn [sets heap boxes].
        - apply NoDup_aset, (i_sets s I).
        - unfold H'. apply NoDup_aset. unfold akeys. rewrite map_app. cbn. apply NoDup_app_single; [apply (i_heap s I)|apply Hfresh].
        - intros u b E'. rewrite afind_aset in E'. destruct (eq_dec u v) as [-> |Ne].
          + injection E' as <-. exists a, [v]. split; [exact NB|]. rewrite HF. destruct (eq_dec a a); [|contradiction]. cbn. auto.
          + destruct (i_val s I u b E') as [a' [l' [E1 [E2 E3]]]]. exists a', l'. split; [apply OB; exact E1|]. rewrite HF. destruct (eq_dec a' a) as [-> |]; [congruence|]. auto.
        - intros a' l' u E' Hu. fold s'. rewrite AD. rewrite HF in E'. destruct (eq_dec a' a) as [-> |Na].
          + injection E' as <-. destruct Hu as [<- |[]]. rewrite Nat.eqb_refl. reflexivity.
          + pose proof (i_mem s I a' l' u E' Hu) as K. destruct (u =? v) eqn:Q; [|exact K]. apply Nat.eqb_eq in Q. subst u. unfold addrOf in K. rewrite E in K. discriminate.
        - intros a' l' E'. rewrite HF in E'. destruct (eq_dec a' a); [|exact (i_nd s I a' l' E')]. injection E' as <-. split; [repeat constructor; intros []|discriminate]. }
      split; [exact I'|]. split; [split; [|reflexivity]; unfold s'; cbn [sets]; intros u b E'; rewrite afind_aset; destruct (eq_dec u v) as [-> |]; [congruence|exact E']|].
      split; [apply (known_addr s' v I'); exists a; rewrite AD, Nat.eqb_refl; reflexivity|].
      assert (NA : forall u, addrOf s u <> Some a).
      { intros u Q. unfold addrOf in Q. destruct (afind u (sets s)) as [b|] eqn:Eu; [|discriminate]. destruct (i_val s I u b Eu) as [a' [l' [E1 [E2 _]]]]. congruence. }
      assert (NV : addrOf s v = None) by (unfold addrOf; rewrite E; reflexivity).
      split.
      + intros u t. rewrite (aliased_addr s' u t I'), (aliased_addr s u t I). split.
        * intros [x [A1 A2]]. rewrite AD in A1, A2. destruct (u =? v) eqn:Q1, (t =? v) eqn:Q2.
          -- apply Nat.eqb_eq in Q1, Q2. auto.
          -- exfalso. apply (NA t). congruence.
          -- exfalso. apply (NA u). congruence.
          -- left. eauto.
        * intros [[x [A1 A2]]|[-> ->]].
          -- exists x. rewrite !AD. destruct (u =? v) eqn:Q1; [apply Nat.eqb_eq in Q1; congruence|]. destruct (t =? v) eqn:Q2; [apply Nat.eqb_eq in Q2; congruence|]. auto.
          -- exists a. rewrite AD, Nat.eqb_refl. auto.
      + intro u. rewrite (known_addr s' u I'), (known_addr s u I). rewrite AD. destruct (u =? v) eqn:Q.
        * apply Nat.eqb_eq in Q. split; [auto|]. intros _. eauto.
        * apply Nat.eqb_neq in Q. split; [auto|]. intros [K|K]; [exact K|contradiction].
  Qed.

  (** the redirection loop *)
  Lemma redirect_fold sa la large (L : list nat) : la <> sa -> forall s,
    (forall x, In x L -> exists b a, afind x (sets s) = Some b /\ nth_error (boxes s) b = Some a) ->
    nth_error (boxes s) large = Some la ->
    exists B, fold_left (redirect sa large) L (Some s) = Some (mkA (heap s) B (sets s) (analyzed s))
      /\ forall b, nth_error B b = match nth_error (boxes s) b with
                                   | Some a => if (a =? sa) && existsb (fun x => match afind x (sets s) with Some b' => b' =? b | None => false end) L then Some la else Some a
                                   | None => None end.
  Proof.
    intro Ne. induction L as [|x L IH]; intros s HL HB; cbn [fold_left].
    - exists (boxes s). split; [destruct s; reflexivity|]. intro b. destruct (nth_error (boxes s) b); [|reflexivity]. cbn [existsb]. rewrite andb_false_r. reflexivity.
    - destruct (HL x (or_introl eq_refl)) as [b [a [E1 E2]]]. unfold redirect at 2. rewrite E1, E2, HB.
      assert (Hx : forall b', match afind x (sets s) with Some b1 => b1 =? b' | None => false end = (b =? b')) by (intro b'; rewrite E1; reflexivity).
      destruct (a =? sa) eqn:Ea.
      + apply Nat.eqb_eq in Ea. subst a. set (s1 := mkA (heap s) (setNth b la (boxes s)) (sets s) (analyzed s)).
        assert (Lb : b < length (boxes s)) by (apply nth_error_Some; congruence).
        assert (HB1 : forall k, nth_error (boxes s1) k = if k =? b then Some la else nth_error (boxes s) k).
        { intro k. unfold s1. cbn [boxes]. rewrite nth_setNth. destruct (k =? b) eqn:Q; [|reflexivity]. apply Nat.eqb_eq in Q. subst k. rewrite (proj2 (Nat.ltb_lt _ _) Lb). reflexivity. }
        destruct (IH s1) as [B [E3 E4]].
        * intros y Hy. destruct (HL y (or_intror Hy)) as [b' [a' [F1 F2]]]. exists b'. rewrite HB1. unfold s1; cbn [sets]. destruct (b' =? b); eauto.
        * rewrite HB1. destruct (large =? b); [reflexivity|exact HB].
        * exists B. split; [exact E3|]. intro k. rewrite E4, HB1. unfold s1; cbn [sets]. destruct (k =? b) eqn:Q.
          -- apply Nat.eqb_eq in Q. subst k. rewrite E2. cbn [existsb]. rewrite Hx, Nat.eqb_refl. rewrite (proj2 (Nat.eqb_neq la sa) Ne), Nat.eqb_refl. reflexivity.
          -- destruct (nth_error (boxes s) k); [|reflexivity]. cbn [existsb]. rewrite Hx, (Nat.eqb_sym b k), Q. reflexivity.
      + destruct (IH s) as [B [E3 E4]]; [intros y Hy; apply HL; right; exact Hy|exact HB|]. exists B. split; [exact E3|]. intro k. rewrite E4. destruct (nth_error (boxes s) k) as [a'|] eqn:Ek; [|reflexivity]. cbn [existsb]. rewrite Hx.
        destruct (b =? k) eqn:Q; [|reflexivity]. apply Nat.eqb_eq in Q. subst k. rewrite E2 in Ek. injection Ek as <-. rewrite Ea. reflexivity.
  Qed.

  Lemma mergeInto_ok s small large sa la ls ll vl : Inv s -> afind vl (sets s) = Some large ->
    nth_error (boxes s) small = Some sa -> nth_error (boxes s) large = Some la -> sa <> la -> afind sa (heap s) = Some ls -> afind la (heap s) = Some ll ->
    exists s', match insertAll large (iter ls) s with
               | Some s1 => match fold_left (redirect sa large) (iter ls) (Some s1) with Some s2 => release sa s2 | None => None end
               | None => None end = Some s' /\ Inv s' /\ sets s' = sets s /\ analyzed s' = analyzed s
      /\ forall u, addrOf s' u = if eq_dec (addrOf s u) (Some sa) then Some la else addrOf s u.
  Proof.
    intros I Hvl Esm Ela Ne Hs Hl. unfold insertAll. rewrite Ela, Hl.
    set (U := fold_left (fun l x => sinsert x l) (iter ls) ll). set (s1 := mkA (aset la U (heap s)) (boxes s) (sets s) (analyzed s)).
    assert (InU : forall y, In y U <-> In y ls \/ In y ll) by (intro y; unfold U; rewrite fold_sinsert_in, in_iter; reflexivity).
    destruct (redirect_fold sa la large (iter ls) (not_eq_sym Ne) s1) as [B [E3 E4]].
    - intros x Hx. apply (proj1 (in_iter ls x)) in Hx. pose proof (i_mem s I sa ls x Hs Hx) as K. unfold addrOf in K. unfold s1; cbn [sets boxes]. destruct (afind x (sets s)) as [b|] eqn:Eb; [|discriminate]. eauto.
    - exact Ela.
    - rewrite E3. unfold release. cbn [heap s1]. rewrite afind_aset_neq by exact Ne. rewrite Hs. eexists. split; [reflexivity|].
      unfold s1 in E4; cbn [sets boxes] in E4. unfold s1; cbn [heap boxes sets analyzed].
      set (s' := mkA (adel sa (aset la U (heap s))) B (sets s) (analyzed s)).
      assert (NH : NoDup (akeys (aset la U (heap s)))) by (apply NoDup_aset, (i_heap s I)).
      assert (HF : forall a, afind a (heap s') = if eq_dec a sa then None else if eq_dec a la then Some U else afind a (heap s)).
      { intro a. unfold s'; cbn [heap]. rewrite afind_adel by exact NH. destruct (eq_dec a sa); [reflexivity|]. apply afind_aset. }
      assert (AD : forall u, addrOf s' u = if eq_dec (addrOf s u) (Some sa) then Some la else addrOf s u).
      { intro u. unfold addrOf, s'. cbn [sets boxes]. destruct (afind u (sets s)) as [b|] eqn:Eb; [|destruct (eq_dec None (Some sa)); [discriminate|reflexivity]].
        rewrite E4. destruct (i_val s I u b Eb) as [a [l [E1 [E2 E5]]]]. rewrite E1. destruct (eq_dec (Some a) (Some sa)) as [Q|Q].
        - injection Q as ->. rewrite Nat.eqb_refl. rewrite E2 in Hs. injection Hs as ->.
          assert (X : existsb (fun x => match afind x (sets s) with Some b' => b' =? b | None => false end) (iter ls) = true).
          { apply existsb_exists. exists u. split; [apply in_iter; exact E5|]. rewrite Eb. apply Nat.eqb_refl. }
          rewrite X. reflexivity.
        - assert (Q' : (a =? sa) = false) by (apply Nat.eqb_neq; congruence). rewrite Q'. reflexivity. }
      split; [|auto].
      constructor.
      + exact (i_sets s I).
      + unfold s'; cbn [heap]. apply NoDup_adel. exact NH.
      + intros v b E. change (sets s') with (sets s) in E. pose proof (AD v) as A. unfold addrOf in A. change (sets s') with (sets s) in A. rewrite E in A.
        destruct (i_val s I v b E) as [a [l [E1 [E2 E5]]]]. rewrite E1 in A. destruct (eq_dec (Some a) (Some sa)) as [Q|Q].
        * injection Q as ->. exists la, U. split; [exact A|]. rewrite HF. destruct (eq_dec la sa); [congruence|]. destruct (eq_dec la la); [|contradiction]. split; [reflexivity|]. apply InU. left. congruence.
        * rewrite E1 in A || idtac. assert (Na : a <> sa) by congruence. destruct (eq_dec a la) as [-> |Nl].
          -- exists la, U. split; [exact A|]. rewrite HF. destruct (eq_dec la sa); [contradiction|]. destruct (eq_dec la la); [|contradiction]. split; [reflexivity|]. apply InU. right. congruence.
          -- exists a, l. split; [exact A|]. rewrite HF. destruct (eq_dec a sa); [contradiction|]. destruct (eq_dec a la); [contradiction|]. auto.
      + intros a l v E Hv. rewrite AD. rewrite HF in E. destruct (eq_dec a sa); [discriminate|]. destruct (eq_dec a la) as [-> |Nl].
        * injection E as <-. apply InU in Hv. destruct Hv as [Hv|Hv].
          -- rewrite (i_mem s I sa ls v Hs Hv). destruct (eq_dec (Some sa) (Some sa)); [reflexivity|contradiction].
          -- rewrite (i_mem s I la ll v Hl Hv). destruct (eq_dec (Some la) (Some sa)); reflexivity.
        * rewrite (i_mem s I a l v E Hv). destruct (eq_dec (Some a) (Some sa)); [congruence|reflexivity].
      + intros a l E. rewrite HF in E. destruct (eq_dec a sa); [discriminate|]. destruct (eq_dec a la) as [-> |Nl]; [|exact (i_nd s I a l E)].
        injection E as <-. destruct (i_nd s I la ll Hl) as [N1 N2]. split; [apply fold_sinsert_nodup; exact N1|]. intro Q. destruct ll as [|y ll']; [now elim N2|].
        assert (K : In y U) by (apply InU; right; left; reflexivity). rewrite Q in K. exact K.
  Qed.

  Definition joined (s : ast) (x y u t : nat) : Prop := aliased s u t \/ (aliased s u x /\ aliased s y t) \/ (aliased s u y /\ aliased s x t).

  Lemma mergeBoxes_ok s v1 v2 b1 b2 : Inv s -> afind v1 (sets s) = Some b1 -> afind v2 (sets s) = Some b2 ->
    exists s', mergeBoxes iter b1 b2 s = Some s' /\ Inv s' /\ sets s' = sets s /\ analyzed s' = analyzed s
      /\ forall u t, aliased s' u t <-> joined s v1 v2 u t.
  Proof.
    intros I E1 E2. unfold mergeBoxes. destruct (i_val s I v1 b1 E1) as [a1 [l1 [A1 [H1 M1]]]], (i_val s I v2 b2 E2) as [a2 [l2 [A2 [H2 M2]]]]. rewrite A1, A2.
    assert (D1 : addrOf s v1 = Some a1) by (unfold addrOf; rewrite E1; exact A1). assert (D2 : addrOf s v2 = Some a2) by (unfold addrOf; rewrite E2; exact A2).
    destruct ((b1 =? b2) || (a1 =? a2)) eqn:Q.
    - assert (a1 = a2) by (apply orb_true_iff in Q; destruct Q as [Q|Q]; apply Nat.eqb_eq in Q; congruence). subst a2.
      exists s. split; [reflexivity|]. split; [exact I|]. split; [reflexivity|]. split; [reflexivity|]. intros u t. split.
      + intro H. left. exact H.
      + intros [H|[[K1 K2]|[K1 K2]]]; [exact H| |];
          (eapply (aliased_trans s u); [exact I|exact K1|]; eapply (aliased_trans s); [exact I| |exact K2]; apply (aliased_addr s _ _ I); exists a1; auto).
    - apply orb_false_iff in Q. destruct Q as [_ Q]. apply Nat.eqb_neq in Q. rewrite H1, H2.
      assert (F : forall s' sa la, Inv s' -> (sa = a1 /\ la = a2 \/ sa = a2 /\ la = a1) ->
                (forall u, addrOf s' u = if eq_dec (addrOf s u) (Some sa) then Some la else addrOf s u) -> forall u t, aliased s' u t <-> joined s v1 v2 u t).
      { intros s' sa la I' Hc AD u t. unfold joined. rewrite (aliased_addr s' u t I'), !(aliased_addr s _ _ I), D1, D2, !AD. split.
        - intros [x [X1 X2]]. destruct (eq_dec (addrOf s u) (Some sa)) as [Pu|Pu], (eq_dec (addrOf s t) (Some sa)) as [Pt|Pt].
          + left. eauto.
          + injection X1 as <-. destruct Hc as [[-> ->]|[-> ->]]; [right; left|right; right]; split; eauto.
          + injection X2 as <-. destruct Hc as [[-> ->]|[-> ->]]; [right; right|right; left]; split; eauto.
          + left. eauto.
        - intros [[x [X1 X2]]|[[[x [X1 X2]] [y [Y1 Y2]]]|[[x [X1 X2]] [y [Y1 Y2]]]]]; rewrite ?X1, ?Y2, ?X2.
          + destruct (eq_dec (Some x) (Some sa)); eauto.
          + injection X2 as <-. injection Y1 as <-. exists la. destruct Hc as [[-> ->]|[-> ->]]; destruct (eq_dec (Some a1) _), (eq_dec (Some a2) _); try congruence; auto.
          + injection X2 as <-. injection Y1 as <-. exists la. destruct Hc as [[-> ->]|[-> ->]]; destruct (eq_dec (Some a1) _), (eq_dec (Some a2) _); try congruence; auto. }
      destruct (length l2 <? length l1).
      + destruct (mergeInto_ok s b2 b1 a2 a1 l2 l1 v1 I E1 A2 A1 (not_eq_sym Q) H2 H1) as [s' [R [I' [S' [N' AD]]]]]. exists s'. repeat (split; [assumption|]). apply (F s' a2 a1 I'); auto.
      + destruct (mergeInto_ok s b1 b2 a1 a2 l1 l2 v2 I E2 A1 A2 Q H1 H2) as [s' [R [I' [S' [N' AD]]]]]. exists s'. repeat (split; [assumption|]). apply (F s' a1 a2 I'); auto.
  Qed.

  Lemma mergeValues_ok s x y : Inv s -> known s x -> known s y -> exists s', mergeValues iter x y s = Some s' /\ Inv s' /\ sets s' = sets s /\ analyzed s' = analyzed s
      /\ forall u t, aliased s' u t <-> joined s x y u t.
  Proof.
    intros I [b1 E1] [b2 E2]. unfold mergeValues. destruct (x =? y) eqn:Q.
    - apply Nat.eqb_eq in Q. subst y. exists s. split; [reflexivity|]. split; [exact I|]. split; [reflexivity|]. split; [reflexivity|]. intros u t. split.
      + intro H. left. exact H.
      + intros [H|[[K1 K2]|[K1 K2]]]; [exact H|exact (aliased_trans s _ _ _ I K1 K2)|exact (aliased_trans s _ _ _ I K1 K2)].
    - rewrite E1, E2. apply mergeBoxes_ok; auto.
  Qed.

  Lemma joined_xy s x y : Inv s -> known s x -> known s y -> joined s x y x y.
  Proof. intros I Kx Ky. right. left. split; apply aliased_refl; auto. Qed.

  (** attaching [v] to the set of [r] *)
  Lemma attach_ok s v r b : Inv s -> afind r (sets s) = Some b -> exists s', attach iter v b s = Some s' /\ Inv s' /\ Ext s s' /\ known s' v
    /\ (forall u, known s' u <-> known s u \/ u = v) /\ aliased s' v r
    /\ (forall u t, aliased s u t -> aliased s' u t)
    /\ (forall D L, (forall u t, aliased s u t -> conn D L u t) -> D v -> L v r -> forall u t, aliased s' u t -> conn D L u t).
  Proof.
    intros I E. unfold attach. assert (Kr : known s r) by (exists b; exact E). destruct (afind v (sets s)) as [b'|] eqn:Ev.
    - assert (Kv : known s v) by (exists b'; exact Ev). destruct (mergeBoxes_ok s r v b b' I E Ev) as [s' [R [I' [S' [N' A']]]]]. exists s'.
      assert (Kn : forall u, known s' u <-> known s u) by (intro u; unfold known; rewrite S'; reflexivity).
      split; [exact R|]. split; [exact I'|]. split; [split; [intros u b1; rewrite S'; auto|exact N']|]. split; [apply Kn; exact Kv|].
      split; [intro u; rewrite Kn; split; [auto|]; intros [K| ->]; auto|].
      split; [apply A'; right; right; split; apply aliased_refl; auto|]. split; [intros u t H; apply A'; left; exact H|].
      intros D L HU Dv Lv u t H. apply A' in H. destruct H as [H|[[K1 K2]|[K1 K2]]].
      + apply HU. exact H.
      + apply c_trans with r; [apply HU; exact K1|]. apply c_trans with v; [apply c_sym, c_link; exact Lv|apply HU; exact K2].
      + apply c_trans with v; [apply HU; exact K1|]. apply c_trans with r; [apply c_link; exact Lv|apply HU; exact K2].
    - destruct (i_val s I r b E) as [a [l [E1 [E2 E3]]]]. destruct (attachNew s v b a l I Ev E1 E2) as [s' [R [I' [X' AD]]]]. exists s'.
      assert (Dr : addrOf s r = Some a) by (unfold addrOf; rewrite E; exact E1).
      assert (Nv : addrOf s v = None) by (unfold addrOf; rewrite Ev; reflexivity).
      assert (Nrv : (r =? v) = false) by (apply Nat.eqb_neq; congruence).
      split; [exact R|]. split; [exact I'|]. split; [exact X'|].
      split; [apply (known_addr s' v I'); exists a; rewrite AD, Nat.eqb_refl; reflexivity|].
      split.
      { intro u. rewrite (known_addr s' u I'), (known_addr s u I), AD. destruct (u =? v) eqn:Q; [apply Nat.eqb_eq in Q; split; eauto|]. apply Nat.eqb_neq in Q. split; [auto|]. intros [K|K]; [exact K|contradiction]. }
      split; [apply (aliased_addr s' v r I'); exists a; rewrite !AD, Nat.eqb_refl, Nrv; auto|].
      split.
      { intros u t H. apply (aliased_addr s u t I) in H. destruct H as [x [X1 X2]]. apply (aliased_addr s' u t I'). exists x. rewrite !AD. destruct (u =? v) eqn:Q1; [apply Nat.eqb_eq in Q1; congruence|]. destruct (t =? v) eqn:Q2; [apply Nat.eqb_eq in Q2; congruence|]. auto. }
      intros D L HU Dv Lv u t H. apply (aliased_addr s' u t I') in H. destruct H as [x [X1 X2]]. rewrite AD in X1, X2.
      assert (Hr : forall z, addrOf s z = Some a -> conn D L r z) by (intros z Hz; apply HU; apply (aliased_addr s r z I); eauto).
      destruct (u =? v) eqn:Q1, (t =? v) eqn:Q2.
      + apply Nat.eqb_eq in Q1, Q2. subst. apply c_refl. exact Dv.
      + apply Nat.eqb_eq in Q1. subst u. apply c_trans with r; [apply c_link; exact Lv|]. apply Hr. congruence.
      + apply Nat.eqb_eq in Q2. subst t. apply c_sym, c_trans with r; [apply c_link; exact Lv|]. apply Hr. congruence.
      + apply HU. apply (aliased_addr s u t I). eauto.
  Qed.
End O.
