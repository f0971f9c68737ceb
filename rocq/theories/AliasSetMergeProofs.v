From Coq Require Import List Bool Arith Lia Permutation.
From Verif Require Import Assoc UtilitiesModel AliasSetModel AliasSetSpec AliasSetProofs.
Import ListNotations.

Lemma reindex (b : nat) (xs : list nat) : forall (m : list (nat * nat)) (z : nat), afind z (fold_left (fun m y => if mem y (akeys m) then m else aset y b m) xs m) =
  match afind z m with Some b' => Some b' | None => if mem z xs then Some b else None end.
Proof.
  induction xs as [|y xs IH]; intros m z; cbn [fold_left]; [destruct (afind z m); reflexivity|]. rewrite IH.
  destruct (mem y (akeys m)) eqn:E.
  - destruct (afind z m) as [b'|] eqn:Ez; [reflexivity|]. destruct (mem z (y :: xs)) eqn:Q.
    + apply mem_true in Q. destruct Q as [-> |Q]; [|rewrite (proj2 (mem_true z xs) Q); reflexivity]. apply mem_true in E. apply afind_None in Ez. contradiction.
    + destruct (mem z xs) eqn:Q2; [|reflexivity]. apply mem_true in Q2. assert (mem z (y :: xs) = true) by (apply mem_true; right; exact Q2). congruence.
  - rewrite afind_aset. destruct (eq_dec z y) as [-> |Ne].
    + assert (Ez : afind y m = None) by (apply afind_None; intro Q; apply mem_true in Q; congruence). rewrite Ez, (proj2 (mem_true y (y :: xs)) (or_introl eq_refl)). reflexivity.
    + destruct (afind z m) as [b'|]; [reflexivity|]. destruct (mem z (y :: xs)) eqn:Q, (mem z xs) eqn:Q2; try reflexivity.
      * apply mem_true in Q. destruct Q as [Q|Q]; [congruence|]. apply mem_true in Q. congruence.
      * apply mem_true in Q2. assert (mem z (y :: xs) = true) by (apply mem_true; right; exact Q2). congruence.
Qed.

Section G.
  Variable fresh : list nat -> nat.
  Hypothesis Hfresh : forall l, ~ In (fresh l) l.
  Variable s : ast.
  Hypothesis IS : Inv s.
  Variable es : list (nat * list nat).
  Hypothesis WE : wfEntries es.
  Notation D := (fun v => known s v \/ knownE es v).
  Notation L := (fun v w => aliased s v w \/ aliasedE es v w).

  Definition content (t : ast) (v : nat) (w : nat) : Prop := exists a l, addrOf t v = Some a /\ afind a (heap t) = Some l /\ In w l.

  Record J (p : list (nat * list nat)) (t : ast) : Prop := mkJ {
    j_box : forall v b, afind v (sets t) = Some b -> exists a l, nth_error (boxes t) b = Some a /\ afind a (heap t) = Some l /\ In v l;
    j_old : forall v b, afind v (sets s) = Some b -> afind v (sets t) = Some b /\ nth_error (boxes t) b = nth_error (boxes s) b;
    j_heap : forall a l w, afind a (heap s) = Some l -> In w l -> exists l', afind a (heap t) = Some l' /\ In w l';
    j_new : forall v, known t v -> known s v \/ exists e, In e p /\ In v (snd e);
    j_proc : forall e, In e p -> known t (fst e);
    j_src : meetsOne s es -> forall v a l w, addrOf t v = Some a -> afind a (heap t) = Some l -> In w l ->
      addrOf s w = Some a \/ exists e, In e p /\ In w (snd e) /\ addrOf t (fst e) = Some a;
    j_conn : forall v a l w, addrOf t v = Some a -> afind a (heap t) = Some l -> In w l -> conn D L v w;
    j_key : meetsOne s es -> forall e w, In e p -> In w (snd e) -> exists a l, addrOf t (fst e) = Some a /\ afind a (heap t) = Some l /\ In w l;
    j_same : meetsOne s es -> forall e x y a a', In e es -> In x (snd e) -> In y (snd e) -> addrOf t x = Some a -> addrOf t y = Some a' -> a = a'
  }.

  Lemma known_addrJ p t v : J p t -> (known t v <-> exists a, addrOf t v = Some a).
  Proof.
    intro H. unfold known, addrOf. split.
    - intros [b E]. destruct (j_box p t H v b E) as [a [l [Ea _]]]. rewrite E. eauto.
    - intros [a E]. destruct (afind v (sets t)) as [b|]; [eauto|discriminate].
  Qed.
  Lemma self_in p t v a : J p t -> addrOf t v = Some a -> exists l, afind a (heap t) = Some l /\ In v l.
  Proof.
    intros H E. unfold addrOf in E. destruct (afind v (sets t)) as [b|] eqn:Eb; [|discriminate]. destruct (j_box p t H v b Eb) as [a' [l [E1 [E2 E3]]]]. rewrite E1 in E. injection E as <-. eauto.
  Qed.
  Lemma old_addr p t v a : J p t -> addrOf s v = Some a -> addrOf t v = Some a.
  Proof. intros H E. unfold addrOf in *. destruct (afind v (sets s)) as [b|] eqn:Eb; [|discriminate]. destruct (j_old p t H v b Eb) as [E1 E2]. rewrite E1, E2. exact E. Qed.

  Lemma J_init s0 : sets s0 = sets s -> boxes s0 = boxes s -> heap s0 = heap s -> J [] s0.
  Proof.
    intros E1 E2 E3. assert (AD : forall v, addrOf s0 v = addrOf s v) by (intro v; unfold addrOf; rewrite E1, E2; reflexivity).
    constructor; try rewrite E1; try rewrite E2; try rewrite E3.
    - intros v b E. exact (i_val s IS v b E).
    - intros v b E. auto.
    - intros a l w E Hw. eauto.
    - intros v K. left. unfold known in *. rewrite E1 in K. exact K.
    - intros e [].
    - intros _ v a l w _ E Hw. left. exact (i_mem s IS a l w E Hw).
    - intros v a l w Ev E Hw. rewrite AD in Ev. apply c_link. left. apply (aliased_addr s v w IS). exists a. split; [exact Ev|exact (i_mem s IS a l w E Hw)].
    - intros _ e w [].
    - intros M [k set] x y a a' He Hx Hy. rewrite !AD. cbn [snd] in *. intros Ax Ay.
      destruct (e_all es WE k set x He Hx) as [set' Hx'].
      assert (Q : aliased s x y).
      { apply M.
        - exists set'. split; [exact Hx'|]. apply (e_same es WE k set x set' x He Hx' Hx (e_key es WE x set' Hx')). exact Hy.
        - apply (known_addr s x IS). eauto.
        - apply (known_addr s y IS). eauto. }
      apply (aliased_addr s x y IS) in Q. destruct Q as [c [Q1 Q2]]. congruence.
  Qed.

  (** the effect of one entry, abstractly *)
  Lemma J_step p t t' k set a l (N : nat -> Prop) : J p t -> In (k, set) es ->
    (forall v b, afind v (sets t) = Some b -> afind v (sets t') = Some b /\ nth_error (boxes t') b = nth_error (boxes t) b) ->
    (forall v b, afind v (sets t') = Some b -> exists a', nth_error (boxes t') b = Some a') ->
    (forall z a', addrOf t' z = Some a' <-> addrOf t z = Some a' \/ (addrOf t z = None /\ N z /\ a' = a)) ->
    (forall z, N z -> In z set) -> (N k \/ exists a', addrOf t k = Some a') ->
    (forall a', a' <> a -> afind a' (heap t') = afind a' (heap t)) ->
    (exists l', afind a (heap t') = Some l' /\ forall w, In w l' <-> In w set \/ In w l) ->
    ((exists x, In x set /\ addrOf t x = Some a) /\ afind a (heap t) = Some l /\ (forall z, In z set -> N z)
     \/ (forall z, In z set -> addrOf t z = None) /\ l = [] /\ afind a (heap t) = None /\ (forall z, N z -> z = k)) ->
    J ((k, set) :: p) t'.
  Proof.
    intros H He Ho Hb HA HN Hk HH [l' [Hl' Il']] Hc.
    assert (Kset : In k set) by exact (e_key es WE k set He).
    assert (Lset : forall x y, In x set -> In y set -> conn D L x y).
    { intros x y Hx Hy. apply c_link. right. destruct (e_all es WE k set x He Hx) as [set' Hx']. exists set'. split; [exact Hx'|].
      apply (e_same es WE k set x set' x He Hx' Hx (e_key es WE x set' Hx')). exact Hy. }
    assert (Mono : forall z a', addrOf t z = Some a' -> addrOf t' z = Some a') by (intros z a' E; apply HA; left; exact E).
    assert (HeapM : forall a' m w, afind a' (heap t) = Some m -> In w m -> exists m', afind a' (heap t') = Some m' /\ In w m').
    { intros a' m w E Hw. destruct (Nat.eq_dec a' a) as [-> |Ne]; [|exists m; rewrite (HH a' Ne); auto]. exists l'. split; [exact Hl'|]. apply Il'. right.
      destruct Hc as [[_ [E' _]]|[_ [_ [E' _]]]]; congruence. }
    assert (AA : forall z, addrOf t z = Some a -> In z l).
    { intros z E. destruct (self_in p t z a H E) as [m [E1 E2]]. destruct Hc as [[_ [E' _]]|[_ [_ [E' _]]]]; congruence. }
    (* a member of the class at [a] afterwards is connected to every element of the class *)
    assert (CC : forall v w, addrOf t' v = Some a -> In w l' -> conn D L v w).
    { intros v w Ev Hw. apply Il' in Hw. apply HA in Ev. destruct Hc as [[[x [Hx Ex]] [El HNs]]|[Hno [-> [El HNk]]]].
      - assert (Vx : conn D L v x).
        { destruct Ev as [Ev|[_ [Nv _]]]; [apply (j_conn p t H v a l x Ev El); apply AA; exact Ex|]. apply Lset; [apply HN; exact Nv|exact Hx]. }
        apply c_trans with x; [exact Vx|]. destruct Hw as [Hw|Hw]; [apply Lset; auto|]. exact (j_conn p t H x a l w Ex El Hw).
      - destruct Hw as [Hw|[]]. destruct Ev as [Ev|[_ [Nv _]]]; [|apply Lset; [apply HN; exact Nv|exact Hw]]. destruct (self_in p t v a H Ev) as [m [E1 _]]. congruence. }
    constructor.
    - intros v b E. destruct (Hb v b E) as [a' Ea']. assert (Av : addrOf t' v = Some a') by (unfold addrOf; rewrite E; exact Ea').
      apply HA in Av. destruct Av as [Av|[_ [Nv ->]]].
      + destruct (self_in p t v a' H Av) as [m [E1 E2]]. destruct (HeapM a' m v E1 E2) as [m' [E3 E4]]. exists a', m'. auto.
      + exists a, l'. split; [exact Ea'|]. split; [exact Hl'|]. apply Il'. left. apply HN. exact Nv.
    - intros v b E. destruct (j_old p t H v b E) as [E1 E2]. destruct (Ho v b E1) as [E3 E4]. split; [exact E3|congruence].
    - intros a' m w E Hw. destruct (j_heap p t H a' m w E Hw) as [m' [E1 E2]]. exact (HeapM a' m' w E1 E2).
    - intros v [b E]. destruct (Hb v b E) as [a' Ea']. assert (Av : addrOf t' v = Some a') by (unfold addrOf; rewrite E; exact Ea').
      apply HA in Av. destruct Av as [Av|[_ [Nv ->]]].
      + destruct (j_new p t H v) as [Q|[e [Q1 Q2]]]; [apply (known_addrJ p t v H); eauto|left; exact Q|]. right. exists e. split; [right; exact Q1|exact Q2].
      + right. exists (k, set). split; [left; reflexivity|]. apply HN. exact Nv.
    - intros e He'. assert (Q : exists a', addrOf t' (fst e) = Some a').
      { destruct He' as [<- |He'].
        - cbn [fst]. destruct (addrOf t k) as [a'|] eqn:Ek; [exists a'; apply Mono; exact Ek|]. exists a. apply HA. right. destruct Hk as [Hk|[a' Hk]]; [auto|congruence].
        - destruct (proj1 (known_addrJ p t (fst e) H) (j_proc p t H e He')) as [a' Q]. exists a'. apply Mono. exact Q. }
      destruct Q as [a' Q]. unfold addrOf in Q. destruct (afind (fst e) (sets t')) as [b|] eqn:Eb; [exists b; exact Eb|discriminate].
    - intros M v a' m w Ev Em Hw. destruct (Nat.eq_dec a' a) as [-> |Ne].
      + rewrite Hl' in Em. injection Em as <-. apply Il' in Hw. destruct Hw as [Hw|Hw].
        * right. exists (k, set). split; [left; reflexivity|]. split; [exact Hw|]. cbn [fst]. destruct Hc as [[[x [Hx Ex]] [El HNs]]|[Hno [-> [El HNk]]]].
          -- destruct (addrOf t k) as [a''|] eqn:Ek; [|apply HA; right; auto]. rewrite (j_same p t H M (k, set) x k a a'' He Hx Kset Ex Ek). apply Mono. exact Ek.
          -- apply HA. right. split; [apply Hno; exact Kset|]. split; [|reflexivity]. destruct Hk as [Hk|[a' Hk]]; [exact Hk|]. rewrite (Hno k Kset) in Hk. discriminate.
        * destruct Hc as [[[x [Hx Ex]] [El HNs]]|[Hno [-> [El HNk]]]]; [|destruct Hw].
          destruct (j_src p t H M x a l w Ex El Hw) as [Q|[e [Q1 [Q2 Q3]]]]; [left; exact Q|]. right. exists e. split; [right; exact Q1|]. split; [exact Q2|apply Mono; exact Q3].
      + rewrite (HH a' Ne) in Em. apply HA in Ev. destruct Ev as [Ev|[_ [_ Q]]]; [|contradiction].
        destruct (j_src p t H M v a' m w Ev Em Hw) as [Q|[e [Q1 [Q2 Q3]]]]; [left; exact Q|]. right. exists e. split; [right; exact Q1|]. split; [exact Q2|apply Mono; exact Q3].
    - intros v a' m w Ev Em Hw. destruct (Nat.eq_dec a' a) as [-> |Ne].
      + rewrite Hl' in Em. injection Em as <-. exact (CC v w Ev Hw).
      + rewrite (HH a' Ne) in Em. apply HA in Ev. destruct Ev as [Ev|[_ [_ Q]]]; [|contradiction]. exact (j_conn p t H v a' m w Ev Em Hw).
    - intros M e w [<- |He'] Hw; cbn [fst snd] in *.
      + assert (Ek : addrOf t' k = Some a).
        { destruct Hc as [[[x [Hx Ex]] [El HNs]]|[Hno [-> [El HNk]]]].
          - destruct (addrOf t k) as [a''|] eqn:Ek; [|apply HA; right; auto]. rewrite (j_same p t H M (k, set) x k a a'' He Hx Kset Ex Ek). apply Mono. exact Ek.
          - apply HA. right. split; [apply Hno; exact Kset|]. split; [|reflexivity]. destruct Hk as [Hk|[a' Hk]]; [exact Hk|]. rewrite (Hno k Kset) in Hk. discriminate. }
        exists a, l'. split; [exact Ek|]. split; [exact Hl'|]. apply Il'. auto.
      + destruct (j_key p t H M e w He' Hw) as [a' [m [E1 [E2 E3]]]]. destruct (HeapM a' m w E2 E3) as [m' [E4 E5]]. exists a', m'. auto.
    - intros M [k2 set2] x y a1 a2 He2 Hx Hy E1 E2. cbn [snd] in *. apply HA in E1, E2.
      destruct E1 as [E1|[E1 [N1 ->]]], E2 as [E2|[E2 [N2 ->]]].
      + exact (j_same p t H M (k2, set2) x y a1 a2 He2 Hx Hy E1 E2).
      + assert (Q : In x set) by (apply (e_same es WE k2 set2 k set y He2 He Hy (HN y N2)); exact Hx).
        destruct Hc as [[[z [Hz Ez]] [El HNs]]|[Hno [-> [El HNk]]]]; [exact (j_same p t H M (k, set) x z a1 a He Q Hz E1 Ez)|]. rewrite (Hno x Q) in E1. discriminate.
      + assert (Q : In y set) by (apply (e_same es WE k2 set2 k set x He2 He Hx (HN x N1)); exact Hy).
        destruct Hc as [[[z [Hz Ez]] [El HNs]]|[Hno [-> [El HNk]]]]; [exact (j_same p t H M (k, set) z y a a2 He Hz Q Ez E2)|]. rewrite (Hno y Q) in E2. discriminate.
      + reflexivity.
  Qed.

  Lemma entry_ok p t e : J p t -> In e es -> exists t', mergeEntry fresh (Some t) e = Some t' /\ J (e :: p) t' /\ analyzed t' = analyzed t.
  Proof.
    destruct e as [k set]. intros H He. unfold mergeEntry. destruct (find (fun x => mem x (akeys (sets t))) set) as [x|] eqn:F.
    - apply find_some in F. destruct F as [Hx Kx]. apply mem_true in Kx.
      destruct (afind x (sets t)) as [b|] eqn:Eb; [|apply afind_None in Eb; contradiction].
      destruct (j_box p t H x b Eb) as [a [l [E1 [E2 E3]]]]. unfold insertAll. rewrite E1, E2. eexists. split; [reflexivity|]. split; [|reflexivity].
      cbn [heap boxes sets analyzed]. set (t' := mkA _ _ _ _).
      assert (Ax : addrOf t x = Some a) by (unfold addrOf; rewrite Eb; exact E1).
      assert (AD : forall z, addrOf t' z = match addrOf t z with Some a' => Some a' | None => if mem z set then Some a else None end).
      { intro z. unfold addrOf, t'. cbn [sets boxes]. rewrite reindex. destruct (afind z (sets t)) as [b'|] eqn:Ez.
        - destruct (j_box p t H z b' Ez) as [a' [l' [Q _]]]. rewrite Q. reflexivity.
        - destruct (mem z set); [exact E1|reflexivity]. }
      apply (J_step p t t' k set a l (fun z => In z set) H He).
      + intros v b' E. unfold t'. cbn [sets boxes]. rewrite reindex, E. auto.
      + intros v b' E. unfold t' in *. cbn [sets boxes] in *. rewrite reindex in E. destruct (afind v (sets t)) as [b''|] eqn:Ev.
        * injection E as <-. destruct (j_box p t H v b'' Ev) as [a' [l' [Q _]]]. eauto.
        * destruct (mem v set); [injection E as <-; eauto|discriminate].
      + intros z a'. rewrite AD. destruct (addrOf t z) as [a''|].
        * split; [auto|]. intros [Q|[Q _]]; [exact Q|discriminate].
        * destruct (mem z set) eqn:Q.
          -- apply mem_true in Q. split; [intro E; injection E as <-; auto|]. intros [E|[_ [_ ->]]]; [discriminate|reflexivity].
          -- apply mem_false in Q. split; [discriminate|]. intros [E|[_ [Q2 _]]]; [discriminate|contradiction].
      + auto.
      + left. exact (e_key es WE k set He).
      + intros a' Ne. unfold t'. cbn [heap]. rewrite afind_aset. destruct (eq_dec a' a); [contradiction|reflexivity].
      + eexists. split; [unfold t'; cbn [heap]; apply afind_aset_eq|]. intro w. apply fold_sinsert_in.
      + left. split; [exists x; auto|]. auto.
    - assert (Hno : forall z, In z set -> afind z (sets t) = None).
      { intros z Hz. apply afind_None. intro Q. pose proof (find_none _ _ F z Hz) as R. cbn in R. apply mem_true in Q. congruence. }
      unfold acquire. set (a := fresh (akeys (heap t))).
      assert (Fa : afind a (heap t) = None) by (apply afind_None; apply Hfresh).
      unfold insertAll. cbn [boxes heap sets analyzed].
      assert (NB : nth_error (boxes t ++ [a]) (length (boxes t)) = Some a) by (rewrite nth_error_app2, Nat.sub_diag by lia; reflexivity).
      rewrite NB, (afind_snoc a [] (heap t) Fa a). destruct (eq_dec a a) as [_|]; [|contradiction]. cbn [heap boxes sets analyzed]. eexists. split; [reflexivity|]. split; [|reflexivity].
      set (t' := mkA _ _ _ _).
      assert (OB : forall b x, nth_error (boxes t) b = Some x -> nth_error (boxes t ++ [a]) b = Some x).
      { intros b x Hb. rewrite nth_error_app1; [exact Hb|]. apply nth_error_Some. congruence. }
      assert (Kset : In k set) by exact (e_key es WE k set He).
      assert (AD : forall z, addrOf t' z = if eq_dec z k then Some a else addrOf t z).
      { intro z. unfold addrOf, t'. cbn [sets boxes]. rewrite afind_aset. destruct (eq_dec z k); [exact NB|]. destruct (afind z (sets t)) as [b|] eqn:Ez; [|reflexivity].
        destruct (j_box p t H z b Ez) as [a' [l' [Q _]]]. rewrite Q. apply OB. exact Q. }
      assert (Ak : forall z, In z set -> addrOf t z = None) by (intros z Hz; unfold addrOf; rewrite (Hno z Hz); reflexivity).
      apply (J_step p t t' k set a [] (fun z => z = k) H He).
      + intros v b E. unfold t'. cbn [sets boxes]. rewrite afind_aset. destruct (eq_dec v k) as [-> |]; [rewrite (Hno k Kset) in E; discriminate|]. split; [exact E|].
        destruct (j_box p t H v b E) as [a' [l' [Q _]]]. rewrite Q. apply OB. exact Q.
      + intros v b E. unfold t' in *. cbn [sets boxes] in *. rewrite afind_aset in E. destruct (eq_dec v k) as [-> |]; [injection E as <-; eauto|].
        destruct (j_box p t H v b E) as [a' [l' [Q _]]]. exists a'. apply OB. exact Q.
      + intros z a'. rewrite AD. destruct (eq_dec z k) as [-> |Ne].
        * rewrite (Ak k Kset). split; [intro E; injection E as <-; auto|]. intros [E|[_ [_ ->]]]; [discriminate|reflexivity].
        * split; [auto|]. intros [E|[_ [E _]]]; [exact E|contradiction].
      + intros z ->. exact Kset.
      + left. reflexivity.
      + intros a' Ne. unfold t'. cbn [heap]. rewrite afind_aset. destruct (eq_dec a' a); [contradiction|]. rewrite (afind_snoc a [] (heap t) Fa a'). destruct (eq_dec a' a); [contradiction|reflexivity].
      + eexists. split; [unfold t'; cbn [heap]; apply afind_aset_eq|]. intro w. apply fold_sinsert_in.
      + right. split; [exact Ak|]. split; [reflexivity|]. split; [exact Fa|]. auto.
  Qed.

  Lemma entries_ok l : forall p t, J p t -> incl l es -> exists t', fold_left (mergeEntry fresh) l (Some t) = Some t' /\ J (rev l ++ p) t' /\ analyzed t' = analyzed t.
  Proof.
    induction l as [|e l IH]; intros p t H Hi; cbn [fold_left]; [exists t; auto|].
    destruct (entry_ok p t e H (Hi e (or_introl eq_refl))) as [t1 [R1 [J1 A1]]]. rewrite R1.
    destruct (IH (e :: p) t1 J1) as [t2 [R2 [J2 A2]]]; [intros x Hx; apply Hi; right; exact Hx|]. exists t2. split; [exact R2|]. split; [cbn [rev]; rewrite <- app_assoc; exact J2|congruence].
  Qed.

  Lemma merge_ok l An : Permutation l es -> exists t, mergeWith fresh l An s = Some t
    /\ (forall v, known t v <-> known s v \/ knownE es v)
    /\ (forall v b, afind v (sets s) = Some b -> afind v (sets t) = Some b)
    /\ (forall v w, aliased s v w -> aliased t v w)
    /\ (forall v w, aliased t v w -> conn D L v w)
    /\ (forall v, known t v -> aliased t v v)
    /\ (forall f, In f (analyzed t) <-> In f (analyzed s) \/ In f An)
    /\ (meetsOne s es -> forall v w, conn D L v w -> aliased t v w).
  Proof.
    intro P. unfold mergeWith. set (s0 := mkA _ _ _ _).
    destruct (entries_ok l [] s0 (J_init s0 eq_refl eq_refl eq_refl)) as [t [R [H A]]]; [intros e He; apply (Permutation_in _ P He)|].
    rewrite app_nil_r in H. exists t. split; [exact R|].
    assert (AC : forall v w, aliased t v w <-> exists a m, addrOf t v = Some a /\ afind a (heap t) = Some m /\ In w m).
    { intros v w. unfold aliased, deref, addrOf. split.
      - intros [b [m [E1 [E2 E3]]]]. rewrite E1. destruct (nth_error (boxes t) b) as [a|]; [eauto|discriminate].
      - intros [a [m [E1 [E2 E3]]]]. destruct (afind v (sets t)) as [b|]; [|discriminate]. exists b, m. rewrite E1. auto. }
    assert (IE : forall e, In e (rev l) <-> In e es).
    { intro e. rewrite <- in_rev. split; apply Permutation_in; [exact P|apply Permutation_sym; exact P]. }
    split; [|split; [|split; [|split; [|split; [|split]]]]].
    - intro v. split.
      + intro K. destruct (j_new _ t H v K) as [Q|[[k set] [Q1 Q2]]]; [left; exact Q|]. right. apply (e_all es WE k set v); [apply IE; exact Q1|exact Q2].
      + intros [[b K]|[set K]].
        * destruct (j_old _ t H v b K) as [Q _]. exists b. exact Q.
        * apply (j_proc _ t H (v, set)). apply IE. exact K.
    - intros v b E. exact (proj1 (j_old _ t H v b E)).
    - intros v w Q. apply AC. apply (aliased_addr s v w IS) in Q. destruct Q as [a [Q1 Q2]].
      assert (X : exists m, afind a (heap s) = Some m /\ In w m).
      { unfold addrOf in Q2. destruct (afind w (sets s)) as [b|] eqn:Eb; [|discriminate]. destruct (i_val s IS w b Eb) as [a' [m [E1 [E2 E3]]]]. rewrite E1 in Q2. injection Q2 as <-. eauto. }
      destruct X as [m [X1 X2]]. destruct (j_heap _ t H a m w X1 X2) as [m' [Y1 Y2]]. exists a, m'. split; [exact (old_addr _ t v a H Q1)|auto].
    - intros v w Q. apply AC in Q. destruct Q as [a [m [Q1 [Q2 Q3]]]]. exact (j_conn _ t H v a m w Q1 Q2 Q3).
    - intros v K. apply (known_addrJ _ t v H) in K. destruct K as [a K]. destruct (self_in _ t v a H K) as [m [E1 E2]]. apply AC. eauto.
    - intro f. rewrite A. unfold s0. cbn [analyzed]. rewrite fold_sinsert_in. tauto.
    - intro M.
      assert (AA : forall v w, aliased t v w <-> exists a, addrOf t v = Some a /\ addrOf t w = Some a).
      { intros v w. rewrite AC. split.
        - intros [a [m [E1 [E2 E3]]]]. exists a. split; [exact E1|]. destruct (j_src _ t H M v a m w E1 E2 E3) as [Q|[[k set] [Q1 [Q2 Q3]]]]; [exact (old_addr _ t w a H Q)|].
          cbn [fst snd] in *. apply IE in Q1. destruct (e_all es WE k set w Q1 Q2) as [set' Hw].
          destruct (proj1 (known_addrJ _ t w H) (j_proc _ t H (w, set') (proj2 (IE _) Hw))) as [a' Ea'].
          rewrite (j_same _ t H M (k, set) k w a a' Q1 (e_key es WE k set Q1) Q2 Q3 Ea'). exact Ea'.
        - intros [a [E1 E2]]. destruct (self_in _ t w a H E2) as [m [E3 E4]]. eauto. }
      induction 1 as [v [K|K]|v w [Q|[set [Q1 Q2]]]|v w _ IH|u v w _ IH1 _ IH2].
      + apply AA. apply (known_addr s v IS) in K. destruct K as [a K]. exists a. pose proof (old_addr _ t v a H K). auto.
      + apply AA. destruct K as [set K]. destruct (proj1 (known_addrJ _ t v H) (j_proc _ t H (v, set) (proj2 (IE _) K))) as [a Q]. eauto.
      + apply AA. apply (aliased_addr s v w IS) in Q. destruct Q as [a [Q1 Q2]]. exists a. split; eapply old_addr; eauto.
      + apply AC. exact (j_key _ t H M (v, set) w (proj2 (IE _) Q1) Q2).
      + apply AA in IH. destruct IH as [a [E1 E2]]. apply AA. eauto.
      + apply AA in IH1, IH2. destruct IH1 as [a [E1 E2]], IH2 as [a' [E3 E4]]. apply AA. exists a. split; [exact E1|congruence].
  Qed.
End G.

(** the entries of an analysis are well-formed *)
Lemma entries_wf iter o : (forall l, Permutation (iter l) l) -> Inv o -> wfEntries (entriesOf iter o).
Proof.
  intros Hi I.
  assert (IN : forall k set, In (k, set) (entriesOf iter o) -> exists a, addrOf o k = Some a /\ forall y, In y set <-> addrOf o y = Some a).
  { intros k set H. unfold entriesOf in H. apply in_map_iff in H. destruct H as [[k' b] [E H]]. cbn [fst snd] in E. injection E as <- <-. apply In_afind in H; [|apply (i_sets o I)].
    destruct (i_val o I k' b H) as [a [l [E1 [E2 E3]]]]. exists a. split; [unfold addrOf; rewrite H; exact E1|]. unfold deref. rewrite E1, E2. intro y. rewrite (in_iter iter Hi). split.
    - exact (i_mem o I a l y E2).
    - intro Q. unfold addrOf in Q. destruct (afind y (sets o)) as [b'|] eqn:Ey; [|discriminate]. destruct (i_val o I y b' Ey) as [a' [l' [F1 [F2 F3]]]]. congruence. }
  constructor.
  - intros k set H. destruct (IN k set H) as [a [E1 E2]]. apply E2. exact E1.
  - intros k set x H Hx. destruct (IN k set H) as [a [E1 E2]]. apply E2 in Hx. unfold addrOf in Hx. destruct (afind x (sets o)) as [b|] eqn:Ex; [|discriminate].
    eexists. unfold entriesOf. apply in_map_iff. exists (x, b). split; [reflexivity|]. apply afind_In. exact Ex.
  - intros k set k' set' x H H' Hx Hx' y. destruct (IN k set H) as [a [_ E2]], (IN k' set' H') as [a' [_ F2]]. apply E2 in Hx. apply F2 in Hx'. rewrite E2, F2. rewrite Hx in Hx'. injection Hx' as ->. reflexivity.
Qed.
Lemma entries_known iter o v : knownE (entriesOf iter o) v <-> known o v.
Proof.
  unfold knownE, known, entriesOf. split.
  - intros [set H]. apply in_map_iff in H. destruct H as [[k b] [E H]]. cbn [fst snd] in E. injection E as <- _. destruct (afind k (sets o)) as [b'|] eqn:Q; [eauto|]. apply afind_None in Q. elim Q. apply in_map_iff. exists (k, b). auto.
  - intros [b E]. eexists. apply in_map_iff. exists (v, b). split; [reflexivity|apply afind_In; exact E].
Qed.
Lemma entries_aliased iter o v w : (forall l, Permutation (iter l) l) -> Inv o -> (aliasedE (entriesOf iter o) v w <-> aliased o v w).
Proof.
  intros Hi I. unfold aliasedE, aliased, entriesOf. split.
  - intros [set [H Hw]]. apply in_map_iff in H. destruct H as [[k b] [E H]]. cbn [fst snd] in E. injection E as <- <-. apply In_afind in H; [|apply (i_sets o I)]. exists b. destruct (deref o b) as [l|]; [|destruct Hw]. exists l. split; [exact H|]. split; [reflexivity|]. apply (in_iter iter Hi). exact Hw.
  - intros [b [l [E1 [E2 E3]]]]. exists (iter l). split; [|apply (in_iter iter Hi); exact E3]. apply in_map_iff. exists (v, b). split; [cbn [fst snd]; rewrite E2; reflexivity|apply afind_In; exact E1].
Qed.

Lemma conn_mono (D D' : nat -> Prop) (L L' : nat -> nat -> Prop) v w : (forall x, D x -> D' x) -> (forall x y, L x y -> L' x y) -> conn D L v w -> conn D' L' v w.
Proof. intros HD HL. induction 1 as [x H|x y H|x y _ IH|x y z _ IH1 _ IH2]; [apply c_refl; auto|apply c_link; auto|apply c_sym; exact IH|exact (c_trans _ _ _ _ _ IH1 IH2)]. Qed.

Lemma owner_ok asserts fresh iter (os : list (nat + nat * nat)) : (forall l, ~ In (fresh l) l) -> (forall l, Permutation (iter l) l) ->
  exists s, fold_left (ownerOp asserts fresh iter) os (Some emptyA) = Some s /\ Inv s /\ (forall v, known s v <-> mentioned os v)
    /\ (forall v w, aliased s v w <-> conn (mentioned os) (fun a b => In (inr (a, b)) os) v w).
Proof.
  intros Hf Hi. induction os as [|o os IH] using rev_ind.
  - exists emptyA. split; [reflexivity|]. split; [exact inv_empty|]. split.
    + intro v. split; [intros [b E]; discriminate|]. intros [[]|[w [[]|[]]]].
    + intros v w. split; [intros [b [l [E _]]]; discriminate|]. intro H. elimtype False. induction H as [x [[]|[y [[]|[]]]]|x y []|x y _ IH|x y z _ IH1 _ IH2]; assumption.
  - destruct IH as [s [R [I [K A]]]]. rewrite fold_left_app, R. cbn [fold_left ownerOp].
    assert (In1 : forall x o', In x (os ++ [o']) <-> In x os \/ x = o') by (intros x o'; rewrite in_app_iff; cbn; intuition).
    destruct o as [v|[v w]].
    + destruct (addSingleton_ok asserts fresh Hf s v I) as [s1 [R1 [I1 [X1 [K1 [A1 KN]]]]]]. exists s1. split; [exact R1|]. split; [exact I1|].
      assert (MN : forall x, mentioned (os ++ [inl v]) x <-> mentioned os x \/ x = v).
      { intro x. unfold mentioned. split.
        - intros [H|[y [H|H]]]; apply In1 in H; destruct H as [H|H]; try discriminate; [left; left; exact H|injection H as ->; right; reflexivity|left; right; eauto|left; right; eauto].
        - intros [[H|[y [H|H]]]| ->]; [left; apply In1; auto|right; exists y; left; apply In1; auto|right; exists y; right; apply In1; auto|left; apply In1; auto]. }
      split; [intro x; rewrite KN, K, MN; reflexivity|]. intros x y. rewrite A1, A. split.
      * intros [H|[-> ->]]; [|apply c_refl, MN; auto]. apply (conn_mono (mentioned os) _ (fun a b => In (inr (a, b)) os)); [intros z Hz; apply MN; auto|intros a b Hab; apply In1; auto|exact H].
      * induction 1 as [x H|x y H|x y _ IH|x y z _ IH1 _ IH2].
        -- apply MN in H. destruct H as [H| ->]; [left; apply c_refl; exact H|right; auto].
        -- apply In1 in H. destruct H as [H|H]; [|discriminate]. left. apply c_link. exact H.
        -- destruct IH as [IH|[-> ->]]; [left; apply c_sym; exact IH|right; auto].
        -- destruct IH1 as [IH1|[-> ->]]; [|exact IH2]. destruct IH2 as [IH2|[-> ->]]; [|left; exact IH1]. left. exact (c_trans _ _ _ _ _ IH1 IH2).
    + destruct (addSingleton_ok asserts fresh Hf s v I) as [s1 [R1 [I1 [X1 [K1 [A1 KN1]]]]]]. rewrite R1.
      destruct (addSingleton_ok asserts fresh Hf s1 w I1) as [s2 [R2 [I2 [X2 [K2 [A2 KN2]]]]]]. rewrite R2.
      assert (Kv : known s2 v) by exact (ext_known s1 s2 v X2 K1).
      destruct (mergeValues_ok iter Hi s2 v w I2 Kv K2) as [s3 [R3 [I3 [S3 [N3 A3]]]]]. exists s3. split; [exact R3|]. split; [exact I3|].
      assert (MN : forall x, mentioned (os ++ [inr (v, w)]) x <-> mentioned os x \/ x = v \/ x = w).
      { intro x. unfold mentioned. split.
        - intros [H|[y [H|H]]]; apply In1 in H; destruct H as [H|H]; try discriminate; [left; left; exact H|left; right; eauto|injection H as -> _; auto|left; right; eauto|injection H as _ ->; auto].
        - intros [[H|[y [H|H]]]|[-> | ->]]; [left; apply In1; auto|right; exists y; left; apply In1; auto|right; exists y; right; apply In1; auto|right; exists w; left; apply In1; auto|right; exists v; right; apply In1; auto]. }
      assert (KN : forall x, known s3 x <-> mentioned (os ++ [inr (v, w)]) x).
      { intro x. rewrite MN. unfold known. rewrite S3. fold (known s2 x). rewrite KN2, KN1, K. tauto. }
      split; [exact KN|].
      assert (U2 : forall x y, aliased s2 x y -> conn (mentioned (os ++ [inr (v, w)])) (fun a b => In (inr (a, b)) (os ++ [inr (v, w)])) x y).
      { intros x y H. apply A2 in H. destruct H as [H|[-> ->]]; [|apply c_refl, MN; auto]. apply A1 in H. destruct H as [H|[-> ->]]; [|apply c_refl, MN; auto]. apply A in H.
        apply (conn_mono (mentioned os) _ (fun a b => In (inr (a, b)) os)); [intros z Hz; apply MN; auto|intros a b Hab; apply In1; auto|exact H]. }
      assert (Lk : conn (mentioned (os ++ [inr (v, w)])) (fun a b => In (inr (a, b)) (os ++ [inr (v, w)])) v w) by (apply c_link, In1; auto).
      intros x y. split.
      * intro H. apply A3 in H. destruct H as [H|[[H1 H2]|[H1 H2]]]; [exact (U2 x y H)|exact (c_trans _ _ _ _ _ (U2 _ _ H1) (c_trans _ _ _ _ _ Lk (U2 _ _ H2)))|exact (c_trans _ _ _ _ _ (U2 _ _ H1) (c_trans _ _ _ _ _ (c_sym _ _ _ _ Lk) (U2 _ _ H2)))].
      * induction 1 as [x H|x y H|x y _ IH|x y z _ IH1 _ IH2].
        -- apply (aliased_refl s3 x I3). apply KN. exact H.
        -- apply In1 in H. destruct H as [H|H]; [|injection H as -> ->; apply A3; apply joined_xy; auto]. apply A3. left. apply A2. left. apply A1. left. apply A. apply c_link. exact H.
        -- exact (aliased_sym s3 x y I3 IH).
        -- exact (aliased_trans s3 x y z I3 IH1 IH2).
Qed.
