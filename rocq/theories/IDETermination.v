(** Termination of both phases of the IDE solver for finitely many facts and
    nodes and lattices of finite height. *)
From Coq Require Import List Bool Permutation Lia Wf_nat.
From Verif Require Import Assoc TableModel TableProofs JumpFunctionsModel JumpFunctionsProofs
  IDESolverModel IDESpec IDEPhase1 IDEPhase2 IDEInvariant IDESound.
Import ListNotations.

Section Term.
  Context {N F D L EF : Type} `{EqDec N} `{EqDec F} `{EqDec D}.
  Variable G : icfg N F.
  Variable P : problem N F D L EF.
  Variable follow : bool.
  Variable S0 : @seeds N D L.
  Variable Ns : list N.
  Variable Ds : list D.
  Variable frank : EF -> nat.
  Variable lrank : L -> nat.
  Hypothesis WF : icfg_wf G.
  Hypothesis NF : forall n, In n Ns.
  Hypothesis FC : facts_closed P S0 Ds.
  Hypothesis FH : finite_height P frank lrank.

  Notation state := (@state N D EF).
  Notation jfn := (jfn P).
  Notation val := (val P).

  (** lexicographic induction on two naturals *)
  Lemma lex_acc {A} (R : A -> A -> Prop) (I : A -> Prop) (m1 m2 : A -> nat)
    (Hstep : forall x y, I x -> R x y -> I y /\ (m1 y < m1 x \/ (m1 y = m1 x /\ m2 y < m2 x))) :
    forall x, I x -> Acc (fun y x => R x y) x.
  Proof.
    assert (Hgen : forall a b x, I x -> m1 x = a -> m2 x = b -> Acc (fun y x => R x y) x).
    { induction a as [a IHa] using (well_founded_induction lt_wf).
      induction b as [b IHb] using (well_founded_induction lt_wf).
      intros x HI E1 E2. constructor. intros y Hxy.
      destruct (Hstep x y HI Hxy) as [HIy [Hlt|[Heq Hlt]]].
      - apply (IHa (m1 y)) with (b := m2 y); auto. lia.
      - apply (IHb (m2 y)); auto; lia. }
    intros x HI. eapply Hgen; eauto.
  Qed.

  Definition sumOver {K} (m : K -> nat) (l : list K) : nat := fold_right (fun k a => m k + a) 0 l.

  Lemma sumOver_lt {K} (m m' : K -> nat) (l : list K) k :
    In k l -> m' k < m k -> (forall k', m' k' <= m k') -> sumOver m' l < sumOver m l.
  Proof.
    intros Hin Hlt Hle. induction l as [|a l IH]; [destruct Hin|]. simpl.
    assert (Hl : sumOver m' l <= sumOver m l).
    { clear - Hle. induction l; simpl; [lia|]. specialize (Hle a). lia. }
    destruct Hin as [->|Hin]; [lia|]. specialize (IH Hin). specialize (Hle a). lia.
  Qed.
  Lemma sumOver_ext {K} (m m' : K -> nat) (l : list K) :
    (forall k, m' k = m k) -> sumOver m' l = sumOver m l.
  Proof. intros E. induction l; simpl; auto. Qed.

  Definition jkeys : list (D * N * D) :=
    flat_map (fun d1 => flat_map (fun n => map (fun d2 => (d1, n, d2)) Ds) Ns) Ds.
  Lemma jkeys_In d1 n d2 : In d1 Ds -> In d2 Ds -> In (d1, n, d2) jkeys.
  Proof.
    intros H1' H2'. unfold jkeys. apply in_flat_map. exists d1. split; auto.
    apply in_flat_map. exists n. split; auto. apply in_map_iff. eauto.
  Qed.

  Definition mJ (st : state) : nat :=
    sumOver (fun '(d1, n, d2) => frank (jfn (st_jf st) d1 n d2)) jkeys.

  Definition inDs (d1 : D) (n : N) (d2 : D) (f : EF) : Prop := In d1 Ds /\ In d2 Ds.

  Lemma inDs_rules : rules G P follow S0 inDs.
  Proof.
    unfold inDs. split.
    - intros d1 n d2 f n' d3 _ [A1 A2]. split; auto. eapply (fc_normal _ _ _ FC); eauto.
    - intros d1 n d2 f n' d3 _ [A1 A2]. split; auto. eapply (fc_ctr _ _ _ FC); eauto.
    - intros d1 n d2 f callee sf n' d3 _ [A1 A2]. split; auto. eapply (fc_sum _ _ _ FC); eauto.
    - intros d1 n d2 f callee sp d3 _ [A1 A2] _ _ _ _ Hd. split; eapply (fc_call _ _ _ FC); eauto.
    - intros d1 c d2 f callee sp d3 fs e d4 r d5 _ _ [A1 A2] [A3 A4]. intros. split; auto.
      eapply (fc_ret _ _ _ FC); eauto.
    - intros _ d1 n d2 f c r d5 _ [A1 A2]. intros. split; [apply (fc_zero _ _ _ FC)|].
      eapply (fc_ret _ _ _ FC); eauto.
    - auto.
    - auto.
    - intros n facts d v Hin Hf. split; eapply (fc_seed _ _ _ FC); eauto.
  Qed.

  Definition TInv (st : state) : Prop := PInv G P follow inDs st.

  Lemma pstep_measure st st' : TInv st -> pstep G P follow st st' ->
    TInv st' /\ (mJ st' < mJ st \/ (mJ st' = mJ st /\ length (st_wl st') < length (st_wl st))).
  Proof.
    intros HI Hs. split; [eapply PInv_pstep; eauto using inDs_rules|].
    destruct Hs as [st l1 l2 d1 n d2 f st' Ewl EJ EE EI EU EW].
    set (st0 := mkState (st_jf st) (st_es st) (st_inc st) (l1 ++ l2) (st_unb st)) in *.
    assert (HR : inDs d1 n d2 f).
    { apply (p_wl _ _ _ _ _ HI). rewrite Ewl. apply in_app_iff. right; left; auto. }
    unfold mJ. rewrite EJ. apply Permutation_length in EW. rewrite EW. clear EJ EW.
    unfold propagate. change (st_jf st0) with (st_jf st).
    rewrite (jfn_rev P _ d1 n d2 (p_ok _ _ _ _ _ HI)).
    set (old := jfn (st_jf st) d1 n d2).
    destruct (efEqb P (combine P old f) old) eqn:Eeq.
    - right. split; auto. simpl. rewrite Ewl, !app_length. simpl. lia.
    - left. rewrite task_jf. cbn [st_jf].
      assert (Hlt := fh_combine _ _ _ FH _ _ Eeq).
      assert (Et : isAllTop P (combine P old f) = false).
      { destruct (isAllTop P (combine P old f)) eqn:Et; auto.
        apply (fh_istop _ _ _ FH) in Et. pose proof (fh_top _ _ _ FH old). lia. }
      apply sumOver_lt with (k := (d1, n, d2)).
      + apply jkeys_In; apply HR.
      + unfold jfn at 1. unfold IDEPhase1.jfn. rewrite jf_get_add by (auto; apply (p_ok _ _ _ _ _ HI)).
        destruct (eq_dec _ _); [exact Hlt|congruence].
      + intros [[a b] c]. unfold IDEPhase1.jfn. rewrite jf_get_add by (auto; apply (p_ok _ _ _ _ _ HI)).
        destruct (eq_dec (a, b, c) (d1, n, d2)) as [E|]; [|lia].
        injection E; intros -> -> ->. fold (jfn (st_jf st) d1 n d2). fold old. lia.
  Qed.

  Lemma phase1_terminates st : TInv st -> Acc (fun st' st => pstep G P follow st st') st.
  Proof.
    apply (lex_acc _ TInv mJ (fun st => length (st_wl st))). exact pstep_measure.
  Qed.

  Lemma doNext_pstep st st' : doNext G P follow st = Some st' -> pstep G P follow st st'.
  Proof.
    unfold doNext. destruct (st_wl st) as [|[[[d1 n] d2] f] wl] eqn:Ew; [discriminate|].
    intros E; injection E; intros <-.
    apply (pstep_intro G P follow st [] wl d1 n d2 f); auto.
  Qed.

  Lemma runPhaseI_terminates st : TInv st -> exists fuel st', runPhaseI G P follow fuel st = Some st'.
  Proof.
    intros HI. pose proof (phase1_terminates st HI) as HA.
    induction HA as [st HA IH].
    destruct (st_wl st) as [|it wl] eqn:Ew.
    - exists 0, st. simpl. rewrite Ew. auto.
    - assert (Hd : exists st1, doNext G P follow st = Some st1).
      { unfold doNext. rewrite Ew. destruct it as [[[d1 n] d2] f]. eauto. }
      destruct Hd as [st1 Hd]. assert (Hp := doNext_pstep _ _ Hd).
      destruct (IH st1 Hp) as [fuel [st' Hr]].
      { eapply PInv_pstep; eauto using inDs_rules. }
      exists (S fuel), st'. simpl. rewrite Ew, Hd. auto.
  Qed.

  (** *** Phase II *)
  Section P2.
    Variable U : list N.
    Variable J : jumpfns N D EF.
    Hypothesis JOK : jf_ok J.
    Hypothesis JDs : forall d1 n d2 f, jf_get J d1 n d2 = Some f -> In d1 Ds /\ In d2 Ds.
    Hypothesis LL : lattice_laws P.

    Definition vkeys : list (N * D) := flat_map (fun n => map (fun d => (n, d)) Ds) Ns.
    Lemma vkeys_In n d : In d Ds -> In (n, d) vkeys.
    Proof. intros Hd. unfold vkeys. apply in_flat_map. exists n. split; auto. apply in_map_iff. eauto. Qed.
    Definition mV (v : @vstate N D L) : nat := sumOver (fun '(n, d) => lrank (val (v_tab v) n d)) vkeys.

    Lemma acts_Ds n d n' d' f : In d Ds -> In (n', d', f) (acts G P S0 U J n d) -> In d' Ds.
    Proof.
      intros Hd Hin. unfold acts in Hin. apply in_app_iff in Hin. destruct Hin as [Hin|Hin].
      - destruct (startLike G S0 U n); [|destruct Hin]. unfold actsStart in Hin.
        apply in_flat_map in Hin. destruct Hin as [c [Hc Hin]].
        apply in_map_iff in Hin. destruct Hin as [[d0 f0] [E Hl]]. injection E; intros; subst.
        apply (proj1 (In_fwdl (isAllTop P) _ _ _ _ _ JOK)) in Hl. apply JDs in Hl. tauto.
      - destruct (isCallSite G n); [|destruct Hin]. unfold actsCall in Hin.
        apply in_flat_map in Hin. destruct Hin as [callee [Hcal Hin]].
        apply in_flat_map in Hin. destruct Hin as [d0 [Hd0 Hin]].
        apply in_map_iff in Hin. destruct Hin as [sp [E Hsp]]. injection E; intros; subst.
        eapply (fc_call _ _ _ FC); eauto.
    Qed.

    Definition inV (n : N) (d : D) (x : L) : Prop := In d Ds.

    Lemma inV_act n d x n' d' f : inV n d x -> In (n', d', f) (acts G P S0 U J n d) ->
      apply P f x = topElement P \/ inV n' d' (apply P f x).
    Proof. intros Hd Hin. right. eapply acts_Ds; eauto. Qed.

    Lemma act_measure v n' d' l : In d' Ds ->
      propagateValue P v n' d' l = v \/ mV (propagateValue P v n' d' l) < mV v.
    Proof.
      intros Hd. unfold propagateValue. destruct (lEqb P _ _) eqn:E; [left; auto|right].
      apply (fh_join _ _ _ FH) in E. unfold mV. simpl.
      apply sumOver_lt with (k := (n', d')).
      - apply vkeys_In; auto.
      - rewrite val_insert. destruct (eq_dec _ _); [exact E|congruence].
      - intros [a b]. rewrite val_insert. destruct (eq_dec (a, b) (n', d')) as [E2|]; [|lia].
        injection E2; intros -> ->. lia.
    Qed.

    Lemma acts_measure n d l : In d Ds -> (forall a, In a l -> In a (acts G P S0 U J n d)) ->
      forall v, fold_left (act1 P n d) l v = v \/ mV (fold_left (act1 P n d) l v) < mV v.
    Proof.
      intros Hd Hl. induction l as [|[[n0 d0] f0] l IH]; intros v; simpl; auto.
      set (v1 := propagateValue P v n0 d0 _).
      destruct (IH (fun a h => Hl a (or_intror h)) v1) as [->|Hlt].
      - apply act_measure. eapply acts_Ds; eauto. apply Hl. left; reflexivity.
      - right. destruct (act_measure v n0 d0 (apply P f0 (val (v_tab v) n d))) as [E|Hlt2].
        + eapply acts_Ds; eauto. apply Hl. left; reflexivity.
        + unfold v1 in Hlt. rewrite E in Hlt. unfold v1. rewrite E. exact Hlt.
        + fold v1 in Hlt2. lia.
    Qed.

    Definition VT (v : @vstate N D L) : Prop := VG inV v.

    Lemma vstep_measure v v' : VT v -> vstep G P S0 U J v v' ->
      VT v' /\ (mV v' < mV v \/ (mV v' = mV v /\ length (v_wl v') < length (v_wl v))).
    Proof.
      intros HV Hs. split.
      { eapply VG_vstep; eauto using inV_act. }
      destruct Hs as [v l1 l2 n d v' Ew Et Hp]. rewrite task_acts in Et, Hp.
      assert (Hd : In d Ds).
      { assert (Hk : t_lookup (v_tab v) n d <> None).
        { apply (proj2 HV). rewrite Ew. apply in_app_iff. right; left; auto. }
        destruct (t_lookup (v_tab v) n d) as [x|] eqn:E; [|congruence].
        apply (proj1 HV) in E. exact E. }
      unfold mV at 1 3. rewrite Et. apply Permutation_length in Hp. rewrite Hp.
      destruct (acts_measure n d (acts G P S0 U J n d) Hd (fun a h => h) (mkV (v_tab v) (l1 ++ l2))) as [->|Hlt].
      - right. split; auto. simpl. rewrite Ew, !app_length. simpl. lia.
      - left. exact Hlt.
    Qed.

    Lemma phase2_terminates v : VT v -> Acc (fun v' v => vstep G P S0 U J v v') v.
    Proof. apply (lex_acc _ VT mV (fun v => length (v_wl v))). exact vstep_measure. Qed.

    Lemma vNext_vstep v v' : vNext G P S0 U J v = Some v' -> vstep G P S0 U J v v'.
    Proof.
      unfold vNext. destruct (v_wl v) as [|[n d] wl] eqn:Ew; [discriminate|].
      intros E; injection E; intros <-.
      apply (vstep_intro G P S0 U J v [] wl n d); auto.
    Qed.

    Lemma runPhaseIIi_terminates v : VT v -> exists fuel v', runPhaseIIi G P fuel S0 U J v = Some v'.
    Proof.
      intros HI. pose proof (phase2_terminates v HI) as HA.
      induction HA as [v HA IH].
      destruct (v_wl v) as [|it wl] eqn:Ew.
      - exists 0, v. simpl. rewrite Ew. auto.
      - assert (Hd : exists v1, vNext G P S0 U J v = Some v1).
        { unfold vNext. rewrite Ew. destruct it as [n d]. eauto. }
        destruct Hd as [v1 Hd]. assert (Hp := vNext_vstep _ _ Hd).
        destruct (IH v1 Hp) as [fuel [v' Hr]]; [apply (vstep_measure v v1 HI Hp)|].
        exists (S fuel), v'. simpl. rewrite Ew, Hd. auto.
    Qed.

    Lemma allSeeds_Ds n d l : In (n, d, l) (seedCells (allSeeds P S0 U)) -> In d Ds.
    Proof.
      intros Hin. apply seedCells_In in Hin. destruct Hin as [facts [Hin Hf]].
      assert (Hgen : forall (us : list N) (A : @seeds N D L), (forall n facts d v, In (n, facts) A -> In (d, v) facts -> In d Ds) ->
        forall n facts d v, In (n, facts) (fold_left (fun S u =>
          match afind u S with Some _ => S | None => aset u [(zeroValue P, topElement P)] S end) us A) ->
          In (d, v) facts -> In d Ds).
      { induction us as [|u us IH]; intros A HA; simpl; auto.
        apply IH. destruct (afind u A) eqn:E; auto.
        clear - HA FC. induction A as [|[k fs] A IHA]; simpl.
        - intros n facts d v [E|[]] Hf. injection E; intros; subst.
          destruct Hf as [E2|[]]. injection E2; intros; subst. apply (fc_zero _ _ _ FC).
        - intros n facts d v Hin Hf. destruct (eq_dec u k).
          + destruct Hin as [E|Hin]; [|eapply HA; [right|]; eauto].
            injection E; intros; subst. destruct Hf as [E2|[]]. injection E2; intros; subst.
            apply (fc_zero _ _ _ FC).
          + destruct Hin as [E|Hin]; [eapply HA; [left|]; eauto|].
            eapply IHA; eauto. intros; eapply HA; [right|]; eauto. }
      eapply (Hgen U S0); [|exact Hin|exact Hf]. intros; eapply (fc_seed _ _ _ FC); eauto.
    Qed.

    Lemma VT_submit : VT (submitInitialValues G P S0 U J (mkV [] [])).
    Proof.
      unfold VT. apply (phase2_good G P S0 U J LL inV).
      - intros n d x y Hx _. exact Hx.
      - exact inV_act.
      - intros n d l Hin. eapply allSeeds_Ds; eauto.
      - apply vsteps_refl.
    Qed.
  End P2.
End Term.

Section Total.
  Context {N F D L EF : Type} `{EqDec N} `{EqDec F} `{EqDec D}.
  Variable G : icfg N F.
  Variable P : problem N F D L EF.
  Variable follow : bool.
  Hypothesis WF : icfg_wf G.
  Hypothesis LL : lattice_laws P.

  Lemma addZeroSeeds_closed S Ds : facts_closed P S Ds -> facts_closed P (addZeroSeeds P S) Ds.
  Proof.
    intros [A1 A2 A3 A4 A5 A6 A7]. split; auto.
    intros n facts d v Hin Hf. unfold addZeroSeeds in Hin. apply in_map_iff in Hin.
    destruct Hin as [[n0 f0] [E Hin]]. injection E; intros E2 E1; subst n0. clear E.
    destruct (afind (zeroValue P) f0) eqn:Ez; subst facts; [eauto|].
    assert (Hd : d = zeroValue P \/ In (d, v) f0).
    { clear - Hf. induction f0 as [|[k x] f0 IH]; simpl in *.
      - destruct Hf as [E|[]]. injection E; auto.
      - destruct (eq_dec (zeroValue P) k); simpl in Hf.
        + destruct Hf as [E|Hf]; auto. injection E; intros; subst; auto.
        + destruct Hf as [E|Hf]; auto. destruct (IH Hf); auto. }
    destruct Hd as [->|Hd]; eauto.
  Qed.

  Lemma initState_pinit S : pinit P S (initState P S).
  Proof.
    repeat split; auto. simpl. unfold push. rewrite rev_append_rev, app_nil_r.
    symmetry. apply Permutation_rev.
  Qed.

  Lemma pinit_TInv S Ds st : facts_closed P S Ds -> pinit P S st -> TInv G P follow Ds st.
  Proof.
    intros FC (EJ & EE & EI & EU & HP).
    eapply PInv_init; eauto. apply inDs_rules. apply addZeroSeeds_closed; auto.
  Qed.

  (** any run can be completed; no run is infinite *)
  Lemma solver_terminates S (Ns : list N) (Ds : list D) frank lrank :
    (forall n, In n Ns) -> facts_closed P S Ds -> finite_height P frank lrank ->
    exists fuel st T, solve G P follow fuel S = Some (st, T).
  Proof.
    intros NF FC FH. pose proof (addZeroSeeds_closed _ _ FC) as FC'.
    assert (HI := pinit_TInv S Ds _ FC (initState_pinit S)).
    destruct (runPhaseI_terminates G P follow _ Ns Ds frank lrank WF NF FC' FH _ HI) as [f1 [st H1']].
    assert (HIst : TInv G P follow Ds st).
    { clear - HI H1' WF FC'. revert H1' HI. generalize (initState P S).
      induction f1 as [|f1 IH]; intros s E HI; simpl in E; destruct (st_wl s) eqn:Ew; try discriminate;
        try (injection E; intros <-; auto; fail).
      destruct (doNext G P follow s) as [s1|] eqn:Ed; [|discriminate].
      eapply IH; eauto. eapply PInv_pstep; eauto using inDs_rules. apply doNext_pstep; auto. }
    assert (JDs : forall d1 n d2 f, jf_get (st_jf st) d1 n d2 = Some f -> In d1 Ds /\ In d2 Ds).
    { intros. exact (p_jf _ _ _ _ _ HIst _ _ _ _ H2). }
    assert (JOK := p_ok _ _ _ _ _ HIst).
    destruct (runPhaseIIi_terminates G P _ Ns Ds frank lrank NF FC' FH (st_unb st) (st_jf st) JOK JDs LL
                _ (VT_submit G P _ Ds FC' (st_unb st) (st_jf st) JOK JDs LL)) as [f2 [v H2']].
    assert (Mono1 : forall k f s s', runPhaseI G P follow f s = Some s' -> runPhaseI G P follow (f + k) s = Some s').
    { intros k. induction f as [|f IH]; intros s s'; simpl.
      - destruct (st_wl s) eqn:Ew; [|discriminate]. intros E; injection E; intros <-.
        destruct k; simpl; rewrite Ew; auto.
      - destruct (st_wl s); auto. destruct (doNext G P follow s); auto. }
    assert (Mono2 : forall k f s s', runPhaseIIi G P f (addZeroSeeds P S) (st_unb st) (st_jf st) s = Some s' ->
              runPhaseIIi G P (f + k) (addZeroSeeds P S) (st_unb st) (st_jf st) s = Some s').
    { intros k. induction f as [|f IH]; intros s s'; simpl.
      - destruct (v_wl s) eqn:Ew; [|discriminate]. intros E; injection E; intros <-.
        destruct k; simpl; rewrite Ew; auto.
      - destruct (v_wl s); auto. destruct (vNext G P _ _ _ s); auto. }
    exists (f1 + f2), st, (valueComputationTask G P (st_jf st) (v_tab v)).
    unfold solve, computeValues. rewrite (Mono1 f2 _ _ _ H1').
    rewrite PeanoNat.Nat.add_comm, (Mono2 f1 _ _ _ H2'). auto.
  Qed.

  (** the concrete LIFO solver is one of the schedules *)
  Lemma solve_solved fuel S st T : solve G P follow fuel S = Some (st, T) -> solved G P follow S st T.
  Proof.
    unfold solve, computeValues. destruct (runPhaseI G P follow fuel (initState P S)) as [s|] eqn:E1; [|discriminate].
    destruct (runPhaseIIi _ _ _ _ _ _ _) as [v|] eqn:E2; [|discriminate].
    intros E; injection E; intros <- <-. clear E.
    assert (Q1 : forall f s0 s', runPhaseI G P follow f s0 = Some s' ->
       forall s1, psteps G P follow s1 s0 -> psteps G P follow s1 s' /\ st_wl s' = []).
    { induction f as [|f IH]; intros s0 s' E s1 Hs; simpl in E; destruct (st_wl s0) eqn:Ew; try discriminate;
        try (injection E; intros <-; auto; fail).
      destruct (doNext G P follow s0) as [s2|] eqn:Ed; [|discriminate].
      eapply IH; eauto. eapply psteps_step; eauto. apply doNext_pstep; auto. }
    assert (Q2 : forall f s0 s', runPhaseIIi G P f (addZeroSeeds P S) (st_unb s) (st_jf s) s0 = Some s' ->
       forall s1, vsteps G P (addZeroSeeds P S) (st_unb s) (st_jf s) s1 s0 ->
       vsteps G P (addZeroSeeds P S) (st_unb s) (st_jf s) s1 s' /\ v_wl s' = []).
    { induction f as [|f IH]; intros s0 s' E s1 Hs; simpl in E; destruct (v_wl s0) eqn:Ew; try discriminate;
        try (injection E; intros <-; auto; fail).
      destruct (vNext G P _ _ _ s0) as [s2|] eqn:Ed; [|discriminate].
      eapply IH; eauto. eapply vsteps_step; eauto. apply vNext_vstep; auto. }
    destruct (Q1 _ _ _ E1 _ (psteps_refl _ _ _ _)) as [R1 W1].
    destruct (Q2 _ _ _ E2 _ (vsteps_refl _ _ _ _ _ _)) as [R2 W2].
    exists (initState P S), v. repeat split; auto.
    simpl. unfold push. rewrite rev_append_rev, app_nil_r. symmetry. apply Permutation_rev.
  Qed.

  (** there is no infinite run of phase I *)
  Lemma no_infinite_phase1 S (Ns : list N) (Ds : list D) frank lrank :
    (forall n, In n Ns) -> facts_closed P S Ds -> finite_height P frank lrank ->
    forall st, pinit P S st -> ~ exists run : nat -> state, run 0 = st /\ forall i, pstep G P follow (run i) (run (Datatypes.S i)).
  Proof.
    intros NF FC FH st Hp. assert (HI := pinit_TInv S Ds _ FC Hp).
    pose proof (phase1_terminates G P follow _ Ns Ds frank lrank WF NF (addZeroSeeds_closed _ _ FC) FH _ HI) as HA.
    clear - HA. intros [run [E Hr]].
    assert (Hgen : forall i, run i = st -> False); [|exact (Hgen 0 E)].
    clear E. induction HA as [st HA IH]. intros i E. subst st.
    apply (IH (run (Datatypes.S i)) (Hr i) (Datatypes.S i)). reflexivity.
  Qed.
End Total.
